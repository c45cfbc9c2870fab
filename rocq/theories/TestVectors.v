(** Tests of the model (not proofs): known digests and the root hashes that
    /repo/tests expect for the four-key trie. *)
From Coq Require Import List String.
From Verif Require Import Base Keccak Mpt NibblePath.
Import ListNotations.
#[local] Instance K : Hash := keccak256.

Definition upd (k v : string) (t : mpt) : mpt := snd (mpt_update 100 [] t (bs k) (bs v)).
Definition four (s : bool) : mpt :=
  upd "horse" "stallion" (upd "doge" "coin" (upd "dog" "puppy" (upd "do" "verb" (mpt_new s)))).

Example keccak256_empty :
  keccak256 [] = unhex "c5d2460186f7233c927e7db2dcc703c0e500b653ca82273b7bfad8045d85a470".
Proof. vm_compute. reflexivity. Qed.
Example sha256_abc :
  sha256 (bs "abc") = unhex "ba7816bf8f01cfea414140de5dae2223b00361a396177a9cb410ff61f20015ad".
Proof. vm_compute. reflexivity. Qed.
Example plain_root :
  root_hash (four false) = unhex "5991bb8c6514148a29db676a14ac506cd2cd5775ace63c30a4fe457715e9ac84".
Proof. vm_compute. reflexivity. Qed.
Example secure_root :
  root_hash (four true) = unhex "29b235a58c3c25ab83010c327d5932bcf05324b7d6b1185e650798034783ca9d".
Proof. vm_compute. reflexivity. Qed.
