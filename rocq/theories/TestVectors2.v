(** The model against root hashes in the repository's tests (test_empt.py, test_mt.py). Tests, not proofs. *)
From Coq Require Import String List Bool Arith NArith ZArith.
From Verif Require Import Base Keccak KeccakProofs Mpt Empt MerkleTree SpecMt.
Import ListNotations.

Definition empt_of (secure : bool) (l : list (string * string)) : empt :=
  fold_left (fun e kv => snd (@empt_update keccak256 100 [] false e (bs (fst kv)) (Empt.VBytes (bs (snd kv))))) l (@empt_new keccak256 secure).
Definition dogs : list (string * string) := [("do", "verb"); ("dog", "puppy"); ("doge", "coin"); ("horse", "stallion")]%string.

Example empt_root_plain : empt_root (empt_of false dogs) =
  Some (unhex "7598c123c0f082dbd703076fa18fd3d714ec6339fd134f1af62a6fb34dd5cba4").
Proof. vm_compute. reflexivity. Qed.
Example empt_root_secure : empt_root (empt_of true dogs) =
  Some (unhex "14b986c52c285e80583ffbd8683e2218211c99f089b2534c7dc474925af13276").
Proof. vm_compute. reflexivity. Qed.

Definition more : list (string * string) := [("a", "aaa"); ("some_key", "some_value"); ("dodog", "do_dog")]%string.
Example empt_root_plain_updates : empt_root (empt_of false (dogs ++ more)) =
  Some (unhex "802e7fce3ed1b6e6017c354221efdd69326ada996d2070459e3867831a9af19d").
Proof. vm_compute. reflexivity. Qed.

Definition sparse_of (secure : bool) (l : list (string * string)) : mpt :=
  fold_left (fun t kv => snd (@sparse_update keccak256 100 [] t (bs (fst kv)) (Empt.VBytes (bs (snd kv))))) l
    (@sparse_new keccak256 [] None secure).
Definition sparse_del (t : mpt) (k : string) : mpt := snd (@sparse_delete keccak256 100 false [] t (bs k)).
Example sparse_root_secure_delete : m_root (sparse_del (sparse_of true dogs) "horse") =
  Some (unhex "800641195c56ee2e27ce01736309bf994689099b078a7ff2a4091ee493f855b5").
Proof. vm_compute. reflexivity. Qed.

Definition mt_of (l : list string) : mt :=
  snd (@mt_run sha256 (mt_new false) (map (fun v => OPut (VBytes (bs v))) l ++ [OMake])).
Example mt_root_one : fst (@get_root sha256 (mt_of ["tierion"%string])) = Ok (bs "74696572696f6e").
Proof. vm_compute. reflexivity. Qed.
Example mt_root_five : fst (@get_root sha256 (mt_of ["tierion"; "bitcoin"; "blockchain"; "trie"; "triangle"]%string)) =
  Ok (bs "90a110224740a76b68e8c5a7980ac65e991620e1ce7e0d02cc586993599542bd").
Proof. vm_compute. reflexivity. Qed.
