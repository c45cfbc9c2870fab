(** Executions under the real Keccak-256 refuting properties of MPT.encode/decode and of trie equality. *)
From Coq Require Import List Bool Arith NArith ZArith String Lia.
From Verif Require Import Base BaseProofs Rlp Keccak KeccakProofs NibblePath Node ProofObj Mpt MptEq Spec SpecProof Examples
  MptProofs ProofRefutations MptCodecProofs.
Import ListNotations.
#[local] Instance K : Hash := keccak256.

Definition put_del : list call := [put "do" "verb"; del "do"].
Lemma encode_emptied_refuted : exists l t, reachable false l t /\ (forall k, dict_after l k = None) /\
  (storage_size t < 2 ^ 63)%N /\ mpt_encode t = Err TypeError.
Proof.
  exists (fst (mpt_run (mpt_new false) put_del)), (snd (mpt_run (mpt_new false) put_del)).
  split; [apply run_reachable'; vm_compute; reflexivity|].
  split; [|split; vm_compute; reflexivity].
  intros k. replace (fst (mpt_run (mpt_new false) put_del)) with [Put (bs "do") (bs "verb"); Del (bs "do")]
    by (vm_compute; reflexivity).
  cbn. destruct (bytes_eqb _ _); reflexivity.
Qed.

(** A trie in secure mode, and its encoding with the flag changed. *)
Definition dog_hist : list call := [put "dog" "puppy"].
Definition dog_trie : mpt := Eval vm_compute in snd (mpt_run (mpt_new true) dog_hist).
Definition dog_plain : mpt := Eval vm_compute in mkMpt (m_map dog_trie) (m_log dog_trie) (m_root dog_trie) false.
Definition dog_enc : bytes := Eval vm_compute in get_or [] (mpt_encode dog_plain).
Definition dog_dec : mpt := Eval vm_compute in get_or dog_trie (mpt_decode dog_enc).
Definition dog_hash : bytes := Eval vm_compute in keccak (bs "dog").
Definition is_bytes (b : bytes) (r : result bytes) : bool := match r with Ok c => bytes_eqb b c | Err _ => false end.
Lemma is_bytes_eq : forall b r, is_bytes b r = true -> r = Ok b.
Proof. intros b [c|e] E; [|discriminate]. cbn in E. apply bytes_eqb_eq in E. congruence. Qed.

Lemma flag_refuted : exists l t b t' k v lim, reachable true l t /\ keys_ok true (k :: map op_key l) /\
  mpt_decode b = Ok t' /\ m_root t' = m_root t /\ no_collision (m_log t' ++ hashed_by t) /\
  mpt_get lim t' k = Ok v /\ dict_after l k = None.
Proof.
  exists (map c_op dog_hist), dog_trie, dog_enc, dog_dec, dog_hash, (bs "puppy"), 100.
  split. { apply (run_reachable true dog_hist); [vm_compute; reflexivity|reflexivity|vm_compute; reflexivity]. }
  split. { intros _. apply no_collision_b_ok. vm_compute. reflexivity. }
  split; [vm_compute; reflexivity|]. split; [reflexivity|]. split; [apply no_collision_b_ok; vm_compute; reflexivity|].
  split; [apply is_bytes_eq; vm_compute; reflexivity|reflexivity].
Qed.

(** Comparing the empty trie with itself. *)
Lemma eq_refuted : exists l t, reachable false l t /\ mpt_eq t t = Err ValueError.
Proof.
  exists [], (mpt_new false). split.
  - apply (run_reachable false []); [reflexivity|reflexivity|vm_compute; reflexivity].
  - vm_compute. reflexivity.
Qed.
