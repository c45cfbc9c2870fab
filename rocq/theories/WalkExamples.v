(** Concrete tries for the properties about absent keys.  Tests, not proofs. *)
From Coq Require Import String List Bool Arith NArith.
From Verif Require Import Base BaseProofs Keccak KeccakProofs NibblePath ProofObj Mpt Spec SpecCodec SpecProof SpecWalk Examples.
Import ListNotations.
#[local] Instance K : Hash := toy.

(** An extension at the root, a fork without value at "d", a shared beginning "ho". *)
Definition walk_hist : list call := [put "dog" "puppy"; put "d1" "one"; put "horse" "stallion"; put "house" "home"].
Definition walk_trie : mpt := Eval vm_compute in snd (mpt_run (mpt_new false) walk_hist).
Definition walk_ops : list op := map c_op walk_hist.
Lemma walk_reachable : reachable false walk_ops walk_trie.
Proof. apply (run_reachable false walk_hist); vm_compute; reflexivity. Qed.

(** A short extension below "a". *)
Definition short_hist : list call := [put "ba" "x"; put "a1" "1"; put "a2" "2"].
Definition short_trie : mpt := Eval vm_compute in snd (mpt_run (mpt_new false) short_hist).
Definition short_ops : list op := map c_op short_hist.
Lemma short_reachable : reachable false short_ops short_trie.
Proof. apply (run_reachable false short_hist); vm_compute; reflexivity. Qed.

(** A leaf at "a" whose remaining path is "ab". *)
Definition tail_hist : list call := [put "aab" "x"; put "b" "y"].
Definition tail_trie : mpt := Eval vm_compute in snd (mpt_run (mpt_new false) tail_hist).
Definition tail_ops : list op := map c_op tail_hist.
Lemma tail_reachable : reachable false tail_ops tail_trie.
Proof. apply (run_reachable false tail_hist); vm_compute; reflexivity. Qed.
Lemma tail_own : own_tail (present_keys false (dict_after tail_ops)) (nibbles (bs "ab")).
Proof.
  assert (Hk : forall q, present_keys false (dict_after tail_ops) q <-> q = nibbles (bs "aab") \/ q = nibbles (bs "b")).
  { intros q. split.
    - intros (k & v & Ed & ->). unfold dict_after, apply_ops, tail_ops, tail_hist, trie_key in *.
      cbn [map c_op put fold_left apply_op] in Ed.
      destruct (bytes_eqb k (bs "b")) eqn:E1; [apply bytes_eqb_eq in E1; subst; auto|].
      destruct (bytes_eqb k (bs "aab")) eqn:E2; [apply bytes_eqb_eq in E2; subst; auto|discriminate].
    - intros [->| ->]; [exists (bs "aab"), (bs "x")|exists (bs "b"), (bs "y")]; split; vm_compute; reflexivity. }
  exists [6; 1], [6; 2]. split; [reflexivity|]. split; [|split].
  - right. exists [6], 1, [2]. split; [reflexivity|]. split; [apply Hk; right; reflexivity|]. discriminate.
  - exists [6; 1; 6; 2]. intros r. rewrite Hk. split; [|intros ->; left; reflexivity].
    intros [E|E]; [injection E as ->; reflexivity|discriminate].
  - apply Hk. left. reflexivity.
Qed.

(** Make an exclusion proof and check it. *)
Definition check (t : mpt) (k : string) : result bool :=
  match mpt_get_poe 100 [] t (bs k) with Ok p => mpt_verify_poe 100 t p | Err e => Err e end.
