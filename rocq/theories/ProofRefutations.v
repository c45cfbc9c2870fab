(** Concrete executions, under the real Keccak-256, that refute properties of proofs;
    and small facts used by the examples. *)
From Coq Require Import String List Bool Arith NArith Lia.
From Verif Require Import Base BaseProofs Keccak KeccakProofs NibblePath Node ProofObj Mpt Spec SpecCodec SpecProof Examples
  MptProofs MptRefine.
Import ListNotations.

(** Animals with values of 34 bytes and more, under keys of three bytes. *)
Definition pet (k v : string) : call := put k (v ++ ", padded to at least 32 bytes").
Definition pets : list call := [pet "dog" "puppy"; pet "cat" "kitten"; pet "cow" "calf"; pet "hen" "chick"].

Section Real.
#[local] Instance K : Hash := keccak256.

Definition get_or {A} (d : A) (r : result A) : A := match r with Ok a => a | Err _ => d end.
Definition no_proof : proof := mkProof [] [] [] [] [].
Definition is_ok_b (b : bool) (r : result bool) : bool := match r with Ok c => Bool.eqb b c | Err _ => false end.
Lemma is_ok_b_eq : forall b r, is_ok_b b r = true -> r = Ok b.
Proof. intros b [c|e] E; [|discriminate]. cbn in E. apply Bool.eqb_prop in E. congruence. Qed.

Definition one_pair : list call := [put "do" "verb"].
Definition small_trie : mpt := Eval vm_compute in snd (mpt_run (mpt_new false) one_pair).
Definition small_proof : proof := Eval vm_compute in get_or no_proof (mpt_get_poi 100 (bs "0") small_trie (bs "do")).
Lemma small_run : mpt_run (mpt_new false) one_pair = (map c_op one_pair, small_trie).
Proof. vm_compute. reflexivity. Qed.
Lemma small_reachable : reachable false (map c_op one_pair) small_trie.
Proof. apply (run_reachable _ _ _ _ small_run); vm_compute; reflexivity. Qed.

Lemma poi_small_root_refuted : exists l t k v lim time p, reachable false l t /\ keys_ok false (k :: map op_key l) /\
  dict_after l k = Some v /\ frames false k < lim /\ mpt_get_poi lim time t k = Ok p /\ mpt_verify_poi lim t p = Ok false.
Proof.
  exists (map c_op one_pair), small_trie, (bs "do"), (bs "verb"), 100, (bs "0"), small_proof.
  split; [exact small_reachable|]. split; [intros E; discriminate|].
  split; [reflexivity|]. split; [apply Nat.ltb_lt; reflexivity|].
  split; [vm_compute; reflexivity|]. apply is_ok_b_eq. vm_compute. reflexivity.
Qed.

Definition two_pets : list call := [pet "dog" "puppy"; pet "hen" "chick"].
Definition two_trie : mpt := Eval vm_compute in snd (mpt_run (mpt_new false) two_pets).
Lemma two_run : mpt_run (mpt_new false) two_pets = (map c_op two_pets, two_trie).
Proof. vm_compute. reflexivity. Qed.
Lemma two_reachable : reachable false (map c_op two_pets) two_trie.
Proof. apply (run_reachable _ _ _ _ two_run); vm_compute; reflexivity. Qed.

Definition d_proof : proof := Eval vm_compute in get_or no_proof (mpt_get_poi 100 (bs "0") two_trie (bs "d")).
Lemma poi_exact_refuted : exists l t k lim time p, reachable false l t /\ keys_ok false (k :: map op_key l) /\
  dict_after l k = None /\ mpt_get_poi lim time t k = Ok p /\ pf_key p = k /\ mpt_verify_poi lim t p = Ok true.
Proof.
  exists (map c_op two_pets), two_trie, (bs "d"), 100, (bs "0"), d_proof.
  split; [exact two_reachable|]. split; [intros E; discriminate|].
  split; [reflexivity|]. split; [vm_compute; reflexivity|]. split; [reflexivity|].
  apply is_ok_b_eq. vm_compute. reflexivity.
Qed.

Definition zoo_proof : proof := Eval vm_compute in get_or no_proof (mpt_get_poe 100 (bs "0") two_trie (bs "zoo")).
Lemma poe_complete_refuted : exists l t k lim time p, reachable false l t /\ keys_ok false (k :: map op_key l) /\
  dict_after l k = None /\ frames false k < lim /\ mpt_get_poe lim time t k = Ok p /\ mpt_verify_poe lim t p = Ok false.
Proof.
  exists (map c_op two_pets), two_trie, (bs "zoo"), 100, (bs "0"), zoo_proof.
  split; [exact two_reachable|]. split; [intros E; discriminate|].
  split; [reflexivity|]. split; [apply Nat.ltb_lt; reflexivity|]. split; [vm_compute; reflexivity|].
  apply is_ok_b_eq. vm_compute. reflexivity.
Qed.

(** Small values: the proof generated is refused with an exception. *)
Definition inline_hist : list call := [put "aaaa" "1"; put "aaab" "2"; put "baaa" "3"].
Definition inline_trie : mpt := Eval vm_compute in snd (mpt_run (mpt_new false) inline_hist).
Lemma inline_run : mpt_run (mpt_new false) inline_hist = (map c_op inline_hist, inline_trie).
Proof. vm_compute. reflexivity. Qed.
Lemma inline_reachable : reachable false (map c_op inline_hist) inline_trie.
Proof. apply (run_reachable _ _ _ _ inline_run); vm_compute; reflexivity. Qed.
Definition ac_proof : proof := Eval vm_compute in get_or no_proof (mpt_get_poe 100 (bs "0") inline_trie (bs "acaa")).
Lemma poe_inline_refuted : exists l t k lim time p, reachable false l t /\ keys_ok false (k :: map op_key l) /\
  dict_after l k = None /\ frames false k < lim /\ mpt_get_poe lim time t k = Ok p /\ mpt_verify_poe lim t p = Err PoeError.
Proof.
  exists (map c_op inline_hist), inline_trie, (bs "acaa"), 100, (bs "0"), ac_proof.
  split; [exact inline_reachable|]. split; [intros E; discriminate|].
  split; [reflexivity|]. split; [apply Nat.ltb_lt; reflexivity|].
  split; vm_compute; reflexivity.
Qed.

Definition forged : proof := Eval vm_compute in mkProof MPT_POE (bs "0") (bs "dog") (root_hash two_trie)
    [PB (match dget (m_map two_trie) (root_ref two_trie) with Some e => e | None => [] end);
     PB (get_or [] (node_encode (Leaf (np_of []) null_bytes)))].
Lemma poe_sound_refuted : exists l t k v lim p, reachable false l t /\ keys_ok false (k :: map op_key l) /\
  dict_after l k = Some v /\ frames false k < lim /\ pf_type p = MPT_POE /\ pf_key p = k /\ mpt_verify_poe lim t p = Ok true.
Proof.
  exists (map c_op two_pets), two_trie, (bs "dog"), (bs "puppy, padded to at least 32 bytes"), 100, forged.
  split; [exact two_reachable|]. split; [intros E; discriminate|].
  split; [reflexivity|]. split; [apply Nat.ltb_lt; reflexivity|].
  split; [reflexivity|]. split; [reflexivity|]. apply is_ok_b_eq. vm_compute. reflexivity.
Qed.
End Real.

(** ** For the examples *)
#[local] Instance K2 : Hash := toy.
Definition pets_trie : mpt := Eval vm_compute in snd (mpt_run (mpt_new false) pets).
Definition pets_ops : list op := fst (mpt_run (mpt_new false) pets).
Lemma pets_ops_are : pets_ops = map c_op pets.
Proof. vm_compute. reflexivity. Qed.
Lemma pets_reachable : reachable false pets_ops pets_trie.
Proof.
  exists pets. split; [vm_compute; reflexivity|]. split; [apply ok_history_b_ok; vm_compute; reflexivity|].
  apply no_collision_b_ok. vm_compute. reflexivity.
Qed.

Lemma pets_dict : forall k v, dict_after pets_ops k = Some v ->
  In (k, v) (map (fun c => match c_op c with Put k v => (k, v) | Del k => (k, []) end) pets).
Proof.
  intros k v. rewrite pets_ops_are. unfold pets. cbn [map c_op pet put]. unfold dict_after, apply_ops. cbn [fold_left apply_op].
  repeat match goal with |- context [bytes_eqb k ?x] =>
    destruct (bytes_eqb_spec k x) as [->|?]; [intros E; injection E as <-; cbn [In]; tauto|] end.
  discriminate.
Qed.
Lemma pets_long : long_values (dict_after pets_ops).
Proof.
  intros k v E. apply pets_dict in E. cbn [map pets c_op pet put In] in E.
  repeat destruct E as [E|E]; try contradiction; injection E as <- <-; apply Nat.leb_le; vm_compute; reflexivity.
Qed.
Lemma pets_length : same_length false (dict_after pets_ops) (bs "fox").
Proof.
  right. intros k v E. apply pets_dict in E. cbn [map pets c_op pet put In] in E.
  repeat destruct E as [E|E]; try contradiction; injection E as <- <-; reflexivity.
Qed.
Lemma pets_shares : shares_prefix false (dict_after pets_ops) (bs "fox").
Proof.
  intros _ c Hc. assert (E1 : exists v, dict_after pets_ops (bs "dog") = Some v) by (eexists; vm_compute; reflexivity).
  assert (E2 : exists v, dict_after pets_ops (bs "cat") = Some v) by (eexists; vm_compute; reflexivity).
  destruct E1 as [v1 E1], E2 as [v2 E2]. destruct (Hc _ _ E1) as [r1 F1]. destruct (Hc _ _ E2) as [r2 F2].
  cbn in F1, F2 |- *. destruct c as [|a c]; [eexists; reflexivity|]. injection F1 as <- F1. injection F2 as F2.
  destruct c as [|b c]; [eexists; reflexivity|]. injection F1 as <- F1. discriminate.
Qed.
Lemma pets_two : two_keys (dict_after pets_ops).
Proof.
  exists (bs "dog"), (bs "cat"). eexists. eexists. split; [discriminate|]. split; vm_compute; reflexivity.
Qed.
