(** Concrete executions, under the real Keccak-256, on which the code does not do what
    the refuted properties say; and small facts used by the examples. *)
From Coq Require Import List Bool Arith NArith String Permutation Lia.
From Verif Require Import Base BaseProofs Keccak KeccakProofs NibblePath Node ProofObj Mpt Spec Examples MptProofs MptRefine.
Import ListNotations.
#[local] Instance K : Hash := keccak256.

(** "do" is present and extended by "dog"; "do it" goes on after "do" with another high nibble than "dog". *)
Definition pre_hist := [put "do" "verb"; put "dog" "puppy"].
Lemma contains_refuted : exists l t k lim, reachable false l t /\ keys_ok false (k :: map op_key l) /\
  frames false k < lim /\ dict_after l k = None /\ mpt_contains lim t k = Ok true.
Proof.
  exists (fst (mpt_run (mpt_new false) pre_hist)), (snd (mpt_run (mpt_new false) pre_hist)), (bs "do it"), 100.
  split; [apply run_reachable'; vm_compute; reflexivity|]. split; [intros E; discriminate|].
  split; [apply Nat.ltb_lt; reflexivity|]. split; vm_compute; reflexivity.
Qed.

Lemma get_refuted : exists l t k k' v lim, reachable false l t /\ keys_ok false (k :: map op_key l) /\
  dict_after l k = None /\ dict_after l k' = Some v /\ mpt_get lim t k = Ok v.
Proof.
  pose (h := [put "dog" "puppy"; put "horse" "stallion"]).
  exists (fst (mpt_run (mpt_new false) h)), (snd (mpt_run (mpt_new false) h)), (bs "d"), (bs "dog"), (bs "puppy"), 100.
  split; [apply run_reachable'; vm_compute; reflexivity|]. split; [intros E; discriminate|].
  split; [|split]; vm_compute; reflexivity.
Qed.

Lemma empty_value_refuted : exists h l t k lim, mpt_run (mpt_new false) h = (l, t) /\ no_collision (m_log t) /\
  map c_op h = l /\ dict_after l k = Some [] /\ frames false k < lim /\ mpt_contains lim t k = Ok false.
Proof.
  pose (h := [put "do" ""; put "dog" "puppy"]).
  exists h, (fst (mpt_run (mpt_new false) h)), (snd (mpt_run (mpt_new false) h)), (bs "do"), 100.
  split; [apply surjective_pairing|]. split; [apply no_collision_b_ok; vm_compute; reflexivity|].
  split; [vm_compute; reflexivity|]. split; [vm_compute; reflexivity|].
  split; [apply Nat.ltb_lt; reflexivity|vm_compute; reflexivity].
Qed.

Lemma dict_after_in : forall l k v, dict_after l k = Some v -> In k (map op_key l).
Proof. exact dict_after_keys. Qed.

Lemma dogs_not_extended : ~ extended_in (dict_after
  [Put (bs "do") (bs "verb"); Put (bs "dog") (bs "puppy"); Put (bs "doge") (bs "dime");
   Put (bs "horse") (bs "stallion"); Put (bs "doge") (bs "coin");
   Put (bs "house") (bs "a value of more than thirty-two bytes in length"); Del (bs "house")]) (bs "dogs").
Proof.
  intros (k & v & (r & Hr & ->) & E). apply dict_after_in in E. cbn [map op_key] in E.
  repeat destruct E as [E|E]; discriminate || contradiction.
Qed.

Lemma hat_not_prefixed : ~ prefixed_in (dict_after
  [Put (bs "do") (bs "verb"); Put (bs "dog") (bs "puppy"); Put (bs "doge") (bs "dime");
   Put (bs "horse") (bs "stallion"); Put (bs "doge") (bs "coin");
   Put (bs "house") (bs "a value of more than thirty-two bytes in length"); Del (bs "house")]) (bs "hat").
Proof.
  intros (k & v & (r & Hr & Ek) & E). apply dict_after_in in E. cbn [map op_key] in E.
  repeat destruct E as [<-|E]; discriminate || contradiction.
Qed.

Lemma ex_same_dict : forall k, dict_after
  [Put (bs "do") (bs "verb"); Put (bs "dog") (bs "puppy"); Put (bs "doge") (bs "dime");
   Put (bs "horse") (bs "stallion"); Put (bs "doge") (bs "coin");
   Put (bs "house") (bs "a value of more than thirty-two bytes in length"); Del (bs "house")] k =
  dict_after (map c_op [put "horse" "stallion"; put "doge" "coin"; put "dog" "puppy"; put "do" "verb"]) k.
Proof.
  intros k. cbn [map put c_op]. unfold dict_after, apply_ops. cbn [fold_left apply_op].
  repeat match goal with |- context [bytes_eqb k ?x] => destruct (bytes_eqb_spec k x) as [->|?]; [vm_compute; reflexivity|] end.
  reflexivity.
Qed.

Lemma ex_perm : Permutation [bs "hotel"; bs "dogs"; bs "d"] [bs "d"; bs "hotel"; bs "dogs"].
Proof. apply Permutation_sym. change [bs "hotel"; bs "dogs"; bs "d"] with ([bs "hotel"; bs "dogs"] ++ [bs "d"]).
  apply Permutation_cons_append. Qed.

Lemma ex_emptied : forall k, dict_after [Put (bs "dog") (bs "puppy"); Put (bs "do") (bs "verb"); Del (bs "dog"); Del (bs "do")] k = None.
Proof.
  intros k. unfold dict_after, apply_ops. cbn [fold_left apply_op].
  destruct (bytes_eqb k (bs "do")), (bytes_eqb k (bs "dog")); reflexivity.
Qed.
