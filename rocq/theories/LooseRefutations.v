(** Under the real Keccak-256: two plain tries with the same contents and different roots. *)
From Coq Require Import String List Bool Arith NArith Lia.
From Verif Require Import Base BaseProofs Keccak KeccakProofs Mpt Spec SpecLoose Examples.
Import ListNotations.
#[local] Instance K : Hash := keccak256.

Definition twice : list call := [put "dog" ""; put "doge" "y"].
Definition once : list call := [put "doge" "y"].
Definition only (k v : bytes) : kvmap := apply_op (fun _ => None) (Put k v).

Lemma only_self : forall k v, only k v k = Some v.
Proof. intros. unfold only, apply_op. rewrite bytes_eqb_refl. reflexivity. Qed.
Lemma only_inv : forall k v q w, only k v q = Some w -> q = k /\ w = v.
Proof. intros k v q w. unfold only, apply_op. destruct (bytes_eqb_spec q k) as [->|]; [|discriminate]. intros E. split; congruence. Qed.

Lemma takes_first : forall k v, takes (fun _ => None) k v (only k v).
Proof.
  intros k v. split; [|split].
  - intros q Hq _. unfold only, apply_op. destruct (bytes_eqb_spec q k); [congruence|reflexivity].
  - discriminate.
  - left. split; [apply only_self|discriminate].
Qed.
Lemma takes_over : forall p x r v, v <> [] -> takes (only p []) (p ++ x :: r) v (only (p ++ x :: r) v).
Proof.
  intros p x r v Hv. assert (B : below p (p ++ x :: r)) by (exists x, r; reflexivity). split; [|split].
  - intros q Hq Hn. destruct (only p [] q) as [w|] eqn:E.
    + apply only_inv in E. destruct E as [-> ->]. exfalso. apply Hn. auto.
    + unfold only, apply_op. destruct (bytes_eqb_spec q (p ++ x :: r)); [congruence|reflexivity].
  - intros q E _. apply only_inv in E. destruct E as [-> _]. unfold only, apply_op.
    destruct (bytes_eqb_spec p (p ++ x :: r)) as [E|]; [|reflexivity].
    apply (f_equal (@List.length _)) in E. rewrite app_length in E. cbn in E. lia.
  - left. split; [apply only_self|congruence].
Qed.

Lemma root_history_refuted : exists h1 rs1 t1 h2 rs2 t2 d,
  outcomes (mpt_new false) h1 = (rs1, t1) /\ outcomes (mpt_new false) h2 = (rs2, t2) /\ sized h1 /\ sized h2 /\
  no_collision (m_log t1 ++ m_log t2) /\ plain_run (fun _ => None) h1 rs1 d /\ plain_run (fun _ => None) h2 rs2 d /\
  root_hash t1 <> root_hash t2.
Proof.
  exists twice, [Ok tt; Ok tt], (snd (outcomes (mpt_new false) twice)), once, [Ok tt], (snd (outcomes (mpt_new false) once)), (only (bs "doge") (bs "y")).
  split; [vm_compute; reflexivity|]. split; [vm_compute; reflexivity|].
  split; [unfold sized, twice; repeat constructor|]. split; [unfold sized, once; repeat constructor|].
  split; [apply no_collision_b_ok; vm_compute; reflexivity|]. split; [|split].
  - eapply pr_put; [apply takes_first|]. eapply pr_put; [|constructor].
    change (bs "doge") with (bs "dog" ++ "e"%byte :: []). apply takes_over. discriminate.
  - eapply pr_put; [apply takes_first|]. constructor.
  - intros E. apply (f_equal (fun b => match b with x :: _ => x | [] => x00 end)) in E. vm_compute in E. discriminate.
Qed.
