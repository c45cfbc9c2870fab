(** Equality of key pairs called as a method, and of key pairs whose nickname is not a string. *)
From Coq Require Import String List Bool Arith NArith Lia.
From Verif Require Import Base BaseProofs Json JsonProofs Keccak ProofJson Keypairs SpecKeys KeysProofs SpecKeyEq.
Import ListNotations.

Section WithCrypto.
Context {C : Crypto}.
Hypothesis ok : crypto_ok.
Lemma method_exact : forall a b ka kb na nb, kp_key a = Some ka -> kp_key b = Some kb -> kp_nick a = JStr na -> kp_nick b = JStr nb ->
  (kp_eq_method a b = Ok true <-> (kp_cls a = Base \/ kp_cls a = kp_cls b) /\ na = nb /\ rsa_public ka = rsa_public kb) /\ exists r, kp_eq_method a b = Ok r.
Proof.
  intros a b ka kb na nb Ea Eb Na Nb. destruct (pub_key ok a ka Ea) as [pa [A1 A2]]. destruct (pub_key ok b kb Eb) as [pb [B1 B2]].
  unfold kp_eq_method. rewrite A1, B1. cbn [bind]. rewrite Na, Nb. cbn [nick_eqb].
  assert (K : bytes_eqb pa pb && ustr_eqb na nb = true <-> na = nb /\ rsa_public ka = rsa_public kb).
  { rewrite andb_true_iff, bytes_eqb_eq, ustr_eqb_eq. split.
    - intros [-> ->]. split; [reflexivity|]. congruence.
    - intros [X E]. split; [|exact X]. unfold public_key, key_of in A1, B1. rewrite Ea in A1. rewrite Eb in B1. cbn [bind] in A1, B1. rewrite E in A1. congruence. }
  destruct (kp_cls a), (kp_cls b); cbn [isinstance]; (split; [|eexists; reflexivity]);
    (split; [intros X; first [discriminate|injection X as X; apply K in X; tauto]|intros [[X|X] Y]; first [discriminate|apply K in Y; rewrite Y; reflexivity]]).
Qed.
Lemma kinds_apart : forall x y p q, kind_of x = Some p -> kind_of y = Some q -> p <> q -> nick_eqb x y = false.
Proof.
  intros x y p q Ex Ey N. destruct (nick_eqb x y) eqn:E; [|reflexivity]. exfalso.
  destruct x, y; cbn in Ex, Ey; try discriminate; injection Ex as <-; injection Ey as <-; try congruence; cbn [nick_eqb] in E; apply ustr_eqb_eq in E; cbn in E; discriminate.
Qed.
Lemma eqb_kinds : forall a b p q, kind_of (kp_nick a) = Some p -> kind_of (kp_nick b) = Some q -> p <> q -> kp_eqb a b <> Ok true.
Proof.
  intros a b p q Ep Eq N.
  assert (M : forall a b p q, kind_of (kp_nick a) = Some p -> kind_of (kp_nick b) = Some q -> p <> q -> kp_eq_method a b <> Ok true).
  { clear. intros a b p q Ep Eq N. unfold kp_eq_method. destruct (isinstance _ _); [|discriminate]. destruct (public_key a); [|discriminate]. cbn [bind]. destruct (public_key b); [|discriminate]. cbn [bind].
    rewrite (kinds_apart _ _ _ _ Ep Eq N), andb_false_r. discriminate. }
  unfold kp_eqb. destruct (kp_cls a), (kp_cls b); eauto.
Qed.
End WithCrypto.
