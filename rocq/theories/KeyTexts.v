(** Proofs about SpecKeyTexts.v. *)
From Coq Require Import String Ascii List Bool Arith NArith Lia.
From Verif Require Import Base BaseProofs Json Keccak ProofJson Keypairs Texts SpecText SpecKeyTexts.
Import ListNotations.
Local Open Scope list_scope.

Section WithCrypto.
Context {C : Crypto}.
Variable str_of : json -> list N.
Notation str_text := (str_text str_of).
Notation repr_text := (repr_text str_of).
Lemma codes_base : cls_name Base = codes "RsaKeyPair" /\ cls_name Auth = codes "RsaAuthKeyPair" /\ cls_name Enc = codes "RsaEncKeyPair".
Proof. repeat split; vm_compute; reflexivity. Qed.
Lemma codes_rest : txt "(nickname=" = codes "(nickname=" /\ txt ", public_key=" = codes ", public_key=" /\ txt ")" = codes ")".
Proof. repeat split; vm_compute; reflexivity. Qed.
Lemma name_codes : forall c n, class_name c n -> codes n = cls_name c.
Proof. intros c n Hn. destruct codes_base as (E1 & E2 & E3). destruct Hn; auto. Qed.
Lemma name_some : forall c, exists n, class_name c n.
Proof. intros []; eexists; constructor. Qed.
Lemma str_exact : forall a t, kp_str str_of a = t <-> str_text a t.
Proof.
  intros a t. destruct codes_rest as (E1 & _ & E3). unfold kp_str. rewrite E1, E3. split.
  - intros <-. destruct (name_some (kp_cls a)) as (n & Hn). rewrite <- (name_codes _ _ Hn). constructor. exact Hn.
  - intros [n Hn]. rewrite (name_codes _ _ Hn). reflexivity.
Qed.
Lemma repr_exact : forall a t, kp_repr str_of a = Ok t <-> repr_text a t.
Proof.
  intros a t. destruct codes_rest as (E1 & E2 & E3). unfold kp_repr. rewrite E1, E2, E3. split.
  - destruct (public_key a) as [p|] eqn:Ep; cbn [bind]; [|discriminate]. destruct (utf8_decode p) as [s|] eqn:Es; cbn [bind]; [|discriminate]. intros [= <-].
    destruct (name_some (kp_cls a)) as (n & Hn). rewrite <- (name_codes _ _ Hn). econstructor; eauto.
  - intros [n p s Hn -> Es]. cbn [bind]. rewrite Es. cbn [bind]. rewrite (name_codes _ _ Hn). reflexivity.
Qed.
Lemma names_apart : forall c c' u v, cls_name c ++ codes "(nickname=" ++ u = cls_name c' ++ codes "(nickname=" ++ v -> c = c' /\ u = v.
Proof.
  destruct codes_base as (E1 & E2 & E3). intros [] [] u v; rewrite ?E1, ?E2, ?E3; cbn [codes app]; intros E; try discriminate E; injection E as ->; auto.
Qed.
Lemma last_same : forall (u v : list N) x, u ++ [x] = v ++ [x] -> u = v.
Proof. intros u v x E. apply app_inj_tail in E. apply E. Qed.
Lemma str_apart : forall a b, kp_str str_of a = kp_str str_of b <-> kp_cls a = kp_cls b /\ str_of (kp_nick a) = str_of (kp_nick b).
Proof.
  intros a b. split.
  - unfold kp_str. destruct codes_rest as (-> & _ & ->). intros E. apply names_apart in E. destruct E as [Ec E]. split; [exact Ec|]. apply last_same in E. exact E.
  - intros [Ec En]. unfold kp_str. rewrite Ec, En. reflexivity.
Qed.
Lemma repr_apart : forall a b t, kp_repr str_of a = Ok t -> kp_repr str_of b = Ok t -> kp_cls a = kp_cls b.
Proof.
  intros a b t Ea Eb. apply repr_exact in Ea. apply repr_exact in Eb. destruct Ea as [n p s Hn _ _]. inversion Eb as [n' p' s' Hn' _ _ E].
  rewrite (name_codes _ _ Hn), (name_codes _ _ Hn') in E. apply names_apart in E. symmetry. apply E.
Qed.
End WithCrypto.
