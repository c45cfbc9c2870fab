(** Proofs about loops over an EMPT. *)
From Coq Require Import List Bool Arith NArith Lia.
From Verif Require Import Base BaseProofs Rlp Node ProofObj Mpt Spec Empt SpecEmpt EmptProofs EmptPy SpecEvery EveryProofs EveryProofs2 SpecYp EmptLoop SpecLoop.
Import ListNotations.

Lemma keys_eqb_spec : forall a b, reflect (a = b) (keys_eqb a b).
Proof. intros a b. unfold keys_eqb. destruct (list_eq_dec (list_eq_dec Byte.byte_eq_dec) a b); constructor; auto. Qed.

Section Loops.
Context {H : Hash}.
Hypothesis keccak_len : forall b, length (keccak b) = 32.
Section Mode.
Variables (secure : bool) (K : list bytes).
Hypothesis K_ok : keys_ok secure K.
Hypothesis K_small : forall k, In k K -> (blen k < 2 ^ 57)%N.
Variable T : list bytes.
Hypothesis T_ok : no_collision T.
Local Notation ginv := (ginv secure K T).

Section Loop.
Variables (w : over) (lim : nat) (body : nat -> bytes -> option value -> list (nat * ecmd) * bool) (all : list bytes).

Lemma loop_grown : forall ks i e ts en e', dgood e -> loop_from w lim body all ks i e = (ts, en, e') -> grown e e'.
Proof.
  induction ks as [|k ks IH]; intros i e ts en e' D E; cbn [loop_from] in E.
  - destruct (length (empt_keys e) =? length all); [|injection E as _ _ <-; apply grown_refl; auto].
    destruct (keys_eqb (empt_keys e) all); injection E as _ _ <-; apply grown_refl; auto.
  - destruct (length (empt_keys e) =? length all); [|injection E as _ _ <-; apply grown_refl; auto].
    destruct (keys_eqb (empt_keys e) all); [|injection E as _ _ <-; apply grown_refl; auto].
    destruct (fetch w lim e k) as [ov|x]; [|injection E as _ _ <-; apply grown_refl; auto].
    destruct (body i k ov) as [calls go]. destruct (empt_session e calls) as [outs e1] eqn:Es.
    pose proof (session_grown keccak_len _ _ _ _ D Es) as G1. destruct go.
    + destruct (loop_from w lim body all ks (S i) e1) as [[ts2 en2] e2] eqn:El. injection E as _ _ <-.
      eapply grown_trans; [exact G1|]. eapply IH; [apply G1|exact El].
    + injection E as _ _ <-. exact G1.
Qed.

Lemma ginv_keys : forall l e g, ginv l e g -> empt_keys e = map fst (ev_vals g).
Proof. intros l e g (_ & Ed & _). unfold empt_keys, dkeys. now rewrite Ed. Qed.

Lemma fetch_sound : forall l e g k, ginv l e g -> In k K -> shows secure lim g k w (fetch w lim e k).
Proof.
  intros l e g k G Hk. unfold fetch. pose proof (get_sound keccak_len secure K K_ok K_small T T_ok l e g k lim _ G Hk eq_refl) as R.
  destruct w; [constructor| |]; destruct (empt_get lim e k) as [v|x]; cbn [bind]; constructor; auto; discriminate.
Qed.

Lemma loop_sound : forall ks i l e g ts en e', ginv l e g -> dgood e -> incl ks all -> incl (ekeys (turn_calls ts)) K ->
  (forall k b, In (k, b) (etexts (turn_calls ts)) -> In (k ++ b) T /\ (blen b < 2 ^ 57)%N) ->
  loop_from w lim body all ks i e = (ts, en, e') -> no_collision (m_log (e_trie e')) ->
  exists l' g', loops secure w lim body all ks i g ts en g' /\ ginv l' e' g'.
Proof.
  induction ks as [|k ks IH]; intros i l e g ts en e' G D Ha HK HT E Hn; pose proof (ginv_keys _ _ _ G) as Ek; pose proof (map_length fst (ev_vals g)) as Lm.
  - cbn [loop_from] in E. rewrite Ek, Lm in E. destruct (Nat.eqb_spec (length (ev_vals g)) (length all)) as [L|L].
    + destruct (keys_eqb_spec (map fst (ev_vals g)) all) as [Q|Q]; injection E as <- <- <-; exists l, g; split; auto.
      * now apply loops_done.
      * now apply loops_free.
    + injection E as <- <- <-; exists l, g; split; auto. now apply loops_number.
  - cbn [loop_from] in E. rewrite Ek, Lm in E. destruct (Nat.eqb_spec (length (ev_vals g)) (length all)) as [L|L].
    2:{ injection E as <- <- <-; exists l, g; split; auto. now apply loops_number. }
    destruct (keys_eqb_spec (map fst (ev_vals g)) all) as [Q|Q].
    2:{ injection E as <- <- <-; exists l, g; split; auto. now apply loops_free. }
    assert (Hk : In k K). { apply (proj2 (ginv_gwf _ _ _ _ _ _ G)). rewrite Q. apply Ha. left. reflexivity. }
    pose proof (fetch_sound _ _ _ _ G Hk) as F. destruct (fetch w lim e k) as [ov|x].
    2:{ injection E as <- <- <-; exists l, g; split; auto. now apply loops_raise. }
    destruct (body i k ov) as [calls go] eqn:Eb. destruct (empt_session e calls) as [outs e1] eqn:Es.
    pose proof (session_grown keccak_len _ _ _ _ D Es) as G1. destruct go.
    + destruct (loop_from w lim body all ks (S i) e1) as [[ts2 en2] e2] eqn:El. injection E as <- <- <-.
      pose proof (loop_grown _ _ _ _ _ _ (proj1 G1) El) as G2.
      assert (HK1 : incl (ekeys calls) K) by (intros x Hx; apply HK; unfold ekeys, turn_calls; cbn [flat_map t_calls]; rewrite flat_map_app; apply in_or_app; auto).
      assert (HK2 : incl (ekeys (turn_calls ts2)) K) by (intros x Hx; apply HK; unfold ekeys, turn_calls; cbn [flat_map t_calls]; rewrite flat_map_app; apply in_or_app; auto).
      assert (HT1 : forall k b, In (k, b) (etexts calls) -> In (k ++ b) T /\ (blen b < 2 ^ 57)%N)
        by (intros y b Hx; apply HT; unfold etexts, turn_calls; cbn [flat_map t_calls]; rewrite flat_map_app; apply in_or_app; auto).
      assert (HT2 : forall k b, In (k, b) (etexts (turn_calls ts2)) -> In (k ++ b) T /\ (blen b < 2 ^ 57)%N)
        by (intros y b Hx; apply HT; unfold etexts, turn_calls; cbn [flat_map t_calls]; rewrite flat_map_app; apply in_or_app; auto).
      destruct (session_sound keccak_len secure K K_ok K_small T T_ok calls l e g outs e1 G D HK1 HT1 Es (grown_nc _ _ G2 Hn)) as (l1 & g1 & F1 & I1).
      destruct (IH (S i) l1 e1 g1 ts2 en2 e2 I1 (proj1 G1) (fun x Hx => Ha x (or_intror Hx)) HK2 HT2 El Hn) as (l2 & g2 & F2 & I2).
      exists l2, g2. split; auto. eapply loops_turn; eauto.
    + injection E as <- <- <-. cbn [turn_calls flat_map t_calls] in HK, HT. unfold turn_calls in HK, HT. cbn [flat_map t_calls] in HK, HT. rewrite app_nil_r in HK, HT.
      destruct (session_sound keccak_len secure K K_ok K_small T T_ok calls l e g outs e1 G D HK HT Es Hn) as (l1 & g1 & F1 & I1).
      exists l1, g1. split; auto. eapply loops_left; eauto.
Qed.

Lemma shows_det : forall g k a b, gwf K g -> deep_enough secure K lim -> shows secure lim g k w a -> shows secure lim g k w b -> a = b.
Proof.
  intros g k a b W D A B. destruct A as [|w' v N A|w' x N A]; inversion B as [Ew|? v' N' B' Ew|? x' N' B' Ew]; subst; try contradiction; try congruence;
    try (exfalso; congruence); pose proof (reads_det keccak_len secure K K_small lim g k _ _ W D A B') as X; congruence.
Qed.
Lemma loop_only : forall ks i l e g ts en e' ts' en' g', ginv l e g -> dgood e -> incl ks all -> incl (ekeys (turn_calls ts)) K ->
  (forall k b, In (k, b) (etexts (turn_calls ts)) -> In (k ++ b) T /\ (blen b < 2 ^ 57)%N) ->
  (forall lim c, In (lim, c) (turn_calls ts) -> equiet1 c /\ deep_enough secure K lim) -> deep_enough secure K lim ->
  loop_from w lim body all ks i e = (ts, en, e') -> no_collision (m_log (e_trie e')) ->
  loops secure w lim body all ks i g ts' en' g' -> ts' = ts /\ en' = en /\ exists l', ginv l' e' g'.
Proof.
  induction ks as [|k ks IH]; intros i l e g ts en e' ts' en' g' G D Ha HK HT Hq Hd E Hn X; pose proof (ginv_keys _ _ _ G) as Ek;
    pose proof (map_length fst (ev_vals g)) as Lm; pose proof (ginv_gwf _ _ _ _ _ _ G) as W.
  - cbn [loop_from] in E. rewrite Ek, Lm in E.
    inversion X as [? ? ? L|? ? ? L Q|? ? Q| | |]; subst.
    + apply Nat.eqb_neq in L. rewrite L in E. injection E as <- <- <-. eauto.
    + rewrite L, Nat.eqb_refl in E. destruct (keys_eqb_spec (map fst (ev_vals g')) all); [contradiction|]. injection E as <- <- <-. eauto.
    + destruct (keys_eqb_spec (map fst (ev_vals g')) (map fst (ev_vals g'))); [|contradiction]. rewrite Lm, Nat.eqb_refl in E. injection E as <- <- <-. eauto.
  - cbn [loop_from] in E. rewrite Ek, Lm in E.
    assert (Hk : map fst (ev_vals g) = all -> In k K). { intros Q. apply (proj2 W). rewrite Q. apply Ha. left. reflexivity. }
    assert (Sh : forall ov, map fst (ev_vals g) = all -> shows secure lim g k w ov -> fetch w lim e k = ov).
    { intros ov Q S. exact (shows_det _ _ _ _ W Hd (fetch_sound _ _ _ _ G (Hk Q)) S). }
    assert (Go : map fst (ev_vals g) = all -> (length (ev_vals g) =? length all) = true /\ keys_eqb (map fst (ev_vals g)) all = true).
    { intros Q. rewrite <- Q, Lm, Nat.eqb_refl. split; auto. destruct (keys_eqb_spec (map fst (ev_vals g)) (map fst (ev_vals g))); auto. }
    inversion X as [? ? ? L|? ? ? L Q| |? ? ? ? x Q Sw|? ? ? ? ov calls outs g1 Q Sw Eb F|? ? ? ? ov calls outs g1 ts2 en2 g2 Q Sw Eb F Lo]; subst ts' en' g'.
    + apply Nat.eqb_neq in L. rewrite L in E. injection E as <- <- <-. eauto.
    + rewrite L, Nat.eqb_refl in E. destruct (keys_eqb_spec (map fst (ev_vals g)) all); [contradiction|]. injection E as <- <- <-. eauto.
    + destruct (Go Q) as [Q1 Q2]. rewrite Q1, Q2, (Sh _ Q Sw) in E. injection E as <- <- <-. eauto.
    + destruct (Go Q) as [Q1 Q2]. rewrite Q1, Q2, (Sh _ Q Sw), Eb in E. destruct (empt_session e calls) as [outs' e1] eqn:Es. injection E as <- <- <-.
      unfold turn_calls in HK, HT, Hq. cbn [flat_map t_calls] in HK, HT, Hq. rewrite app_nil_r in HK, HT, Hq.
      destruct (session_only keccak_len secure K K_ok K_small T T_ok calls l e g outs' e1 outs g1 G D HK HT Hq Es Hn F) as (-> & I1). auto.
    + destruct (Go Q) as [Q1 Q2]. rewrite Q1, Q2, (Sh _ Q Sw), Eb in E. destruct (empt_session e calls) as [outs' e1] eqn:Es.
      destruct (loop_from w lim body all ks (S i) e1) as [[ts3 en3] e2] eqn:El. injection E as <- <- <-.
      pose proof (session_grown keccak_len _ _ _ _ D Es) as G1. pose proof (loop_grown _ _ _ _ _ _ (proj1 G1) El) as G2.
      assert (HK1 : incl (ekeys calls) K) by (intros x Hx; apply HK; unfold ekeys, turn_calls; cbn [flat_map t_calls]; rewrite flat_map_app; apply in_or_app; auto).
      assert (HK2 : incl (ekeys (turn_calls ts3)) K) by (intros x Hx; apply HK; unfold ekeys, turn_calls; cbn [flat_map t_calls]; rewrite flat_map_app; apply in_or_app; auto).
      assert (HT1 : forall k b, In (k, b) (etexts calls) -> In (k ++ b) T /\ (blen b < 2 ^ 57)%N)
        by (intros y b Hx; apply HT; unfold etexts, turn_calls; cbn [flat_map t_calls]; rewrite flat_map_app; apply in_or_app; auto).
      assert (HT2 : forall k b, In (k, b) (etexts (turn_calls ts3)) -> In (k ++ b) T /\ (blen b < 2 ^ 57)%N)
        by (intros y b Hx; apply HT; unfold etexts, turn_calls; cbn [flat_map t_calls]; rewrite flat_map_app; apply in_or_app; auto).
      assert (Hq1 : forall lim c, In (lim, c) calls -> equiet1 c /\ deep_enough secure K lim)
        by (intros y b Hx; apply Hq; unfold turn_calls; cbn [flat_map t_calls]; apply in_or_app; auto).
      assert (Hq2 : forall lim c, In (lim, c) (turn_calls ts3) -> equiet1 c /\ deep_enough secure K lim)
        by (intros y b Hx; apply Hq; unfold turn_calls; cbn [flat_map t_calls]; apply in_or_app; auto).
      destruct (session_only keccak_len secure K K_ok K_small T T_ok calls l e g outs' e1 outs g1 G D HK1 HT1 Hq1 Es (grown_nc _ _ G2 Hn) F) as (-> & l1 & I1).
      destruct (IH (S i) l1 e1 g1 ts3 en3 e2 ts2 en2 g2 I1 (proj1 G1) (fun x Hx => Ha x (or_intror Hx)) HK2 HT2 Hq2 Hd El Hn Lo) as (-> & -> & I2). auto.
Qed.
End Loop.
End Mode.
End Loops.
