(** Histories of calls on EMPT and SparseEMPT objects, and comparing two EMPTs. *)
From Coq Require Import List Bool Arith NArith ZArith Lia.
From Verif Require Import Base BaseProofs Rlp NibblePath ProofObj Mpt Tree StoreProofs Spec SpecCodec SpecProof MptRefine MptProofs
  Empt SpecEmpt EmptProofs SpecYp YpEmpt EmptPy SpecEvery EveryProofs.
Import ListNotations.

Section Every.
Context {H : Hash}.
Hypothesis keccak_len : forall b, length (keccak b) = 32.

Lemma new_tinv : forall secure K, tinv secure K [] (mpt_new secure) no_refs false.
Proof.
  intros secure K. split; [exists []; split; [reflexivity|]; split; [constructor|]; intros x y [<-|[]] [<-|[]] _; reflexivity|]. split; [intros k; reflexivity|]. split; [split; [discriminate|congruence]|]. intros x [].
Qed.
Lemma new_ginv : forall secure K T, ginv secure K T [] (empt_new secure) (EView [] no_refs false).
Proof.
  intros secure K T. split; [apply new_tinv|]. split; [reflexivity|]. split; [constructor|]. split.
  - intros k v [].
  - intros k b E. discriminate.
Qed.
Lemma tinv_root : forall secure K l t r used, keys_ok secure K -> tinv secure K l t r used ->
  forall x, yp_root (refs_of secure r) x <-> root_hash t = x.
Proof.
  intros secure K l t r used Hk (R & S & _ & Hi). apply (root_of_pairs keccak_len secure l); auto.
  - eapply keys_ok_incl; [|exact Hk]. exact Hi.
  - intros q v. split.
    + intros (k & b & Ek & Eq & T). exists k. split; [|exact Eq]. apply ref_text_encode in T.
      specialize (S k). rewrite Ek in S. destruct S as (rb & E & ->). congruence.
    + intros (k & Ek & Eq). destruct (sr_some _ _ _ _ S Ek) as (b & Eb & T). exists k, b.
      split; [exact Eb|]. split; [exact Eq|]. apply ref_text_encode. exact T.
Qed.

Section One.
Variables (secure : bool) (h : list (nat * ecmd)) (outs : list eout) (e : empt).
Hypothesis run : empt_session (empt_new secure) h = (outs, e).
Hypothesis fits : efits h.
Hypothesis keys : keys_ok secure (ekeys h).
Hypothesis texts : ekeccak_ok h.
Hypothesis nocoll : no_collision (m_log (e_trie e)).
Let T := map (fun kb : bytes * bytes => fst kb ++ snd kb) (etexts h).
Let starts := EView [] no_refs false.

Lemma texts_fit : forall k b, In (k, b) (etexts h) -> In (k ++ b) T /\ (blen b < 2 ^ 57)%N.
Proof.
  intros k b Hk. split; [|eapply (proj2 fits); eauto]. apply in_map_iff. exists (k, b). auto.
Qed.
Lemma one_sound : exists l g, efollows secure starts h outs g /\ ginv secure (ekeys h) T l e g.
Proof.
  exact (session_sound keccak_len secure (ekeys h) keys (proj1 fits) T texts h [] (empt_new secure) starts outs e
    (new_ginv _ _ _) (new_dinv secure) (incl_refl _) texts_fit run nocoll).
Qed.
Lemma one_only : equiet secure h -> forall outs' g, efollows secure starts h outs' g -> outs' = outs /\ exists l, ginv secure (ekeys h) T l e g.
Proof.
  intros Hq outs' g F.
  exact (session_only keccak_len secure (ekeys h) keys (proj1 fits) T texts h [] (empt_new secure) starts outs e outs' g
    (new_ginv _ _ _) (new_dinv secure) (incl_refl _) texts_fit Hq run nocoll F).
Qed.
End One.

Theorem empt_every_call : forall secure h outs e, empt_session (empt_new secure) h = (outs, e) -> efits h -> keys_ok secure (ekeys h) ->
  ekeccak_ok h -> no_collision (m_log (e_trie e)) ->
  exists g, efollows secure (EView [] no_refs false) h outs g /\ forall r, yp_root (refs_of secure (ev_refs g)) r <-> empt_root_hash e = r.
Proof.
  intros secure h outs e E Hf Hk Ht Hn. destruct (one_sound _ _ _ _ E Hf Hk Ht Hn) as (l & g & F & (I & _)). exists g. split; auto.
  apply (tinv_root _ _ _ _ _ _ Hk I).
Qed.
Theorem empt_only_call : forall secure h outs e, empt_session (empt_new secure) h = (outs, e) -> efits h -> keys_ok secure (ekeys h) ->
  ekeccak_ok h -> no_collision (m_log (e_trie e)) -> equiet secure h ->
  forall outs' g, efollows secure (EView [] no_refs false) h outs' g ->
  outs' = outs /\ forall r, yp_root (refs_of secure (ev_refs g)) r <-> empt_root_hash e = r.
Proof.
  intros secure h outs e E Hf Hk Ht Hn Hq outs' g F. destruct (one_only _ _ _ _ E Hf Hk Ht Hn Hq _ _ F) as (-> & l & (I & _)). split; auto.
  apply (tinv_root _ _ _ _ _ _ Hk I).
Qed.

Theorem sparse_every_call : forall secure h outs t, sparse_session (sparse_new [] None secure) h = (outs, t) -> sfits h -> keys_ok secure (skeys h) ->
  no_collision (m_log t) ->
  (exists r used, sfollows secure no_refs false h outs r used /\ forall x, yp_root (refs_of secure r) x <-> root_hash t = x) /\
  (squiet secure h -> forall outs' r used, sfollows secure no_refs false h outs' r used -> outs' = outs).
Proof.
  intros secure h outs t E Hf Hk Hn.
  destruct (sparse_session_sound keccak_len secure (skeys h) Hk (proj1 Hf) h [] (mpt_new secure) no_refs false outs t (new_tinv _ _) (new_dinv secure)
    (incl_refl _) (proj2 Hf) E Hn) as [(l & r & u & F & I) Only]. split.
  - exists r, u. split; auto. apply (tinv_root _ _ _ _ _ _ Hk I).
  - intros Hq outs' r' u' F'. eapply Only; eauto.
Qed.

(** ** Comparing *)
Lemma dict_eqb_same : forall veq a b, NoDup (map fst a) -> NoDup (map fst b) -> dict_eqb veq a b = true <-> same_items veq a b.
Proof.
  intros veq a b Na Nb. unfold dict_eqb. rewrite andb_true_iff, Nat.eqb_eq, forallb_forall. split.
  - intros [Hl Hall].
    assert (Hi : incl (map fst a) (map fst b)).
    { intros k Hk. apply in_fst in Hk. destruct Hk as [v Hk]. specialize (Hall _ Hk). cbn [fst snd] in Hall.
      destruct (dget b k) as [w|] eqn:Eb; [|discriminate]. apply dget_In in Eb. apply in_map_iff. exists (k, w). auto. }
    split.
    + intros k. split; [apply Hi|]. revert k. apply (NoDup_length_incl Na); [|exact Hi]. rewrite !map_length. lia.
    + intros k v w Ha Hb. specialize (Hall _ Ha). cbn [fst snd] in Hall. rewrite (dget_of_In _ _ _ Nb Hb) in Hall. exact Hall.
  - intros [Hk Hv]. split.
    + rewrite <- (map_length fst a), <- (map_length fst b). apply Nat.le_antisymm.
      * apply NoDup_incl_length; auto. intros k. apply Hk.
      * apply NoDup_incl_length; auto. intros k. apply Hk.
    + intros [k v] Ha. cbn [fst snd]. assert (Hin : In k (map fst b)) by (apply Hk; apply in_map_iff; exists (k, v); auto).
      apply in_fst in Hin. destruct Hin as [w Hb]. rewrite (dget_of_In _ _ _ Nb Hb). eauto.
Qed.
Lemma lists_vals : forall secure lim g l, lists secure lim g (Ok l) -> l = ev_vals g.
Proof. intros secure lim g l L. remember (Ok l) as a eqn:Ea. destruct L; [congruence|discriminate]. Qed.

Theorem empt_eq_exact : forall s1 s2 h1 h2 outs1 outs2 e1 e2 veq lim a,
  empt_session (empt_new s1) h1 = (outs1, e1) -> efits h1 -> keys_ok s1 (ekeys h1) -> ekeccak_ok h1 -> no_collision (m_log (e_trie e1)) ->
  empt_session (empt_new s2) h2 = (outs2, e2) -> efits h2 -> keys_ok s2 (ekeys h2) -> ekeccak_ok h2 -> no_collision (m_log (e_trie e2)) ->
  empt_eq veq lim e1 e2 = a ->
  exists g1 g2, efollows s1 (EView [] no_refs false) h1 outs1 g1 /\ efollows s2 (EView [] no_refs false) h2 outs2 g2 /\
    compares s1 s2 veq lim g1 g2 a /\
    ((forall k, In k (ekeys h1) -> frames s1 k < lim) -> (forall k, In k (ekeys h2) -> frames s2 k < lim) ->
     forall b, compares s1 s2 veq lim g1 g2 b -> b = a).
Proof.
  intros s1 s2 h1 h2 outs1 outs2 e1 e2 veq lim a E1 Hf1 Hk1 Ht1 Hn1 E2 Hf2 Hk2 Ht2 Hn2 E.
  destruct (one_sound _ _ _ _ E1 Hf1 Hk1 Ht1 Hn1) as (l1 & g1 & F1 & G1). destruct (one_sound _ _ _ _ E2 Hf2 Hk2 Ht2 Hn2) as (l2 & g2 & F2 & G2).
  exists g1, g2. split; auto. split; auto.
  assert (L1 : lists s1 lim g1 (empt_items lim e1)) by (exact (lists_sound keccak_len s1 (ekeys h1) Hk1 (proj1 Hf1) _ Ht1 _ _ _ lim _ G1 eq_refl)).
  assert (L2 : lists s2 lim g2 (empt_items lim e2)) by (exact (lists_sound keccak_len s2 (ekeys h2) Hk2 (proj1 Hf2) _ Ht2 _ _ _ lim _ G2 eq_refl)).
  assert (W1 := ginv_gwf _ _ _ _ _ _ G1). assert (W2 := ginv_gwf _ _ _ _ _ _ G2). unfold empt_eq in E.
  assert (C : compares s1 s2 veq lim g1 g2 a).
  { destruct (empt_items lim e1) as [x1|y1]; cbn [bind] in E; [|subst a; apply compares_left; exact L1].
    destruct (empt_items lim e2) as [x2|y2]; cbn [bind] in E; [|subst a; eapply compares_right; eauto].
    pose proof (lists_vals _ _ _ _ L1). pose proof (lists_vals _ _ _ _ L2). subst x1 x2.
    pose proof (dict_eqb_same veq (ev_vals g1) (ev_vals g2) (proj1 W1) (proj1 W2)) as D. subst a.
    destruct (dict_eqb veq (ev_vals g1) (ev_vals g2)); [eapply compares_yes; eauto; apply D; reflexivity|eapply compares_no; eauto].
    intros F. apply D in F. discriminate. }
  split; [exact C|]. intros D1 D2 b C'.
  assert (U1 : forall x y, lists s1 lim g1 x -> lists s1 lim g1 y -> x = y) by (intros x y; exact (lists_det keccak_len s1 (ekeys h1) (proj1 Hf1) lim g1 x y W1 D1)).
  assert (U2 : forall x y, lists s2 lim g2 x -> lists s2 lim g2 y -> x = y) by (intros x y; exact (lists_det keccak_len s2 (ekeys h2) (proj1 Hf2) lim g2 x y W2 D2)).
  destruct C as [x A|l x A B|p q A B S|p q A B S]; destruct C' as [x' A'|l' x' A' B'|p' q' A' B' S'|p' q' A' B' S'];
    pose proof (U1 _ _ A A') as X1; try discriminate X1; try (pose proof (U2 _ _ B B') as X2; try discriminate X2); try congruence.
Qed.
End Every.
