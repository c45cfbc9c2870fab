(** Loops after sessions; loops that set or delete the key they are at. *)
From Coq Require Import List Bool Arith NArith Lia.
From Verif Require Import Base BaseProofs Rlp Node ProofObj Mpt Tree StoreProofs Spec ReadProofs MptRefine MptProofs Empt SpecEmpt EmptProofs EmptPy SpecEvery EveryProofs EveryProofs2 SpecYp EmptLoop SpecLoop LoopProofs.
Import ListNotations.

Section Loops.
Context {H : Hash}.
Hypothesis keccak_len : forall b, length (keccak b) = 32.

Lemma ekeys_app : forall a b, ekeys (a ++ b) = ekeys a ++ ekeys b.
Proof. intros. apply flat_map_app. Qed.
Lemma etexts_app : forall a b, etexts (a ++ b) = etexts a ++ etexts b.
Proof. intros. apply flat_map_app. Qed.

Section One.
Variables (secure : bool) (h : list (nat * ecmd)) (outs : list eout) (e : empt).
Variables (w : over) (lim : nat) (body : nat -> bytes -> option value -> list (nat * ecmd) * bool) (ts : list turn) (en : ending) (e' : empt).
Hypothesis run : empt_session (empt_new secure) h = (outs, e).
Hypothesis loop : empt_loop w lim body e = (ts, en, e').
Hypothesis fits : efits (h ++ turn_calls ts).
Hypothesis keys : keys_ok secure (ekeys (h ++ turn_calls ts)).
Hypothesis texts : ekeccak_ok (h ++ turn_calls ts).
Hypothesis nocoll : no_collision (m_log (e_trie e')).
Let K := ekeys (h ++ turn_calls ts).
Let T := map (fun kb : bytes * bytes => fst kb ++ snd kb) (etexts (h ++ turn_calls ts)).

Lemma K1 : incl (ekeys h) K.
Proof. intros x Hx. unfold K. rewrite ekeys_app. apply in_or_app. auto. Qed.
Lemma K2 : incl (ekeys (turn_calls ts)) K.
Proof. intros x Hx. unfold K. rewrite ekeys_app. apply in_or_app. auto. Qed.
Lemma T1 : forall k b, In (k, b) (etexts h) -> In (k ++ b) T /\ (blen b < 2 ^ 57)%N.
Proof.
  intros k b Hx. assert (X : In (k, b) (etexts (h ++ turn_calls ts))) by (rewrite etexts_app; apply in_or_app; auto).
  split; [apply in_map_iff; exists (k, b); auto|exact (proj2 fits _ _ X)].
Qed.
Lemma T2 : forall k b, In (k, b) (etexts (turn_calls ts)) -> In (k ++ b) T /\ (blen b < 2 ^ 57)%N.
Proof.
  intros k b Hx. assert (X : In (k, b) (etexts (h ++ turn_calls ts))) by (rewrite etexts_app; apply in_or_app; auto).
  split; [apply in_map_iff; exists (k, b); auto|exact (proj2 fits _ _ X)].
Qed.
Lemma G1 : dgood e /\ grown e e'.
Proof.
  pose proof (session_grown keccak_len _ _ _ _ (new_dinv secure : dgood (empt_new secure)) run) as G. split; [apply G|].
  eapply loop_grown; [exact keccak_len|apply G|exact loop].
Qed.

Lemma both_sound : exists l0 g0 l g, efollows secure (EView [] no_refs false) h outs g0 /\ ginv secure K T l0 e g0 /\
  loops secure w lim body (map fst (ev_vals g0)) (map fst (ev_vals g0)) 0 g0 ts en g /\ ginv secure K T l e' g.
Proof.
  destruct G1 as [D G].
  destruct (session_sound keccak_len secure K keys (proj1 fits) T texts h [] (empt_new secure) _ outs e (new_ginv _ _ _) (new_dinv secure) K1 T1 run
    (grown_nc _ _ G nocoll)) as (l0 & g0 & F & I0).
  pose proof (ginv_keys _ _ _ _ _ _ I0) as Ek. pose proof loop as L. unfold empt_loop in L. rewrite Ek in L.
  destruct (loop_sound keccak_len secure K keys (proj1 fits) T texts w lim body _ _ _ _ _ _ _ _ _ I0 D (incl_refl _) K2 T2 L nocoll) as (l & g & X & I).
  exists l0, g0, l, g. auto.
Qed.

Lemma both_only : equiet secure (h ++ turn_calls ts) -> (forall k, In k K -> frames secure k < lim) ->
  forall outs' g0 ts' en' g', efollows secure (EView [] no_refs false) h outs' g0 ->
  loops secure w lim body (map fst (ev_vals g0)) (map fst (ev_vals g0)) 0 g0 ts' en' g' ->
  outs' = outs /\ ts' = ts /\ en' = en /\ exists l, ginv secure K T l e' g'.
Proof.
  intros Q Dl outs' g0 ts' en' g' F X. destruct G1 as [D G].
  assert (Q1 : forall lim c, In (lim, c) h -> equiet1 c /\ deep_enough secure K lim) by (intros y c Hi; apply Q; apply in_or_app; auto).
  assert (Q2 : forall lim c, In (lim, c) (turn_calls ts) -> equiet1 c /\ deep_enough secure K lim) by (intros y c Hi; apply Q; apply in_or_app; auto).
  destruct (session_only keccak_len secure K keys (proj1 fits) T texts h [] (empt_new secure) _ outs e outs' g0 (new_ginv _ _ _) (new_dinv secure) K1 T1 Q1 run
    (grown_nc _ _ G nocoll) F) as (-> & l0 & I0).
  pose proof (ginv_keys _ _ _ _ _ _ I0) as Ek. pose proof loop as L. unfold empt_loop in L. rewrite Ek in L.
  destruct (loop_only keccak_len secure K keys (proj1 fits) T texts w lim body _ _ _ _ _ _ _ _ _ _ _ _ I0 D (incl_refl _) K2 T2 Q2 Dl L nocoll X) as (-> & -> & I).
  auto.
Qed.
End One.

Theorem loop_follows : forall secure h outs e w lim body ts en e', empt_session (empt_new secure) h = (outs, e) -> empt_loop w lim body e = (ts, en, e') ->
  efits (h ++ turn_calls ts) -> keys_ok secure (ekeys (h ++ turn_calls ts)) -> ekeccak_ok (h ++ turn_calls ts) -> no_collision (m_log (e_trie e')) ->
  exists g0 g, efollows secure (EView [] no_refs false) h outs g0 /\
    loops secure w lim body (map fst (ev_vals g0)) (map fst (ev_vals g0)) 0 g0 ts en g /\ forall r, yp_root (refs_of secure (ev_refs g)) r <-> empt_root_hash e' = r.
Proof.
  intros secure h outs e w lim body ts en e' E L Hf Hk Ht Hn.
  destruct (both_sound _ _ _ _ _ _ _ _ _ _ E L Hf Hk Ht Hn) as (l0 & g0 & l & g & F & _ & X & (I & _)). exists g0, g. split; [exact F|]. split; [exact X|].
  apply (tinv_root keccak_len _ _ _ _ _ _ Hk I).
Qed.
Theorem loop_only_way : forall secure h outs e w lim body ts en e', empt_session (empt_new secure) h = (outs, e) -> empt_loop w lim body e = (ts, en, e') ->
  efits (h ++ turn_calls ts) -> keys_ok secure (ekeys (h ++ turn_calls ts)) -> ekeccak_ok (h ++ turn_calls ts) -> no_collision (m_log (e_trie e')) ->
  equiet secure (h ++ turn_calls ts) -> (forall k, In k (ekeys (h ++ turn_calls ts)) -> frames secure k < lim) ->
  forall outs' g0 ts' en' g', efollows secure (EView [] no_refs false) h outs' g0 ->
  loops secure w lim body (map fst (ev_vals g0)) (map fst (ev_vals g0)) 0 g0 ts' en' g' ->
  outs' = outs /\ ts' = ts /\ en' = en /\ forall r, yp_root (refs_of secure (ev_refs g')) r <-> empt_root_hash e' = r.
Proof.
  intros secure h outs e w lim body ts en e' E L Hf Hk Ht Hn Q D outs' g0 ts' en' g' F X.
  destruct (both_only _ _ _ _ _ _ _ _ _ _ E L Hf Hk Ht Hn Q D _ _ _ _ _ F X) as (-> & -> & -> & l & (I & _)). split; [auto|]. split; [auto|]. split; [auto|].
  apply (tinv_root keccak_len _ _ _ _ _ _ Hk I).
Qed.

(** ** A loop that sets the key it is at *)
Definition sound_vals (g : eview) : Prop := forall k v, In (k, v) (ev_vals g) -> ev_refs g k = Some (val_bytes v).

Lemma shows_sound : forall secure w lim g k v a, NoDup (map fst (ev_vals g)) -> sound_vals g -> In (k, v) (ev_vals g) -> frames secure k < lim ->
  shows secure lim g k w a -> a = Ok (shown w v).
Proof.
  intros secure w lim g k v a Hn Hs Hi Hl S. destruct S as [|w v' N R|w x N R].
  - reflexivity.
  - assert (v' = v). { inversion R; subst. eapply unique_val; eauto. } subst v'. destruct w; [contradiction| |]; reflexivity.
  - exfalso. inversion R; subst.
    + match goal with F : ~ In k _ |- _ => apply F end. apply in_map_iff. exists (k, v). auto.
    + match goal with F : In (k, ?v0) _ |- _ => assert (v0 = v) by (eapply unique_val; eauto); subst v0 end. specialize (Hs _ _ Hi). congruence.
    + lia.
Qed.
Lemma entered_at : forall l1 k v w l2 l, NoDup (map fst (l1 ++ (k, v) :: l2)) -> entered (l1 ++ (k, v) :: l2) k w l -> l = l1 ++ (k, w) :: l2.
Proof.
  intros l1 k v w l2 l Hn E. remember (l1 ++ (k, v) :: l2) as L eqn:EL. destruct E as [L k w Hx|a b k w v'].
  - exfalso. apply Hx. subst L. rewrite map_app. apply in_or_app. right. left. reflexivity.
  - assert (X : a = l1 /\ b = l2).
    { clear -EL Hn. revert l1 EL Hn. induction a as [|p a IH]; intros [|q l1] EL Hn; cbn [app] in *.
      - injection EL as _ ->. auto.
      - exfalso. injection EL as E1 E2. subst q b. cbn [map fst] in Hn. inversion_clear Hn as [|? ? Hx _]. apply Hx. rewrite map_app. apply in_or_app. right. left. reflexivity.
      - exfalso. injection EL as E1 E2. subst p. cbn [map fst] in Hn. inversion_clear Hn as [|? ? Hx _]. apply Hx. rewrite map_app. apply in_or_app. right. left. reflexivity.
      - injection EL as E1 E2. subst p. cbn [map fst] in Hn. inversion_clear Hn as [|? ? _ Hn']. destruct (IH l1 E2 Hn') as [-> ->]. auto. }
    destruct X as [-> ->]. reflexivity.
Qed.

Section Rewrite.
Variables (secure : bool) (w : over) (lim lim' : nat) (f : nat -> bytes -> option value -> value).
Hypothesis f_ok : forall i k ov, storable (f i k ov) = true.
Let body := fun i k ov => ([(lim', QPut (KBytes k) (f i k ov) [] false)], true) : list (nat * ecmd) * bool.

Lemma storable_fit : forall v x, storable v = true -> ~ unfit v x.
Proof. intros v x Hs U. destruct U as [e d b E|b]; [destruct e, d|]; cbn in Hs, E || cbn in Hs; discriminate. Qed.

Lemma rewrite_loops : forall rest done all g ts en g', map fst (done ++ rest) = all -> ev_vals g = done ++ rest -> NoDup all -> sound_vals g ->
  (forall k, In k all -> frames secure k < lim /\ frames secure k < lim') ->
  loops secure w lim body all (map fst rest) (length done) g ts en g' ->
  ts = rewriting w lim' f (length done) rest /\ en = LDone /\ ev_vals g' = done ++ rewritten w f (length done) rest /\ sound_vals g'.
Proof.
  induction rest as [|[k v] rest IH]; intros done all g ts en g' Ea Ev Hn Hs Hl X; cbn [map fst] in X.
  - inversion X as [? ? ? L|? ? ? L Q|? ? Q| | |]; subst.
    + exfalso. apply L. rewrite Ev. now rewrite map_length.
    + exfalso. apply Q. now rewrite Ev.
    + cbn [rewriting rewritten]. auto.
  - assert (Hi : In (k, v) (ev_vals g)) by (rewrite Ev; apply in_or_app; right; left; reflexivity).
    assert (Hk : In k all) by (rewrite <- Ea, <- Ev; apply in_map_iff; exists (k, v); auto).
    assert (Hn' : NoDup (map fst (ev_vals g))) by (rewrite Ev, Ea; exact Hn).
    inversion X as [? ? ? L|? ? ? L Q| |? ? ? ? x Q Sw|? ? ? ? ov calls outs g1 Q Sw Eb F|? ? ? ? ov calls outs g1 ts2 en2 g2 Q Sw Eb F Lo]; subst ts en g'.
    + exfalso. apply L. rewrite Ev, <- Ea. now rewrite map_length.
    + exfalso. apply Q. rewrite Ev. exact Ea.
    + pose proof (shows_sound _ _ _ _ _ _ _ Hn' Hs Hi (proj1 (Hl k Hk)) Sw). discriminate.
    + discriminate Eb.
    + pose proof (shows_sound _ _ _ _ _ _ _ Hn' Hs Hi (proj1 (Hl k Hk)) Sw) as Es. injection Es as ->. unfold body in Eb. injection Eb as <-.
      inversion F as [|? ? ? o gx ? os ? Do F2]; subst. inversion F2; subst. inversion Do as [ | | | | | |? ? ? ? r ? St| | | | | | | | | | | | | | | | | | | ]; subst.
      destruct St as [x U|l _ _ En|_ D|x _ [[_ U]|[_ U]]]; [exfalso; eapply storable_fit; eauto| |discriminate|contradiction|exfalso; pose proof (proj2 (Hl k Hk)); lia].
      rewrite Ev in En. apply entered_at in En; [|rewrite <- Ev; exact Hn'].
      set (v1 := f (length done) k (shown w v)) in *.
      assert (Ev1 : ev_vals (EView l (set_ref (ev_refs g) k (val_bytes v1)) true) = (done ++ [(k, v1)]) ++ rest) by (cbn [ev_vals]; rewrite En, <- app_assoc; reflexivity).
      assert (Ea1 : map fst ((done ++ [(k, v1)]) ++ rest) = map fst (done ++ (k, v) :: rest)) by (rewrite <- app_assoc, !map_app; reflexivity).
      assert (Hs1 : sound_vals (EView l (set_ref (ev_refs g) k (val_bytes v1)) true)).
      { intros y u Hy. cbn [ev_refs]. unfold set_ref. destruct (bytes_eqb_spec y k) as [->|Ny].
        - rewrite Ev1 in Hy. f_equal. f_equal. refine (unique_val _ k v1 u _ _ Hy); [rewrite Ea1; exact Hn|].
          apply in_or_app. left. apply in_or_app. right. left. reflexivity.
        - apply Hs. rewrite Ev1 in Hy. rewrite Ev. rewrite <- app_assoc in Hy. apply in_app_or in Hy. apply in_or_app.
          destruct Hy as [Hy|[Hy|Hy]]; auto; [congruence|right; right; exact Hy]. }
      replace (Datatypes.S (length done)) with (length (done ++ [(k, v1)])) in Lo by (rewrite app_length; cbn; lia).
      destruct (IH (done ++ [(k, v1)]) _ _ _ _ _ Ea1 Ev1 Hn Hs1 Hl Lo) as (-> & -> & E3 & Hs3).
      rewrite app_length in *. cbn [length] in *. rewrite Nat.add_1_r in *. cbn [rewriting rewritten]. fold v1.
      split; [reflexivity|]. split; [reflexivity|]. split; [|exact Hs3]. rewrite E3, <- app_assoc. reflexivity.
Qed.
End Rewrite.

Lemma items_sound : forall secure K T l e g lim vals, ginv secure K T l e g -> keys_ok secure K -> (forall k, In k K -> (blen k < 2 ^ 57)%N) -> no_collision T ->
  empt_items lim e = Ok vals -> ev_vals g = vals /\ sound_vals g.
Proof.
  intros secure K T l e g lim vals G Hk Hs Ht E. pose proof (lists_sound keccak_len secure K Hk Hs T Ht l e g lim _ G E) as L.
  inversion L as [F Q|]; subst. split; auto. intros k v Hi. rewrite Forall_forall in F. specialize (F _ Hi). cbn [fst snd] in F. inversion F. assumption.
Qed.
Lemma items_back : forall secure K T l e g lim, ginv secure K T l e g -> keys_ok secure K -> (forall k, In k K -> (blen k < 2 ^ 57)%N) -> no_collision T ->
  sound_vals g -> (forall k, In k (map fst (ev_vals g)) -> frames secure k < lim) -> empt_items lim e = Ok (ev_vals g).
Proof.
  intros secure K T l e g lim G Hk Hs Ht So Hl. pose proof (lists_sound keccak_len secure K Hk Hs T Ht l e g lim _ G eq_refl) as L.
  destruct (empt_items lim e) as [r|x]; inversion L as [F Q|l1 k v l2 y Ev F R]; [reflexivity|exfalso; subst].
  assert (Hi : In (k, v) (ev_vals g)) by (rewrite Ev; apply in_or_app; right; left; reflexivity).
  assert (Hn : NoDup (map fst (ev_vals g))) by (apply (ginv_gwf _ _ _ _ _ _ G)).
  pose proof (shows_sound secure OItems lim g k v (Err x) Hn So Hi (Hl k (in_map fst _ _ Hi)) (shows_not _ _ _ _ OItems x ltac:(discriminate) R)). discriminate.
Qed.

Theorem loop_rewrites : forall secure h outs e w lim lim' f vals ts en e', empt_session (empt_new secure) h = (outs, e) ->
  empt_items lim e = Ok vals -> (forall i k ov, storable (f i k ov) = true) ->
  empt_loop w lim (fun i k ov => ([(lim', QPut (KBytes k) (f i k ov) [] false)], true)) e = (ts, en, e') ->
  efits (h ++ turn_calls ts) -> keys_ok secure (ekeys (h ++ turn_calls ts)) -> ekeccak_ok (h ++ turn_calls ts) -> no_collision (m_log (e_trie e')) ->
  (forall k, In k (map fst vals) -> frames secure k < lim /\ frames secure k < lim') ->
  ts = rewriting w lim' f 0 vals /\ en = LDone /\ empt_items lim e' = Ok (rewritten w f 0 vals).
Proof.
  intros secure h outs e w lim lim' f vals ts en e' E Ei Hf1 L Hf Hk Ht Hn Hl.
  destruct (both_sound _ _ _ _ _ _ _ _ _ _ E L Hf Hk Ht Hn) as (l0 & g0 & l & g & F & I0 & X & I).
  destruct (items_sound _ _ _ _ _ _ _ _ I0 Hk (proj1 Hf) Ht Ei) as [Ev So].
  assert (Nd : NoDup (map fst vals)) by (rewrite <- Ev; apply (ginv_gwf _ _ _ _ _ _ I0)). rewrite Ev in X.
  destruct (rewrite_loops secure w lim lim' f Hf1 vals [] _ g0 ts en g eq_refl Ev Nd So Hl X) as (-> & -> & Ev' & So').
  split; [reflexivity|]. split; [reflexivity|]. cbn [app length] in Ev'. rewrite <- Ev'. eapply items_back; eauto.
  - exact (proj1 Hf).
  - intros k Hi. apply Hl. rewrite Ev' in Hi. clear -Hi. revert Hi. generalize 0. induction vals as [|[a b] vals IH]; intros n Hi; cbn in *; auto. destruct Hi as [Hi|Hi]; eauto.
Qed.

(** ** A loop that deletes the key it is at *)
Theorem loop_deletes : forall secure h outs e w lim lim' k v vals ts en e', empt_session (empt_new secure) h = (outs, e) ->
  empt_items lim e = Ok ((k, v) :: vals) ->
  empt_loop w lim (fun i k ov => ([(lim', QDel (KBytes k) false false [])], true)) e = (ts, en, e') ->
  efits (h ++ turn_calls ts) -> keys_ok secure (ekeys (h ++ turn_calls ts)) -> ekeccak_ok (h ++ turn_calls ts) -> no_collision (m_log (e_trie e')) ->
  (forall k', In k' (k :: map fst vals) -> frames secure k' < lim /\ frames secure k' < lim') ->
  ts = [Turn k (shown w v) [(lim', QDel (KBytes k) false false [])] [ANone (Ok tt)]] /\ en = LRaise RuntimeError /\ empt_items lim e' = Ok vals.
Proof.
  intros secure h outs e w lim lim' k v vals ts en e' E Ei L Hf Hk Ht Hn Hl.
  destruct (both_sound _ _ _ _ _ _ _ _ _ _ E L Hf Hk Ht Hn) as (l0 & g0 & l & g & F & I0 & X & I).
  destruct (items_sound _ _ _ _ _ _ _ _ I0 Hk (proj1 Hf) Ht Ei) as [Ev So].
  assert (Nd : NoDup (map fst (ev_vals g0))) by (apply (ginv_gwf _ _ _ _ _ _ I0)).
  assert (Hi : In (k, v) (ev_vals g0)) by (rewrite Ev; left; reflexivity).
  pose proof (Hl k (or_introl eq_refl)) as [Hl1 Hl2].
  rewrite Ev in X. cbn [map fst] in X.
  inversion X as [? ? ? Ln|? ? ? Ln Q| |? ? ? ? x Q Sw|? ? ? ? ov calls os g1 Q Sw Eb Fo|? ? ? ? ov calls os g1 ts2 en2 g2 Q Sw Eb Fo Lo]; subst ts en g.
  - exfalso. apply Ln. rewrite Ev. cbn. now rewrite map_length.
  - exfalso. apply Q. rewrite Ev. reflexivity.
  - pose proof (shows_sound _ _ _ _ _ _ _ Nd So Hi Hl1 Sw). discriminate.
  - discriminate Eb.
  - pose proof (shows_sound _ _ _ _ _ _ _ Nd So Hi Hl1 Sw) as Es. injection Es as ->. injection Eb as <-.
    inversion Fo as [|? ? ? o gx ? os2 ? Do F2]; subst. inversion F2; subst.
    inversion Do as [ | | | | | | | | |? ? ? ? r ? Rm| | | | | | | | | | | | | | | | ]; subst.
    assert (Hh : held secure (ev_refs g0) k) by (left; rewrite (So _ _ Hi); discriminate).
    inversion Rm as [Y|Y Z|Y Z|Y Z W|Y Z W V|v' lr Y Z Rr|v' lr x Y Z Rr G2]; subst; try discriminate; try (exfalso; lia); try contradiction.
    + exfalso. apply V. apply in_map_iff. exists (k, v). auto.
    + assert (Er : lr = vals).
      { rewrite Ev in Rr, Nd. clear -Rr Nd. cbn [map fst] in Nd. inversion Nd as [|? ? Hx _]; subst.
        remember ((k, v) :: vals) as L eqn:EL. destruct Rr as [a b k v']. destruct a as [|p a]; cbn [app] in EL; injection EL as E1 E2; [auto|].
        exfalso. apply Hx. rewrite <- E2, map_app. apply in_or_app. right. left. reflexivity. }
      subst lr.
      inversion Lo as [? ? ? Ln|? ? ? Ln Q2|? ? Q2|? ? ? ? x Q2 ?|? ? ? ? ? ? ? ? Q2 ? ? ?|? ? ? ? ? ? ? ? ? ? ? Q2 ? ? ? ?]; subst;
        try (exfalso; cbn [ev_vals] in Q2; match goal with F : _ = map fst vals |- _ => rewrite <- F in Q2 end; apply (f_equal (@length _)) in Q2; cbn [length] in Q2; lia).
      2:{ exfalso. cbn in Ln. rewrite map_length in Ln. lia. }
      split; [reflexivity|]. split; [reflexivity|].
      change vals with (ev_vals (EView vals (drop_ref (ev_refs g0) k) (ev_used g0))). eapply items_back; eauto; [exact (proj1 Hf)| |].
      * intros y u Hy. cbn [ev_refs ev_vals] in *. unfold drop_ref. destruct (bytes_eqb_spec y k) as [->|Ny].
        -- exfalso. rewrite Ev in Nd. cbn [map fst] in Nd. inversion Nd as [|? ? Hx _]; subst. apply Hx. apply in_map_iff. exists (k, u). auto.
        -- apply So. rewrite Ev. right. exact Hy.
      * intros y Hy. apply Hl. right. exact Hy.
    + exfalso. destruct G2 as [[_ G2]|[_ G2]]; [contradiction|lia].
Qed.
(** ** Deleting over a list of the keys *)
Lemma removed_first : forall k v vals v' l, NoDup (map fst ((k, v) :: vals)) -> removed ((k, v) :: vals) k v' l -> l = vals.
Proof.
  intros k v vals v' l Nd R. cbn [map fst] in Nd. inversion Nd as [|? ? Hx _]; subst.
  remember ((k, v) :: vals) as L eqn:EL. destruct R as [a b k v']. destruct a as [|p a]; cbn [app] in EL; injection EL as E1 E2; [auto|].
  exfalso. apply Hx. rewrite <- E2, map_app. apply in_or_app. right. left. reflexivity.
Qed.
Lemma dels_follow : forall secure lim vals g outs g', ev_vals g = vals -> NoDup (map fst vals) -> sound_vals g ->
  (forall k, In k (map fst vals) -> frames secure k < lim) -> efollows secure g (dels lim vals) outs g' ->
  outs = map (fun _ => ANone (Ok tt)) vals /\ ev_vals g' = [] /\ sound_vals g'.
Proof.
  intros secure lim vals. induction vals as [|[k v] vals IH]; intros g outs g' Ev Nd So Hl F; cbn [dels map] in F.
  - inversion F; subst. auto.
  - fold (dels lim vals) in F. inversion F as [|? ? ? o g1 ? os ? Do F2]; subst.
    inversion Do as [ | | | | | | | | |? ? ? ? r ? Rm| | | | | | | | | | | | | | | | ]; subst.
    assert (Hi : In (k, v) (ev_vals g)) by (rewrite Ev; left; reflexivity).
    assert (Hh : held secure (ev_refs g) k) by (left; rewrite (So _ _ Hi); discriminate).
    pose proof (Hl k (or_introl eq_refl)) as Hk.
    inversion Rm as [Y|Y Z|Y Z|Y Z W|Y Z W V|v' lr Y Z Rr|v' lr x Y Z Rr G2]; subst; try discriminate; try (exfalso; cbn [fst] in *; lia); try contradiction.
    + exfalso. apply V. apply in_map_iff. exists (k, v). auto.
    + rewrite Ev in Rr. pose proof (removed_first _ _ _ _ _ Nd Rr) as ->.
      assert (Nd' : NoDup (map fst vals)) by (inversion Nd; assumption).
      assert (So' : sound_vals (EView vals (drop_ref (ev_refs g) k) (ev_used g))).
      { intros y u Hy. cbn [ev_refs ev_vals] in *. unfold drop_ref. destruct (bytes_eqb_spec y k) as [->|Ny].
        - exfalso. inversion Nd as [|? ? Hx _]; subst. apply Hx. apply in_map_iff. exists (k, u). auto.
        - apply So. rewrite Ev. right. exact Hy. }
      destruct (IH (EView vals (drop_ref (ev_refs g) k) (ev_used g)) _ _ eq_refl Nd' So' (fun y Hy => Hl y (or_intror Hy)) F2) as (-> & E3 & S3). auto.
    + exfalso. destruct G2 as [[_ G2]|[_ G2]]; [contradiction|cbn [fst] in *; lia].
Qed.
Theorem list_deletes : forall secure h outs e lim lim' vals outs2 e2, empt_session (empt_new secure) h = (outs, e) ->
  empt_items lim e = Ok vals -> empt_session e (dels lim' vals) = (outs2, e2) ->
  efits h -> keys_ok secure (ekeys h) -> ekeccak_ok h -> no_collision (m_log (e_trie e2)) ->
  (forall k, In k (map fst vals) -> frames secure k < lim') ->
  outs2 = map (fun _ => ANone (Ok tt)) vals /\ empt_items lim e2 = Ok [].
Proof.
  intros secure h outs e lim lim' vals outs2 e2 E Ei E2 Hf Hk Ht Hn Hl.
  pose proof (session_grown keccak_len _ _ _ _ (new_dinv secure : dgood (empt_new secure)) E) as G1.
  pose proof (session_grown keccak_len _ _ _ _ (proj1 G1) E2) as G2.
  destruct (one_sound keccak_len _ _ _ _ E Hf Hk Ht (grown_nc _ _ G2 Hn)) as (l & g & F & I).
  destruct (items_sound _ _ _ _ _ _ _ _ I Hk (proj1 Hf) Ht Ei) as [Ev So].
  pose proof (ginv_gwf _ _ _ _ _ _ I) as [Nd Hin]. rewrite Ev in Nd, Hin.
  assert (Dk : incl (ekeys (dels lim' vals)) (ekeys h)).
  { intros x Hx. apply Hin. clear -Hx. induction vals as [|[k v] vals IH]; [exact Hx|]. cbn in Hx. destruct Hx as [Hx|Hx]; [left; auto|right; auto]. }
  assert (Dt : etexts (dels lim' vals) = []) by (clear; induction vals as [|[k v] vals IH]; auto).
  destruct (session_sound keccak_len secure (ekeys h) Hk (proj1 Hf) _ Ht (dels lim' vals) l e g outs2 e2 I (proj1 G1) Dk) as (l2 & g2 & F2 & I2); auto.
  { intros k b Hx. rewrite Dt in Hx. destruct Hx. }
  destruct (dels_follow secure lim' vals g outs2 g2 Ev Nd So Hl F2) as (-> & Ev2 & So2). split; [reflexivity|].
  rewrite <- Ev2. eapply items_back; eauto; [exact (proj1 Hf)|]. rewrite Ev2. intros k [].
Qed.
End Loops.
