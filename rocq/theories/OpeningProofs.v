(** Proofs about SpecOpening.v. *)
From Coq Require Import List Bool Arith NArith ZArith Lia.
From Verif Require Import Base BaseProofs Rlp RlpProofs NibblePath NibbleProofs Node ProofObj Mpt Tree TreeEnc StoreProofs ReadProofs Spec SpecCodec
  MptRefine MptProofs SpecShared SimProofs SharedProofs SpecEmpt EmptFaultProofs SpecWalk SpecEvery MptPy SpecMptEvery MptEveryProofs Threads SpecThreads ThreadsSeq ThreadsProofs ThreadsPool
  ThreadsAlone ThreadsRace Several SpecSeveral SeveralProofs Opening SpecOpening.
Import ListNotations.

Lemma set_at : forall A i (x : A) l, i < length l -> nth_error (set_nth i x l) i = Some x.
Proof. intros A i x l L. unfold set_nth. rewrite nth_error_app2; rewrite firstn_length_le by lia; [|lia]. rewrite Nat.sub_diag. reflexivity. Qed.
Lemma set_off : forall A i j (x : A) l, i < length l -> j <> i -> nth_error (set_nth i x l) j = nth_error l j.
Proof.
  intros A i j x l L N. unfold set_nth. rewrite <- (firstn_skipn i l) at 3. destruct (Nat.lt_ge_cases j i) as [Lt|Ge].
  - rewrite !nth_error_app1 by (rewrite firstn_length; lia). reflexivity.
  - rewrite !nth_error_app2 by (rewrite firstn_length; lia). rewrite firstn_length_le by lia. destruct (j - i) as [|y] eqn:Ey; [lia|]. cbn [nth_error].
    revert L. clear. revert i. induction l as [|z l IH]; intros [|i] L; cbn [length skipn nth_error] in *; try lia; [reflexivity|]. apply IH. lia.
Qed.
Lemma nth_snoc : forall A (l : list A) a, nth_error (l ++ [a]) (length l) = Some a.
Proof. intros. rewrite nth_error_app2, Nat.sub_diag by lia. reflexivity. Qed.

Section T.
Context {H : Hash}.
Hypothesis keccak_len : forall b, length (keccak b) = 32.
Notation after ms := (orun realm0 ms).
Notation life b l := (run_moves b (pool_new b) l).

Lemma oafter_snoc : forall ms m, after (ms ++ [m]) = ogo (after ms) m.
Proof. intros. unfold orun. rewrite fold_left_app. reflexivity. Qed.
Lemma tale_snoc : forall ms m, tale_of (ms ++ [m]) = tell (tale_of ms) m.
Proof. intros. unfold tale_of. rewrite fold_left_app. reflexivity. Qed.
Lemma olog1 : forall w m, incl (r_log w) (r_log (ogo w m)).
Proof.
  intros w [b|j|j lim c|i]; cbn [ogo]; try apply incl_refl.
  - destruct (nth_error (r_objs w) j) as [[b r]|]; apply incl_refl.
  - destruct (nth_error (r_objs w) j) as [[b r]|]; apply incl_refl.
  - destruct (nth_error (r_calls w) i) as [[j p]|]; [|apply incl_refl]. destruct (nth_error (r_objs w) j) as [[b r]|]; [|apply incl_refl].
    pose proof (access_log (mkShared (r_map w) (r_log w) r) p) as L. destruct (access _ p). exact L.
Qed.
Lemma olog : forall ms w, incl (r_log w) (r_log (orun w ms)).
Proof. induction ms as [|m ms IH]; intros w; [apply incl_refl|]. cbn [orun fold_left]. eapply incl_tran; [apply (olog1 w m)|apply IH]. Qed.

Lemma life_calls : forall b l, length (p_calls (life b l)) = length (calls_of l).
Proof.
  intros b l. induction l as [|m l IH] using rev_ind; [reflexivity|]. rewrite after_snoc. destruct m as [lim c|i]; cbn [go].
  - cbn [p_calls]. rewrite calls_call, !app_length, IH. reflexivity.
  - rewrite calls_go. destruct (nth_error (p_calls (life b l)) i) as [p|] eqn:E; [|exact IH]. destruct (access _ p). cbn [p_calls]. destruct (split_at _ _ _ _ E) as [El Ei].
    rewrite app_length. cbn [length]. assert (i < length (p_calls (life b l))) by (apply nth_error_Some; congruence). rewrite Ei, skipn_length. lia.
Qed.

(** ** The whole *)
Record entire (ms : list omove) : Prop := {
  en_d : dinv (r_map (after ms)) (r_log (after ms));
  en_o : map fst (r_objs (after ms)) = map fst (fst (tale_of ms));
  en_c : map fst (r_calls (after ms)) = map fst (snd (tale_of ms));
  en_h : Forall (fun x => honest (snd x) /\ fst x < length (r_objs (after ms))) (r_calls (after ms))
}.
Lemma map_set : forall A B (f : A -> B) i x l, map f (set_nth i x l) = set_nth i (f x) (map f l).
Proof. intros. unfold set_nth. rewrite map_app, firstn_map. cbn [map]. rewrite skipn_map. reflexivity. Qed.
Lemma set_same : forall A i (x : A) l, nth_error l i = Some x -> set_nth i x l = l.
Proof. intros A i x l E. unfold set_nth. destruct (split_at _ _ _ _ E) as [El _]. symmetry. exact El. Qed.
Lemma fst_at : forall A B C (l : list (A * B)) (l' : list (A * C)) i a b, map fst l = map fst l' -> nth_error l i = Some (a, b) -> exists c, nth_error l' i = Some (a, c).
Proof.
  intros A B C l l' i a b E Ei. assert (X : nth_error (map fst l') i = Some a) by (rewrite <- E, nth_error_map, Ei; reflexivity).
  rewrite nth_error_map in X. destruct (nth_error l' i) as [[a' c]|]; [|discriminate]. injection X as ->. eauto.
Qed.
Lemma fst_none : forall A B C (l : list (A * B)) (l' : list (A * C)) i, map fst l = map fst l' -> nth_error l i = None -> nth_error l' i = None.
Proof. intros A B C l l' i E Ei. apply nth_error_None. apply nth_error_None in Ei. rewrite <- (map_length fst), <- E, map_length. exact Ei. Qed.
Lemma entire_all : forall ms, no_collision (r_log (after ms)) -> entire ms.
Proof.
  induction ms as [|m ms IH] using rev_ind; intros N.
  - constructor; [apply (new_dinv false)|reflexivity|reflexivity|constructor].
  - assert (W : entire ms) by (apply IH; rewrite oafter_snoc in N; eapply nocoll_incl; [apply olog1|exact N]). destruct W as [D O C Hh].
    destruct m as [b|j|j lim c|i].
    + constructor; rewrite oafter_snoc, ?tale_snoc; cbn [ogo tell r_map r_log r_objs r_calls fst snd]; auto.
      * rewrite !map_app, O. reflexivity.
      * eapply Forall_impl; [|exact Hh]. cbn beta. intros x [X1 X2]. split; [exact X1|]. rewrite app_length. lia.
    + constructor; rewrite oafter_snoc, ?tale_snoc; cbn [ogo tell]; destruct (nth_error (r_objs (after ms)) j) as [[b r]|] eqn:Ej;
        try (destruct (fst_at _ _ _ _ _ _ _ _ O Ej) as [l ->]); try rewrite (fst_none _ _ _ _ _ _ O Ej); cbn [r_map r_log r_objs r_calls fst snd]; auto.
      * rewrite !map_app, O. reflexivity.
      * eapply Forall_impl; [|exact Hh]. cbn beta. intros x [X1 X2]. split; [exact X1|]. rewrite app_length. lia.
    + constructor; rewrite oafter_snoc, ?tale_snoc; cbn [ogo tell]; destruct (nth_error (r_objs (after ms)) j) as [[b r]|] eqn:Ej;
        try (destruct (fst_at _ _ _ _ _ _ _ _ O Ej) as [l El]; try rewrite El); try rewrite (fst_none _ _ _ _ _ _ O Ej); cbn [r_map r_log r_objs r_calls fst snd]; auto.
      * rewrite map_set, <- O. cbn [fst]. symmetry. apply set_same. rewrite nth_error_map, Ej. reflexivity.
      * rewrite !map_app, C. reflexivity.
      * apply Forall_app. split; [exact Hh|]. constructor; [|constructor]. cbn [fst snd]. split; [apply honest_call; exact keccak_len|apply nth_error_Some; congruence].
    + destruct (nth_error (r_calls (after ms)) i) as [[j p]|] eqn:Ei.
      2: { constructor; rewrite oafter_snoc, ?tale_snoc; cbn [ogo tell]; rewrite Ei; try rewrite (fst_none _ _ _ _ _ _ C Ei); auto. }
      destruct (fst_at _ _ _ _ _ _ _ _ C Ei) as [r' Er'].
      assert (Hp : honest p /\ j < length (r_objs (after ms))) by (rewrite Forall_forall in Hh; exact (Hh _ (nth_error_In _ _ Ei))). destruct Hp as [Hp Lj].
      destruct (nth_error (r_objs (after ms)) j) as [[b r]|] eqn:Ej; [|apply nth_error_None in Ej; lia].
      destruct (fst_at _ _ _ _ _ _ _ _ O Ej) as [l El].
      assert (Li : i < length (r_calls (after ms))) by (apply nth_error_Some; congruence).
      pose proof (access_grows (mkShared (r_map (after ms)) (r_log (after ms)) r) p Hp D) as G.
      pose proof (honest_access (mkShared (r_map (after ms)) (r_log (after ms)) r) p Hp) as G'.
      rewrite oafter_snoc in N. constructor; rewrite oafter_snoc, ?tale_snoc; cbn [ogo tell] in *; rewrite Ei, Ej in *; rewrite ?Er', ?El; destruct (access _ p) as [s p'];
        cbn [r_map r_log r_objs r_calls fst snd] in *.
      * exact (proj1 (G N)).
      * rewrite !map_set, <- O. reflexivity.
      * rewrite map_set, <- C. apply set_same. rewrite nth_error_map, Ei. reflexivity.
      * rewrite set_nth_length by exact Lj. apply Forall_set_nth; [exact Hh|]. split; [exact G'|exact Lj].
Qed.

(** ** One object and its life *)
Record alike (ms : list omove) (j : nat) (b : bool) (l : list move) : Prop := {
  al_r : nth_error (r_objs (after ms)) j = Some (b, h_root (p_obj (life b l)));
  al_c : forall i r p, nth_error (snd (tale_of ms)) i = Some (j, r) -> nth_error (r_calls (after ms)) i = Some (j, p) -> nth_error (p_calls (life b l)) r = Some p;
  al_i : forall i i' r, nth_error (snd (tale_of ms)) i = Some (j, r) -> nth_error (snd (tale_of ms)) i' = Some (j, r) -> i = i';
  al_m : part_of (h_map (p_obj (life b l))) (r_map (after ms));
  al_l : incl (h_log (p_obj (life b l))) (r_log (after ms))
}.
Lemma fit_app : forall b l1 l2, fit b (l1 ++ l2) -> fit b l1.
Proof.
  intros b l1 l2 (Ko & F1 & F2). assert (I1 : incl (tkeys l1) (tkeys (l1 ++ l2))) by (unfold tkeys; rewrite calls_app, flat_map_app; apply incl_appl, incl_refl).
  split; [intros Eb; eapply nocoll_incl; [exact I1|exact (Ko Eb)]|]. split; [intros k Hk; apply F1, I1, Hk|]. intros lim k v Hi. apply (F2 lim k v). rewrite calls_app. apply in_or_app. auto.
Qed.
Lemma fit_nil : forall b, fit b [].
Proof. intros b. split; [intros _ x y []|]. split; [intros k []|intros lim k v []]. Qed.
Lemma calls_below : forall ms i j r, no_collision (r_log (after ms)) -> nth_error (snd (tale_of ms)) i = Some (j, r) -> j < length (r_objs (after ms)).
Proof.
  intros ms i j r N E. destruct (entire_all ms N) as [D O C Hh]. symmetry in C. destruct (fst_at _ _ _ _ _ _ _ _ C E) as [p Ep].
  rewrite Forall_forall in Hh. exact (proj2 (Hh _ (nth_error_In _ _ Ep))).
Qed.


Lemma tale_grows : forall ms m j b l, nth_error (fst (tale_of ms)) j = Some (b, l) -> exists l', nth_error (fst (tale_of (ms ++ [m]))) j = Some (b, l ++ l').
Proof.
  intros ms m j b l E. assert (Lj : j < length (fst (tale_of ms))) by (apply nth_error_Some; congruence).
  assert (Same : exists l', nth_error (fst (tale_of ms)) j = Some (b, l ++ l')) by (exists []; rewrite app_nil_r; exact E).
  rewrite tale_snoc. destruct m as [b'|j'|j' lim c|i]; cbn [tell].
  - exists []. cbn [fst]. rewrite nth_error_app1, app_nil_r by exact Lj. exact E.
  - destruct (nth_error (fst (tale_of ms)) j') as [[b' l']|]; [|exact Same]. exists []. cbn [fst]. rewrite nth_error_app1, app_nil_r by exact Lj. exact E.
  - destruct (nth_error (fst (tale_of ms)) j') as [[b' l']|] eqn:Ej; [|exact Same]. cbn [fst]. assert (Lj' : j' < length (fst (tale_of ms))) by (apply nth_error_Some; congruence).
    destruct (Nat.eq_dec j j') as [->|Nj]; [|rewrite set_off by auto; exact Same]. rewrite set_at by exact Lj'. rewrite E in Ej. injection Ej as <- <-. eauto.
  - destruct (nth_error (snd (tale_of ms)) i) as [[j' r]|]; [|exact Same].
    destruct (nth_error (fst (tale_of ms)) j') as [[b' l']|] eqn:Ej; [|exact Same]. cbn [fst]. assert (Lj' : j' < length (fst (tale_of ms))) by (apply nth_error_Some; congruence).
    destruct (Nat.eq_dec j j') as [->|Nj]; [|rewrite set_off by auto; exact Same]. rewrite set_at by exact Lj'. rewrite E in Ej. injection Ej as <- <-. eauto.
Qed.
Lemma fit_before : forall ms m, all_fit (ms ++ [m]) -> all_fit ms.
Proof. intros ms m F j b l E. destruct (tale_grows ms m j b l E) as [l' E']. eapply fit_app. exact (F _ _ _ E'). Qed.

Lemma alike_all : forall ms, no_collision (r_log (after ms)) -> all_fit ms -> forall j b l, nth_error (fst (tale_of ms)) j = Some (b, l) -> alike ms j b l.
Proof.
  induction ms as [|m ms IH] using rev_ind; intros N F j b l Ej; [destruct j; discriminate|].
  assert (N0 : no_collision (r_log (after ms))) by (rewrite oafter_snoc in N; eapply nocoll_incl; [apply olog1|exact N]).
  pose proof (fit_before _ _ F) as F0. specialize (IH N0 F0). pose proof (entire_all ms N0) as [D O C Hh]. pose proof (fun i j r => calls_below ms i j r N0) as Below.
  assert (Lo : length (fst (tale_of ms)) = length (r_objs (after ms))) by (rewrite <- (map_length fst), <- O, map_length; reflexivity).
  assert (Lc : length (snd (tale_of ms)) = length (r_calls (after ms))) by (rewrite <- (map_length fst), <- C, map_length; reflexivity).
  assert (Old : forall i r, nth_error (snd (tale_of ms)) i = Some (length (fst (tale_of ms)), r) -> False) by (intros i r Ei; apply Below in Ei; lia).
  assert (New : forall b' r, after (ms ++ [m]) = mkRealm (r_map (after ms)) (r_log (after ms)) (r_objs (after ms) ++ [(b', r)]) (r_calls (after ms)) ->
    snd (tale_of (ms ++ [m])) = snd (tale_of ms) -> alike ms j b l -> alike (ms ++ [m]) j b l).
  { intros b' r E1 E2 [A1 A2 A3 A4 A5]. constructor; rewrite ?E1, ?E2; auto. cbn [r_objs]. rewrite nth_error_app1; [exact A1|]. apply nth_error_Some. congruence. }
  assert (Start : forall r, after (ms ++ [m]) = mkRealm (r_map (after ms)) (r_log (after ms)) (r_objs (after ms) ++ [(b, r)]) (r_calls (after ms)) -> r = Some EMPTY_HASH ->
    snd (tale_of (ms ++ [m])) = snd (tale_of ms) -> j = length (fst (tale_of ms)) -> l = [] -> alike (ms ++ [m]) j b l).
  { intros r E1 Er E2 -> ->. constructor; rewrite ?E1, ?E2; cbn [r_map r_log r_objs r_calls]; try (intros; exfalso; eapply Old; eassumption).
    - rewrite Lo, nth_snoc, Er. reflexivity.
    - intros x y Hx. destruct b; discriminate.
    - intros x Hx. apply (olog ms realm0). destruct b; exact Hx. }
  assert (Keep : after (ms ++ [m]) = after ms -> tale_of (ms ++ [m]) = tale_of ms -> alike (ms ++ [m]) j b l).
  { intros E1 E2. rewrite E2 in Ej. destruct (IH _ _ _ Ej) as [A1 A2 A3 A4 A5]. constructor; rewrite ?E1, ?E2; auto. }
  destruct m as [b'|j'|j' lim c|i].
  - assert (E1 : after (ms ++ [ONew b']) = mkRealm (r_map (after ms)) (r_log (after ms)) (r_objs (after ms) ++ [(b', Some EMPTY_HASH)]) (r_calls (after ms))) by (rewrite oafter_snoc; reflexivity).
    assert (E2 : snd (tale_of (ms ++ [ONew b'])) = snd (tale_of ms)) by (rewrite tale_snoc; reflexivity).
    rewrite tale_snoc in Ej. cbn [tell fst] in Ej. destruct (nth_error_snoc _ _ _ _ _ Ej) as [Ej'|[-> Eb]].
    + eapply New; [exact E1|exact E2|]. exact (IH _ _ _ Ej').
    + injection Eb as <- ->. eapply Start; [exact E1|reflexivity|exact E2|reflexivity|reflexivity].
  - destruct (nth_error (fst (tale_of ms)) j') as [[b' l']|] eqn:Ej'.
    2: { apply Keep; rewrite ?oafter_snoc, ?tale_snoc; cbn [ogo tell]; [rewrite (fst_none _ _ _ _ _ _ (eq_sym O) Ej')|rewrite Ej']; reflexivity. }
    destruct (IH _ _ _ Ej') as [A1 A2 A3 A4 A5].
    assert (E1 : after (ms ++ [OOpen j']) = mkRealm (r_map (after ms)) (r_log (after ms)) (r_objs (after ms) ++ [(b', m_root (mpt_init (r_map (after ms)) (h_root (p_obj (life b' l'))) b'))]) (r_calls (after ms)))
      by (rewrite oafter_snoc; cbn [ogo]; rewrite A1; reflexivity).
    assert (E2 : snd (tale_of (ms ++ [OOpen j'])) = snd (tale_of ms)) by (rewrite tale_snoc; cbn [tell]; rewrite Ej'; reflexivity).
    rewrite tale_snoc in Ej. cbn [tell] in Ej. rewrite Ej' in Ej. cbn [fst] in Ej. destruct (nth_error_snoc _ _ _ _ _ Ej) as [Ej''|[-> Eb]].
    + eapply New; [exact E1|exact E2|]. exact (IH _ _ _ Ej'').
    + injection Eb as <- ->. unfold so_far in *. destruct (h_root (p_obj (life b l'))) as [rr|] eqn:Err.
      * constructor; rewrite ?E1, ?E2; cbn [r_map r_log r_objs r_calls]; auto; try (intros; exfalso; eapply Old; eassumption).
        rewrite Lo, nth_snoc, Err. reflexivity.
      * eapply Start; [exact E1|reflexivity|exact E2|reflexivity|reflexivity].
  - destruct (nth_error (fst (tale_of ms)) j') as [[b' l']|] eqn:Ej'.
    2: { apply Keep; rewrite ?oafter_snoc, ?tale_snoc; cbn [ogo tell]; [rewrite (fst_none _ _ _ _ _ _ (eq_sym O) Ej')|rewrite Ej']; reflexivity. }
    destruct (IH _ _ _ Ej') as [A1 A2 A3 A4 A5].
    assert (E1 : after (ms ++ [OCall j' lim c]) = mkRealm (r_map (after ms)) (r_log (after ms)) (r_objs (after ms)) (r_calls (after ms) ++ [(j', call_prog b' lim c)]))
      by (rewrite oafter_snoc; cbn [ogo]; rewrite A1; reflexivity).
    assert (E2 : tale_of (ms ++ [OCall j' lim c]) = (set_nth j' (b', l' ++ [MCall lim c]) (fst (tale_of ms)), snd (tale_of ms) ++ [(j', length (calls_of l'))])) by (rewrite tale_snoc; cbn [tell]; rewrite Ej'; reflexivity).
    assert (Lj' : j' < length (fst (tale_of ms))) by (apply nth_error_Some; congruence).
    rewrite E2 in Ej. cbn [fst] in Ej. destruct (Nat.eq_dec j j') as [->|Nj].
    + rewrite set_at in Ej by exact Lj'. injection Ej as <- <-.
      assert (Lt : forall i r, nth_error (snd (tale_of ms)) i = Some (j', r) -> r < length (calls_of l')).
      { intros i r Ei. rewrite <- (life_calls b' l'). apply nth_error_Some. destruct (fst_at _ _ _ _ _ _ _ _ (eq_sym C) Ei) as [p Ep]. rewrite (A2 _ _ _ Ei Ep). discriminate. }
      constructor; rewrite ?E1, ?E2, ?after_snoc; cbn [go p_calls p_obj r_map r_log r_objs r_calls fst snd]; auto.
      * intros i r p Ei Ep. destruct (nth_error_snoc _ _ _ _ _ Ei) as [Ei'|[-> Eb]].
        -- rewrite nth_error_app1 in Ep by (rewrite <- Lc; apply nth_error_Some; congruence). rewrite nth_error_app1 by (rewrite life_calls; eauto). eauto.
        -- injection Eb as ->. rewrite Lc, nth_snoc in Ep. injection Ep as <-. rewrite <- (life_calls b' l'), nth_snoc. reflexivity.
      * intros i i' r Ei Ei'. destruct (nth_error_snoc _ _ _ _ _ Ei) as [X|[-> Eb]]; destruct (nth_error_snoc _ _ _ _ _ Ei') as [X'|[-> Eb']]; [eauto| | |reflexivity].
        -- injection Eb' as ->. apply Lt in X. lia.
        -- injection Eb as ->. apply Lt in X'. lia.
    + rewrite set_off in Ej by auto. destruct (IH _ _ _ Ej) as [B1 B2 B3 B4 B5]. constructor; rewrite ?E1, ?E2; cbn [r_map r_log r_objs r_calls fst snd]; auto.
      * intros i r p Ei Ep. destruct (nth_error_snoc _ _ _ _ _ Ei) as [Ei'|[-> Eb]]; [|congruence].
        rewrite nth_error_app1 in Ep by (rewrite <- Lc; apply nth_error_Some; congruence). eauto.
      * intros i i' r Ei Ei'. destruct (nth_error_snoc _ _ _ _ _ Ei) as [X|[-> Eb]]; destruct (nth_error_snoc _ _ _ _ _ Ei') as [X'|[-> Eb']]; try congruence. eauto.
  - destruct (nth_error (snd (tale_of ms)) i) as [[j' r]|] eqn:Ei.
    2: { apply Keep; rewrite ?oafter_snoc, ?tale_snoc; cbn [ogo tell]; [rewrite (fst_none _ _ _ _ _ _ (eq_sym C) Ei)|rewrite Ei]; reflexivity. }
    destruct (fst_at _ _ _ _ _ _ _ _ (eq_sym C) Ei) as [p Ep]. pose proof (Below _ _ _ Ei) as Lj. rewrite <- Lo in Lj.
    destruct (nth_error (fst (tale_of ms)) j') as [[b' l']|] eqn:Ej'; [|apply nth_error_None in Ej'; lia].
    destruct (IH _ _ _ Ej') as [A1 A2 A3 A4 A5].
    assert (Hp : honest p) by (rewrite Forall_forall in Hh; exact (proj1 (Hh _ (nth_error_In _ _ Ep)))).
    set (s := p_obj (life b' l')) in *. set (sc := mkShared (r_map (after ms)) (r_log (after ms)) (h_root s)) in *.
    assert (E1 : after (ms ++ [OGo i]) = mkRealm (h_map (fst (access sc p))) (h_log (fst (access sc p))) (set_nth j' (b', h_root (fst (access sc p))) (r_objs (after ms))) (set_nth i (j', snd (access sc p)) (r_calls (after ms))))
      by (rewrite oafter_snoc; cbn [ogo]; rewrite Ep, A1; fold sc; destruct (access sc p); reflexivity).
    assert (E2 : tale_of (ms ++ [OGo i]) = (set_nth j' (b', l' ++ [MGo r]) (fst (tale_of ms)), snd (tale_of ms))) by (rewrite tale_snoc; cbn [tell]; rewrite Ei, Ej'; reflexivity).
    assert (Nf : no_collision (h_log (fst (access sc p)))) by (rewrite E1 in N; exact N).
    destruct (access_grows sc p Hp D Nf) as [_ Gp].
    assert (Li : i < length (r_calls (after ms))) by (apply nth_error_Some; congruence).
    rewrite E2 in Ej. cbn [fst] in Ej. destruct (Nat.eq_dec j j') as [->|Nj].
    + rewrite set_at in Ej by exact Lj. injection Ej as <- <-. destruct (F0 _ _ _ Ej') as [Ko Fi].
      pose proof (A2 _ _ _ Ei Ep) as Enth.
      assert (Miss : forall h k, p = PGet h k -> dget (h_map s) h = None -> dget (r_map (after ms)) h = None).
      { intros h k E Em. assert (Na : no_collision (h_log s)) by (eapply nocoll_incl; [exact A5|exact N0]).
        destruct (all_good keccak_len b' (tkeys l') Ko (proj1 Fi) l' (fit_calls b' l' Fi) Na) as (d & u & st & [B Ff Ll Lp A] & _).
        assert (Lr : r < length (p_calls (life b' l'))) by (apply nth_error_Some; congruence).
        destruct (nth_error st r) as [a|] eqn:Ea; [|apply nth_error_None in Ea; lia].
        destruct (nth_error (calls_of l') r) as [[lim c]|] eqn:Ec; [|apply nth_error_None in Ec; lia].
        assert (Eh : h = EMPTY_HASH).
        { eapply (no_miss keccak_len b' (tkeys l') Ko (proj1 Fi)); [exact Na| |exact (A _ _ _ _ _ Ec Enth Ea)|exact E|exact Em]. apply (fit_calls b' l' Fi lim c). eapply nth_error_In. exact Ec. }
        rewrite Eh. eapply no_empty; [exact D|exact N0]. }
      destruct (access_same s p (r_map (after ms)) (r_log (after ms)) A4 A5 Miss) as (Q1 & Q2 & Q3 & Q4). fold sc in Q1, Q2, Q3, Q4.
      assert (El : life b' (l' ++ [MGo r]) = mkPool (fst (access s p)) (set_nth r (snd (access s p)) (p_calls (life b' l')))).
      { rewrite after_snoc. cbn [go]. rewrite Enth. fold s. destruct (access s p). reflexivity. }
      constructor; rewrite ?E1, ?E2, ?El; cbn [p_calls p_obj r_map r_log r_objs r_calls fst snd]; auto.
      * rewrite set_at by lia. rewrite Q2. reflexivity.
      * intros i2 r2 p2 Ei2 Ep2. destruct (Nat.eq_dec i2 i) as [->|Ni].
        -- rewrite set_at in Ep2 by exact Li. injection Ep2 as <-. rewrite Ei in Ei2. injection Ei2 as <-. rewrite set_at by (apply nth_error_Some; congruence). rewrite Q1. reflexivity.
        -- rewrite set_off in Ep2 by auto. rewrite set_off; [eauto|apply nth_error_Some; congruence|]. intros ->. apply Ni. eauto.
    + rewrite set_off in Ej by auto. destruct (IH _ _ _ Ej) as [B1 B2 B3 B4 B5]. constructor; rewrite ?E1, ?E2; cbn [r_map r_log r_objs r_calls fst snd]; auto.
      * rewrite set_off by (auto; lia). exact B1.
      * intros i2 r2 p2 Ei2 Ep2. destruct (Nat.eq_dec i2 i) as [->|Ni]; [congruence|]. rewrite set_off in Ep2 by auto. eauto.
      * eapply part_trans; [exact B4|exact Gp].
      * eapply incl_tran; [exact B5|]. apply (access_log sc p).
Qed.

(** Every object is as its life makes it, and every call has an object. *)
Theorem lives : forall ms, all_fit ms -> no_collision (r_log (after ms)) ->
  length (r_objs (after ms)) = length (fst (tale_of ms)) /\ length (r_calls (after ms)) = length (snd (tale_of ms)) /\
  (forall j b l, nth_error (fst (tale_of ms)) j = Some (b, l) -> nth_error (r_objs (after ms)) j = Some (b, h_root (p_obj (life b l))) /\
     part_of (h_map (p_obj (life b l))) (r_map (after ms)) /\ incl (h_log (p_obj (life b l))) (r_log (after ms))) /\
  (forall i j r, nth_error (snd (tale_of ms)) i = Some (j, r) -> exists b l, nth_error (fst (tale_of ms)) j = Some (b, l) /\ oanswer (after ms) i = answer_of (life b l) r).
Proof.
  intros ms F N. pose proof (entire_all ms N) as [D O C Hh].
  assert (Lo : length (r_objs (after ms)) = length (fst (tale_of ms))) by (rewrite <- (map_length fst), O, map_length; reflexivity).
  split; [exact Lo|]. split; [rewrite <- (map_length fst), C, map_length; reflexivity|]. split.
  - intros j b l Ej. destruct (alike_all ms N F j b l Ej) as [A1 A2 A3 A4 A5]. auto.
  - intros i j r Ei. pose proof (calls_below ms i j r N Ei) as L. rewrite Lo in L. destruct (nth_error (fst (tale_of ms)) j) as [[b l]|] eqn:Ej; [|apply nth_error_None in Ej; lia].
    exists b, l. split; [reflexivity|]. destruct (alike_all ms N F j b l Ej) as [A1 A2 A3 A4 A5]. destruct (fst_at _ _ _ _ _ _ _ _ (eq_sym C) Ei) as [p Ep].
    unfold oanswer, answer_of. rewrite Ep, (A2 _ _ _ Ei Ep). reflexivity.
Qed.
End T.
