(** Calls on one MerkleTree object that come one after the other answer as in a program with one thread, whatever other threads read. *)
From Coq Require Import List Bool Arith NArith ZArith Lia.
From Verif Require Import Base BaseProofs ProofObj MptEq MerkleTree SpecMt MtProofs ThreadsPool EThreadsRun MtThreads SpecMtThreads MtThreadsRun.
Import ListNotations.

Section S.
Context {H : Hash}.
Variable secure : bool.
Notation at_ ms := (mrun (mpool_new secure) ms).

(** The calls that only look at the leaves do nothing else. *)
Definition steady (p : mpc) : bool := match p with CDone _ | CCount | CLeaf _ => true | _ => false end.
Lemma steady_step : forall t p, steady p = true -> fst (mstep t p) = t /\ steady (snd (mstep t p)) = true.
Proof. intros t p E. destruct p; try discriminate; split; reflexivity. Qed.
Lemma steady_run : forall ms i c p, nth_error (mcalls_of ms) i = Some c -> nth_error (y_calls (at_ ms)) i = Some p -> acts c = false -> steady p = true.
Proof.
  intros ms. induction ms as [|m ms IH] using rev_ind; intros i c p Ec Ep Ac; [destruct i; discriminate|]. rewrite mcalls_app in Ec. rewrite mrun_snoc in Ep. destruct m as [c'|j].
  - cbn [mgo y_calls mcalls_of flat_map app] in *. fold (mcalls_of ms) in *. apply nth_error_snoc in Ec as [Ec|[-> ->]].
    + rewrite nth_snoc_old in Ep by (rewrite run_len; eapply nth_lt, Ec). eauto.
    + rewrite <- (run_len secure), nth_snoc_new in Ep. injection Ep as <-. destruct c'; try discriminate; reflexivity.
  - cbn [mcalls_of flat_map] in Ec. rewrite app_nil_r in Ec. fold (mcalls_of ms) in Ec. destruct (nth_error (y_calls (at_ ms)) j) as [q|] eqn:Ej.
    2:{ rewrite (mgo_none _ _ Ej) in Ep. eauto. }
    rewrite (mgo_at _ _ _ Ej) in Ep. cbn [y_calls] in Ep. destruct (Nat.eq_dec i j) as [->|N].
    + rewrite (upd_same _ _ _ _ _ Ej) in Ep. injection Ep as <-. apply steady_step. eauto.
    + rewrite (upd_other _ _ _ _ _ _ Ej N) in Ep. eauto.
Qed.

Definition upto (w : mpool) (l : list mtcmd) (n : nat) : list (option mtout) :=
  flat_map (fun i => match nth_error l i with Some x => if acts x then [manswer_of w i] else [] | None => [] end) (List.seq 0 n).
Notation acting ms := (filter acts (mcalls_of ms)).
Definition working (ms : list mmove) (w : mpool) : Prop :=
  exists i c p os t, nth_error (mcalls_of ms) i = Some c /\ acts c = true /\ nth_error (y_calls w) i = Some p /\
    (forall i' x, i < i' -> nth_error (mcalls_of ms) i' = Some x -> acts x = false) /\
    (forall i' x, i' < i -> nth_error (mcalls_of ms) i' = Some x -> acts x = true -> exists o, nth_error (y_calls w) i' = Some (CDone o)) /\
    upto w (mcalls_of ms) i = map Some os /\
    mt_turn (mt_new secure) (filter acts (firstn i (mcalls_of ms))) = (os, t) /\
    comes (y_obj w) p (snd (msingle t c)) (CDone (fst (msingle t c))).
Definition idle (ms : list mmove) (w : mpool) : Prop :=
  (forall i x, nth_error (mcalls_of ms) i = Some x -> acts x = false) /\ y_obj w = mt_new secure.

Lemma flat_ext : forall A B (f g : A -> list B) l, (forall x, In x l -> f x = g x) -> flat_map f l = flat_map g l.
Proof. intros A B f g l E. induction l as [|x l IH]; [reflexivity|]. cbn. rewrite E by now left. rewrite IH; [reflexivity|]. intros y I. apply E. now right. Qed.
Lemma filter_none : forall A (f : A -> bool) l, (forall i x, nth_error l i = Some x -> f x = false) -> filter f l = [].
Proof. intros A f l. induction l as [|x l IH]; intros E; [reflexivity|]. cbn. rewrite (E 0 x eq_refl). apply IH. intros i y Ei. exact (E (S i) y Ei). Qed.
Lemma upto_ext : forall w w' l l' n, (forall i, i < n -> nth_error l i = nth_error l' i) ->
  (forall i x, i < n -> nth_error l i = Some x -> acts x = true -> manswer_of w i = manswer_of w' i) -> upto w l n = upto w' l' n.
Proof.
  intros w w' l l' n El Ew. apply flat_ext. intros i I. apply in_seq in I. rewrite <- (El i) by lia. destruct (nth_error l i) as [x|] eqn:Ex; [|reflexivity].
  destruct (acts x) eqn:Wx; [|reflexivity]. rewrite (Ew i x); auto; lia.
Qed.
Lemma turn_app : forall l1 l2 t, mt_turn t (l1 ++ l2) = (fst (mt_turn t l1) ++ fst (mt_turn (snd (mt_turn t l1)) l2), snd (mt_turn (snd (mt_turn t l1)) l2)).
Proof.
  induction l1 as [|c l1 IH]; intros l2 t; cbn [app mt_turn].
  - cbn [fst snd app]. apply surjective_pairing.
  - destruct (msingle t c) as [o t1]. rewrite IH. destruct (mt_turn t1 l1) as [os t2]. cbn [fst snd]. destruct (mt_turn t2 l2). reflexivity.
Qed.
Lemma acting_last : forall ms i c, nth_error (mcalls_of ms) i = Some c -> acts c = true ->
  (forall i' x, i < i' -> nth_error (mcalls_of ms) i' = Some x -> acts x = false) -> acting ms = filter acts (firstn i (mcalls_of ms)) ++ [c].
Proof.
  intros ms i c Ei Wc No. destruct (split_at _ _ _ _ Ei) as [El Ll]. rewrite El at 1. rewrite filter_app. f_equal. cbn [filter]. rewrite Wc. f_equal.
  apply filter_none. intros j x Ej. apply (No (i + 1 + j)); [lia|]. rewrite El. rewrite nth_error_app2 by lia. rewrite Ll. replace (i + 1 + j - i) with (S j) by lia. exact Ej.
Qed.
Lemma answers_last : forall ms w i c, nth_error (mcalls_of ms) i = Some c -> acts c = true ->
  (forall i' x, i < i' -> nth_error (mcalls_of ms) i' = Some x -> acts x = false) -> sanswers acts w ms = upto w (mcalls_of ms) i ++ [manswer_of w i].
Proof.
  intros ms w i c Ei Wc No. unfold sanswers, upto. pose proof (nth_lt _ _ _ _ Ei) as L. replace (length (mcalls_of ms)) with (i + S (length (mcalls_of ms) - S i)) by lia.
  rewrite seq_app, flat_map_app. f_equal. cbn [Nat.add List.seq flat_map]. rewrite Ei, Wc. cbn [app]. f_equal.
  rewrite (flat_ext _ _ _ (fun _ => [])); [induction (List.seq _ _); auto|].
  intros j I. apply in_seq in I. destruct (nth_error (mcalls_of ms) j) as [x|] eqn:Ej; [|reflexivity]. rewrite (No j x); auto; lia.
Qed.
Lemma no_answers : forall ms w, (forall i x, nth_error (mcalls_of ms) i = Some x -> acts x = false) -> sanswers acts w ms = [].
Proof.
  intros ms w No. unfold sanswers. rewrite (flat_ext _ _ _ (fun _ => [])); [induction (List.seq _ _); auto|].
  intros j _. destruct (nth_error (mcalls_of ms) j) as [x|] eqn:Ej; [|reflexivity]. rewrite (No j x); auto.
Qed.
Lemma apart_init : forall sel ms m, apart secure sel (ms ++ [m]) -> apart secure sel ms.
Proof. intros sel ms m O m1 m2 c i c' E. eapply (O m1 (m2 ++ [m])). rewrite E, <- app_assoc. reflexivity. Qed.

Lemma serial : forall ms, apart secure acts ms -> idle ms (at_ ms) \/ working ms (at_ ms).
Proof.
  intros ms. induction ms as [|m ms IH] using rev_ind; intros O.
  - left. split; [intros [|i]; discriminate|reflexivity].
  - specialize (IH (apart_init _ _ _ O)). rewrite mrun_snoc. pose proof (run_len secure ms) as Len. pose proof (run_secure secure ms) as Sec. pose proof (steady_run ms) as St.
    set (w := at_ ms) in *. destruct m as [c|i].
    + assert (Ec : mcalls_of (ms ++ [QCall c]) = mcalls_of ms ++ [c]) by (rewrite mcalls_app; reflexivity).
      destruct (acts c) eqn:Wc.
      * right. exists (length (mcalls_of ms)), c, (mcall (t_secure (y_obj w)) c), (fst (mt_turn (mt_new secure) (acting ms))), (snd (mt_turn (mt_new secure) (acting ms))).
        rewrite Ec. cbn [mgo y_calls y_obj]. rewrite nth_snoc_new. rewrite <- Len at 1. rewrite nth_snoc_new.
        assert (Prev : forall i' x, nth_error (mcalls_of ms) i' = Some x -> acts x = true -> exists o, nth_error (y_calls w) i' = Some (CDone o)).
        { intros i' c' Ei Wi. pose proof (O ms [] c i' c' eq_refl Wc Ei Wi) as A. unfold manswer_of in A. fold w in A. destruct (nth_error (y_calls w) i') as [p|]; [|contradiction].
          destruct p; cbn [manswer] in A; try contradiction. eauto. }
        assert (Old : sanswers acts w ms = map Some (fst (mt_turn (mt_new secure) (acting ms))) /\ y_obj w = snd (mt_turn (mt_new secure) (acting ms))).
        { destruct IH as [[No Ew]|[i [c0 [p [os [t [Ei [Wi [Ep [No [_ [Es [Ee Ev]]]]]]]]]]]]].
          - rewrite (filter_none _ _ _ No), (no_answers _ _ No). split; [reflexivity|exact Ew].
          - rewrite (acting_last _ _ _ Ei Wi No), (answers_last _ _ _ _ Ei Wi No), turn_app, Ee, Es. cbn [fst snd mt_turn]. destruct (Prev _ _ Ei Wi) as [o Eo].
            rewrite Ep in Eo. injection Eo as ->. unfold manswer_of. rewrite Ep. cbn [manswer]. apply comes_done in Ev as [-> ->].
            destruct (msingle t c0) as [o1 t1]. cbn [fst snd] in *. rewrite map_app. split; reflexivity. }
        destruct Old as [Old Now].
        split; [reflexivity|]. split; [exact Wc|]. split; [reflexivity|]. split; [|split; [|split; [|split]]].
        -- intros i' x L Ei. apply nth_lt in Ei. rewrite app_length in Ei. cbn in Ei. lia.
        -- intros i' x L Ei Wi. rewrite nth_snoc_old in Ei by lia. rewrite nth_snoc_old by lia. eauto.
        -- rewrite <- Old. apply upto_ext.
           ++ intros i' L. apply nth_snoc_old. exact L.
           ++ intros i' x L _ _. unfold manswer_of. cbn [y_calls]. rewrite nth_snoc_old by lia. reflexivity.
        -- rewrite firstn_app, firstn_all, Nat.sub_diag. cbn [firstn]. rewrite app_nil_r. apply surjective_pairing.
        -- rewrite <- Now. apply call_comes.
      * destruct IH as [[No Ew]|[i [c0 [p [os [t [Ei [Wi [Ep [No [Pr [Es [Ee Ev]]]]]]]]]]]]].
        -- left. split; [|exact Ew]. rewrite Ec. intros i x Ei. apply nth_error_snoc in Ei as [Ei|[_ ->]]; [eauto|exact Wc].
        -- right. pose proof (nth_lt _ _ _ _ Ei) as L. exists i, c0, p, os, t. rewrite Ec. cbn [mgo y_calls y_obj]. rewrite !nth_snoc_old by lia.
           split; [exact Ei|]. split; [exact Wi|]. split; [exact Ep|]. split; [|split; [|split; [|split]]].
           ++ intros i' x L' Ei'. apply nth_error_snoc in Ei' as [Ei'|[_ ->]]; [eauto|exact Wc].
           ++ intros i' x L' Ei' Wi'. rewrite nth_snoc_old in Ei' by lia. rewrite nth_snoc_old by lia. eauto.
           ++ rewrite <- Es. apply upto_ext.
              ** intros i' L'. apply nth_snoc_old. lia.
              ** intros i' x L' _ _. unfold manswer_of. cbn [y_calls]. rewrite nth_snoc_old by lia. reflexivity.
           ++ rewrite firstn_app. replace (i - length (mcalls_of ms)) with 0 by lia. cbn [firstn]. rewrite app_nil_r. exact Ee.
           ++ exact Ev.
    + assert (Ec : mcalls_of (ms ++ [QGo i]) = mcalls_of ms) by (rewrite mcalls_app; cbn; apply app_nil_r).
      destruct (nth_error (y_calls w) i) as [p|] eqn:Ep.
      2:{ rewrite (mgo_none _ _ Ep). unfold idle, working. rewrite Ec. exact IH. }
      rewrite (mgo_at _ _ _ Ep). destruct (nth_error (mcalls_of ms) i) as [ci|] eqn:Eci.
      2:{ apply nth_lt in Ep. apply nth_error_None in Eci. lia. }
      assert (Rd : acts ci = false -> fst (mstep (y_obj w) p) = y_obj w) by (intros Wi; apply steady_step; eauto).
      destruct IH as [[No Ew]|[i0 [c0 [p0 [os [t [Ei [Wi [Ep0 [No [Pr [Es [Ee Ev]]]]]]]]]]]]].
      * left. split; [rewrite Ec; exact No|]. cbn [y_obj]. rewrite (Rd (No _ _ Eci)). exact Ew.
      * right. unfold working. rewrite Ec. cbn [y_calls y_obj]. set (r := mstep (y_obj w) p) in *.
        assert (Keep : forall i' x, i' < i0 -> nth_error (mcalls_of ms) i' = Some x -> acts x = true -> nth_error (upd i (snd r) (y_calls w)) i' = nth_error (y_calls w) i').
        { intros i' x L Ex Wx. destruct (Nat.eq_dec i' i) as [->|N]; [|apply (upd_other _ _ _ _ _ _ Ep N)]. destruct (Pr _ _ L Ex Wx) as [o Eo]. rewrite Ep in Eo. injection Eo as ->.
          rewrite (upd_same _ _ _ _ _ Ep), Ep. reflexivity. }
        assert (Common : forall p1, nth_error (upd i (snd r) (y_calls w)) i0 = Some p1 -> comes (fst r) p1 (snd (msingle t c0)) (CDone (fst (msingle t c0))) ->
          working (ms ++ [QGo i]) (mkMpool (fst r) (upd i (snd r) (y_calls w)))).
        { intros p1 E1 Ev1. exists i0, c0, p1, os, t. rewrite Ec. cbn [y_calls y_obj]. split; [exact Ei|]. split; [exact Wi|]. split; [exact E1|]. split; [exact No|]. split; [|split; [|split]].
          - intros i' x L Ex Wx. rewrite (Keep _ _ L Ex Wx). eauto.
          - rewrite <- Es. apply upto_ext; [reflexivity|]. intros i' x L Ex Wx. unfold manswer_of. cbn [y_calls]. rewrite (Keep _ _ L Ex Wx). reflexivity.
          - exact Ee.
          - exact Ev1. }
        cut (working (ms ++ [QGo i]) (mkMpool (fst r) (upd i (snd r) (y_calls w)))); [unfold working; rewrite Ec; auto|].
        destruct (Nat.eq_dec i i0) as [->|N].
        -- rewrite Ep in Ep0. injection Ep0 as <-. apply (Common (snd r)); [apply (upd_same _ _ _ _ _ Ep)|]. apply comes_after. exact Ev.
        -- apply (Common p0); [rewrite (upd_other _ _ _ _ _ _ Ep); auto|].
           assert (R : fst r = y_obj w).
           { destruct (acts ci) eqn:Wci; [|auto]. destruct (Nat.lt_ge_cases i i0) as [L|L].
             - destruct (Pr _ _ L Eci Wci) as [o Eo]. rewrite Ep in Eo. injection Eo as ->. reflexivity.
             - assert (L' : i0 < i) by lia. pose proof (No _ _ L' Eci) as X. congruence. }
           rewrite R. exact Ev.
Qed.

Theorem serially : forall ms, apart secure acts ms ->
  (forall n o, nth_error (sanswers acts (at_ ms) ms) n = Some (Some o) -> nth_error (fst (mt_turn (mt_new secure) (acting ms))) n = Some o) /\
  (~ In None (sanswers acts (at_ ms) ms) ->
   sanswers acts (at_ ms) ms = map Some (fst (mt_turn (mt_new secure) (acting ms))) /\ y_obj (at_ ms) = snd (mt_turn (mt_new secure) (acting ms))).
Proof.
  intros ms O. destruct (serial ms O) as [[No Ew]|[i [c [p [os [t [Ei [Wi [Ep [No [_ [Es [Ee Ev]]]]]]]]]]]]].
  - rewrite (filter_none _ _ _ No), (no_answers _ _ No). split; [intros [|n] o; discriminate|auto].
  - rewrite (acting_last _ _ _ Ei Wi No), (answers_last _ _ _ _ Ei Wi No), turn_app, Ee, Es. cbn [fst snd mt_turn]. unfold manswer_of. rewrite Ep.
    assert (Done : forall o, manswer p = Some o -> o = fst (msingle t c) /\ y_obj (at_ ms) = snd (msingle t c)).
    { intros o Eo. destruct p; try discriminate. injection Eo as ->. apply comes_done in Ev as [-> Ev]. split; [reflexivity|exact Ev]. }
    destruct (msingle t c) as [o1 t1] eqn:Eo1. cbn [fst snd] in *. split.
    + intros n o En. apply nth_error_snoc in En as [En|[-> En]].
      * rewrite nth_error_map in En. destruct (nth_error os n) as [a|] eqn:Ea; [|discriminate]. injection En as ->. rewrite nth_snoc_old by (eapply nth_lt, Ea). exact Ea.
      * rewrite map_length. symmetry in En. destruct (Done _ En) as [-> _]. apply nth_snoc_new.
    + intros NN. destruct (manswer p) as [o|]; [|exfalso; apply NN, in_app_iff; right; now left]. destruct (Done o eq_refl) as [-> Now]. rewrite map_app. split; [reflexivity|exact Now].
Qed.
End S.
