(** One writer on one EMPT object: its calls answer as if they had been made alone. *)
From Coq Require Import List Bool Arith NArith ZArith Lia.
From Verif Require Import Base BaseProofs Rlp NibblePath Node ProofObj Mpt StoreProofs Empt SpecEvery MptPy SpecMptEvery Threads SpecThreads ThreadsSeq ThreadsPool ThreadsAlone
  EThreads SpecEThreads EThreadsRun.
Import ListNotations.

Section S.
Context {H : Hash}.
Variable secure : bool.
Notation start := (epool_new secure).
Notation after ms := (erun secure start ms).

Definition as_mpt (s : shared) : mpt := mkMpt (h_map s) (h_log s) (h_root s) secure.
(** What the rest of a call does when it runs alone. *)
Fixpoint ev (p : eprog) (cs : list (prog tout)) (s : shared) (d : dict value) : option eout * empt :=
  match p with
  | EDone o => (Some o, mkEmpt d (as_mpt s))
  | EData k f => ev (f (dget d k)) cs s d
  | EStore k v p => ev p cs s (dset d k v)
  | EDrop k f => match dget d k with None => ev (f false) cs s d | Some _ => ev (f true) cs s (ddel d k) end
  | ETrie lim c f => match solo (call_prog secure lim c) s with (Ok o, s') => ev (f o) cs s' d | (Err _, s') => (None, mkEmpt d (as_mpt s')) end
  | EWait j f => match nth_error cs j with
                 | Some q => match solo q s with (Ok o, s') => ev (f o) cs s' d | (Err _, s') => (None, mkEmpt d (as_mpt s')) end
                 | None => (None, mkEmpt d (as_mpt s))
                 end
  end.
Lemma ev_plainly : forall p cs cs' s d, plainly p -> ev p cs s d = ev p cs' s d.
Proof.
  induction p as [o|k f IH|k v p IH|k f IH|lim c f IH|j f IH]; intros cs cs' s d P; cbn [ev plainly] in *; auto.
  - destruct (dget d k); auto.
  - destruct (solo _ s) as [[o|e] s']; auto.
  - contradiction.
Qed.
Lemma ev_ok : forall p cs cs' s d, waits_ok p -> (forall j f, p = EWait j f -> nth_error cs' j = nth_error cs j) -> ev p cs' s d = ev p cs s d.
Proof.
  intros p cs cs' s d P W. destruct p as [o|k f|k v p|k f|lim c f|j f]; try (apply ev_plainly; exact P). cbn [ev]. rewrite (W _ _ eq_refl).
  destruct (nth_error cs j) as [q|]; [|reflexivity]. destruct (solo q s) as [[o|e] s']; [|reflexivity]. apply ev_plainly, P.
Qed.

(** A step of the call itself. *)
Lemma ev_step : forall t d p, waits_ok p -> (forall j f, p = EWait j f -> exists q, nth_error (p_calls t) j = Some q) ->
  let r := estep secure t d p in
  ev (snd r) (p_calls (fst (fst r))) (p_obj (fst (fst r))) (snd (fst r)) = ev p (p_calls t) (p_obj t) d.
Proof.
  intros t d p P Wt. destruct p as [o|k f|k v p|k f|lim c f|j f]; cbn [estep fst snd].
  - reflexivity.
  - reflexivity.
  - reflexivity.
  - cbn [ev]. destruct (dget d k); reflexivity.
  - cbn [ev go p_obj p_calls]. rewrite nth_snoc_new. destruct (solo _ _) as [[o|e] s']; [|reflexivity]. apply ev_plainly, P.
  - destruct (Wt _ _ eq_refl) as [q Eq]. rewrite (go_mid_answer secure _ _ _ Eq), (go_mid secure _ _ _ Eq). cbn [p_obj p_calls]. cbn [waits_ok] in P.
    cbn [ev]. rewrite Eq, access_solo. destruct (answer (snd (access (p_obj t) q))) as [o|] eqn:Eo.
    + unfold answer in Eo. destruct (snd (access (p_obj t) q)) as [[o'|]| | | |] eqn:Eq2; try discriminate. injection Eo as ->. cbn [solo]. apply ev_plainly, P.
    + cbn [ev]. rewrite (upd_same _ _ _ _ _ Eq). destruct (solo _ _) as [[o|e] s']; [|reflexivity]. apply ev_plainly, P.
Qed.
(** A step of a call that only reads. *)
Lemma reader_step : forall t d p, looks p -> (forall j f q, p = EWait j f -> nth_error (p_calls t) j = Some q -> reads_only q) ->
  let r := estep secure t d p in p_obj (fst (fst r)) = p_obj t /\ snd (fst r) = d.
Proof.
  intros t d p L R. destruct p as [o|k f|k v p|k f|lim c f|j f]; cbn [estep fst snd looks] in *; auto; try contradiction.
  split; [|reflexivity]. destruct (nth_error (p_calls t) j) as [q|] eqn:Eq.
  - rewrite (go_mid secure _ _ _ Eq). cbn [p_obj]. apply access_reads. eapply R; eauto.
  - cbn [go]. rewrite Eq. reflexivity.
Qed.
(** Another call waits for another call of the trie. *)
Lemma step_calls : forall t d p j q, nth_error (p_calls t) j = Some q -> (forall f, p <> EWait j f) ->
  nth_error (p_calls (fst (fst (estep secure t d p)))) j = Some q.
Proof.
  intros t d p j q Eq N. destruct p as [o|k f|k v p|k f|lim c f|j' f]; cbn [estep fst snd]; auto.
  - destruct (dget d k); auto.
  - cbn [go p_calls]. rewrite nth_snoc_old; [exact Eq|eapply nth_lt, Eq].
  - destruct (nth_error (p_calls t) j') as [q'|] eqn:Eq'.
    + rewrite (go_mid secure _ _ _ Eq'). cbn [p_calls]. rewrite (upd_other _ _ _ _ _ _ Eq'); [exact Eq|]. intros ->. eapply N. reflexivity.
    + cbn [go]. rewrite Eq'. exact Eq.
Qed.

Hypothesis keccak_len : forall b, length (keccak b) = 32.

Lemma of_as : forall t, m_secure t = secure -> as_mpt (of_mpt t) = t.
Proof. intros [m l r s] E. cbn in E. subst s. reflexivity. Qed.
Lemma single_secure : forall lim t c, m_secure t = secure -> m_secure (snd (single lim t c)) = secure.
Proof.
  intros lim t c Es. destruct c as [k|k|k v|k|tm k| |]; cbn [single snd]; try exact Es.
  - unfold mpt_update, run_op. destruct (update_ _ _ _ _ _) as [[]]; exact Es.
  - unfold mpt_delete, run_op. destruct (root_is_empty _); [exact Es|]. destruct (delete_ _ _ _ _) as [[]]; exact Es.
Qed.
Lemma solo_as : forall lim s c, 0 < lim -> solo (call_prog secure lim c) s = (Ok (fst (single lim (as_mpt s) c)), of_mpt (snd (single lim (as_mpt s) c))).
Proof. intros lim s c L. exact (solo_call secure keccak_len s lim c L). Qed.

(** A call alone is the call of Empt.v. *)
Lemma ev_call : forall lim c cs s d, 0 < lim ->
  ev (e_call lim c) cs s d = (Some (fst (esingle lim (mkEmpt d (as_mpt s)) c)), snd (esingle lim (mkEmpt d (as_mpt s)) c)).
Proof.
  intros lim c cs s d L. assert (Sec : forall c', m_secure (snd (single lim (as_mpt s) c')) = secure) by (intros; apply single_secure; reflexivity).
  assert (Oas : forall c', as_mpt (of_mpt (snd (single lim (as_mpt s) c'))) = snd (single lim (as_mpt s) c')) by (intros; apply of_as, Sec).
  assert (Ss : of_mpt (as_mpt s) = s) by (destruct s; reflexivity).
  destruct c as [k|k|k|k v|k|tm k| |]; cbn [e_call esingle].
  - unfold e_get, empt_get. cbn [ev e_data e_trie]. destruct (dget d k) as [v|]; [|reflexivity]. cbn [ev]. rewrite (solo_as _ _ _ L). cbn [single fst snd ev]. rewrite Ss. reflexivity.
  - unfold e_ref, empt_get_reference, trie_reference. cbn [ev e_data e_trie]. rewrite (solo_as _ _ _ L). cbn [single fst snd ev]. rewrite Ss. reflexivity.
  - unfold e_in, empt_contains. cbn [ev e_data e_trie]. rewrite (solo_as _ _ _ L). cbn [single fst snd ev]. rewrite Ss. reflexivity.
  - unfold e_put, empt_update. cbn [e_data e_trie]. destruct (bind _ _) as [rb|x]; [|reflexivity]. cbn [ev]. rewrite (solo_as _ _ _ L). specialize (Oas (TPut k rb)). cbn [single] in *.
    destruct (mpt_update lim [] (as_mpt s) k rb) as [[[]|x] t]; cbn [fst snd ev] in *; rewrite Oas; reflexivity.
  - unfold e_del, empt_delete. cbn [e_data e_trie]. cbn [ev]. rewrite (solo_as _ _ _ L). cbn [single fst snd ev]. rewrite Ss.
    destruct (mpt_contains lim (as_mpt s) k) as [[|]|x]; cbn [ev]; try reflexivity.
    destruct (dget d k) as [v|]; [|reflexivity]. cbn [ev]. rewrite (solo_as _ _ _ L). specialize (Oas (TDel k)). cbn [single] in *.
    destruct (mpt_delete lim [] (as_mpt s) k) as [r t]; cbn [fst snd ev] in *. rewrite Oas. reflexivity.
  - unfold e_poi. cbn [ev e_data e_trie]. rewrite (solo_as _ _ _ L). cbn [single fst snd ev]. rewrite Ss. reflexivity.
  - unfold e_opt. cbn [ev e_data e_trie]. rewrite (solo_as _ _ _ L). cbn [single fst snd ev]. rewrite Ss. reflexivity.
  - unfold e_opt. cbn [ev e_data e_trie]. rewrite (solo_as _ _ _ L). cbn [single fst snd ev]. rewrite Ss. reflexivity.
Qed.

(** ** One writer *)
Definition wupto (w : epool) (l : list (nat * ecmd)) (n : nat) : list (option eout) :=
  flat_map (fun i => match nth_error l i with Some x => if is_ewrite (snd x) then [eanswer_of w i] else [] | None => [] end) (List.seq 0 n).
Notation now w := (eobject secure w).
Definition evw (w : epool) (p : eprog) := ev p (p_calls (x_trie w)) (p_obj (x_trie w)) (x_data w).

Definition writing (ms : list emove) (w : epool) : Prop :=
  exists i lim c p os e, nth_error (ecalls_of ms) i = Some (lim, c) /\ is_ewrite c = true /\ nth_error (x_calls w) i = Some p /\
    (forall i' x, i < i' -> nth_error (ecalls_of ms) i' = Some x -> is_ewrite (snd x) = false) /\
    (forall i' x, i' < i -> nth_error (ecalls_of ms) i' = Some x -> is_ewrite (snd x) = true -> exists o, nth_error (x_calls w) i' = Some (EDone o)) /\
    wupto w (ecalls_of ms) i = map Some os /\
    in_turn (empt_new secure) (filter (fun x => is_ewrite (snd x)) (firstn i (ecalls_of ms))) = (os, e) /\
    evw w p = (Some (fst (esingle lim e c)), snd (esingle lim e c)).
Definition silent (ms : list emove) (w : epool) : Prop :=
  (forall i x, nth_error (ecalls_of ms) i = Some x -> is_ewrite (snd x) = false) /\ now w = empt_new secure.

Lemma flat_ext : forall A B (f g : A -> list B) l, (forall x, In x l -> f x = g x) -> flat_map f l = flat_map g l.
Proof. intros A B f g l E. induction l as [|x l IH]; [reflexivity|]. cbn. rewrite E by now left. rewrite IH; [reflexivity|]. intros y I. apply E. now right. Qed.
Lemma filter_none : forall A (f : A -> bool) l, (forall i x, nth_error l i = Some x -> f x = false) -> filter f l = [].
Proof. intros A f l. induction l as [|x l IH]; intros E; [reflexivity|]. cbn. rewrite (E 0 x eq_refl). apply IH. intros i y Ei. exact (E (S i) y Ei). Qed.
Lemma wupto_ext : forall w w' l l' n, (forall i, i < n -> nth_error l i = nth_error l' i) ->
  (forall i x, i < n -> nth_error l i = Some x -> is_ewrite (snd x) = true -> eanswer_of w i = eanswer_of w' i) -> wupto w l n = wupto w' l' n.
Proof.
  intros w w' l l' n El Ew. apply flat_ext. intros i I. apply in_seq in I. rewrite <- (El i) by lia. destruct (nth_error l i) as [x|] eqn:Ex; [|reflexivity].
  destruct (is_ewrite (snd x)) eqn:Wx; [|reflexivity]. rewrite (Ew i x); auto; lia.
Qed.
Lemma in_turn_app : forall l1 l2 e, in_turn e (l1 ++ l2) =
  (fst (in_turn e l1) ++ fst (in_turn (snd (in_turn e l1)) l2), snd (in_turn (snd (in_turn e l1)) l2)).
Proof.
  induction l1 as [|[lim c] l1 IH]; intros l2 e; cbn [app in_turn].
  - cbn [fst snd app]. apply surjective_pairing.
  - destruct (esingle lim e c) as [o e1]. rewrite IH. destruct (in_turn e1 l1) as [os e2]. cbn [fst snd]. destruct (in_turn e2 l2). reflexivity.
Qed.
(** All the writes, when the last one is number [i]. *)
Lemma writes_last : forall ms i lim c, nth_error (ecalls_of ms) i = Some (lim, c) -> is_ewrite c = true ->
  (forall i' x, i < i' -> nth_error (ecalls_of ms) i' = Some x -> is_ewrite (snd x) = false) ->
  ewrites ms = filter (fun x => is_ewrite (snd x)) (firstn i (ecalls_of ms)) ++ [(lim, c)].
Proof.
  intros ms i lim c Ei Wc No. unfold ewrites. destruct (split_at _ _ _ _ Ei) as [El Ll]. rewrite El at 1. rewrite filter_app. f_equal. cbn [filter snd]. rewrite Wc. f_equal.
  apply filter_none. intros j x Ej. apply (No (i + 1 + j)); [lia|]. rewrite El. rewrite nth_error_app2 by lia. rewrite Ll. replace (i + 1 + j - i) with (S j) by lia. exact Ej.
Qed.
Lemma wanswers_last : forall ms w i lim c, nth_error (ecalls_of ms) i = Some (lim, c) -> is_ewrite c = true ->
  (forall i' x, i < i' -> nth_error (ecalls_of ms) i' = Some x -> is_ewrite (snd x) = false) ->
  wanswers w ms = wupto w (ecalls_of ms) i ++ [eanswer_of w i].
Proof.
  intros ms w i lim c Ei Wc No. unfold wanswers, wupto. pose proof (nth_lt _ _ _ _ Ei) as L. replace (length (ecalls_of ms)) with (i + S (length (ecalls_of ms) - S i)) by lia.
  rewrite seq_app, flat_map_app. f_equal. cbn [Nat.add List.seq flat_map]. rewrite Ei. cbn [snd]. rewrite Wc. cbn [app]. f_equal.
  rewrite (flat_ext _ _ _ (fun _ => [])); [induction (List.seq _ _); auto|].
  intros j I. apply in_seq in I. destruct (nth_error (ecalls_of ms) j) as [x|] eqn:Ej; [|reflexivity]. rewrite (No j x); auto; lia.
Qed.
Lemma ego_at : forall w i p, nth_error (x_calls w) i = Some p ->
  ego secure w (EGo i) = mkEpool (fst (fst (estep secure (x_trie w) (x_data w) p))) (snd (fst (estep secure (x_trie w) (x_data w) p))) (upd i (snd (estep secure (x_trie w) (x_data w) p)) (x_calls w)).
Proof. intros w i p E. cbn [ego]. rewrite E. destruct (estep _ _ _ p) as [[t d] p']. reflexivity. Qed.
Lemma one_ewriter_init : forall ms m, one_ewriter secure (ms ++ [m]) -> one_ewriter secure ms.
Proof. intros ms m O m1 m2 lim c i l' c' E. eapply (O m1 (m2 ++ [m])). rewrite E, <- app_assoc. reflexivity. Qed.

Lemma serial : forall ms, one_ewriter secure ms -> Forall (fun x => 0 < fst x) (ecalls_of ms) -> silent ms (after ms) \/ writing ms (after ms).
Proof.
  intros ms. induction ms as [|m ms IH] using rev_ind; intros O F.
  - left. split; [intros [|i]; discriminate|reflexivity].
  - rewrite ecalls_app in F. apply Forall_app in F as [F1 F2]. specialize (IH (one_ewriter_init _ _ O) F1). pose proof (kept_run secure ms) as K. rewrite erun_snoc.
    set (w := after ms) in *. destruct m as [lim c|i].
    + assert (Ec : ecalls_of (ms ++ [ECall lim c]) = ecalls_of ms ++ [(lim, c)]) by (rewrite ecalls_app; reflexivity).
      assert (Lc : 0 < lim) by (cbn in F2; inversion F2; auto). pose proof (kept_len _ _ K) as Len.
      destruct (is_ewrite c) eqn:Wc.
      * (* the writer makes its next call *)
        right. exists (length (ecalls_of ms)), lim, c, (e_call lim c), (fst (in_turn (empt_new secure) (ewrites ms))), (snd (in_turn (empt_new secure) (ewrites ms))).
        rewrite Ec. cbn [ego x_calls x_trie x_data]. rewrite nth_snoc_new. rewrite <- Len at 1. rewrite nth_snoc_new.
        assert (Prev : forall i' x, nth_error (ecalls_of ms) i' = Some x -> is_ewrite (snd x) = true -> exists o, nth_error (x_calls w) i' = Some (EDone o)).
        { intros i' [l' c'] Ei Wi. pose proof (O ms [] lim c i' l' c' eq_refl Wc Ei Wi) as A. unfold eanswer_of in A. fold w in A. destruct (nth_error (x_calls w) i') as [p|]; [|contradiction].
          destruct p; cbn [eanswer] in A; try contradiction. eauto. }
        assert (Old : wanswers w ms = map Some (fst (in_turn (empt_new secure) (ewrites ms))) /\ now w = snd (in_turn (empt_new secure) (ewrites ms))).
        { destruct IH as [[No Ew]|[i [lim0 [c0 [p [os [e [Ei [Wi [Ep [No [_ [Es [Ee Ev]]]]]]]]]]]]]].
          - assert (Z0 : ewrites ms = []) by (apply filter_none, No). rewrite Z0. cbn [in_turn fst snd map]. split; [|exact Ew]. unfold wanswers.
            rewrite (flat_ext _ _ _ (fun _ => [])); [induction (List.seq _ _); auto|].
            intros j _. destruct (nth_error (ecalls_of ms) j) as [x|] eqn:Ej; [|reflexivity]. rewrite (No j x); auto.
          - rewrite (writes_last _ _ _ _ Ei Wi No), (wanswers_last _ _ _ _ _ Ei Wi No), in_turn_app, Ee, Es. cbn [fst snd in_turn]. destruct (Prev _ _ Ei Wi) as [o Eo].
            rewrite Ep in Eo. injection Eo as ->. unfold evw in Ev. cbn [ev] in Ev. unfold eanswer_of. rewrite Ep. cbn [eanswer].
            destruct (esingle lim0 e c0) as [o1 e1]. cbn [fst snd] in *. injection Ev as -> Ev. rewrite map_app. split; [reflexivity|]. exact Ev. }
        destruct Old as [Old Now].
        split; [reflexivity|]. split; [exact Wc|]. split; [reflexivity|]. split; [|split; [|split; [|split]]].
        -- intros i' x L Ei. apply nth_lt in Ei. rewrite app_length in Ei. cbn in Ei. lia.
        -- intros i' x L Ei Wi. rewrite nth_snoc_old in Ei by lia. rewrite nth_snoc_old by lia. eauto.
        -- rewrite <- Old. unfold wanswers. apply wupto_ext.
           ++ intros i' L. apply nth_snoc_old. exact L.
           ++ intros i' x L _ _. unfold eanswer_of. cbn [x_calls]. rewrite nth_snoc_old by lia. reflexivity.
        -- rewrite firstn_app, firstn_all, Nat.sub_diag. cbn [firstn]. rewrite app_nil_r. fold (ewrites ms). apply surjective_pairing.
        -- unfold evw. cbn [x_trie x_data]. rewrite (ev_call _ _ _ _ _ Lc). rewrite <- Now. reflexivity.
      * (* a reader makes a call *)
        destruct IH as [[No Ew]|[i [lim0 [c0 [p [os [e [Ei [Wi [Ep [No [Pr [Es [Ee Ev]]]]]]]]]]]]]].
        -- left. split; [|exact Ew]. rewrite Ec. intros i x Ei. apply nth_error_snoc in Ei as [Ei|[_ ->]]; [eauto|exact Wc].
        -- right. pose proof (nth_lt _ _ _ _ Ei) as L. exists i, lim0, c0, p, os, e. rewrite Ec. cbn [ego x_calls]. rewrite !nth_snoc_old by lia.
           split; [exact Ei|]. split; [exact Wi|]. split; [exact Ep|]. split; [|split; [|split; [|split]]].
           ++ intros i' x L' Ei'. apply nth_error_snoc in Ei' as [Ei'|[_ ->]]; [eauto|exact Wc].
           ++ intros i' x L' Ei' Wi'. rewrite nth_snoc_old in Ei' by lia. rewrite nth_snoc_old by lia. eauto.
           ++ rewrite <- Es. apply wupto_ext.
              ** intros i' L'. apply nth_snoc_old. lia.
              ** intros i' x L' _ _. unfold eanswer_of. cbn [x_calls]. rewrite nth_snoc_old by lia. reflexivity.
           ++ rewrite firstn_app. replace (i - length (ecalls_of ms)) with 0 by lia. cbn [firstn]. rewrite app_nil_r. exact Ee.
           ++ exact Ev.
    + assert (Ec : ecalls_of (ms ++ [EGo i]) = ecalls_of ms) by (rewrite ecalls_app; cbn; apply app_nil_r).
      destruct (nth_error (x_calls w) i) as [p|] eqn:Ep.
      2:{ cbn [ego]. rewrite Ep. unfold silent, writing. rewrite Ec. exact IH. }
      rewrite (ego_at _ _ _ Ep). destruct (nth_error (ecalls_of ms) i) as [[limi ci]|] eqn:Eci.
      2:{ apply nth_lt in Ep. apply nth_error_None in Eci. pose proof (kept_len _ _ K). lia. }
      pose proof (kept_ok _ _ K _ _ Ep) as Pk.
      assert (Rd : is_ewrite ci = false -> p_obj (fst (fst (estep secure (x_trie w) (x_data w) p))) = p_obj (x_trie w) /\ snd (fst (estep secure (x_trie w) (x_data w) p)) = x_data w).
      { intros Wi. apply reader_step; [eapply kept_looks; eauto|]. intros j f q -> Eq. eapply kept_reads; eauto. }
      destruct IH as [[No Ew]|[i0 [lim0 [c0 [p0 [os [e [Ei [Wi [Ep0 [No [Pr [Es [Ee Ev]]]]]]]]]]]]]].
      * left. split; [rewrite Ec; exact No|]. destruct (Rd (No _ _ Eci)) as [R1 R2]. rewrite <- Ew. unfold eobject, object. cbn [x_trie x_data]. rewrite R1, R2. reflexivity.
      * right. unfold writing. rewrite Ec. cbn [x_calls]. set (r := estep secure (x_trie w) (x_data w) p) in *.
        assert (Keep : forall i' x, i' < i0 -> nth_error (ecalls_of ms) i' = Some x -> is_ewrite (snd x) = true -> nth_error (upd i (snd r) (x_calls w)) i' = nth_error (x_calls w) i').
        { intros i' x L Ex Wx. destruct (Nat.eq_dec i' i) as [->|N]; [|apply (upd_other _ _ _ _ _ _ Ep N)]. destruct (Pr _ _ L Ex Wx) as [o Eo]. rewrite Ep in Eo. injection Eo as ->.
          rewrite (upd_same _ _ _ _ _ Ep), Ep. reflexivity. }
        assert (Common : forall p1, nth_error (upd i (snd r) (x_calls w)) i0 = Some p1 -> evw (mkEpool (fst (fst r)) (snd (fst r)) (upd i (snd r) (x_calls w))) p1 = evw w p0 ->
          writing (ms ++ [EGo i]) (mkEpool (fst (fst r)) (snd (fst r)) (upd i (snd r) (x_calls w)))).
        { intros p1 E1 Ev1. exists i0, lim0, c0, p1, os, e. rewrite Ec. cbn [x_calls]. split; [exact Ei|]. split; [exact Wi|]. split; [exact E1|]. split; [exact No|]. split; [|split; [|split]].
          - intros i' x L Ex Wx. rewrite (Keep _ _ L Ex Wx). eauto.
          - rewrite <- Es. apply wupto_ext; [reflexivity|]. intros i' x L Ex Wx. unfold eanswer_of. cbn [x_calls]. rewrite (Keep _ _ L Ex Wx). reflexivity.
          - exact Ee.
          - rewrite Ev1. exact Ev. }
        cut (writing (ms ++ [EGo i]) (mkEpool (fst (fst r)) (snd (fst r)) (upd i (snd r) (x_calls w)))); [unfold writing; rewrite Ec; auto|].
        destruct (Nat.eq_dec i i0) as [->|N].
        -- rewrite Ep in Ep0. injection Ep0 as <-. apply (Common (snd r)); [apply (upd_same _ _ _ _ _ Ep)|]. unfold evw. cbn [x_trie x_data]. apply ev_step; [exact Pk|].
           intros j f ->. eapply kept_wait; eauto.
        -- apply (Common p0); [rewrite (upd_other _ _ _ _ _ _ Ep); auto|]. unfold evw. cbn [x_trie x_data].
           assert (R : p_obj (fst (fst r)) = p_obj (x_trie w) /\ snd (fst r) = x_data w).
           { destruct (is_ewrite ci) eqn:Wci; [|auto]. destruct (Nat.lt_ge_cases i i0) as [L|L].
             - destruct (Pr _ _ L Eci Wci) as [o Eo]. rewrite Ep in Eo. injection Eo as ->. split; reflexivity.
             - assert (L' : i0 < i) by lia. pose proof (No _ _ L' Eci) as X. cbn [snd] in X. congruence. }
           destruct R as [R1 R2]. rewrite R1, R2. apply ev_ok; [eapply kept_ok; eauto|].
           intros j f ->. destruct (kept_wait _ _ K _ _ _ Ep0) as [q Eq]. rewrite Eq. apply step_calls; [exact Eq|]. intros f' ->. apply N. eapply kept_diff; eauto.
Qed.

Theorem one_ewriter_serial : forall ms, one_ewriter secure ms -> Forall (fun x => 0 < fst x) (ecalls_of ms) ->
  (forall n o, nth_error (wanswers (after ms) ms) n = Some (Some o) -> nth_error (fst (in_turn (empt_new secure) (ewrites ms))) n = Some o) /\
  (~ In None (wanswers (after ms) ms) ->
   wanswers (after ms) ms = map Some (fst (in_turn (empt_new secure) (ewrites ms))) /\ now (after ms) = snd (in_turn (empt_new secure) (ewrites ms))).
Proof.
  intros ms O F. destruct (serial ms O F) as [[No Ew]|[i [lim [c [p [os [e [Ei [Wi [Ep [No [_ [Es [Ee Ev]]]]]]]]]]]]]].
  - assert (Z0 : ewrites ms = []) by (apply filter_none, No). rewrite Z0. cbn [in_turn fst snd map].
    assert (Zw : wanswers (after ms) ms = []).
    { unfold wanswers. rewrite (flat_ext _ _ _ (fun _ => [])); [induction (List.seq _ _); auto|].
      intros j _. destruct (nth_error (ecalls_of ms) j) as [x|] eqn:Ej; [|reflexivity]. rewrite (No j x); auto. }
    rewrite Zw. split; [intros [|n] o; discriminate|auto].
  - rewrite (writes_last _ _ _ _ Ei Wi No), (wanswers_last _ _ _ _ _ Ei Wi No), in_turn_app, Ee, Es. cbn [fst snd in_turn]. unfold eanswer_of. rewrite Ep.
    assert (Done : forall o, eanswer p = Some o -> o = fst (esingle lim e c) /\ now (after ms) = snd (esingle lim e c)).
    { intros o Eo. destruct p; try discriminate. injection Eo as ->. unfold evw in Ev. cbn [ev] in Ev. injection Ev as -> Ev. split; [reflexivity|exact Ev]. }
    destruct (esingle lim e c) as [o1 e1] eqn:Eo1. cbn [fst snd] in *. split.
    + intros n o En. apply nth_error_snoc in En as [En|[-> En]].
      * rewrite nth_error_map in En. destruct (nth_error os n) as [a|] eqn:Ea; [|discriminate]. injection En as ->. rewrite nth_snoc_old by (eapply nth_lt, Ea). exact Ea.
      * rewrite map_length. symmetry in En. destruct (Done _ En) as [-> _]. apply nth_snoc_new.
    + intros NN. destruct (eanswer p) as [o|]; [|exfalso; apply NN, in_app_iff; right; now left]. destruct (Done o eq_refl) as [-> Now]. rewrite map_app. split; [reflexivity|exact Now].
Qed.
End S.
