(** Many calls at a time: proofs about SpecThreads.v, continued. *)
From Coq Require Import List Bool Arith NArith ZArith Lia.
From Verif Require Import Base BaseProofs Rlp RlpProofs NibblePath NibbleProofs Node ProofObj Mpt Tree TreeEnc StoreProofs ReadProofs Spec SpecCodec
  MptRefine MptProofs SpecShared SimProofs SharedProofs SpecEmpt EmptFaultProofs SpecWalk SpecEvery MptPy SpecMptEvery MptEveryProofs Threads SpecThreads ThreadsSeq ThreadsProofs.
Import ListNotations.

Lemma nth_error_snoc : forall A (l : list A) a i x, nth_error (l ++ [a]) i = Some x -> nth_error l i = Some x \/ (i = length l /\ x = a).
Proof.
  intros A l a i x E. destruct (Nat.lt_ge_cases i (length l)) as [L|L].
  - left. rewrite nth_error_app1 in E by exact L. exact E.
  - rewrite nth_error_app2 in E by exact L. right. destruct (i - length l) as [|n] eqn:Ei; cbn in E; [|destruct n; discriminate].
    injection E as <-. split; [lia|reflexivity].
Qed.
Lemma split_at : forall A (l : list A) i x, nth_error l i = Some x -> l = firstn i l ++ x :: skipn (S i) l /\ length (firstn i l) = i.
Proof.
  induction l as [|y l IH]; intros [|i] x E; try discriminate.
  - injection E as ->. split; reflexivity.
  - destruct (IH i x E) as [E1 E2]. split; [cbn [firstn skipn app]; f_equal; exact E1|cbn [firstn length]; f_equal; exact E2].
Qed.
Lemma nth_put : forall A (l1 l2 : list A) a b j x, nth_error (l1 ++ a :: l2) j = Some x -> (j = length l1 /\ x = a) \/ (j <> length l1 /\ nth_error (l1 ++ b :: l2) j = Some x).
Proof.
  intros A l1 l2 a b j x E. destruct (Nat.lt_trichotomy j (length l1)) as [L|[L|L]].
  - right. split; [lia|]. rewrite nth_error_app1 in * by exact L. exact E.
  - left. split; [exact L|]. rewrite nth_error_app2 in E by lia. rewrite L, Nat.sub_diag in E. injection E as <-. reflexivity.
  - right. split; [lia|]. rewrite nth_error_app2 in * by lia. destruct (j - length l1) as [|n] eqn:Ej; [lia|]. exact E.
Qed.
Lemma nth_mid' : forall A (l1 l2 : list A) a, nth_error (l1 ++ a :: l2) (length l1) = Some a.
Proof. intros. rewrite nth_error_app2, Nat.sub_diag by lia. reflexivity. Qed.
Lemma calls_app : forall m1 m2, calls_of (m1 ++ m2) = calls_of m1 ++ calls_of m2.
Proof. intros. unfold calls_of. apply flat_map_app. Qed.
Lemma calls_go : forall ms i, calls_of (ms ++ [MGo i]) = calls_of ms.
Proof. intros. rewrite calls_app. apply app_nil_r. Qed.
Lemma calls_call : forall ms lim c, calls_of (ms ++ [MCall lim c]) = calls_of ms ++ [(lim, c)].
Proof. intros. rewrite calls_app. reflexivity. Qed.

Section T.
Context {H : Hash}.
Hypothesis keccak_len : forall b, length (keccak b) = 32.
Variables (secure : bool) (K : list bytes).
Hypothesis K_ok : keys_ok secure K.
Hypothesis K_small : forall k, In k K -> (blen k < 2 ^ 59)%N.
Notation after ms := (run_moves secure (pool_new secure) ms).

Lemma after_snoc : forall ms m, after (ms ++ [m]) = go secure (after ms) m.
Proof. intros. unfold run_moves. rewrite fold_left_app. reflexivity. Qed.
Lemma access_log : forall s p, incl (h_log s) (h_log (fst (access s p))).
Proof. intros s [r|h k|h e k|k|r k] x Hx; cbn [access fst h_log]; auto. right. exact Hx. Qed.
Lemma go_log : forall w m, incl (h_log (p_obj w)) (h_log (p_obj (go secure w m))).
Proof.
  intros w [lim c|i]; cbn [go]; [intros x Hx; exact Hx|]. destruct (nth_error (p_calls w) i) as [p|]; [|intros x Hx; exact Hx].
  pose proof (access_log (p_obj w) p) as L. destruct (access (p_obj w) p). exact L.
Qed.
Lemma during_more : forall ms m i t, during secure ms i t -> during secure (ms ++ [m]) i t.
Proof. intros ms m i t (m1 & m2 & -> & Q). exists m1, (m2 ++ [m]). split; [symmetry; apply app_assoc|exact Q]. Qed.

(** The dictionary, the flag and the stages that go with the moves made. *)
Record good (ms : list move) (d : kvmap) (u : bool) (l : list stage) : Prop := {
  good_b : binv secure K (object secure (after ms)) d u;
  good_f : tfine (object secure (after ms));
  good_l : length l = length (calls_of ms);
  good_p : length (p_calls (after ms)) = length (calls_of ms);
  good_a : forall i lim c p a, nth_error (calls_of ms) i = Some (lim, c) -> nth_error (p_calls (after ms)) i = Some p -> nth_error l i = Some a ->
    ainv secure K (during secure ms i) (h_map (p_obj (after ms))) (h_log (p_obj (after ms))) u lim c p a
}.
(** What a move does to them. *)
Inductive turns (d : kvmap) (u : bool) (l : list stage) : move -> kvmap -> bool -> list stage -> Prop :=
| turns_call : forall lim c, turns d u l (MCall lim c) d u (l ++ [Begun 0 lim c])
| turns_none : forall i, nth_error l i = None -> turns d u l (MGo i) d u l
| turns_go : forall l1 a l2 d' u' a', l = l1 ++ a :: l2 -> star secure d u a d' u' a' -> turns d u l (MGo (length l1)) d' u' (l1 ++ a' :: l2).

Lemma good_new : good [] no_refs false [].
Proof.
  constructor.
  - exists [], (mpt_new secure). split.
    + split; [exists []; split; [reflexivity|]; split; [constructor|]; intros x y [<-|[]] [<-|[]] _; reflexivity|]. split; [reflexivity|]. split; [split; intros X; congruence|intros x []].
    + split; [apply part_refl|]. split; [apply incl_refl|]. split; reflexivity.
  - split; [apply (new_dinv secure)|]. intros x y [<-|[]] [<-|[]] _; reflexivity.
  - reflexivity.
  - reflexivity.
  - intros [|i] lim c p a E; discriminate.
Qed.
Lemma good_step : forall ms d u l m, good ms d u l -> (forall lim c, In (lim, c) (calls_of (ms ++ [m])) -> okc secure K c) ->
  no_collision (h_log (p_obj (after (ms ++ [m])))) -> exists d' u' l', good (ms ++ [m]) d' u' l' /\ turns d u l m d' u' l'.
Proof.
  intros ms d u l m G Ho N. destruct G as [B F Ll Lp A]. destruct m as [lim c|i].
  - exists d, u, (l ++ [Begun 0 lim c]). split; [|constructor]. rewrite after_snoc in *. cbn [go] in *.
    constructor; rewrite ?after_snoc, ?calls_call; cbn [go p_obj p_calls object]; auto.
    + rewrite !app_length, Ll. reflexivity.
    + rewrite !app_length, Lp. reflexivity.
    + intros i lim0 c0 p a E1 E2 E3.
      destruct (nth_error_snoc _ _ _ _ _ E1) as [E1'|[Ei E1']].
      * assert (L : i < length (calls_of ms)) by (apply nth_error_Some; congruence).
        rewrite nth_error_app1 in E2 by lia. rewrite nth_error_app1 in E3 by lia.
        eapply ainv_more; [apply (A i lim0 c0 p a); auto|intros t; apply during_more|apply part_refl|apply incl_refl|auto].
      * injection E1' as -> ->. rewrite nth_error_app2 in E2 by lia. rewrite nth_error_app2 in E3 by lia.
        rewrite Ei, Lp, Nat.sub_diag in E2. rewrite Ei, Ll, Nat.sub_diag in E3. injection E2 as <-. injection E3 as <-. constructor.
  - destruct (nth_error (p_calls (after ms)) i) as [p|] eqn:Ep.
    2: { exists d, u, l. assert (L : length (p_calls (after ms)) <= i) by (apply nth_error_None; exact Ep). split; [|constructor; apply nth_error_None; lia].
      assert (Eg : after (ms ++ [MGo i]) = after ms) by (rewrite after_snoc; cbn [go]; rewrite Ep; reflexivity).
      constructor; rewrite ?Eg, ?calls_go; auto. intros j lim c p a E1 E2 E3.
      eapply ainv_more; [apply (A j lim c p a); auto|intros t; apply during_more|apply part_refl|apply incl_refl|auto]. }
    assert (Li : i < length (p_calls (after ms))) by (apply nth_error_Some; congruence).
    destruct (nth_error l i) as [a|] eqn:Ea; [|apply nth_error_None in Ea; lia].
    destruct (nth_error (calls_of ms) i) as [[lim c]|] eqn:Ec; [|apply nth_error_None in Ec; lia].
    destruct (access (p_obj (after ms)) p) as [s' p'] eqn:Eacc.
    assert (Eg : after (ms ++ [MGo i]) = mkPool s' (firstn i (p_calls (after ms)) ++ p' :: skipn (S i) (p_calls (after ms)))).
    { rewrite after_snoc. cbn [go]. rewrite Ep, Eacc. reflexivity. }
    rewrite Eg in N. cbn [p_obj] in N.
    assert (Oc : okc secure K c) by (apply (Ho lim c); rewrite calls_go; eapply nth_error_In; exact Ec).
    assert (Hm : ainv secure K (during secure (ms ++ [MGo i]) i) (h_map (p_obj (after ms))) (h_log (p_obj (after ms))) u lim c p a).
    { eapply ainv_more; [apply (A i lim c p a); auto|intros t; apply during_more|apply part_refl|apply incl_refl|auto]. }
    assert (HP : answer p = None -> during secure (ms ++ [MGo i]) i (obj secure (p_obj (after ms)))).
    { intros Ean. exists ms, [MGo i]. split; [reflexivity|]. split; [lia|]. split; [unfold answer_of; rewrite Ep; exact Ean|reflexivity]. }
    destruct (call_step keccak_len secure K K_ok K_small _ (p_obj (after ms)) d u lim B F c p a s' p' Oc Hm HP Eacc N)
      as (d' & u' & a' & St & A' & B' & F' & Hu & Hp & Hl).
    destruct (split_at _ _ _ _ Ea) as [El Elen].
    destruct (split_at _ _ _ _ Ep) as [Epl Eplen].
    exists d', u', (firstn i l ++ a' :: skipn (S i) l). split.
    + constructor; rewrite ?Eg, ?calls_go; cbn [p_obj p_calls]; auto.
      * rewrite app_length. cbn [length]. rewrite El, app_length in Ll. cbn [length] in Ll. lia.
      * rewrite app_length. cbn [length]. rewrite Epl, app_length in Lp. cbn [length] in Lp. lia.
      * intros j lim0 c0 p0 a0 E1 E2 E3.
        destruct (nth_put _ _ _ _ p _ _ E2) as [[Ej Ex]|[Nj E2']].
        -- rewrite Eplen in Ej. subst j p0. rewrite Ec in E1. injection E1 as <- <-.
           destruct (nth_put _ _ _ _ a _ _ E3) as [[_ Ex]|[Nx _]]; [subst a0; exact A'|exfalso; apply Nx; congruence].
        -- rewrite <- Epl in E2'. destruct (nth_put _ _ _ _ a _ _ E3) as [[Ex _]|[_ E3']]; [exfalso; apply Nj; congruence|].
           rewrite <- El in E3'. eapply ainv_more; [apply (A j lim0 c0 p0 a0); auto|intros t; apply during_more|exact Hp|exact Hl|exact Hu].
    + replace (MGo i) with (MGo (length (firstn i l))) by congruence. eapply turns_go; [exact El|exact St].
Qed.
Lemma no_coll_before : forall ms m, no_collision (h_log (p_obj (after (ms ++ [m])))) -> no_collision (h_log (p_obj (after ms))).
Proof. intros ms m N. rewrite after_snoc in N. eapply nocoll_incl; [apply go_log|exact N]. Qed.
Lemma unfolds_star : forall ms l1 l2 d u a d' u' a', star secure d u a d' u' a' -> unfolds secure (ms ++ [MGo (length l1)]) d u (l1 ++ a :: l2) ->
  unfolds secure (ms ++ [MGo (length l1)]) d' u' (l1 ++ a' :: l2).
Proof. intros ms l1 l2 d u a d' u' a' S. induction S as [|d u a d1 u1 a1 d2 u2 a2 A S IH]; intros U; [exact U|]. apply IH. eapply unfolds_act; eauto. Qed.
Lemma unfolds_turns : forall ms d u l m d' u' l', unfolds secure ms d u l -> turns d u l m d' u' l' -> unfolds secure (ms ++ [m]) d' u' l'.
Proof.
  intros ms d u l m d' u' l' U T. destruct T as [lim c|i E|l1 a l2 d' u' a' -> S].
  - apply unfolds_call. exact U.
  - apply unfolds_go. exact U.
  - eapply unfolds_star; [exact S|]. apply unfolds_go. exact U.
Qed.
Lemma all_good : forall ms, (forall lim c, In (lim, c) (calls_of ms) -> okc secure K c) -> no_collision (h_log (p_obj (after ms))) ->
  exists d u l, good ms d u l /\ unfolds secure ms d u l.
Proof.
  intros ms. induction ms as [|m ms IH] using rev_ind; intros Ho N.
  - exists no_refs, false, []. split; [apply good_new|constructor].
  - destruct IH as (d & u & l & G & U).
    + intros lim c Hi. apply (Ho lim c). rewrite calls_app. apply in_or_app. auto.
    + eapply no_coll_before. exact N.
    + destruct (good_step _ _ _ _ _ G Ho N) as (d' & u' & l' & G' & T). exists d', u', l'. split; [exact G'|eapply unfolds_turns; eauto].
Qed.
Lemma ainv_answer : forall P m log u lim c p a o, ainv secure K P m log u lim c p a -> answer p = Some o -> a = Settled o /\ stems P lim c o.
Proof.
  intros P m log u lim c p a o A E. destruct A as [c|c o' p Wa W St|k Sg|k t q d0 u0 r0 Pt Bt Ft Hh Er T Nq|k Sg|k t d0 u0 p Pt Bt Ft Hu Hm S Ea|k f t Pt Er0 El Hu Sg|k Sg Hu|k f t Pt Er0 El|k f t Pt Er0 El
    |k v t q d0 u0 Pt Bt T Nq|k|k Hu|k t q d0 u0 r0 Pt Bt Hh Hu Er T Nq|tm k Sg|tm k Hu Sg|tm k t q d0 u0 r0 Pt Bt Ft Hh Er T Nq|Sg|long t r' Pt Er Hn El]; try discriminate.
  - destruct c; discriminate.
  - destruct W; try discriminate. injection E as <-. auto.
  - destruct q as [r|h kk|h e kk|kk|r kk]; try discriminate. destruct (Nq _ eq_refl).
  - congruence.
  - rewrite El in E. discriminate.
  - rewrite El in E. discriminate.
  - destruct q as [[r|x]|h kk|h e kk|kk|r kk]; try discriminate. destruct (Nq _ eq_refl).
  - destruct q as [[r|x]|h kk|h e kk|kk|r kk]; try discriminate. destruct (Nq _ eq_refl).
  - destruct q as [[r|x]|h kk|h e kk|kk|r kk]; try discriminate. destruct (Nq _ eq_refl).
  - destruct long; discriminate.
Qed.
End T.

Section Main.
Context {H : Hash}.
Hypothesis keccak_len : forall b, length (keccak b) = 32.
Variables (secure : bool) (ms : list move).
Hypothesis keys : keys_ok secure (tkeys ms).
Hypothesis fit : tfits secure ms.
Notation w := (run_moves secure (pool_new secure) ms).
Hypothesis N : no_collision (h_log (p_obj w)).
Lemma fit_calls : forall lim c, In (lim, c) (calls_of ms) -> okc secure (tkeys ms) c.
Proof.
  intros lim c Hi. split.
  - intros k Hk. unfold tkeys. apply in_flat_map. exists (lim, c). auto.
  - destruct c as [k|k|k v|k|tm k| |]; try exact I. destruct fit as [_ Fv]. exact (Fv lim k v Hi).
Qed.
Theorem threads_exact : exists d u l, unfolds secure ms d u l /\ rooted secure d u (h_root (p_obj w)) /\ length l = length (calls_of ms) /\
  forall i o, answer_of w i = Some o -> nth_error l i = Some (Settled o).
Proof.
  destruct (all_good keccak_len secure (tkeys ms) keys (proj1 fit) ms fit_calls N) as (d & u & l & [B F Ll Lp A] & U).
  exists d, u, l. split; [exact U|]. split; [apply (b_rooted keccak_len secure (tkeys ms) keys _ _ _ _ B); reflexivity|]. split; [exact Ll|].
  intros i o E. unfold answer_of in E. destruct (nth_error (p_calls w) i) as [p|] eqn:Ep; [|discriminate].
  assert (Li : i < length (p_calls w)) by (apply nth_error_Some; congruence).
  destruct (nth_error l i) as [a|] eqn:Ea; [|apply nth_error_None in Ea; lia].
  destruct (nth_error (calls_of ms) i) as [[lim c]|] eqn:Ec; [|apply nth_error_None in Ec; lia].
  destruct (ainv_answer _ _ _ _ _ _ _ _ _ _ _ (A _ _ _ _ _ Ec Ep Ea) E) as [-> _]. reflexivity.
Qed.
Theorem threads_stem : forall i lim c o, nth_error (calls_of ms) i = Some (lim, c) -> answer_of w i = Some o -> stems (during secure ms i) lim c o.
Proof.
  intros i lim c o Ec E.
  destruct (all_good keccak_len secure (tkeys ms) keys (proj1 fit) ms fit_calls N) as (d & u & l & [B F Ll Lp A] & U).
  unfold answer_of in E. destruct (nth_error (p_calls w) i) as [p|] eqn:Ep; [|discriminate].
  assert (Li : i < length (p_calls w)) by (apply nth_error_Some; congruence).
  destruct (nth_error l i) as [a|] eqn:Ea; [|apply nth_error_None in Ea; lia].
  exact (proj2 (ainv_answer _ _ _ _ _ _ _ _ _ _ _ (A _ _ _ _ _ Ec Ep Ea) E)).
Qed.
End Main.
