(** Schedules of calls on one MerkleTree object: a call that is not interrupted, calls one after the other, and the order of the leaves. *)
From Coq Require Import List Bool Arith NArith ZArith Lia.
From Verif Require Import Base BaseProofs ProofObj MptEq MerkleTree SpecMt MtProofs ThreadsPool EThreadsRun MtThreads SpecMtThreads.
Import ListNotations.

Section S.
Context {H : Hash}.

(** ** A call that is not interrupted *)
Fixpoint msteps (n : nat) (t : mt) (p : mpc) : mt * mpc := match n with O => (t, p) | S n => msteps n (fst (mstep t p)) (snd (mstep t p)) end.
Definition comes (t : mt) (p : mpc) (t' : mt) (p' : mpc) : Prop := exists n, msteps n t p = (t', p').
Lemma comes_refl : forall t p, comes t p t p.
Proof. intros. exists 0. reflexivity. Qed.
Lemma comes_step : forall t p t' p', comes (fst (mstep t p)) (snd (mstep t p)) t' p' -> comes t p t' p'.
Proof. intros t p t' p' [n E]. exists (S n). exact E. Qed.
Lemma msteps_app : forall n m t p, msteps (n + m) t p = msteps m (fst (msteps n t p)) (snd (msteps n t p)).
Proof. induction n as [|n IH]; intros m t p; [reflexivity|]. cbn [Nat.add msteps]. apply IH. Qed.
Lemma comes_trans : forall t p t1 p1 t2 p2, comes t p t1 p1 -> comes t1 p1 t2 p2 -> comes t p t2 p2.
Proof. intros t p t1 p1 t2 p2 [n E] [m F]. exists (n + m). rewrite msteps_app, E. exact F. Qed.
Lemma done_steps : forall n t o, msteps n t (CDone o) = (t, CDone o).
Proof. induction n as [|n IH]; intros t o; [reflexivity|]. cbn [msteps mstep fst snd]. apply IH. Qed.
(** What is left of a call does the same after a step. *)
Lemma comes_after : forall t p t' o, comes t p t' (CDone o) -> comes (fst (mstep t p)) (snd (mstep t p)) t' (CDone o).
Proof.
  intros t p t' o [[|n] E].
  - cbn in E. injection E as -> ->. exists 0. reflexivity.
  - exists n. exact E.
Qed.
Lemma comes_done : forall t o t' o', comes t (CDone o) t' (CDone o') -> o = o' /\ t = t'.
Proof. intros t o t' o' [n E]. rewrite done_steps in E. injection E as -> ->. auto. Qed.

Ltac one := apply comes_step; cbn [mstep fst snd].

Lemma upper_same : forall t u, t_upper t = Some u -> set_upper t u = t.
Proof. intros [l u r s] u' E. cbn in *. subst. reflexivity. Qed.
Lemma last_rev : forall (l : list bytes) x r, rev l = x :: r -> last l [] = x.
Proof. intros l x r E. rewrite <- (rev_involutive l), E. cbn [rev]. apply last_last. Qed.
(** The loop of make_tree. *)
Lemma while_comes : forall f top below lv t u a, t_upper t = Some u -> top :: below = u ++ [t_leaves t] -> build f top below = Some lv ->
  comes t (CWhile a) (set_upper t (removelast lv)) (CEnd a).
Proof.
  assert (Stop : forall t u a, t_upper t = Some u -> length (top_of t u) <= 1 -> comes t (CWhile a) (set_upper t u) (CEnd a)).
  { intros t u a Eu L. one. unfold with_levels. rewrite Eu. one. destruct (Nat.ltb_spec 1 (length (top_of t u))); [lia|]. rewrite (upper_same _ _ Eu). apply comes_refl. }
  assert (Top : forall top below t u, top :: below = u ++ [t_leaves t] -> top_of t u = top).
  { intros top below t [|l u] E; cbn in *; congruence. }
  induction f as [|f IH]; intros top below lv t u a Eu Et B; cbn [build] in B; destruct (Nat.leb_spec (length top) 1) as [L|L]; try discriminate.
  - injection B as <-. rewrite Et, removelast_last. apply Stop; [exact Eu|]. rewrite (Top _ _ _ _ Et). exact L.
  - injection B as <-. rewrite Et, removelast_last. apply Stop; [exact Eu|]. rewrite (Top _ _ _ _ Et). exact L.
  - pose proof (Top _ _ _ _ Et) as Tu.
    assert (X : comes t (CWhile a) (set_upper t (next_level top :: u)) (CWhile a)).
    { one. unfold with_levels. rewrite Eu. one. rewrite Tu. destruct (Nat.ltb_spec 1 (length top)) as [_|L2]; [|lia].
      one. unfold with_levels. rewrite Eu. one. rewrite Tu. cbv zeta. unfold next_level. cbv zeta.
      destruct (Nat.odd (length top)) eqn:Od.
      - one. unfold with_levels. rewrite Eu. one. rewrite Tu. destruct (rev top) as [|x r] eqn:Er.
        { apply (f_equal (@length bytes)) in Er. rewrite rev_length in Er. cbn in Er. lia. }
        rewrite (last_rev _ _ _ Er).
        one. unfold with_levels. rewrite Eu. one. rewrite Tu. one. unfold with_levels. rewrite Eu. one. rewrite Tu. one. unfold with_levels. rewrite Eu. one. apply comes_refl.
      - one. unfold with_levels. rewrite Eu. one. rewrite Tu. one. unfold with_levels. rewrite Eu. one. rewrite Tu. one. unfold with_levels. rewrite Eu. one. apply comes_refl. }
    apply (comes_trans _ _ _ _ _ _ X).
    apply (IH (next_level top) (top :: below) lv (set_upper t (next_level top :: u)) (next_level top :: u) a); [reflexivity| |exact B].
    cbn [set_upper t_leaves app]. rewrite Et. reflexivity.
Qed.

(** make_tree. *)
Definition made (t : mt) : mt := match make_tree t with Ok t' => t' | Err _ => t end.
Lemma make_total : forall t, make_tree t = Ok (made t).
Proof.
  intros t. unfold made, make_tree. destruct (0 <? length (t_leaves t)); [|reflexivity].
  destruct (build_total (length (t_leaves t)) (t_leaves t) []) as (c & _ & E); [lia|]. rewrite E. reflexivity.
Qed.
Lemma make_comes : forall t a, comes t (CBegin a) (made t) (next a).
Proof.
  intros t a. one. one. cbn [set_ready t_leaves]. unfold made, make_tree. destruct (0 <? length (t_leaves t)).
  - one. destruct (build_total (length (t_leaves t)) (t_leaves t) []) as (c & _ & E); [lia|]. rewrite E.
    eapply comes_trans.
    + eapply (while_comes (length (t_leaves t)) (t_leaves t) [] _ _ [] a); [reflexivity|reflexivity|exact E].
    + one. cbn [set_upper set_ready t_leaves t_ready t_secure t_upper]. apply comes_refl.
  - one. cbn [set_upper set_ready t_leaves t_ready t_secure t_upper]. apply comes_refl.
Qed.
Lemma check_comes : forall t w, comes t (CCheck w) t (CDone (told w (tools_root t))).
Proof.
  intros t w. one. unfold tools_root, levels. destruct (t_ready t); [|apply comes_refl]. one. destruct (t_upper t) as [u|] eqn:Eu; cbn [option_map]; [|apply comes_refl].
  one. unfold with_levels. rewrite Eu. one. unfold top_of. destruct u as [|l u]; cbn [app].
  - destruct (t_leaves t); apply comes_refl.
  - destruct l; apply comes_refl.
Qed.
Lemma root_comes : forall t w, comes t (CReady w) (snd (get_root t)) (CDone (told w (fst (get_root t)))).
Proof.
  intros t w. one. unfold get_root. destruct (t_ready t); [apply check_comes|]. rewrite make_total. cbn [fst snd].
  eapply comes_trans; [apply make_comes|]. cbn [next]. apply check_comes.
Qed.

(** The loop of get_proof_of_inclusion. *)
Lemma entry_seen : forall t u x, x <= length u -> exists l, entry u x = Some l /\ nth_error (u ++ [t_leaves t]) x = Some (seen_list t l).
Proof.
  intros t u. unfold entry. induction u as [|a u IH]; intros x L; cbn [map app length] in *.
  - destruct x; [|lia]. exists None. split; reflexivity.
  - destruct x as [|x]; [exists (Some a); split; reflexivity|]. cbn [nth_error]. apply IH. lia.
Qed.
Lemma firstn_snoc : forall (A : Type) (l : list A) n x, nth_error l n = Some x -> firstn (S n) l = firstn n l ++ [x].
Proof.
  intros A l. induction l as [|a l IH]; intros [|n] x E; cbn in *; try discriminate; [injection E as ->; reflexivity|]. f_equal. apply IH. exact E.
Qed.
Lemma loop_comes : forall time key x t u i pr, t_upper t = Some u -> x <= length u ->
  comes t (loop time key i x pr) t
    (match poi_loop (rev (tl (firstn (S x) (u ++ [t_leaves t])))) i with Ok q => CReady (WProof time key (rev pr ++ q)) | Err e => CDone (YProof (Err e)) end).
Proof.
  intros time key. induction x as [|x IH]; intros t u i pr Eu L.
  - cbn [loop]. assert (E : tl (firstn 1 (u ++ [t_leaves t])) = []) by (destruct u; reflexivity). rewrite E. cbn [rev poi_loop]. rewrite app_nil_r. apply comes_refl.
  - destruct (entry_seen t u (S x) L) as (l & El & Es).
    assert (E : rev (tl (firstn (S (S x)) (u ++ [t_leaves t]))) = seen_list t l :: rev (tl (firstn (S x) (u ++ [t_leaves t])))).
    { rewrite (firstn_snoc _ _ _ _ Es). destruct (u ++ [t_leaves t]) as [|b r]; [destruct x; discriminate|]. cbn [firstn app tl]. rewrite rev_app_distr. reflexivity. }
    rewrite E. cbn [poi_loop loop]. one. unfold with_levels. rewrite Eu, El. one. cbv zeta.
    destruct ((i =? length (seen_list t l) - 1) && Nat.odd (length (seen_list t l))).
    + replace (S x - 1) with x by lia. apply IH; [exact Eu|lia].
    + one. unfold with_levels. rewrite Eu, El. one. destruct (nth_error (seen_list t l) (if Nat.odd i then i - 1 else i + 1)) as [s|]; [|apply comes_refl].
      replace (S x - 1) with x by lia. eapply comes_trans; [apply IH; [exact Eu|lia]|]. destruct (poi_loop _ (i / 2)) as [q|e]; cbn [bind]; [|apply comes_refl].
      cbn [rev]. rewrite <- app_assoc. apply comes_refl.
Qed.

Lemma call_comes : forall t c, comes t (mcall (t_secure t) c) (snd (msingle t c)) (CDone (fst (msingle t c))).
Proof.
  intros t c. destruct c as [[b|]| |i| | |time [k|]|p]; cbn [mcall msingle].
  - one. unfold put, add_leaf. cbn [fst snd]. apply comes_refl.
  - apply comes_refl.
  - one. apply comes_refl.
  - one. apply comes_refl.
  - unfold do_make. rewrite make_total. cbn [fst snd]. apply (make_comes t None).
  - pose proof (root_comes t WRoot) as X. destruct (get_root t) as [r t']. exact X.
  - one. unfold get_poi, tools_poi, levels. destruct (index_of _ _) as [i|]; [|apply comes_refl]. one. destruct (t_upper t) as [u|] eqn:Eu; cbn [option_map]; [|apply comes_refl].
    one. destruct (t_ready t) eqn:Er; [|apply comes_refl]. one. unfold with_levels. rewrite Eu. eapply comes_trans; [apply (loop_comes time k (length u) t u i [] Eu); lia|].
    assert (F : firstn (S (length u)) (u ++ [t_leaves t]) = u ++ [t_leaves t]) by (apply firstn_all2; rewrite app_length; cbn; lia). rewrite F.
    destruct (poi_loop _ i) as [q|e]; [|apply comes_refl]. cbn [rev app]. pose proof (root_comes t (WProof time k q)) as X.
    destruct (get_root t) as [[r|e] t']; exact X.
  - apply comes_refl.
  - unfold verify_poi. destruct (mapM decode_elem (pf_proof p)) as [sp|e]; [|apply comes_refl]. destruct (decode_str (pf_root p)) as [s|e]; [|apply comes_refl].
    destruct (from_hex s) as [mr|]; [|apply comes_refl]. destruct (tools_verify sp (pf_key p) mr) as [[|]|e]; try apply comes_refl.
    pose proof (root_comes t (WVerify (pf_root p))) as X. destruct (get_root t) as [[r|e] t']; exact X.
Qed.

(** ** Pools *)
Lemma mrun_snoc : forall w ms m, mrun w (ms ++ [m]) = mgo (mrun w ms) m.
Proof. intros. unfold mrun. rewrite fold_left_app. reflexivity. Qed.
Lemma mrun_app : forall w m1 m2, mrun w (m1 ++ m2) = mrun (mrun w m1) m2.
Proof. intros. unfold mrun. apply fold_left_app. Qed.
Lemma mcalls_app : forall m1 m2, mcalls_of (m1 ++ m2) = mcalls_of m1 ++ mcalls_of m2.
Proof. intros. apply flat_map_app. Qed.
Lemma mgo_at : forall w i p, nth_error (y_calls w) i = Some p -> mgo w (QGo i) = mkMpool (fst (mstep (y_obj w) p)) (upd i (snd (mstep (y_obj w) p)) (y_calls w)).
Proof. intros w i p E. cbn [mgo]. rewrite E. destruct (mstep _ p). reflexivity. Qed.
Lemma mgo_none : forall w i, nth_error (y_calls w) i = None -> mgo w (QGo i) = w.
Proof. intros w i E. cbn [mgo]. rewrite E. reflexivity. Qed.
Lemma mstep_secure : forall t p, t_secure (fst (mstep t p)) = t_secure t.
Proof. intros t p. destruct p; reflexivity. Qed.

(** The leaves after a step. *)
Lemma mstep_leaves : forall t p, t_leaves (fst (mstep t p)) = t_leaves t ++ match p with CPut b => [b] | _ => [] end.
Proof. intros t p. destruct p; cbn [mstep fst t_leaves set_ready set_upper]; rewrite ?app_nil_r; reflexivity. Qed.
(** A step of another kind does not come to a put. *)
Definition is_cput (p : mpc) : bool := match p with CPut _ => true | _ => false end.
Lemma mstep_cput : forall t p, is_cput (snd (mstep t p)) = false.
Proof.
  intros t p. destruct p; cbn [mstep snd]; try reflexivity; unfold with_levels, next, loop;
    repeat match goal with |- context [match ?x with _ => _ end] => destruct x; try reflexivity end.
Qed.

Section Mode.
Variable secure : bool.
Notation at_ ms := (mrun (mpool_new secure) ms).

Lemma run_secure : forall ms, t_secure (y_obj (at_ ms)) = secure.
Proof.
  intros ms. induction ms as [|m ms IH] using rev_ind; [reflexivity|]. rewrite mrun_snoc. destruct m as [c|i]; [exact IH|].
  destruct (nth_error (y_calls (at_ ms)) i) as [p|] eqn:E; [|rewrite (mgo_none _ _ E); exact IH]. rewrite (mgo_at _ _ _ E). cbn [y_obj]. rewrite mstep_secure. exact IH.
Qed.
Lemma run_len : forall ms, length (y_calls (at_ ms)) = length (mcalls_of ms).
Proof.
  intros ms. induction ms as [|m ms IH] using rev_ind; [reflexivity|]. rewrite mrun_snoc, mcalls_app, app_length. destruct m as [c|i]; cbn [mgo y_calls mcalls_of flat_map app length].
  - rewrite app_length. cbn. lia.
  - rewrite Nat.add_0_r. destruct (nth_error (y_calls (at_ ms)) i) as [p|] eqn:E; [|exact IH].
    destruct (mstep _ p) as [t' p'] eqn:Em. cbn [y_calls]. rewrite (upd_length _ _ _ _ p' E). exact IH.
Qed.

(** ** No put is lost *)
(** The value that a place has still to put. *)
Definition waiting (c : mtcmd) (p : mpc) : option bytes := if is_cput p then value_of c else None.
Lemma waiting_call : forall c, waiting c (mcall secure c) = value_of c.
Proof.
  intros c. destruct c as [[b|]| |i| | |time [k|]|p]; try reflexivity. unfold waiting. cbn [value_of]. destruct (is_cput _); reflexivity.
Qed.
Definition still (ms : list mmove) : list (option bytes) := map (fun x => waiting (fst x) (snd x)) (combine (mcalls_of ms) (y_calls (at_ ms))).
Lemma combine_snoc : forall (A B : Type) (l : list A) (r : list B) a b, length l = length r -> combine (l ++ [a]) (r ++ [b]) = combine l r ++ [(a, b)].
Proof. induction l as [|x l IH]; intros [|y r] a b E; cbn in *; try discriminate; [reflexivity|]. rewrite IH by lia. reflexivity. Qed.
Lemma combine_upd : forall (A B : Type) (l : list A) (r : list B) i a b, length l = length r -> nth_error l i = Some a -> combine l (upd i b r) = upd i (a, b) (combine l r).
Proof.
  induction l as [|x l IH]; intros [|y r] [|i] a b L E; cbn in *; try discriminate; [injection E as ->; reflexivity|]. f_equal. apply IH; [lia|exact E].
Qed.
Lemma map_upd : forall (A B : Type) (f : A -> B) (l : list A) i a, map f (upd i a l) = upd i (f a) (map f l).
Proof. intros. rewrite map_app. cbn [map]. rewrite firstn_map, skipn_map. reflexivity. Qed.
Lemma combine_nth_error : forall (A B : Type) (l : list A) (r : list B) i, nth_error (combine l r) i =
  match nth_error l i, nth_error r i with Some a, Some b => Some (a, b) | _, _ => None end.
Proof. induction l as [|x l IH]; intros [|y r] [|i]; cbn; auto; destruct (nth_error l i); reflexivity. Qed.
Lemma still_nth : forall ms i, nth_error (still ms) i = match nth_error (mcalls_of ms) i, nth_error (y_calls (at_ ms)) i with Some c, Some p => Some (waiting c p) | _, _ => None end.
Proof.
  intros ms i. unfold still. rewrite nth_error_map, combine_nth_error. destruct (nth_error (mcalls_of ms) i); [|reflexivity]. destruct (nth_error (y_calls _) i); reflexivity.
Qed.
(** A place that is a put is the one of its call. *)
Lemma cput_call : forall ms i b, nth_error (y_calls (at_ ms)) i = Some (CPut b) ->
  exists v, nth_error (mcalls_of ms) i = Some (QPut (VBytes v)) /\ b = stored secure v.
Proof.
  intros ms. induction ms as [|m ms IH] using rev_ind; intros i b E; [destruct i; discriminate|]. rewrite mrun_snoc in E. rewrite mcalls_app. destruct m as [c|j]; cbn [mgo y_calls mcalls_of flat_map app] in *.
  - apply nth_error_snoc in E as [E|[-> E]].
    + destruct (IH _ _ E) as (v & Ev & Eb). exists v. split; [|exact Eb]. rewrite nth_snoc_old by (eapply nth_lt; eauto). exact Ev.
    + rewrite run_len, nth_snoc_new. rewrite run_secure in E. destruct c as [[v|]| |x| | |time [k|]|p]; cbn [mcall] in E; try discriminate.
      * injection E as ->. exists v. auto.
      * destruct (mapM decode_elem (pf_proof p)); [|discriminate]. destruct (decode_str _); [|discriminate]. destruct (from_hex _); [|discriminate].
        destruct (tools_verify _ _ _) as [[|]|]; discriminate.
  - rewrite app_nil_r. destruct (nth_error (y_calls (at_ ms)) j) as [p|] eqn:Ej; [|eauto]. destruct (mstep _ p) as [t' p'] eqn:Em. cbn [y_calls] in E.
    destruct (Nat.eq_dec i j) as [->|N].
    + rewrite (upd_same _ _ _ _ _ Ej) in E. injection E as ->. pose proof (mstep_cput (y_obj (at_ ms)) p) as X. rewrite Em in X. discriminate.
    + rewrite (upd_other _ _ _ _ _ _ Ej N) in E. eauto.
Qed.

Lemma placed_app : forall m1 m2 w, exists w', placed w (m1 ++ m2) = placed w m1 ++ placed w' m2.
Proof.
  induction m1 as [|m m1 IH]; intros m2 w; cbn [app placed]; [eauto|]. destruct m as [c|i]; [apply IH|]. destruct (nth_error w i) as [[v|]|]; [|apply IH|apply IH].
  destruct (IH m2 (upd i None w)) as [w' E]. exists w'. rewrite E. reflexivity.
Qed.
(** What is waiting after [m1]. *)
Fixpoint left_ (w : list (option bytes)) (ms : list mmove) : list (option bytes) :=
  match ms with
  | [] => w
  | QCall c :: r => left_ (w ++ [value_of c]) r
  | QGo i :: r => match nth_error w i with Some (Some v) => left_ (upd i None w) r | _ => left_ w r end
  end.
Lemma left_app : forall m1 m2 w, left_ w (m1 ++ m2) = left_ (left_ w m1) m2.
Proof. induction m1 as [|m m1 IH]; intros m2 w; [reflexivity|]. cbn [app left_]. destruct m as [c|i]; [apply IH|]. destruct (nth_error w i) as [[v|]|]; apply IH. Qed.
Lemma placed_left : forall m1 m2 w, placed w (m1 ++ m2) = placed w m1 ++ placed (left_ w m1) m2.
Proof. induction m1 as [|m m1 IH]; intros m2 w; [reflexivity|]. cbn [app left_ placed]. destruct m as [c|i]; [apply IH|]. destruct (nth_error w i) as [[v|]|]; cbn [app]; rewrite IH; reflexivity. Qed.

Lemma still_left : forall ms, still ms = left_ [] ms /\ t_leaves (y_obj (at_ ms)) = map (stored secure) (placed [] ms).
Proof.
  intros ms. induction ms as [|m ms [IH1 IH2]] using rev_ind; [split; reflexivity|]. rewrite left_app, placed_left, <- IH1. rewrite map_app, <- IH2. destruct m as [c|i].
  - cbn [left_ placed map]. rewrite app_nil_r. unfold still. rewrite mrun_snoc, mcalls_app. cbn [mgo y_calls y_obj mcalls_of flat_map app].
    rewrite run_secure, combine_snoc by (symmetry; apply run_len). rewrite map_app. cbn [map fst snd]. rewrite waiting_call. split; reflexivity.
  - cbn [left_ placed]. rewrite still_nth. unfold still at 1. rewrite mrun_snoc, mcalls_app. cbn [mcalls_of flat_map app]. rewrite app_nil_r.
    destruct (nth_error (y_calls (at_ ms)) i) as [p|] eqn:Ep.
    2:{ rewrite (mgo_none _ _ Ep). fold (mcalls_of ms). destruct (nth_error (mcalls_of ms) i); cbn [map]; rewrite app_nil_r; split; reflexivity. }
    fold (mcalls_of ms). destruct (nth_error (mcalls_of ms) i) as [c|] eqn:Ec.
    2:{ apply nth_lt in Ep. apply nth_error_None in Ec. rewrite run_len in Ep. lia. }
    rewrite (mgo_at _ _ _ Ep). cbn [y_calls y_obj]. rewrite mstep_leaves. rewrite (combine_upd _ _ _ _ _ c); [|symmetry; apply run_len|exact Ec]. rewrite map_upd. cbn [fst snd].
    fold (still ms). unfold waiting at 1. rewrite mstep_cput. unfold waiting.
    assert (Same : nth_error (still ms) i = Some None -> upd i None (still ms) = still ms) by (intros X; apply upd_id; exact X).
    assert (Xi : nth_error (still ms) i = Some (waiting c p)) by (rewrite still_nth, Ec, Ep; reflexivity). unfold waiting in Xi.
    destruct p; cbn [is_cput] in *; cbn [map]; try (rewrite (Same Xi); split; reflexivity).
    destruct (cput_call _ _ _ Ep) as (v & Ev & ->). rewrite Ec in Ev. injection Ev as ->. cbn [value_of map]. split; reflexivity.
Qed.
Theorem puts_kept : forall ms, t_leaves (y_obj (at_ ms)) = leaves_of secure (placed [] ms).
Proof. intros ms. rewrite (proj2 (still_left ms)). reflexivity. Qed.

(** Calls of one step. *)
Lemma short_step : forall t c, short c = true -> t_secure t = secure ->
  mstep t (mcall secure c) = (snd (msingle t c), CDone (fst (msingle t c))) /\ manswer (mcall secure c) = None.
Proof. intros t c Q E. destruct c as [[b|]| |i| | |time k|p]; try discriminate; split; cbn [mstep mcall msingle put add_leaf fst snd]; unfold add_leaf; rewrite ?E; reflexivity. Qed.
Lemma went_snoc : forall i ms m, went i (ms ++ [m]) <-> went i ms \/ (m = QGo i /\ i < length (mcalls_of ms)).
Proof.
  intros i ms m. split.
  - intros (m1 & m2 & E & L). destruct m2 as [|x m2] using rev_ind.
    + apply app_inj_tail in E as [-> ->]. right. auto.
    + clear IHm2. rewrite app_comm_cons, app_assoc in E. apply app_inj_tail in E as [-> ->]. left. exists m1, m2. auto.
  - intros [(m1 & m2 & -> & L)|[-> L]].
    + exists m1, (m2 ++ [m]). split; [rewrite <- app_assoc; reflexivity|exact L].
    + exists ms, []. auto.
Qed.
Theorem short_calls : forall ms i c, nth_error (mcalls_of ms) i = Some c -> short c = true ->
  (manswer_of (at_ ms) i <> None <-> went i ms) /\
  (forall o, manswer_of (at_ ms) i = Some o -> exists m1 m2, ms = m1 ++ QGo i :: m2 /\ ~ went i m1 /\ i < length (mcalls_of m1) /\
     o = fst (msingle (y_obj (at_ m1)) c) /\ y_obj (at_ (m1 ++ [QGo i])) = snd (msingle (y_obj (at_ m1)) c)).
Proof.
  assert (Main : forall ms i c, nth_error (mcalls_of ms) i = Some c -> short c = true ->
    (nth_error (y_calls (at_ ms)) i = Some (mcall secure c) /\ ~ went i ms) \/
    (exists m1 m2, ms = m1 ++ QGo i :: m2 /\ ~ went i m1 /\ i < length (mcalls_of m1) /\ nth_error (y_calls (at_ ms)) i = Some (CDone (fst (msingle (y_obj (at_ m1)) c))) /\
       y_obj (at_ (m1 ++ [QGo i])) = snd (msingle (y_obj (at_ m1)) c))).
  { intros ms. induction ms as [|m ms IH] using rev_ind; intros i c E Q; [destruct i; discriminate|]. rewrite mcalls_app in E. rewrite mrun_snoc. destruct m as [c'|j].
    - cbn [mcalls_of flat_map app] in E. apply nth_error_snoc in E as [E|[-> ->]].
      + pose proof (nth_lt _ _ _ _ E) as L. cbn [mgo y_calls]. rewrite nth_snoc_old by (rewrite run_len; exact L).
        destruct (IH i c E Q) as [[A B]|(m1 & m2 & -> & Nw & L1 & A & B)].
        * left. split; [exact A|]. intros W. apply went_snoc in W as [W|[X _]]; [auto|discriminate].
        * right. exists m1, (m2 ++ [QCall c']). repeat split; auto. rewrite <- app_assoc. reflexivity.
      + left. cbn [mgo y_calls]. fold (mcalls_of ms). rewrite <- run_len, nth_snoc_new, run_secure. split; [reflexivity|]. intros (m1 & m2 & Em & L).
        assert (Lm : length (mcalls_of (ms ++ [QCall c'])) = S (length (mcalls_of ms))) by (rewrite mcalls_app, app_length; cbn; lia).
        destruct m2 as [|x m2] using rev_ind; [apply app_inj_tail in Em as [_ Em]; discriminate|]. clear IHm2. rewrite app_comm_cons, app_assoc in Em. apply app_inj_tail in Em as [Em _].
        rewrite run_len, Em, mcalls_app, app_length in L. lia.
    - cbn [mcalls_of flat_map] in E. rewrite app_nil_r in E. fold (mcalls_of ms) in E. pose proof (nth_lt _ _ _ _ E) as L. destruct (nth_error (y_calls (at_ ms)) j) as [p|] eqn:Ej.
      2:{ rewrite (mgo_none _ _ Ej). apply nth_error_None in Ej. rewrite run_len in Ej. destruct (IH i c E Q) as [[A B]|(m1 & m2 & -> & Nw & L1 & A & B)].
          - left. split; [exact A|]. intros W. apply went_snoc in W as [W|[X _]]; [auto|]. injection X as ->. lia.
          - right. exists m1, (m2 ++ [QGo j]). repeat split; auto. rewrite <- app_assoc. reflexivity. }
      rewrite (mgo_at _ _ _ Ej). cbn [y_calls]. destruct (Nat.eq_dec i j) as [->|N].
      + rewrite (upd_same _ _ _ _ _ Ej). destruct (IH j c E Q) as [[A B]|(m1 & m2 & -> & Nw & L1 & A & B)]; rewrite Ej in A; injection A as ->.
        * right. exists ms, []. destruct (short_step (y_obj (at_ ms)) c Q (run_secure ms)) as [Qs _]. rewrite Qs. cbn [fst snd]. repeat split; auto.
          rewrite mrun_snoc, (mgo_at _ _ _ Ej), Qs. reflexivity.
        * right. exists m1, (m2 ++ [QGo j]). cbn [mstep snd]. repeat split; auto. rewrite <- app_assoc. reflexivity.
      + rewrite (upd_other _ _ _ _ _ _ Ej N). destruct (IH i c E Q) as [[A B]|(m1 & m2 & -> & Nw & L1 & A & B)].
        * left. split; [exact A|]. intros W. apply went_snoc in W as [W|[X _]]; [auto|]. congruence.
        * right. exists m1, (m2 ++ [QGo j]). repeat split; auto. rewrite <- app_assoc. reflexivity. }
  intros ms i c E Q. destruct (short_step (mt_new secure) c Q eq_refl) as [_ Qn]. unfold manswer_of. destruct (Main ms i c E Q) as [[A B]|(m1 & m2 & Em & Nw & L & A & B)]; rewrite A.
  - rewrite Qn. split; [split; [contradiction|intros W; elim (B W)]|discriminate].
  - cbn [manswer]. split.
    + split; [intros _; exists m1, m2; auto|discriminate].
    + intros o Eo. injection Eo as <-. exists m1, m2. repeat split; auto.
Qed.

(** A call that is not interrupted, whatever other calls are under way. *)
Lemma go_many : forall n w i p t' o, nth_error (y_calls w) i = Some p -> msteps n (y_obj w) p = (t', CDone o) ->
  exists w', mrun w (repeat (QGo i) n) = w' /\ y_obj w' = t' /\ manswer_of w' i = Some o /\ length (y_calls w') = length (y_calls w) /\
    (forall j, j <> i -> nth_error (y_calls w') j = nth_error (y_calls w) j).
Proof.
  induction n as [|n IH]; intros w i p t' o E M.
  - cbn in M. injection M as <- ->. exists w. unfold manswer_of. rewrite E. repeat split.
  - cbn [msteps] in M. cbn [repeat]. change (mrun w (QGo i :: repeat (QGo i) n)) with (mrun (mgo w (QGo i)) (repeat (QGo i) n)). rewrite (mgo_at _ _ _ E).
    edestruct (IH (mkMpool (fst (mstep (y_obj w) p)) (upd i (snd (mstep (y_obj w) p)) (y_calls w))) i) as (w' & A1 & A2 & A3 & A4 & A5).
    + cbn [y_calls]. apply (upd_same _ _ _ _ _ E).
    + cbn [y_obj]. exact M.
    + exists w'. rewrite A1. cbn [y_calls] in *. repeat split; auto.
      * rewrite A4. apply (upd_length _ _ _ _ _ E).
      * intros j N. rewrite A5 by exact N. apply (upd_other _ _ _ _ _ _ E N).
Qed.
Theorem alone : forall ms c, exists n, let i := length (mcalls_of ms) in let w := at_ (ms ++ QCall c :: repeat (QGo i) n) in
  manswer_of w i = Some (fst (msingle (y_obj (at_ ms)) c)) /\ y_obj w = snd (msingle (y_obj (at_ ms)) c) /\
  (forall j, j < i -> manswer_of w j = manswer_of (at_ ms) j).
Proof.
  intros ms c. destruct (call_comes (y_obj (at_ ms)) c) as [n E]. exists n. cbv zeta. rewrite mrun_app.
  change (mrun (at_ ms) (QCall c :: repeat (QGo (length (mcalls_of ms))) n)) with (mrun (mgo (at_ ms) (QCall c)) (repeat (QGo (length (mcalls_of ms))) n)).
  edestruct (go_many n (mgo (at_ ms) (QCall c)) (length (mcalls_of ms))) as (w' & A1 & A2 & A3 & A4 & A5).
  - cbn [mgo y_calls]. rewrite <- run_len, nth_snoc_new. reflexivity.
  - cbn [mgo y_obj]. exact E.
  - rewrite A1. split; [exact A3|]. split; [exact A2|]. intros j L. unfold manswer_of. rewrite A5 by lia. cbn [mgo y_calls]. rewrite nth_snoc_old by (rewrite run_len; exact L). reflexivity.
Qed.
End Mode.
End S.
