(** Updates and deletes made one after the other while other calls run: proofs about SpecThreads.v, continued. *)
From Coq Require Import List Bool Arith NArith ZArith Lia.
From Verif Require Import Base BaseProofs Rlp RlpProofs NibblePath NibbleProofs Node ProofObj Mpt StoreProofs Spec SpecCodec
  MptProofs SpecEmpt SpecEvery MptPy SpecMptEvery MptEveryProofs Threads SpecThreads ThreadsProofs ThreadsPool.
Import ListNotations.

Lemma flat_map_none : forall A B (f : A -> list B) l, (forall x, In x l -> f x = []) -> flat_map f l = [].
Proof. intros A B f l Hf. induction l as [|x l IH]; [reflexivity|]. cbn [flat_map]. rewrite (Hf x (or_introl eq_refl)), IH; auto. intros y Hy. apply Hf. right. exact Hy. Qed.
Lemma flat_map_same : forall A B (f g : A -> list B) l, (forall x, In x l -> f x = g x) -> flat_map f l = flat_map g l.
Proof. intros A B f g l Hf. induction l as [|x l IH]; [reflexivity|]. cbn [flat_map]. rewrite (Hf x (or_introl eq_refl)), IH; auto. intros y Hy. apply Hf. right. exact Hy. Qed.

Section S.
Context {H : Hash}.
Variable secure : bool.
Definition said (a : stage) : option tout := match a with Settled o => Some o | _ => None end.
Definition done_at (calls : list (nat * tcmd)) (l : list stage) (i : nat) : list ((nat * gcmd) * gout) :=
  match nth_error calls i, nth_error l i with Some x, Some a => as_write x (said a) | _, _ => [] end.
Definition done (calls : list (nat * tcmd)) (l : list stage) : list ((nat * gcmd) * gout) :=
  flat_map (done_at calls l) (List.seq 0 (length calls)).
Definition cmd_ok (lim : nat) (c : tcmd) (a : stage) : Prop :=
  match a with Begun _ l' c' => l' = lim /\ c' = c | Took l' c' _ _ => l' = lim /\ c' = c
  | Settled _ => True | _ => is_write c = false end.
Definition fitw (a : stage) (d : kvmap) (u : bool) : Prop :=
  match a with
  | Begun 1 _ _ => ~ gone d u
  | Begun 2 _ _ => ~ hollow d
  | Took _ _ d0 u0 => d0 = d /\ u0 = u
  | _ => True
  end.
Record sinv (calls : list (nat * tcmd)) (d : kvmap) (u : bool) (l : list stage) : Prop := {
  s_len : length l = length calls;
  s_cmd : forall i lim c a, nth_error calls i = Some (lim, c) -> nth_error l i = Some a -> cmd_ok lim c a;
  s_run : gfollows secure no_refs false (map fst (done calls l)) (map snd (done calls l)) d u;
  s_last : forall i j x y a, nth_error calls i = Some x -> is_write (snd x) = true -> nth_error l i = Some a -> said a = None -> i < j ->
    nth_error calls j = Some y -> is_write (snd y) = false;
  s_fit : forall i x a, nth_error calls i = Some x -> is_write (snd x) = true -> nth_error l i = Some a -> said a = None -> fitw a d u
}.

Lemma gfollows_snoc : forall d u h o d1 u1 lim c x d2 u2, gfollows secure d u h o d1 u1 -> gdoes secure lim d1 u1 c x d2 u2 ->
  gfollows secure d u (h ++ [(lim, c)]) (o ++ [x]) d2 u2.
Proof.
  intros d u h o d1 u1 lim c x d2 u2 G D. induction G as [d u|d u lim0 c0 o0 d1 u1 h outs d3 u3 D0 G IH]; cbn [app].
  - econstructor; [exact D|constructor].
  - econstructor; [exact D0|]. apply IH. exact D.
Qed.
Lemma gfollows_used : forall d u h o d1 u1, gfollows secure d u h o d1 u1 -> (u = false -> hollow d) -> u1 = false -> hollow d1.
Proof.
  intros d u h o d1 u1 G. induction G as [d u|d u lim0 c0 o0 d1 u1 h outs d3 u3 D0 G IH]; intros Hu E; [auto|].
  apply IH; [|exact E]. clear IH G E. intros E. destruct D0; auto; try discriminate.
  match goal with X : drops _ _ _ _ _ _ _ |- _ => destruct X; auto end.
  intros x. unfold drop_ref. destruct (bytes_eqb _ _); auto. apply Hu. exact E.
Qed.
Lemma acts_cmd : forall d u a d' u' a' lim c, acts secure d u a d' u' a' -> cmd_ok lim c a -> cmd_ok lim c a'.
Proof. intros d u a d' u' a' lim c A C. destruct A; cbn [cmd_ok] in *; try exact I; try assumption; destruct C as [<- <-]; auto. Qed.
Lemma acts_unsaid : forall d u a d' u' a', acts secure d u a d' u' a' -> said a = None.
Proof. intros d u a d' u' a' A. destruct A; reflexivity. Qed.
Lemma acts_reader : forall d u a d' u' a' lim c, acts secure d u a d' u' a' -> cmd_ok lim c a -> is_write c = false -> d' = d /\ u' = u.
Proof. intros d u a d' u' a' lim c A C W. destruct A; auto; destruct C as [_ <-]; discriminate W. Qed.
Lemma as_write_reader : forall x o, is_write (snd x) = false -> as_write x o = [].
Proof. intros [lim []] o W; try reflexivity; discriminate. Qed.
Lemma as_write_none : forall x, as_write x None = [].
Proof. intros [lim []]; reflexivity. Qed.

Lemma done_same : forall calls l1 l2 a a', (forall x, nth_error calls (length l1) = Some x -> as_write x (said a) = as_write x (said a')) ->
  done calls (l1 ++ a :: l2) = done calls (l1 ++ a' :: l2).
Proof.
  intros calls l1 l2 a a' E. unfold done. apply flat_map_same. intros i _. unfold done_at. destruct (nth_error calls i) as [x|] eqn:Ec; [|reflexivity].
  destruct (nth_error (l1 ++ a :: l2) i) as [b|] eqn:E1.
  - destruct (nth_put _ _ _ _ a' _ _ E1) as [[-> ->]|[_ E2]].
    + rewrite nth_mid'. apply E. exact Ec.
    + rewrite E2. reflexivity.
  - replace (nth_error (l1 ++ a' :: l2) i) with (@None stage); [reflexivity|]. symmetry. apply nth_error_None. apply nth_error_None in E1. rewrite app_length in *. exact E1.
Qed.
Lemma done_snoc : forall calls l1 l2 a a' x, nth_error calls (length l1) = Some x -> said a = None ->
  (forall j y, length l1 < j -> nth_error calls j = Some y -> is_write (snd y) = false) ->
  done calls (l1 ++ a' :: l2) = done calls (l1 ++ a :: l2) ++ as_write x (said a').
Proof.
  intros calls l1 l2 a a' x Ec Ea Hl.
  assert (L : length l1 < length calls) by (apply nth_error_Some; congruence).
  unfold done. replace (length calls) with (length l1 + S (length calls - S (length l1))) by lia. rewrite seq_app, !flat_map_app. cbn [List.seq flat_map].
  assert (E0 : flat_map (done_at calls (l1 ++ a' :: l2)) (List.seq 0 (length l1)) = flat_map (done_at calls (l1 ++ a :: l2)) (List.seq 0 (length l1))).
  { apply flat_map_same. intros i Hi. apply in_seq in Hi. unfold done_at. rewrite !nth_error_app1 by lia. reflexivity. }
  assert (En : forall l, flat_map (done_at calls l) (List.seq (S (0 + length l1)) (length calls - S (length l1))) = []).
  { intros l. apply flat_map_none. intros i Hi. apply in_seq in Hi. unfold done_at. destruct (nth_error calls i) as [y|] eqn:Ey; [|reflexivity].
    destruct (nth_error l i); [|reflexivity]. apply as_write_reader. apply (Hl i y); [lia|exact Ey]. }
  rewrite !En, E0, !app_nil_r. rewrite <- app_assoc. f_equal. cbn [Nat.add]. unfold done_at. rewrite Ec, !nth_mid', Ea, as_write_none. reflexivity.
Qed.

Lemma sinv_act : forall calls d u l1 a l2 d' u' a', sinv calls d u (l1 ++ a :: l2) -> acts secure d u a d' u' a' -> sinv calls d' u' (l1 ++ a' :: l2).
Proof.
  intros calls d u l1 a l2 d' u' a' [Len C R La Fi] A.
  assert (Lc : length l1 < length calls) by (rewrite <- Len, app_length; cbn [length]; lia).
  destruct (nth_error calls (length l1)) as [[lim c]|] eqn:Ec; [|apply nth_error_None in Ec; lia].
  pose proof (C _ _ _ _ Ec (nth_mid' _ l1 l2 a)) as Ca. pose proof (acts_unsaid _ _ _ _ _ _ A) as Ua.
  assert (C' : forall i lim0 c0 b, nth_error calls i = Some (lim0, c0) -> nth_error (l1 ++ a' :: l2) i = Some b -> cmd_ok lim0 c0 b).
  { intros i lim0 c0 b E1 E2. destruct (nth_put _ _ _ _ a _ _ E2) as [[-> ->]|[_ E3]]; [|eapply C; eauto].
    rewrite Ec in E1. injection E1 as <- <-. eapply acts_cmd; eauto. }
  assert (Len' : length (l1 ++ a' :: l2) = length calls) by (rewrite <- Len, !app_length; reflexivity).
  assert (La' : forall i j x y b, nth_error calls i = Some x -> is_write (snd x) = true -> nth_error (l1 ++ a' :: l2) i = Some b -> said b = None -> i < j ->
    nth_error calls j = Some y -> is_write (snd y) = false).
  { intros i j x y b E1 Wx E2 Ub Lt Ey. destruct (nth_put _ _ _ _ a _ _ E2) as [[-> ->]|[_ E3]].
    - exact (La _ _ _ _ _ E1 Wx (nth_mid' _ l1 l2 a) Ua Lt Ey).
    - exact (La _ _ _ _ _ E1 Wx E3 Ub Lt Ey). }
  destruct (is_write c) eqn:Wc.
  2: { destruct (acts_reader _ _ _ _ _ _ _ _ A Ca Wc) as [-> ->]. constructor; auto.
    - rewrite (done_same calls l1 l2 a' a); [exact R|]. intros x Ex. rewrite Ec in Ex. injection Ex as <-. rewrite !as_write_reader by exact Wc. reflexivity.
    - intros i x b E1 Wx E2 Ub. destruct (nth_put _ _ _ _ a _ _ E2) as [[-> ->]|[_ E3]]; [|exact (Fi _ _ _ E1 Wx E3 Ub)].
      rewrite Ec in E1. injection E1 as <-. cbn [snd] in Wx. congruence. }
  assert (Fa : fitw a d u) by (eapply Fi; [exact Ec|exact Wc|apply nth_mid'|exact Ua]).
  assert (Hno : forall j y, length l1 < j -> nth_error calls j = Some y -> is_write (snd y) = false).
  { intros j y Lt Ey. eapply La; [exact Ec|exact Wc|apply nth_mid'|exact Ua|exact Lt|exact Ey]. }
  assert (Hot : forall i x b, nth_error calls i = Some x -> is_write (snd x) = true -> nth_error (l1 ++ a' :: l2) i = Some b -> said b = None -> i <> length l1 -> False).
  { intros i x b E1 Wx E2 Ub Ni. destruct (nth_put _ _ _ _ a _ _ E2) as [[E _]|[_ E3]]; [contradiction|].
    assert (Lt : i < length l1 \/ length l1 < i) by lia. destruct Lt as [Lt|Lt].
    - pose proof (La _ _ _ _ _ E1 Wx E3 Ub Lt Ec) as X. cbn [snd] in X. congruence.
    - rewrite (Hno _ _ Lt E1) in Wx. discriminate. }
  assert (Stay : d' = d -> u' = u -> said a' = None -> fitw a' d u -> sinv calls d' u' (l1 ++ a' :: l2)).
  { intros -> -> U' F'. constructor; auto.
    - rewrite (done_same calls l1 l2 a' a); [exact R|]. intros x _. rewrite Ua, U'. reflexivity.
    - intros i x b E1 Wx E2 Ub. destruct (Nat.eq_dec i (length l1)) as [->|Ni]; [|destruct (Hot _ _ _ E1 Wx E2 Ub Ni)].
      rewrite nth_mid' in E2. injection E2 as <-. exact F'. }
  assert (Fin : forall g o, said a' <> None -> as_write (lim, c) (said a') = [((lim, g), o)] -> gdoes secure lim d u g o d' u' -> sinv calls d' u' (l1 ++ a' :: l2)).
  { intros g o U' Ew D. constructor; auto.
    - rewrite (done_snoc calls l1 l2 a a' _ Ec Ua Hno), Ew, !map_app. cbn [map fst snd]. eapply gfollows_snoc; eauto.
    - intros i x b E1 Wx E2 Ub. destruct (Nat.eq_dec i (length l1)) as [->|Ni]; [|destruct (Hot _ _ _ E1 Wx E2 Ub Ni)].
      rewrite nth_mid' in E2. injection E2 as <-. congruence. }
  destruct A; cbn [cmd_ok] in Ca; try congruence; destruct Ca as [<- <-]; try discriminate Wc; cbn [fitw] in Fa.
  - apply Stay; cbn [said fitw]; auto.
  - destruct Fa as [-> ->]. eapply (Fin (GPut k v [])); [discriminate|reflexivity|constructor].
  - eapply (Fin (GPut k v [])); [discriminate|reflexivity|constructor]. assumption.
  - eapply (Fin (GDel k [])); [discriminate|reflexivity|]. apply gdoes_del. apply drops_empty. apply H0.
  - apply Stay; cbn [said fitw]; auto.
  - eapply (Fin (GDel k [])); [discriminate|reflexivity|]. apply gdoes_del. apply drops_empty. apply H0.
  - apply Stay; cbn [said fitw]; auto. intros Hd. destruct u; [apply Fa|apply H0]; split; auto.
  - destruct Fa. apply H0.
  - apply Stay; cbn [said fitw]; auto.
  - destruct Fa as [-> ->]. eapply (Fin (GDel k [])); [discriminate|reflexivity|]. replace true with u; [apply gdoes_del; assumption|].
    destruct u; [reflexivity|]. exfalso. assert (Hd : hollow d) by (eapply gfollows_used; [exact R|intros _ x; reflexivity|reflexivity]).
    inversion H0; subst. congruence.
  - destruct Fa as [-> ->]. eapply (Fin (GDel k [])); [discriminate|reflexivity|]. apply gdoes_del. assumption.
Qed.
Lemma sinv_star : forall calls l1 l2 d u a d' u' a', star secure d u a d' u' a' -> sinv calls d u (l1 ++ a :: l2) -> sinv calls d' u' (l1 ++ a' :: l2).
Proof. intros calls l1 l2 d u a d' u' a' S. induction S as [|d u a d1 u1 a1 d2 u2 a2 A S IH]; intros U; [exact U|]. apply IH. eapply sinv_act; eauto. Qed.
Lemma sinv_call : forall calls d u l lim c, sinv calls d u l ->
  (is_write c = true -> forall i x a, nth_error calls i = Some x -> is_write (snd x) = true -> nth_error l i = Some a -> said a <> None) ->
  sinv (calls ++ [(lim, c)]) d u (l ++ [Begun 0 lim c]).
Proof.
  intros calls d u l lim c [Len C R La Fi] Hw. constructor.
  - rewrite !app_length, Len. reflexivity.
  - intros i lim0 c0 a E1 E2. destruct (nth_error_snoc _ _ _ _ _ E1) as [E1'|[-> E1']].
    + assert (L : i < length calls) by (apply nth_error_Some; congruence). rewrite nth_error_app1 in E2 by lia. eapply C; eauto.
    + injection E1' as -> ->. rewrite nth_error_app2 in E2 by lia. rewrite Len, Nat.sub_diag in E2. injection E2 as <-. split; reflexivity.
  - replace (done (calls ++ [(lim, c)]) (l ++ [Begun 0 lim c])) with (done calls l); [exact R|].
    unfold done. rewrite app_length. cbn [length]. rewrite seq_app, flat_map_app. cbn [List.seq flat_map Nat.add].
    rewrite app_nil_r. unfold done_at at 3. rewrite !nth_error_app2 by lia. rewrite Len, Nat.sub_diag. cbn [nth_error said]. rewrite as_write_none, app_nil_r.
    apply flat_map_same. intros i Hi. apply in_seq in Hi. unfold done_at. rewrite !nth_error_app1 by lia. reflexivity.
  - intros i j x y a E1 Wx E2 Ua Lt Ey. destruct (nth_error_snoc _ _ _ _ _ Ey) as [Ey'|[Ej ->]].
    + assert (L : j < length calls) by (apply nth_error_Some; congruence). rewrite nth_error_app1 in E1 by lia. rewrite nth_error_app1 in E2 by lia. exact (La _ _ _ _ _ E1 Wx E2 Ua Lt Ey').
    + rewrite nth_error_app1 in E1 by lia. rewrite nth_error_app1 in E2 by lia. cbn [snd]. destruct (is_write c) eqn:Wc; [|reflexivity].
      destruct (Hw eq_refl _ _ _ E1 Wx E2 Ua).
  - intros i x a E1 Wx E2 Ua. destruct (nth_error_snoc _ _ _ _ _ E2) as [E2'|[_ ->]]; [|exact I].
    assert (L : i < length l) by (apply nth_error_Some; congruence). rewrite nth_error_app1 in E1 by lia. exact (Fi _ _ _ E1 Wx E2' Ua).
Qed.
End S.

Section Main.
Context {H : Hash}.
Hypothesis keccak_len : forall b, length (keccak b) = 32.
Variables (secure : bool) (K : list bytes).
Hypothesis K_ok : keys_ok secure K.
Hypothesis K_small : forall k, In k K -> (blen k < 2 ^ 59)%N.
Notation after ms := (run_moves secure (pool_new secure) ms).

Lemma good_said : forall ms d u l i x o, good secure K ms d u l -> nth_error (calls_of ms) i = Some x -> is_write (snd x) = true ->
  (answer_of (after ms) i = Some o <-> nth_error l i = Some (Settled o)).
Proof.
  intros ms d u l i [lim c] o [B F Ll Lp A] Ec W. cbn [snd] in W. unfold answer_of.
  assert (Li : i < length (calls_of ms)) by (apply nth_error_Some; congruence).
  destruct (nth_error l i) as [a|] eqn:Ea; [|apply nth_error_None in Ea; lia].
  destruct (nth_error (p_calls (after ms)) i) as [p|] eqn:Ep; [|apply nth_error_None in Ep; lia].
  pose proof (A _ _ _ _ _ Ec Ep Ea) as X. split; intros E.
  - destruct (ainv_answer _ _ _ _ _ _ _ _ _ _ _ X E) as [-> _]. reflexivity.
  - injection E as ->. inversion X; subst; auto. discriminate.
Qed.
Lemma all_serial : forall ms, (forall lim c, In (lim, c) (calls_of ms) -> okc secure K c) -> no_collision (h_log (p_obj (after ms))) -> one_writer secure ms ->
  exists d u l, good secure K ms d u l /\ sinv secure (calls_of ms) d u l.
Proof.
  intros ms. induction ms as [|m ms IH] using rev_ind; intros Ho N W.
  - exists no_refs, false, []. split; [apply good_new|]. constructor.
    + reflexivity.
    + intros [|i]; discriminate.
    + constructor.
    + intros [|i]; discriminate.
    + intros [|i]; discriminate.
  - destruct IH as (d & u & l & G & S).
    + intros lim c Hi. apply (Ho lim c). rewrite calls_app. apply in_or_app. auto.
    + eapply no_coll_before. exact N.
    + intros m1 m2 lim c i l' c' -> Wc Ei Wi. apply (W m1 (m2 ++ [m]) lim c i l' c'); auto. rewrite <- app_assoc. reflexivity.
    + destruct (good_step keccak_len secure K K_ok K_small _ _ _ _ _ G Ho N) as (d' & u' & l' & G' & T). exists d', u', l'. split; [exact G'|].
      destruct T as [lim c|i E|l1 a l2 d' u' a' -> St].
      * rewrite calls_call. apply sinv_call; [exact S|]. intros Wc i [lim' c'] a Ei Wi Ea Ua.
        pose proof (W ms [] lim c i lim' c' eq_refl Wc Ei Wi) as An. destruct (answer_of (after ms) i) as [o|] eqn:Eo; [|congruence].
        apply (good_said _ _ _ _ _ _ _ G Ei Wi) in Eo. rewrite Ea in Eo. injection Eo as ->. discriminate.
      * rewrite calls_go. exact S.
      * rewrite calls_go. eapply sinv_star; eauto.
Qed.
End Main.

Section End_.
Context {H : Hash}.
Hypothesis keccak_len : forall b, length (keccak b) = 32.
Variables (secure : bool) (ms : list move).
Hypothesis keys : keys_ok secure (tkeys ms).
Hypothesis fit : tfits secure ms.
Notation w := (run_moves secure (pool_new secure) ms).
Hypothesis N : no_collision (h_log (p_obj w)).
Hypothesis W : one_writer secure ms.
Lemma prefix_log : forall m1 m2, incl (h_log (p_obj (run_moves secure (pool_new secure) m1))) (h_log (p_obj (run_moves secure (pool_new secure) (m1 ++ m2)))).
Proof.
  intros m1 m2. revert m1. induction m2 as [|m m2 IH]; intros m1; [rewrite app_nil_r; apply incl_refl|].
  eapply incl_tran; [|replace (m1 ++ m :: m2) with ((m1 ++ [m]) ++ m2) by (rewrite <- app_assoc; reflexivity); apply IH]. rewrite (after_snoc secure). apply (go_log secure).
Qed.
Lemma prefix_serial : forall m1 m2, ms = m1 ++ m2 -> exists d u l, good secure (tkeys ms) m1 d u l /\
  gfollows secure no_refs false (map fst (written (run_moves secure (pool_new secure) m1) m1)) (map snd (written (run_moves secure (pool_new secure) m1) m1)) d u.
Proof.
  intros m1 m2 Em. set (w1 := run_moves secure (pool_new secure) m1).
  destruct (all_serial keccak_len secure (tkeys ms) keys (proj1 fit) m1) as (d & u & l & G & S).
  { intros lim c Hi. apply (fit_calls secure ms fit lim c). rewrite Em, calls_app. apply in_or_app. auto. }
  { eapply nocoll_incl; [|exact N]. rewrite Em. apply prefix_log. }
  { intros a b lim c i l' c' -> Wc Ei Wi. apply (W a (b ++ m2) lim c i l' c'); auto. rewrite Em, <- app_assoc. reflexivity. }
  exists d, u, l. split; [exact G|]. destruct S as [Len C R La Fi].
  replace (written w1 m1) with (done (calls_of m1) l); [exact R|]. unfold done, written. apply flat_map_same. intros i Hi. apply in_seq in Hi. unfold done_at.
  destruct (nth_error (calls_of m1) i) as [x|] eqn:Ec; [|reflexivity].
  destruct (nth_error l i) as [a|] eqn:Ea; [|apply nth_error_None in Ea; lia].
  destruct (is_write (snd x)) eqn:Wx; [|rewrite !as_write_reader by exact Wx; reflexivity]. f_equal.
  destruct (answer_of w1 i) as [o|] eqn:Eo.
  - apply (good_said _ _ _ _ _ _ _ _ _ G Ec Wx) in Eo. rewrite Ea in Eo. injection Eo as ->. reflexivity.
  - destruct a; try reflexivity. apply (good_said _ _ _ _ _ _ _ _ _ G Ec Wx) in Ea. fold w1 in Ea. congruence.
Qed.
Theorem threads_serial : exists d u, gfollows secure no_refs false (map fst (written w ms)) (map snd (written w ms)) d u /\ rooted secure d u (h_root (p_obj w)).
Proof.
  destruct (prefix_serial ms [] (eq_sym (app_nil_r _))) as (d & u & l & G & R). exists d, u. split; [exact R|].
  apply (b_rooted keccak_len secure (tkeys ms) keys _ _ _ _ (good_b _ _ _ _ _ _ G)). reflexivity.
Qed.

(** Reading calls beside one writer. *)
Lemma at_moment : forall i t, during secure ms i t -> exists d u, moment secure ms i d u /\ binv secure (tkeys ms) t d u /\ tfine t.
Proof.
  intros i t (m1 & m2 & Em & Li & An & <-). destruct (prefix_serial m1 m2 Em) as (d & u & l & G & R). exists d, u.
  split; [exists m1, m2; auto|]. split; [exact (good_b _ _ _ _ _ _ G)|exact (good_f _ _ _ _ _ _ G)].
Qed.
Lemma at_went : forall i, emptied (during secure ms i) -> went secure ms i.
Proof.
  intros i (t & t' & P & E & P' & E'). destruct (at_moment _ _ P) as (d & u & M & B & _). destruct (at_moment _ _ P') as (d' & u' & M' & B' & _).
  exists d, u, d', u'. split; [exact M|]. split; [|split; [exact M'|]].
  - destruct (b_cases keccak_len secure (tkeys ms) keys _ _ _ B) as [[G _]|[[_ X]|(_ & _ & r & X & _)]]; [exact G|congruence..].
  - destruct (b_cases keccak_len secure (tkeys ms) keys _ _ _ B') as [[_ X]|[[G X]|(G & _)]]; [congruence|apply fresh_not_gone; exact G|apply not_gone; exact G].
Qed.
Theorem threads_reads : forall i lim c o, nth_error (calls_of ms) i = Some (lim, c) -> answer_of w i = Some o -> reads secure ms i lim c o.
Proof.
  intros i lim c o Ec Eo. pose proof (threads_stem keccak_len secure ms keys fit N i lim c o Ec Eo) as St.
  destruct (fit_calls secure ms fit lim c (nth_error_In _ _ Ec)) as [Hk _].
  destruct c as [k|k|k v|k|tm k| |]; destruct o as [r|r|r|r|r]; try exact St; cbn [stems reads] in *.
  - destruct St as [(t & P & E)|(x & E & D & S)]; [left|right; exists x; auto using at_went]. destruct (at_moment _ _ P) as (d & u & M & B & F).
    exists d, u. split; [exact M|]. rewrite <- E. apply (b_get keccak_len secure (tkeys ms)); auto. exact (proj1 fit). apply Hk. left. reflexivity.
  - destruct St as [(t & P & E)|[L|[(E & S)|(E & t & t' & P & E1 & P' & E2)]]].
    + left. destruct (at_moment _ _ P) as (d & u & M & B & F). exists d, u. split; [exact M|]. rewrite <- E. apply (b_in keccak_len secure (tkeys ms) keys t d u); auto. apply Hk. left. reflexivity.
    + right. left. exact L.
    + right. right. left. auto using at_went.
    + right. right. right. split; [exact E|]. destruct (at_moment _ _ P) as (d & u & M & B & F). destruct (at_moment _ _ P') as (d' & u' & M' & B' & F').
      exists d, u, d', u'. split; [exact M|]. split; [|split; [exact M'|]].
      * destruct (b_cases keccak_len secure (tkeys ms) keys _ _ _ B) as [[_ X]|[[G X]|(_ & _ & r0 & X & _ & Y)]]; [congruence|exact G|].
        rewrite E1 in X. injection X as <-. change (keccak [x80]) with EMPTY_HASH in Y. rewrite bytes_eqb_refl in Y. discriminate.
      * destruct (b_cases keccak_len secure (tkeys ms) keys _ _ _ B') as [[G X]|[[G X]|(G & _)]]; [intros [_ Q]; destruct G; congruence|contradiction|intros [Q _]; contradiction].
  - destruct r as [p|x].
    + destruct St as (t & t' & p' & r' & P & P' & E1 & E2 & E3). destruct (at_moment _ _ P) as (d & u & M & B & F). destruct (at_moment _ _ P') as (d' & u' & M' & B' & F').
      exists d, u, d', u', p', r'. split; [exact M|]. split; [exact M'|]. split; [|split; [|exact E3]].
      * rewrite <- E1. apply (b_poi keccak_len secure (tkeys ms)); auto. exact (proj1 fit). apply Hk. left. reflexivity.
      * apply (b_rooted keccak_len secure (tkeys ms) keys _ _ _ _ B'). exact E2.
    + destruct St as [(t & P & E)|[E S]]; [left|right; auto using at_went]. destruct (at_moment _ _ P) as (d & u & M & B & F). exists d, u. split; [exact M|].
      rewrite <- E. apply (b_poi keccak_len secure (tkeys ms)); auto. exact (proj1 fit). apply Hk. left. reflexivity.
  - destruct St as (t & P & E). destruct (at_moment _ _ P) as (d & u & M & B & F). exists d, u, (m_root t). split; [exact M|]. split; [|exact E].
    apply (b_rooted keccak_len secure (tkeys ms) keys _ _ _ _ B). reflexivity.
  - destruct St as [(t & P & E)|[[E S]|(t & t' & r' & P & P' & E1 & _ & E2)]].
    + destruct (at_moment _ _ P) as (d & u & M & B & F). pose proof (b_rooted keccak_len secure (tkeys ms) keys _ _ _ (m_root t) B) as R.
      unfold root_hash, root_falsy, root_ref in E.
      destruct (b_cases keccak_len secure (tkeys ms) keys _ _ _ B) as [[G X]|[[G X]|(G & _ & r0 & X & Hn & _)]]; rewrite X in E, R.
      * left. exists d, u. auto.
      * right. right. exists d, u, d, u, EMPTY_HASH, (Some EMPTY_HASH). split; [exact M|]. split; [exact M|]. split; [apply R; reflexivity|]. split; [apply R; reflexivity|].
        left. split; [apply keccak_len|]. rewrite E. destruct EMPTY_HASH as [|b l] eqn:Q; [reflexivity|]. rewrite <- Q. unfold EMPTY_HASH. rewrite keccak_len. reflexivity.
      * right. right. exists d, u, d, u, r0, (Some r0). split; [exact M|]. split; [exact M|]. split; [apply R; reflexivity|]. split; [apply R; reflexivity|].
        destruct r0 as [|b r0]; [contradiction|]. rewrite E. destruct (length (b :: r0) =? 32) eqn:L; [left; apply Nat.eqb_eq in L; auto|right; apply Nat.eqb_neq in L; eauto].
    + right. left. auto using at_went.
    + right. right. destruct (at_moment _ _ P) as (d & u & M & B & F). destruct (at_moment _ _ P') as (d' & u' & M' & B' & F').
      exists d, u, d', u', r', (m_root t'). split; [exact M|]. split; [exact M'|]. split; [apply (b_rooted keccak_len secure (tkeys ms) keys _ _ _ _ B); exact E1|].
      split; [apply (b_rooted keccak_len secure (tkeys ms) keys _ _ _ _ B'); reflexivity|exact E2].
Qed.
End End_.
