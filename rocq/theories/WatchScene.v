(** Proofs about SpecWatch.v, continued: any moves. *)
From Coq Require Import List Bool Arith NArith ZArith Lia.
From Verif Require Import Base BaseProofs Rlp RlpProofs NibblePath NibbleProofs Node ProofObj Mpt Tree TreeEnc StoreProofs ReadProofs Spec SpecCodec SpecProof
  MptRefine MptProofs PoiProofs PoeProofs SpecShared SimProofs SharedProofs SpecEmpt EmptFaultProofs SpecWalk SpecGet SpecEvery MptPy SpecMptEvery MptEveryProofs
  Threads SpecThreads ThreadsSeq ThreadsProofs ThreadsPool Watch SpecWatch WatchProofs.
Import ListNotations.

Section W.
Context {H : Hash}.
Variable secure : bool.
Notation new := (scene_new secure).
Notation stage ws := (run_scene secure new ws).
Notation after ms := (run_moves secure (pool_new secure) ms).
Notation now ws := (p_obj (sc_pool (stage ws))).
Lemma stage_snoc : forall ws m, stage (ws ++ [m]) = wgo secure (stage ws) m.
Proof. intros. unfold run_scene. rewrite fold_left_app. reflexivity. Qed.
Lemma moves_app : forall a b, moves_of (a ++ b) = moves_of a ++ moves_of b.
Proof. intros. apply flat_map_app. Qed.
Lemma wcalls_app : forall a b, wcalls (a ++ b) = wcalls a ++ wcalls b.
Proof. intros. apply flat_map_app. Qed.
(** ** The calls of Threads.v go as if the others were not there *)
Lemma pool_apart : forall ws, sc_pool (stage ws) = after (moves_of ws).
Proof.
  induction ws as [|m ws IH] using rev_ind; [reflexivity|]. rewrite stage_snoc, moves_app. destruct m as [m|lim c|i]; cbn [wgo moves_of flat_map app].
  - cbn [sc_pool]. rewrite IH. unfold run_moves. rewrite fold_left_app. reflexivity.
  - rewrite app_nil_r. exact IH.
  - rewrite app_nil_r. destruct (nth_error _ _); exact IH.
Qed.
Lemma len_calls : forall ws, length (sc_calls (stage ws)) = length (wcalls ws).
Proof.
  induction ws as [|m ws IH] using rev_ind; [reflexivity|]. rewrite stage_snoc, wcalls_app, app_length, <- IH. destruct m as [m|lim c|i]; cbn [wgo wcalls flat_map app length sc_calls].
  - lia.
  - rewrite app_length. reflexivity.
  - destruct (nth_error (sc_calls (stage ws)) i) as [p|] eqn:E; [|lia]. destruct (split_at _ _ _ _ E) as [El Len]. cbn [sc_calls]. rewrite El at 3. rewrite !app_length. cbn [length]. lia.
Qed.
Lemma wduring_more : forall ws m i t, wduring secure ws i t -> wduring secure (ws ++ [m]) i t.
Proof. intros ws m i t (m1 & m2 & -> & Q). exists m1, (m2 ++ [m]). split; [symmetry; apply app_assoc|exact Q]. Qed.

(** ** How many turns a call takes *)
Fixpoint looks {A} (n : nat) (p : prog A) {struct p} : Prop :=
  match p with
  | PRet _ => True
  | PGet _ k => match n with 0 => False | S n => forall o, looks n (k o) end
  | PRoot k => match n with 0 => False | S n => forall o, looks n (k o) end
  | _ => False
  end.
Lemma looks_more : forall A (p : prog A) n m, looks n p -> n <= m -> looks m p.
Proof.
  intros A p. induction p as [r|h k IH|h e k IH|k IH|r k IH]; intros [|n] [|m] W L; cbn [looks] in *; auto; try lia; try contradiction.
  - intros o. apply (IH o n); [apply W|lia].
  - intros o. apply (IH o n); [apply W|lia].
Qed.
Lemma looks_bind : forall A B (p : prog A) (f : A -> prog B) n m, looks n p -> (forall a, looks m (f a)) -> looks (n + m) (pbind p f).
Proof.
  intros A B p f. induction p as [[a|e]|h k IH|h e k IH|k IH|r k IH]; intros n m W Hf; cbn [pbind]; try (destruct W; fail).
  - apply (looks_more _ _ m); [apply Hf|lia].
  - exact I.
  - destruct n as [|n]; [destruct W|]. cbn [looks Nat.add] in *. intros o. apply IH; auto.
  - destruct n as [|n]; [destruct W|]. cbn [looks Nat.add] in *. intros o. apply IH; auto.
Qed.
Lemma looks_ends : forall A (g : result A -> wout) (p : prog A) n, looks n p -> looks n (ends g p).
Proof. intros A g p. induction p as [r|h k IH|h e k IH|k IH|r k IH]; intros [|n] W; cbn [ends looks] in *; auto. Qed.
Lemma looks_root : looks 1 proot.
Proof. intros o. exact I. Qed.
Lemma looks_node : forall r, looks 1 (p_node r).
Proof. intros [r|]; cbn [p_node]; [destruct (length r =? 32)|]; cbn; auto. Qed.
Lemma looks_done : forall A (p : prog A) l, looks (length l) p -> exists r, watch p l = PRet r.
Proof.
  intros A p l. revert p. induction l as [|s l IH]; intros p W.
  - destruct p as [r|h k|h e k|k|r k]; try contradiction. exists r. reflexivity.
  - destruct p as [r|h k|h e k|k|r k]; try contradiction.
    + exists r. apply watch_ret.
    + apply (IH (k (dget (h_map s) h))). apply W.
    + apply (IH (k (h_root s))). apply W.
Qed.
Ltac lb a b := match goal with |- looks ?n (pbind _ _) => apply (looks_more _ _ (a + b)); [apply looks_bind; [|intros]|lia] end.
Ltac ld := first [exact I | apply looks_node | apply looks_root].
Lemma looks_contains : forall f r p, looks (3 * f) (p_contains f r p).
Proof.
  induction f as [|f IH]; intros r p; cbn [p_contains]; [exact I|]. lb 1 (2 + 3 * f); [ld|]. destruct a as [x|]; [|exact I].
  lb 1 (1 + 3 * f); [ld|]. destruct (match a with Some x0 => bytes_eqb x0 EMPTY_HASH | None => false end); [exact I|].
  lb 1 (3 * f); [ld|]. destruct (np_len p =? 0); [exact I|]. destruct a0 as [lp d|ep nr|bs d].
  - exact I.
  - destruct (np_starts_with p ep); [apply IH|exact I].
  - cbv zeta. destruct (0 <? _); [apply IH|exact I].
Qed.
Lemma looks_poe : forall f r p acc, looks f (p_poe f r p acc).
Proof.
  induction f as [|f IH]; intros r p acc; cbn [p_poe]; [exact I|]. lb 1 f; [ld|]. destruct (np_len p =? 0); [destruct (node_encode a); exact I|].
  destruct a as [lp d|ep nr|bs d].
  - destruct (node_encode _); exact I.
  - destruct (np_starts_with p ep); [|exact I]. destruct (node_encode _); [apply IH|exact I].
  - cbv zeta. destruct (node_encode _); [|exact I]. cbn [pbind]. destruct (0 <? _); [apply IH|exact I].
Qed.
Lemma looks_hash : looks 3 call_hash.
Proof.
  unfold call_hash. lb 1 2; [ld|]. destruct (is_falsy a); [exact I|]. lb 1 1; [ld|]. destruct a0 as [b|]; [|exact I]. destruct (length b =? 32); [ld|]. lb 1 0; [ld|].
  destruct a0; exact I.
Qed.
Lemma looks_unless : forall A (p : prog A) n, looks n p -> looks (2 + n) (unless_empty p).
Proof. intros A p n W. unfold unless_empty. lb 1 (1 + n); [ld|]. destruct a; [|exact I]. lb 1 n; [ld|]. destruct (is_empty_hash a); [exact I|exact W]. Qed.
Lemma looks_in : forall lim k, looks (2 + 3 * lim) (call_contains secure lim k).
Proof.
  intros lim k. unfold call_contains. lb 1 (1 + 3 * lim); [ld|]. destruct (is_falsy a); [exact I|]. lb 1 (3 * lim); [ld|]. lb (3 * lim) 0; [apply looks_contains|]. exact I.
Qed.
Lemma looks_call : forall lim c, looks (wbound lim c) (watch_prog secure lim c).
Proof.
  intros lim [tm k|p|p]; cbn [wbound watch_prog]; apply looks_ends.
  - unfold call_poe. apply (looks_more _ _ (2 + (6 + 4 * lim))); [apply looks_unless|lia]. lb (2 + 3 * lim) (4 + lim); [apply looks_in|]. destruct a; [exact I|].
    lb 1 (3 + lim); [ld|]. lb lim 3; [apply looks_poe|]. destruct a0 as [[n l] q]. lb 0 3; [exact I|]. cbv zeta.
    assert (M : looks 3 (pbind call_hash (fun h => match h with Some h => PRet (new_proof tm (t_key secure k) h (map PB (l ++ [a0])) MPT_POE) | None => praise TypeError end))).
    { lb 3 0; [apply looks_hash|]. destruct a1; exact I. }
    destruct n as [lp v|ep nr|bs v]; [destruct (np_eq lp q); [exact I|exact M]|exact M|destruct (bytes_eqb v []); [exact M|exact I]].
  - unfold call_check_poi. destruct (negb _); [exact I|]. apply (looks_more _ _ (2 + 7)); [apply looks_unless|lia]. lb 3 4; [apply looks_hash|]. lb 0 4; [exact I|]. destruct (negb _); [exact I|].
    lb 0 4; [exact I|]. destruct a1 as [ps|]; [|exact I]. lb 1 3; [ld|]. lb 0 3; [exact I|]. destruct a2; [|exact I]. lb 3 0; [apply looks_hash|]. exact I.
  - unfold call_check_poe. destruct (negb _); [exact I|]. apply (looks_more _ _ (2 + 4)); [apply looks_unless|lia]. lb 3 1; [apply looks_hash|]. lb 0 1; [exact I|]. destruct (negb _); [exact I|].
    lb 0 1; [exact I|]. lb 0 1; [exact I|]. destruct (negb _); [exact I|]. lb 0 1; [exact I|]. lb 1 0; [ld|]. lb 0 0; [exact I|]. destruct a5 as [n rest].
    destruct (negb _); [exact I|]. destruct n as [[lp v|ep nr|bs v]|]; exact I.
Qed.
Lemma nth_go : forall w i j, nth_error (sc_calls (wgo secure w (WGo i))) j =
  if i =? j then option_map (look (p_obj (sc_pool w))) (nth_error (sc_calls w) j) else nth_error (sc_calls w) j.
Proof.
  intros w i j. cbn [wgo]. destruct (nth_error (sc_calls w) i) as [p|] eqn:E.
  - destruct (split_at _ _ _ _ E) as [El Len]. cbn [sc_calls]. destruct (Nat.eqb_spec i j) as [<-|Nj].
    + rewrite nth_error_app2 by lia. rewrite Len, Nat.sub_diag. cbn. rewrite E. reflexivity.
    + rewrite El at 3. destruct (Nat.lt_ge_cases j i) as [L|L].
      * rewrite !nth_error_app1 by lia. reflexivity.
      * rewrite !nth_error_app2 by lia. rewrite Len. destruct (j - i) as [|n] eqn:Ej; [lia|]. reflexivity.
  - destruct (Nat.eqb_spec i j) as [<-|]; [rewrite E|]; reflexivity.
Qed.
Lemma call_seen : forall w1 lim c w2, exists l, length l = wturns (length (wcalls w1)) w2 /\
  nth_error (sc_calls (stage (w1 ++ WCall lim c :: w2))) (length (wcalls w1)) = Some (watch (watch_prog secure lim c) l).
Proof.
  intros w1 lim c w2. set (i := length (wcalls w1)). induction w2 as [|m w2 IH] using rev_ind.
  - exists []. split; [reflexivity|]. rewrite stage_snoc. cbn [wgo sc_calls]. unfold i. rewrite nth_error_app2, len_calls, Nat.sub_diag by (rewrite len_calls; lia). reflexivity.
  - destruct IH as (l & Len & E). change (w1 ++ WCall lim c :: w2 ++ [m]) with (w1 ++ (WCall lim c :: w2) ++ [m]). rewrite app_assoc, stage_snoc. unfold wturns in *. rewrite filter_app, app_length, <- Len.
    destruct m as [m|lim' c'|j]; cbn [filter length].
    + exists l. split; [lia|]. exact E.
    + exists l. split; [lia|]. cbn [wgo sc_calls]. rewrite nth_error_app1; [exact E|]. apply nth_error_Some. rewrite E. discriminate.
    + rewrite nth_go. destruct (j =? i) eqn:Ej.
      * exists (l ++ [now (w1 ++ WCall lim c :: w2)]). rewrite app_length. split; [reflexivity|]. rewrite E, watch_app. reflexivity.
      * exists l. split; [cbn; lia|exact E].
Qed.
Lemma ends_no_err : forall A (g : result A -> wout) (p : prog A) l r, watch (ends g p) l = PRet r -> exists x, watch p l = PRet x /\ r = Ok (g x).
Proof.
  intros A g p l. revert p. induction l as [|s l IH]; intros p r E.
  - destruct p as [x|h k|h e k|k|x k]; cbn [ends watch fold_left] in E; try discriminate. injection E as <-. exists x. auto.
  - destruct p as [x|h k|h e k|k|x k]; cbn [ends] in E.
    + rewrite watch_ret in E. injection E as <-. exists x. rewrite watch_ret. auto.
    + apply (IH (k (dget (h_map s) h)) r E).
    + rewrite watch_set in E. discriminate.
    + apply (IH (k (h_root s)) r E).
    + rewrite watch_assign in E. discriminate.
Qed.
Lemma watched_no_err : forall lim c l r, watch (watch_prog secure lim c) l = PRet r -> exists o, r = Ok o.
Proof. intros lim [tm k|p|p] l r E; cbn [watch_prog] in E; apply ends_no_err in E; destruct E as (x & _ & ->); eexists; reflexivity. Qed.
Theorem watch_bounded : forall w1 lim c w2, wbound lim c <= wturns (length (wcalls w1)) w2 -> wanswer_of (stage (w1 ++ WCall lim c :: w2)) (length (wcalls w1)) <> None.
Proof.
  intros w1 lim c w2 L. destruct (call_seen w1 lim c w2) as (l & Len & E). unfold wanswer_of. rewrite E.
  destruct (looks_done _ (watch_prog secure lim c) l) as (r & Er). { apply (looks_more _ _ (wbound lim c)); [apply looks_call|lia]. }
  rewrite Er. destruct (watched_no_err _ _ _ _ Er) as (o & ->). discriminate.
Qed.

(** ** What a call sees *)
Hypothesis keccak_len : forall b, length (keccak b) = 32.
Variable K : list bytes.
Hypothesis K_ok : keys_ok secure K.
Hypothesis K_small : forall k, In k K -> (blen k < 2 ^ 59)%N.
Notation snd' s := (sound secure K s).
Lemma fresh_used : forall t d u, binv secure K t d u -> m_root t <> Some EMPTY_HASH -> u = true.
Proof. intros t d u B N. destruct (b_cases keccak_len secure K K_ok _ _ _ B) as [[[_ Hu] _]|[[_ E]|(_ & Hu & _)]]; [exact Hu|contradiction|exact Hu]. Qed.
Lemma pool_grows : forall ms m, (forall lim c, In (lim, c) (calls_of (ms ++ [m])) -> okc secure K c) -> no_collision (h_log (p_obj (after (ms ++ [m])))) ->
  sound secure K (p_obj (after ms)) /\ sound secure K (p_obj (after (ms ++ [m]))) /\ grows (p_obj (after ms)) (p_obj (after (ms ++ [m]))).
Proof.
  intros ms m Ho N. assert (N0 := no_coll_before secure ms m N).
  destruct (all_good keccak_len secure K K_ok K_small ms) as (d & u & l & G & _); [|exact N0|].
  { intros lim c Hi. apply (Ho lim c). rewrite calls_app. apply in_or_app. auto. }
  destruct (good_step keccak_len secure K K_ok K_small ms d u l m G Ho N) as (d' & u' & l' & G' & T).
  destruct G as [B F Ll Lp A]. destruct G' as [B' F' _ _ _].
  split; [exists d, u; auto|]. split; [exists d', u'; auto|]. destruct m as [lim c|i].
  { rewrite after_snoc. apply grows_refl. }
  destruct (nth_error (p_calls (after ms)) i) as [p|] eqn:Ep.
  2: { rewrite after_snoc. cbn [go]. rewrite Ep. apply grows_refl. }
  assert (Li : i < length (p_calls (after ms))) by (apply nth_error_Some; congruence).
  destruct (nth_error l i) as [a|] eqn:Ea; [|apply nth_error_None in Ea; lia].
  destruct (nth_error (calls_of ms) i) as [[lim c]|] eqn:Ec; [|apply nth_error_None in Ec; lia].
  destruct (access (p_obj (after ms)) p) as [s' p'] eqn:Eacc.
  assert (Eg : p_obj (after (ms ++ [MGo i])) = s') by (rewrite after_snoc; cbn [go]; rewrite Ep, Eacc; reflexivity).
  rewrite Eg in *.
  assert (Oc : okc secure K c) by (apply (Ho lim c); rewrite calls_go; eapply nth_error_In; exact Ec).
  assert (HP : answer p = None -> during secure (ms ++ [MGo i]) i (obj secure (p_obj (after ms)))).
  { intros Ean. exists ms, [MGo i]. split; [reflexivity|]. split; [lia|]. split; [unfold answer_of; rewrite Ep; exact Ean|reflexivity]. }
  assert (Hm : ainv secure K (during secure (ms ++ [MGo i]) i) (h_map (p_obj (after ms))) (h_log (p_obj (after ms))) u lim c p a).
  { eapply ainv_more; [apply (A i lim c p a); auto|intros t; apply during_more|apply part_refl|apply incl_refl|auto]. }
  destruct (call_step keccak_len secure K K_ok K_small _ (p_obj (after ms)) d u lim B F c p a s' p' Oc Hm HP Eacc N) as (d2 & u2 & a2 & _ & _ & B2 & F2 & Hu & Hp & _).
  split; [exact Hp|]. intros Nr Er. pose proof (fresh_used _ _ _ B Nr) as ->. specialize (Hu eq_refl). subst u2.
  destruct (b_cases keccak_len secure K K_ok _ _ _ B2) as [[_ E]|[[[_ X] _]|(_ & _ & r & E & _ & Ee)]]; [cbn [obj m_root] in E; congruence|discriminate|].
  cbn [obj m_root] in E. assert (r = EMPTY_HASH) by congruence. subst r. unfold EMPTY_HASH in Ee. rewrite bytes_eqb_refl in Ee. discriminate.
Qed.
Definition kept_by (ws : list wmove) (i : nat) (l : list shared) : Prop :=
  chain secure K l /\ forall s, In s l -> wduring secure ws i (obj secure s) /\ grows s (now ws) /\ incl (h_log s) (h_log (now ws)).
Lemma stage_grows : forall ws m, (forall lim c, In (lim, c) (calls_of (moves_of (ws ++ [m]))) -> okc secure K c) -> no_collision (h_log (now (ws ++ [m]))) ->
  sound secure K (now ws) /\ grows (now ws) (now (ws ++ [m])) /\ incl (h_log (now ws)) (h_log (now (ws ++ [m]))) /\ no_collision (h_log (now ws)).
Proof.
  intros ws m Ho N. rewrite !pool_apart, !moves_app in *. 
  destruct m as [m|lim c|i]; cbn [moves_of flat_map app] in *.
  - change (flat_map _ ws) with (moves_of ws) in *. destruct (pool_grows (moves_of ws) m Ho N) as (S1 & _ & G). split; [exact S1|]. split; [exact G|]. rewrite after_snoc in *. split; [apply go_log|].
    eapply nocoll_incl; [apply go_log|exact N].
  - rewrite app_nil_r in *. destruct (all_good keccak_len secure K K_ok K_small _ Ho N) as (d & u & l & G & _). destruct G as [B F _ _ _]. split; [exists d, u; auto|]. split; [apply grows_refl|]. split; [apply incl_refl|exact N].
  - rewrite app_nil_r in *. destruct (all_good keccak_len secure K K_ok K_small _ Ho N) as (d & u & l & G & _). destruct G as [B F _ _ _]. split; [exists d, u; auto|]. split; [apply grows_refl|]. split; [apply incl_refl|exact N].
Qed.
Lemma calls_keep : forall ws, (forall lim c, In (lim, c) (calls_of (moves_of ws)) -> okc secure K c) -> no_collision (h_log (now ws)) ->
  forall i lim c p, nth_error (wcalls ws) i = Some (lim, c) -> nth_error (sc_calls (stage ws)) i = Some p ->
  exists l, p = watch (watch_prog secure lim c) l /\ kept_by ws i l.
Proof.
  induction ws as [|m ws IH] using rev_ind; intros Ho N i lim c p Ec Ep.
  { destruct i; discriminate. }
  destruct (stage_grows ws m Ho N) as (S0 & G & Hl & N0).
  assert (Ho' : forall lim c, In (lim, c) (calls_of (moves_of ws)) -> okc secure K c).
  { intros lim0 c0 Hi. apply (Ho lim0 c0). rewrite moves_app, calls_app. apply in_or_app. auto. }
  specialize (IH Ho' N0).
  assert (Up : forall l, kept_by ws i l -> kept_by (ws ++ [m]) i l).
  { intros l [C Hs]. split; [exact C|]. intros s Hi. destruct (Hs s Hi) as (D & Gs & Ls). split; [apply wduring_more; exact D|]. split; [eapply grows_trans; eauto|eapply incl_tran; eauto]. }
  rewrite wcalls_app in Ec. destruct m as [m|lim' c'|j].
  - rewrite app_nil_r in Ec. rewrite stage_snoc in Ep. destruct (IH i lim c p Ec Ep) as (l & -> & Q). exists l. auto.
  - rewrite stage_snoc in Ep. cbn [wgo sc_calls] in Ep. cbn in Ec. destruct (nth_error_snoc _ _ _ _ _ Ec) as [Ec'|[Ei Ec']].
    + assert (L : i < length (wcalls ws)) by (apply nth_error_Some; congruence). rewrite nth_error_app1 in Ep by (rewrite len_calls; exact L).
      destruct (IH i lim c p Ec' Ep) as (l & -> & Q). exists l. auto.
    + injection Ec' as -> ->. rewrite nth_error_app2, len_calls, Ei, Nat.sub_diag in Ep by (rewrite len_calls; lia). injection Ep as <-. exists []. split; [reflexivity|]. split; [constructor|intros s []].
  - rewrite app_nil_r in Ec. rewrite stage_snoc, nth_go in Ep. destruct (Nat.eqb_spec j i) as [->|].
    2: { destruct (IH i lim c p Ec Ep) as (l & -> & Q). exists l. auto. }
    destruct (nth_error (sc_calls (stage ws)) i) as [p0|] eqn:E0; [|discriminate]. cbn [option_map] in Ep. injection Ep as <-.
    destruct (IH i lim c p0 Ec E0) as (l & -> & Q). destruct (wanswer (watch (watch_prog secure lim c) l)) as [o|] eqn:Ea.
    + exists l. split; [|auto]. destruct (watch (watch_prog secure lim c) l); try discriminate. reflexivity.
    + exists (l ++ [now ws]). split; [rewrite watch_app; reflexivity|]. destruct (Up l Q) as [C Hs]. split.
      * apply chain_snoc; [exact C| |exact S0]. intros s' Hs'. destruct Q as [_ Q]. apply (Q s' Hs').
      * intros s Hi. apply in_app_or in Hi. destruct Hi as [Hi|[<-|[]]]; [apply Hs; exact Hi|]. split; [|split; [exact G|exact Hl]].
        exists ws, [WGo i]. split; [reflexivity|]. split; [apply nth_error_Some; congruence|]. split; [unfold wanswer_of; rewrite E0; exact Ea|reflexivity].
Qed.
End W.

Section Main.
Context {H : Hash}.
Hypothesis keccak_len : forall b, length (keccak b) = 32.
Variables (secure : bool) (ws : list wmove).
Hypothesis keys : keys_ok secure (wkeys ws).
Hypothesis fit : wfits secure ws.
Notation w := (run_scene secure (scene_new secure) ws).
Hypothesis N : no_collision (h_log (p_obj (sc_pool w))).
Lemma wfit_calls : forall lim c, In (lim, c) (calls_of (moves_of ws)) -> okc secure (wkeys ws) c.
Proof.
  intros lim c Hi. split.
  - intros k Hk. unfold wkeys, tkeys. apply in_or_app. left. apply in_flat_map. exists (lim, c). auto.
  - destruct c as [k|k|k v|k|tm k| |]; try exact I. destruct fit as [_ [_ Fv]]. exact (Fv lim k v Hi).
Qed.
Lemma poe_key_in : forall i lim tm k, nth_error (wcalls ws) i = Some (lim, WPoe tm k) -> In k (wkeys ws).
Proof. intros i lim tm k E. unfold wkeys. apply in_or_app. right. apply in_flat_map. exists (lim, WPoe tm k). split; [eapply nth_error_In; exact E|left; reflexivity]. Qed.
Lemma answered : forall i lim c o, nth_error (wcalls ws) i = Some (lim, c) -> wanswer_of w i = Some o ->
  exists l, watch (watch_prog secure lim c) l = PRet (Ok o) /\ kept_by secure (wkeys ws) ws i l.
Proof.
  intros i lim c o Ec Ea. unfold wanswer_of in Ea. destruct (nth_error (sc_calls w) i) as [p|] eqn:Ep; [|discriminate].
  destruct (calls_keep secure keccak_len (wkeys ws) keys (proj1 fit) ws wfit_calls N i lim c p Ec Ep) as (l & -> & Q). exists l. split; [|exact Q].
  destruct (watch (watch_prog secure lim c) l) as [[x|e]| | | |]; try discriminate. injection Ea as ->. reflexivity.
Qed.
Theorem poe_beside : forall i lim tm k o, nth_error (wcalls ws) i = Some (lim, WPoe tm k) -> wanswer_of w i = Some o ->
  exists r, o = WProof r /\ poe_stems (wduring secure ws i) lim tm k r /\ (steady (wduring secure ws i) -> exists t, wduring secure ws i t /\ mpt_get_poe lim tm t k = r).
Proof.
  intros i lim tm k o Ec Ea. destruct (answered _ _ _ _ Ec Ea) as (l & E & [C Q]). cbn [watch_prog] in E. apply ends_no_err in E. destruct E as (r & E & X). injection X as ->.
  exists r. split; [reflexivity|]. pose proof (poe_watch keccak_len secure (wkeys ws) keys (proj1 fit) lim tm k l r (poe_key_in _ _ _ _ Ec) C E) as S.
  assert (Up : forall t, seen secure l t -> wduring secure ws i t) by (intros t (s & Hs & <-); apply (Q s Hs)).
  split.
  - destruct r as [p|x]; cbn [poe_stems] in *.
    + destruct S as (t & p' & h & Pt & E1 & Sh & E2). exists t, p', h. split; [apply Up; exact Pt|]. split; [exact E1|]. split; [|exact E2]. eapply stems_more; [exact Up|exact Sh].
    + destruct S as [(t & Pt & E1)|(X & Em)]; [left; exists t; auto|right; split; [exact X|]]. eapply emptied_more; [exact Up|exact Em].
  - intros St. destruct (poe_steady (seen secure l) lim tm k r) as (t & Pt & Et); [|exact S| |exists t; auto].
    + intros t (s & Hs & <-). apply (sound_nonnil keccak_len secure (wkeys ws) keys s). eapply chain_in; [exact C|exact Hs].
    + intros t t' Pt Pt'. apply St; auto.
Qed.
Theorem check_steady : forall i lim c o t, nth_error (wcalls ws) i = Some (lim, c) -> wanswer_of w i = Some o -> (forall tm k, c <> WPoe tm k) ->
  m_root t <> Some [] -> (forall t', wduring secure ws i t' -> m_root t' = m_root t) -> o = wsingle lim t c.
Proof.
  intros i lim c o t Ec Ea Nc Nn St. destruct (answered _ _ _ _ Ec Ea) as (l & E & [C Q]).
  assert (Hl : forall s, In s l -> h_root s = m_root t) by (intros s Hs; apply (St (obj secure s)); apply (Q s Hs)).
  destruct c as [tm k|p|p]; [destruct (Nc tm k eq_refl)| |]; cbn [watch_prog wsingle] in *; apply ends_no_err in E; destruct E as (r & E & X); injection X as ->; f_equal.
  - eapply check_poi_steady; eauto.
  - eapply check_poe_steady; eauto.
Qed.
Theorem check_means : forall i lim p, nth_error (wcalls ws) i = Some (lim, WCheckPoi p) -> wanswer_of w i = Some (WBool (Ok true)) ->
  no_collision (proof_hashed (pf_proof p) ++ h_log (p_obj (sc_pool w))) -> exists t, wduring secure ws i t /\ has_key secure t (pf_key p).
Proof.
  intros i lim p Ec Ea NC. destruct (answered _ _ _ _ Ec Ea) as (l & E & [C Q]). cbn [watch_prog] in E. apply ends_no_err in E. destruct E as (r & E & X). injection X as <-.
  destruct (check_poi_true keccak_len secure (wkeys ws) keys (proj1 fit) lim p l C) as (s & Hs & Hk); [|exact E|].
  - intros s Hs. eapply nocoll_incl; [|exact NC]. intros x Hx. apply in_app_or in Hx. apply in_or_app. destruct Hx as [Hx|Hx]; [auto|right; apply (Q s Hs); exact Hx].
  - exists (obj secure s). split; [apply (Q s Hs)|exact Hk].
Qed.
End Main.
