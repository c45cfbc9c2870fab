(** Proofs about the views of an EMPT and about rebuilding over a storage with a list of keys. *)
From Coq Require Import List Bool Arith NArith Lia ZifyBool ZifyNat ZifyN.
From Verif Require Import Base BaseProofs Rlp Node ProofObj Mpt Empt EmptPy EmptProofs EmptViews Spec SpecEmpt SpecEvery SpecViews EveryProofs EveryProofs2.
Import ListNotations.

Section Views.
Context {H : Hash}.
Hypothesis keccak_len : forall b, length (keccak b) = 32.

Section One.
Variables (secure : bool) (h : list (nat * ecmd)) (outs : list eout) (e : empt).
Hypothesis run : empt_session (empt_new secure) h = (outs, e).
Hypothesis fits : efits h.
Hypothesis keys : keys_ok secure (ekeys h).
Hypothesis texts : ekeccak_ok h.
Hypothesis nocoll : no_collision (m_log (e_trie e)).
Variables (veq : value -> value -> bool) (lim : nat) (v : value).
Let deep := forall k, In k (ekeys h) -> frames secure k < lim.

Lemma views_sound : exists g, efollows secure (EView [] no_refs false) h outs g /\
  (forall k, in_items secure veq lim g k v (items_has veq lim e (KBytes k) v)) /\ in_values secure veq lim g v (values_has veq lim e v) /\
  (deep -> (forall k a, in_items secure veq lim g k v a -> items_has veq lim e (KBytes k) v = a) /\
           (forall a, in_values secure veq lim g v a -> values_has veq lim e v = a)).
Proof.
  destruct (one_sound keccak_len _ _ _ _ run fits keys texts nocoll) as (l & g & F & G). exists g. split; [exact F|].
  pose proof (ginv_gwf _ _ _ _ _ _ G) as W.
  assert (Rd : forall k w, In (k, w) (ev_vals g) -> reads secure lim g k (empt_get lim e k)).
  { intros k w Hi. destruct G as (I & Ed & Hn & Hv & Hr) eqn:EG. destruct (Hv _ _ Hi) as (_ & Hk & _).
    exact (get_sound keccak_len secure (ekeys h) keys (proj1 fits) _ texts l e g k lim _ G Hk eq_refl). }
  assert (Out : forall k, ~ In k (map fst (ev_vals g)) -> empt_get lim e k = Err KeyError).
  { intros k N. destruct G as (_ & Ed & _). unfold empt_get. rewrite Ed. destruct (dget (ev_vals g) k) as [w|] eqn:D; [|reflexivity].
    exfalso. apply N. apply dget_In in D. apply in_map_iff. exists (k, w). auto. }
  assert (Ek : empt_keys e = map fst (ev_vals g)) by (destruct G as (_ & Ed & _); unfold empt_keys; now rewrite Ed).
  assert (It : forall k, in_items secure veq lim g k v (items_has veq lim e (KBytes k) v)).
  { intros k. unfold items_has, with_key. destruct (in_dec (list_eq_dec Byte.byte_eq_dec) k (map fst (ev_vals g))) as [Hi|Hi].
    - apply in_fst in Hi as [w Hi]. pose proof (Rd k w Hi) as R. destruct (empt_get lim e k) as [u|x]; [now apply in_items_read|].
      assert (Hk : In k (map fst (ev_vals g))) by (apply in_map_iff; exists (k, w); auto).
      assert (Nx : x <> KeyError) by (intros ->; apply (reads_key secure) in R; now apply R).
      destruct x; try congruence; now apply in_items_raise.
    - rewrite (Out k Hi). now apply in_items_none. }
  assert (Va : in_values secure veq lim g v (values_has veq lim e v)).
  { unfold values_has. rewrite Ek.
    assert (P : forall l2 l1, ev_vals g = l1 ++ l2 -> Forall (differs secure veq lim g v) l1 -> in_values secure veq lim g v (find_value veq lim e (map fst l2) v)).
    { induction l2 as [|[k w] l2 IH]; intros l1 E1 F1; cbn [map fst find_value].
      - rewrite app_nil_r in E1. subst l1. now apply in_values_no.
      - assert (Hi : In (k, w) (ev_vals g)) by (rewrite E1; apply in_or_app; right; left; reflexivity). pose proof (Rd k w Hi) as R.
        destruct (empt_get lim e k) as [u|x]; cbn [bind]; [|exact (in_values_raise secure veq lim g v l1 k w l2 x E1 F1 R)].
        assert (u = w) by (eapply unique_val; [exact (proj1 W)|exact (proj1 (reads_in _ _ _ _ _ R))|exact Hi]). subst u.
        destruct (veq w v) eqn:Q; [exact (in_values_yes secure veq lim g v l1 k w l2 E1 F1 R Q)|].
        apply (IH (l1 ++ [(k, w)])); [now rewrite <- app_assoc|]. apply Forall_app. split; [exact F1|]. constructor; [now split|constructor]. }
    exact (P (ev_vals g) [] eq_refl (Forall_nil _)). }
  split; [exact It|]. split; [exact Va|]. intros D.
  assert (U : forall k a b, reads secure lim g k a -> reads secure lim g k b -> a = b) by (intros k a b; exact (reads_det keccak_len secure (ekeys h) (proj1 fits) lim g k a b W D)).
  split.
  - intros k a A. pose proof (It k) as B. destruct A as [w A|N|x I A], B as [w' B|N'|x' I' B]; try (pose proof (U _ _ _ A B) as X; congruence); try reflexivity;
      try (exfalso; apply N; apply in_map_iff; eexists; split; [|apply (proj1 (reads_in _ _ _ _ _ B))]; reflexivity);
      try (exfalso; apply N'; apply in_map_iff; eexists; split; [|apply (proj1 (reads_in _ _ _ _ _ A))]; reflexivity); exfalso; auto.
  - intros a A. symmetry. revert A Va. generalize (values_has veq lim e v). intros b A B.
    assert (Q : forall l1 k w l2 l1' k' w' l2', ev_vals g = l1 ++ (k, w) :: l2 -> ev_vals g = l1' ++ (k', w') :: l2' ->
      Forall (differs secure veq lim g v) l1 -> Forall (differs secure veq lim g v) l1' -> ~ differs secure veq lim g v (k, w) -> ~ differs secure veq lim g v (k', w') -> k = k').
    { intros l1. generalize (ev_vals g) as L. induction l1 as [|p l1 IH]; intros L k w l2 l1' k' w' l2' E1 E2 F1 F2 N N'; destruct l1' as [|p' l1'].
      - rewrite E1 in E2. cbn in E2. congruence.
      - exfalso. rewrite E1 in E2. injection E2 as E2 _. subst p'. inversion F2; subst. contradiction.
      - exfalso. rewrite E1 in E2. injection E2 as E2 _. subst p. inversion F1; subst. contradiction.
      - subst L. injection E2 as E3 E2. subst p'. inversion F1; subst. inversion F2; subst. exact (IH (l1 ++ (k, w) :: l2) k w l2 l1' k' w' l2' eq_refl E2 ltac:(assumption) ltac:(assumption) N N'). }
    assert (Ny : forall k w, veq w v = true -> ~ differs secure veq lim g v (k, w)) by (intros k w T [_ X]; cbn in X; congruence).
    assert (Nr : forall k w x, reads secure lim g k (Err x) -> ~ differs secure veq lim g v (k, w)).
    { intros k w x R [X _]. cbn [fst snd] in X. pose proof (U _ _ _ R X). discriminate. }
    assert (Nn : forall l1 k w l2, ev_vals g = l1 ++ (k, w) :: l2 -> ~ differs secure veq lim g v (k, w) -> ~ Forall (differs secure veq lim g v) (ev_vals g)).
    { intros l1 k w l2 E1 N Fa. rewrite E1 in Fa. apply Forall_app in Fa as [_ Fa]. inversion Fa; subst. contradiction. }
    destruct A as [l1 k w l2 E1 F1 R1 T1|F1|l1 k w l2 x E1 F1 R1], B as [l1' k' w' l2' E2 F2 R2 T2|F2|l1' k' w' l2' x' E2 F2 R2]; try reflexivity.
    + exfalso. exact (Nn _ _ _ _ E1 (Ny k w T1) F2).
    + exfalso. pose proof (Q _ _ _ _ _ _ _ _ E1 E2 F1 F2 (Ny k w T1) (Nr k' w' x' R2)) as <-. pose proof (U _ _ _ R1 R2). discriminate.
    + exfalso. exact (Nn _ _ _ _ E2 (Ny k' w' T2) F1).
    + exfalso. exact (Nn _ _ _ _ E2 (Nr k' w' x' R2) F1).
    + exfalso. pose proof (Q _ _ _ _ _ _ _ _ E1 E2 F1 F2 (Nr k w x R1) (Ny k' w' T2)) as <-. pose proof (U _ _ _ R1 R2). discriminate.
    + exfalso. exact (Nn _ _ _ _ E1 (Nr k w x R1) F2).
    + pose proof (Q _ _ _ _ _ _ _ _ E1 E2 F1 F2 (Nr k w x R1) (Nr k' w' x' R2)) as <-. pose proof (U _ _ _ R1 R2). congruence.
Qed.
End One.
End Views.

Section Nodeless.
Context {H : Hash}.
Hypothesis keccak_len : forall b, length (keccak b) = 32.

Lemma bare_node : forall r, length r = 32 -> get_node [] r = Err KeyError.
Proof. intros r L. unfold get_node. now rewrite L. Qed.
Section Bare.
Variables (e : empt) (lim : nat).
Hypothesis N : nodeless e.
Hypothesis room : 0 < lim.
Lemma bare_get : forall k, mpt_get lim (e_trie e) k = Err KeyError.
Proof.
  intros k. destruct N as (M & r & R & L & _), lim as [|n]; [lia|]. unfold mpt_get, root_falsy, root_ref. rewrite R. destruct r as [|c r]; [discriminate L|].
  cbn [get_]. now rewrite M, (bare_node _ L).
Qed.
Lemma bare_contains : forall k, mpt_contains lim (e_trie e) k = Err KeyError.
Proof.
  intros k. destruct N as (M & r & R & L & Q), lim as [|n]; [lia|]. unfold mpt_contains, root_falsy, root_is_empty, root_ref. rewrite R. destruct r as [|c r]; [discriminate L|].
  destruct (bytes_eqb (c :: r) EMPTY_HASH) eqn:X; [apply bytes_eqb_eq in X; contradiction|]. cbn [contains_]. now rewrite M, (bare_node _ L).
Qed.
Lemma bare_update : forall k v, mpt_update lim [] (e_trie e) k v = (Err KeyError, e_trie e).
Proof.
  intros k v. destruct e as [ds [m lg rt sc]]. destruct N as (M & r & R & L & Q). cbn [e_trie m_map m_root] in *. subst m rt. destruct lim as [|n]; [lia|].
  unfold mpt_update, run_op, root_ref. cbn [m_root m_map m_log m_secure update_]. unfold ref_is_empty. destruct r as [|c r]; [discriminate L|].
  destruct (bytes_eqb (c :: r) EMPTY_HASH) eqn:X; [apply bytes_eqb_eq in X; contradiction|]. cbn [orb].
  unfold rd_node, mbind. rewrite L. cbn. unfold get_node. cbn [length] in L. cbn [length]. rewrite L. reflexivity.
Qed.
Lemma bare_read : forall k, empt_get lim e k = Err KeyError.
Proof. intros k. unfold empt_get. destruct (dget (e_data e) k); [|reflexivity]. now rewrite bare_get. Qed.
Lemma bare_put : forall k v, storable v = true -> (blen k < 2 ^ 57)%N -> (blen (val_bytes v) < 2 ^ 57)%N ->
  empt_update lim [] false e k v = (Err KeyError, e).
Proof.
  intros k v S Lk Lv. assert (U : update_ref k v = Ok (mkRef k (val_bytes v))) by (destruct v as [b|b|[|] [|] b]; try discriminate; reflexivity).
  destruct (ref_encode_total keccak_len (mkRef k (val_bytes v)) Lk Lv) as (rb & E & _). unfold empt_update. rewrite U. cbn [bind]. rewrite E, bare_update. now destruct e.
Qed.
Lemma bare_put_unfit : forall k v x, unfit v x -> empt_update lim [] false e k v = (Err x, e).
Proof. intros k v x U. unfold empt_update. destruct U as [[|] [|] b Q|b]; try discriminate; reflexivity. Qed.
End Bare.
Lemma barren_model : forall e lim c, nodeless e -> modest (lim, c) -> exists o, empt_do lim e c = (o, e) /\ barren (e_data e) c o.
Proof.
  intros e lim c N (R & S & Q). cbn [fst snd] in *.
  destruct c as [k|k|k|k v fl df|k cf df fl|k d| | |k v| | | |]; cbn [equiet1] in Q; cbn [empt_do].
  - destruct k as [k|]; cbn [with_key]; [rewrite (bare_read e lim N R)|]; eexists; split; try reflexivity; constructor.
  - destruct k as [k|]; cbn [with_key]; [unfold empt_get_reference, trie_reference; rewrite (bare_get e lim N R)|]; eexists; split; try reflexivity; constructor.
  - destruct k as [k|]; cbn [with_key]; [unfold empt_contains; rewrite (bare_contains e lim N R)|]; eexists; split; try reflexivity; constructor.
  - destruct Q as [-> ->]. destruct (storable v) eqn:Sv.
    + destruct k as [k|].
      * rewrite update_py_bytes, (bare_put e lim N R k v Sv (proj1 S) (proj2 S)). eexists. split; [reflexivity|now constructor].
      * eexists. split; [|now apply barren_put_other]. destruct v as [b|b|[|] [|] b]; try discriminate; reflexivity.
    + assert (U : exists x, unfit v x) by (destruct v as [b|b|a d b]; [discriminate|eexists; constructor|eexists; constructor; destruct a, d; auto]). destruct U as [x U].
      assert (X : empt_update_py lim [] false e k v = (Err x, e)).
      { destruct k as [k|]; [rewrite update_py_bytes; now apply bare_put_unfit|]. destruct U as [[|] [|] b Q|b]; try discriminate; reflexivity. }
      rewrite X. eexists. split; [reflexivity|now constructor].
  - destruct Q as (-> & -> & ->). destruct k as [k|]; cbn [with_key']; [unfold empt_delete; rewrite (bare_contains e lim N R)|]; eexists; split; try reflexivity; constructor.
  - destruct k as [k|]; cbn [with_key']; [unfold empt_pop; rewrite (bare_read e lim N R); destruct d|]; eexists; split; try reflexivity; constructor.
  - unfold empt_popitem. destruct (empt_keys e); [|rewrite (bare_read e lim N R)]; eexists; split; try reflexivity; constructor.
  - unfold empt_clear. cbn [clear_loop]. unfold empt_popitem. destruct (empt_keys e); [|rewrite (bare_read e lim N R)]; eexists; split; try reflexivity; constructor.
  - destruct k as [k|]; cbn [with_key']; [|eexists; split; [reflexivity|constructor]]. unfold empt_setdefault. rewrite (bare_read e lim N R).
    destruct (storable v) eqn:Sv.
    + rewrite (bare_put e lim N R k v Sv (proj1 S) (proj2 S)). eexists. split; [reflexivity|now constructor].
    + assert (U : exists x, unfit v x) by (destruct v as [b|b|a d b]; [discriminate|eexists; constructor|eexists; constructor; destruct a, d; auto]). destruct U as [x U].
      rewrite (bare_put_unfit e lim k v x U). eexists. split; [reflexivity|now constructor].
  - eexists. split; [reflexivity|]. unfold empt_items, empt_keys. assert (X : mapM (fun k => bind (empt_get lim e k) (fun v => Ok (k, v))) (dkeys (e_data e)) =
      match e_data e with [] => Ok [] | _ => Err KeyError end); [|rewrite X; constructor].
    destruct (e_data e) as [|[k v] ds]; [reflexivity|]. cbn [dkeys map fst mapM]. now rewrite (bare_read e lim N R).
  - eexists. split; [reflexivity|]. unfold empt_values, empt_keys. assert (X : mapM (empt_get lim e) (dkeys (e_data e)) =
      match e_data e with [] => Ok [] | _ => Err KeyError end); [|rewrite X; constructor].
    destruct (e_data e) as [|[k v] ds]; [reflexivity|]. cbn [dkeys map fst mapM]. now rewrite (bare_read e lim N R).
  - eexists. split; [reflexivity|]. constructor.
  - eexists. split; [reflexivity|]. constructor.
Qed.
Lemma barren_fun : forall ds c o o', barren ds c o -> barren ds c o' -> o = o'.
Proof.
  intros ds c o o' B B'. assert (U : forall v x y, unfit v x -> unfit v y -> x = y) by (intros v x y; apply unfit_fun).
  assert (W : forall v x, storable v = true -> unfit v x -> False) by (intros v x S X; apply unfit_not in X; congruence).
  destruct B; inversion B'; subst; try reflexivity; try (exfalso; eauto; fail); try (do 2 f_equal; eauto; fail); repeat f_equal; eauto.
Qed.
Theorem barren_session : forall e h outs, nodeless e -> Forall modest h ->
  (fst (empt_session e h) = outs <-> Forall2 (fun c o => barren (e_data e) (snd c) o) h outs) /\ snd (empt_session e h) = e.
Proof.
  intros e h outs N. revert outs. induction h as [|[lim c] h IH]; intros outs M.
  - cbn. split; [|reflexivity]. split; [intros <-; constructor|intros F; inversion F; reflexivity].
  - inversion M as [|? ? Mc Mh]; subst. destruct (barren_model e lim c N Mc) as (o & E & B). cbn [empt_session]. rewrite E.
    destruct (empt_session e h) as [os e2] eqn:Es. cbn [fst snd] in *. split; [|exact (proj2 (IH [] Mh))]. split.
    + intros <-. constructor; [exact B|]. now apply (IH os Mh).
    + intros F. inversion F as [|? o' ? os' B' F']; subst. f_equal; [exact (barren_fun _ _ _ _ B B')|]. now apply (IH os' Mh).
Qed.
Theorem rebuild_list : forall lim e r, 0 < lim -> m_root (e_trie e) = Some r -> length r = 32 -> r <> EMPTY_HASH ->
  (forall k v, In (k, v) (e_data e) -> (blen k < 2 ^ 57)%N /\ (blen (val_bytes v) < 2 ^ 57)%N) ->
  exists e', empt_build_list lim e = (rebuilding (e_data e), e') /\ nodeless e' /\ e_data e' = e_data e /\
    m_root (e_trie e') = Some r /\ m_secure (e_trie e') = m_secure (e_trie e).
Proof.
  intros lim e r R Er L Q S. unfold empt_build_list. set (t := mkMpt [] (m_log (e_trie e)) (m_root (e_trie e)) (m_secure (e_trie e))).
  assert (N : nodeless (mkEmpt (e_data e) t)) by (split; [reflexivity|exists r; auto]).
  assert (X : build_loop lim t (e_data e) = (rebuilding (e_data e), t)).
  { destruct (e_data e) as [|[k v] ds] eqn:Ed; [reflexivity|]. cbn [build_loop rebuilding]. destruct v as [b|b|x y b]; try reflexivity.
    destruct (S k (VBytes b) (or_introl eq_refl)) as [Lk Lv]. cbn [new_ref bind]. destruct (ref_encode_total keccak_len (mkRef k b) Lk Lv) as (rb & E & _). rewrite E.
    change t with (e_trie (mkEmpt ((k, VBytes b) :: ds) t)). rewrite (bare_update _ lim N R). reflexivity. }
  rewrite X. eexists. split; [reflexivity|]. split; [exact N|]. split; [reflexivity|]. split; [exact Er|reflexivity].
Qed.
Theorem rebuild_list_empty : forall lim e, m_map (e_trie e) = [] -> empt_build_list lim e = empt_build lim e.
Proof.
  intros lim [ds [m lg rt sc]] E. cbn [e_trie m_map] in E. subst m. reflexivity.
Qed.
End Nodeless.

Lemma keys_view : forall (H : Hash) lim e k, ABool (keys_has lim e k) = fst (empt_do lim e (QIn k)).
Proof. reflexivity. Qed.
Lemma items_other : forall (H : Hash) veq lim e v, items_has veq lim e KOther v = Err TypeError.
Proof. reflexivity. Qed.
