(** Tries with some of the nodes, and tries that share a storage. *)
From Coq Require Import List Bool Arith NArith ZArith Lia.
From Verif Require Import Base BaseProofs Rlp RlpProofs NibblePath NibbleProofs Node ProofObj Mpt Tree TreeEnc
  StoreProofs UpdateProofs DeleteProofs ReadProofs Spec SpecCodec MptRefine MptProofs CostProofs SpecShared SimProofs.
Import ListNotations.

Section S.
Context {H : Hash}.
Hypothesis keccak_len : forall b, length (keccak b) = 32.

Lemma rd_stored : forall t s, t <> TEmpty -> wf t -> small t -> stored (s_map s) t ->
  fst (rd_node (tref t) s) = Err StorageFault \/
  exists n s1, rd_node (tref t) s = (Ok n, s1) /\ nmatch n t /\ s_map s1 = s_map s.
Proof.
  intros t s Hn Hw Hs St. destruct (get_node_stored keccak_len (s_map s) t Hn Hw Hs (here_of_stored _ _ St)) as (n & E & Hm).
  unfold rd_node, mbind, tick, ret. destruct (length (tref t) =? 32).
  - destruct (s_faults s) as [|[|] fs]; cbn [s_map]; [right; exists n; eexists; split; [rewrite E; reflexivity|split; [exact Hm|reflexivity]]|left; reflexivity|right; exists n; eexists; split; [rewrite E; reflexivity|split; [exact Hm|reflexivity]]].
  - right; exists n; eexists; split; [rewrite E; reflexivity|split; [exact Hm|reflexivity]].
Qed.

Lemma delete_absent_err : forall fuel t path s, wf t -> small t -> stored (s_map s) t -> t <> TEmpty ->
  lookup t (nibs path) = None -> exists e, fst (delete_ fuel (tref t) path s) = Err e /\ e <> KeyError.
Proof.
  induction fuel as [|f IH]; intros t path s Hw Hs St Hn El; cbn [delete_]; [exists RecursionError; split; [reflexivity|discriminate]|].
  unfold mbind at 1. destruct (rd_stored t s Hn Hw Hs St) as [E|(n & s1 & E & Hm & Em)].
  { destruct (rd_node (tref t) s) as [[n|e] s1]; cbn in E; [discriminate|]. injection E as ->.
    exists StorageFault. split; [reflexivity|discriminate]. }
  rewrite E. destruct n as [lp d|ep nr|bs d], t as [|q w|q c|cs w]; cbn [nmatch] in Hm; try contradiction.
  - destruct Hm as [<- <-]. destruct (np_eq path lp) eqn:Eq; [|exists LeafPathError; split; [reflexivity|discriminate]].
    apply np_eq_spec in Eq. rewrite Eq, lookup_leaf_self in El. discriminate.
  - destruct Hm as [<- ->]. destruct Hw as (Hq & Hq0 & Hb & Hwc). destruct (np_starts_with path ep) eqn:Esw; [|exists ExtensionPathError; split; [reflexivity|discriminate]].
    rewrite np_starts_with_spec in Esw. destruct (strip (nibs ep) (nibs path)) as [z|] eqn:Es; [|discriminate].
    apply strip_spec in Es. assert (Hc : c <> TEmpty) by (intros ->; contradiction). apply stored_ext in St.
    destruct (IH c (np_consume path (np_len ep)) s1 Hwc) as (e & Ee & Hk); [eapply small_ext; eauto|rewrite Em; apply St|exact Hc| |].
    { rewrite nibs_consume, np_len_spec, Es, skipn_app, Nat.sub_diag, skipn_all. cbn [skipn app]. rewrite Es, lookup_ext_app in El. exact El. }
    unfold mbind at 1. destruct (delete_ f (tref c) (np_consume path (np_len ep)) s1) as [[a|e'] s2]; cbn in Ee; [discriminate|]. injection Ee as ->.
    exists e. auto.
  - destruct Hm as [-> ->]. apply wf_branch in Hw as Hw'. destruct (nibs path) as [|i q] eqn:Ep.
    + assert (L0 : np_len path = 0) by (rewrite np_len_spec, Ep; reflexivity). rewrite L0. cbn [Nat.eqb andb].
      destruct w as [|x w]; [exists AssertionError; split; [reflexivity|discriminate]|].
      rewrite lookup_branch_nil in El by discriminate. discriminate.
    + assert (L0 : np_len path = S (length q)) by (rewrite np_len_spec, Ep; reflexivity). rewrite L0. cbn [Nat.eqb andb].
      assert (Ei : np_at path 0 = i) by (rewrite np_at_spec, Ep; reflexivity). rewrite Ei, nth_map_tref.
      destruct (length (tref (nth i cs TEmpty)) =? 0) eqn:Ez; [exists BranchPathError; split; [reflexivity|discriminate]|].
      destruct (IH (nth i cs TEmpty) (np_consume path 1) s1) as (e & Ee & Hk);
        [apply wf_nth; apply Hw'|eapply small_nth; eauto|rewrite Em; apply stored_nth; apply stored_branch in St; apply St
        |intros X; rewrite X in Ez; discriminate| |].
      { rewrite nibs_consume, Ep. cbn [skipn]. rewrite lookup_branch in El. exact El. }
      unfold mbind at 1. destruct (delete_ f (tref (nth i cs TEmpty)) (np_consume path 1) s1) as [[a|e'] s2]; cbn in Ee; [discriminate|]. injection Ee as ->.
      exists e. auto.
Qed.

(** A call on a trie with all its nodes does not raise KeyError. *)
Lemma call_no_key : forall t tr c, repr t tr -> ok_op (m_secure t) (c_op c) -> nocoll (m_log (snd (mpt_call t c))) ->
  fst (mpt_call t c) <> Err KeyError.
Proof.
  intros t tr [[k v|k] lim fl] R [Hk Ho] Hn; unfold mpt_call in *; cbn [c_op c_lim c_faults op_key] in *.
  - destruct (mpt_update lim fl t k v) as [res t'] eqn:E. cbn [fst snd] in *. destruct Ho as [Hv Hvs].
    destruct (repr_update keccak_len lim fl t tr k v res t' R E Hv) as (tr' & R' & Hres); auto.
    { split; [rewrite eff_key_eff; apply eff_small; auto|unfold SZ; lia]. }
    intros ->. destruct Hres as (_ & _ & [[F _]|[F _]]); discriminate.
  - destruct (mpt_delete lim fl t k) as [res t'] eqn:E. cbn [fst snd] in *.
    destruct (repr_delete keccak_len lim fl t tr k res t' R E Hn) as (tr' & R' & Hres).
    intros ->. destruct Hres as (_ & _ & [[[F _]|[F _]]|El]); [discriminate..|].
    destruct (tree_empty_dec tr) as [->|Hne].
    { destruct (repr_empty_root t R) as [E1 _]. unfold mpt_delete in E. rewrite E1 in E. discriminate. }
    destruct (repr_nonempty keccak_len t tr R Hne) as (E1 & E2 & E3 & E4). unfold mpt_delete in E. rewrite E2, E3 in E.
    destruct R as (Hw & Hs & St & _).
    destruct (delete_absent_err lim tr (np_of (eff_key t k)) (mkStore (m_map t) (m_log t) fl) Hw Hs St Hne) as (e & Ee & Hk'); [rewrite nibs_np_of; exact El|].
    unfold run_op in E. destruct (delete_ _ _ _ _) as [[a|e'] s]; cbn in Ee; [discriminate|]. injection Ee as ->. injection E as E _. congruence.
Qed.

(** ** Some of the nodes *)
Lemma dget_app : forall (m m' : dict bytes) h, dget (m ++ m') h = match dget m h with Some e => Some e | None => dget m' h end.
Proof. induction m as [|[k e] m IH]; intros m' h; cbn; [reflexivity|]. destruct (bytes_eqb h k); auto. Qed.

Definition union (t t' : mpt) : mpt := mkMpt (m_map t ++ m_map t') (m_log t ++ m_log t') (m_root t) (m_secure t).
Lemma union_l : forall t t', trel t (union t t').
Proof.
  intros t t'. split; [|split; [apply incl_appl, incl_refl|auto]]. intros h e E. cbn. rewrite dget_app, E. reflexivity.
Qed.
Lemma union_r : forall t t', m_root t' = m_root t -> m_secure t' = m_secure t -> consistent (m_map t') (m_map t) -> trel t' (union t t').
Proof.
  intros t t' Er Es C. split; [|split; [apply incl_appr, incl_refl|auto]]. intros h e E. cbn. rewrite dget_app.
  destruct (dget (m_map t) h) as [e'|] eqn:E'; [|exact E]. rewrite (C h e e' E E'). reflexivity.
Qed.

Lemma run_op_root : forall A t fl (m : M A) nr e, fst (run_op t fl m nr) = Err e -> m_root (snd (run_op t fl m nr)) = m_root t.
Proof. intros A t fl m nr e. unfold run_op. destruct (m _) as [[a|x] s]; cbn; [discriminate|reflexivity]. Qed.
Lemma call_root : forall t c e, fst (mpt_call t c) = Err e -> m_root (snd (mpt_call t c)) = m_root t.
Proof.
  intros t [[k v|k] lim fl] e; unfold mpt_call; cbn [c_op c_lim c_faults]; [apply run_op_root|].
  unfold mpt_delete. destruct (root_is_empty t); [reflexivity|apply run_op_root].
Qed.

Theorem partial_call : forall secure l t t' c r t1 r' t1', reachable secure l t -> m_root t' = m_root t -> m_secure t' = m_secure t ->
  consistent (m_map t') (m_map t) -> ok_op secure (c_op c) -> mpt_call t c = (r, t1) -> no_collision (m_log t1) -> mpt_call t' c = (r', t1') ->
  (r' = Err KeyError /\ m_root t1' = m_root t) \/
  (r' = r /\ m_root t1' = m_root t1 /\ m_secure t1' = m_secure t1 /\ consistent (m_map t1') (m_map t1)).
Proof.
  intros secure l t t' c r t1 r' t1' R Er Es C Ho E Hn E'. destruct (reachable_repr keccak_len _ _ _ R) as (Es0 & tr & Rt & _). rewrite <- Es0 in Ho.
  pose proof (call_sim t (union t t') c (union_l t t')) as S1. pose proof (call_sim t' (union t t') c (union_r t t' Er Es C)) as S2.
  pose proof (call_no_key t tr c Rt Ho) as N. rewrite E in *. rewrite E' in S2. cbn [fst snd] in *.
  destruct S1 as [[S1 _]|[S1 (P1 & _ & R1 & M1)]]; [elim (N Hn S1)|].
  destruct S2 as [[S2 _]|[S2 (P2 & _ & R2 & M2)]].
  - left. split; [exact S2|]. rewrite <- Er. pose proof (call_root t' c KeyError) as Hr. rewrite E' in Hr. apply Hr. exact S2.
  - right. split; [congruence|]. split; [congruence|]. split; [congruence|]. intros h e e' E1 E2. apply P2 in E1. apply P1 in E2. congruence.
Qed.

Theorem partial_reads : forall secure l t t', reachable secure l t -> m_root t' = m_root t -> m_secure t' = m_secure t ->
  consistent (m_map t') (m_map t) -> (exists k v, keys_ok secure (k :: map op_key l) /\ dict_after l k = Some v) -> answers_part t' t.
Proof.
  intros secure l t t' R Er Es C (k0 & v0 & Hk0 & E0) lim k time.
  destruct (reach_lookup keccak_len _ _ _ k0 R Hk0) as (tr & Rt & Hh & Es' & El). rewrite E0 in El.
  assert (Hne : tr <> TEmpty) by (intros ->; discriminate).
  pose proof (union_r t t' Er Es C) as U. set (u := union t t') in *.
  assert (Su : stored (m_map u) tr) by (eapply stored_mono; [|apply Rt]; exact (proj1 (union_l t t'))).
  destruct (repr_nonempty keccak_len t tr Rt Hne) as (F1 & F2 & F3 & F4). destruct Rt as (Hw & Hs & St & _).
  assert (E1 : root_falsy u = root_falsy t) by reflexivity. assert (E2 : root_is_empty u = root_is_empty t) by reflexivity.
  assert (E3 : root_ref u = root_ref t) by reflexivity. assert (E4 : root_hash u = root_hash t) by reflexivity.
  assert (Ek : eff_key u k = eff_key t k) by reflexivity.
  assert (Hc : mpt_contains lim u k = mpt_contains lim t k).
  { unfold mpt_contains. rewrite E1, E2, E3, Ek, F3. rewrite (contains_same keccak_len (m_map u) (m_map t)) by auto. reflexivity. }
  split; [|split; [|split; [|split]]].
  - replace (mpt_get lim t k) with (mpt_get lim u k); [apply mpt_get_sim; exact U|].
    unfold mpt_get. rewrite E1, E3, Ek, F3. rewrite (get_same keccak_len (m_map u) (m_map t)) by auto. reflexivity.
  - rewrite <- Hc. apply mpt_contains_sim. exact U.
  - replace (mpt_get_poi lim time t k) with (mpt_get_poi lim time u k); [apply mpt_poi_sim; exact U|].
    unfold mpt_get_poi. rewrite E2, E3, Ek, F3. rewrite (get_poi_same keccak_len (m_map u) (m_map t)) by auto. reflexivity.
  - replace (mpt_get_poe lim time t k) with (mpt_get_poe lim time u k); [apply mpt_poe_sim; exact U|].
    unfold mpt_get_poe. rewrite E2, E3, E4, Ek, F3, Hc. rewrite (get_poe_same keccak_len (m_map u) (m_map t)) by auto. reflexivity.
  - intros p. apply verify_eq; auto.
Qed.

(** ** One storage for many tries *)
Lemma world_run_grows : forall h w outs w', dinv (w_map w) (w_log w) -> world_run w h = (outs, w') ->
  dinv (w_map w') (w_log w') /\ dext (w_map w) (w_log w) (w_map w') (w_log w').
Proof.
  induction h as [|[i c] h IH]; intros w outs w' D; cbn [world_run].
  - intros E. injection E as <- <-. split; [exact D|apply dext_refl].
  - unfold world_call. destruct (mpt_call (view w i) c) as [r t] eqn:Ec.
    destruct (call_keeps keccak_len (view w i) c r t D Ec) as [D1 [_ G1]].
    destruct (world_run _ h) as [l w2] eqn:Er. intros E. injection E as <- <-.
    destruct (IH (World (m_map t) (m_log t) (fun j => if j =? i then (m_root t, m_secure t) else w_tries w j)) l w2 D1 Er) as [D2 G2]. split; [exact D2|]. eapply dext_trans; [exact G1|exact G2].
Qed.

Lemma run_results_run : forall h t rs t', run_results t h = (rs, t') -> exists l, mpt_run t h = (l, t').
Proof.
  induction h as [|c h IH]; intros t rs t'; cbn [run_results mpt_run]; [intros E; injection E as <- <-; eauto|].
  destruct (mpt_call t c) as [r t1]. destruct (run_results t1 h) as [rs1 t2] eqn:E1. intros E. injection E as <- <-.
  destruct (IH _ _ _ E1) as [l ->]. eauto.
Qed.

Lemma trel_more : forall t a b, trel t a -> m_root b = m_root a -> m_secure b = m_secure a ->
  part_of (m_map a) (m_map b) -> incl (m_log a) (m_log b) -> trel t b.
Proof.
  intros t a b (P & I & Er & Es) Er' Es' P' I'. split; [eapply part_trans; eauto|]. split; [eapply incl_tran; eauto|]. split; congruence.
Qed.

Lemma world_sim : forall h w outs w', dinv (w_map w) (w_log w) -> Forall (fun x => ok_op (snd (w_tries w (fst x))) (c_op (snd x))) h ->
  world_run w h = (outs, w') -> nocoll (w_log w') ->
  forall i t tr, trel t (view w i) -> repr t tr -> forall rs t', run_results t (of i h) = (rs, t') ->
  rs = of i outs /\ trel t' (view w' i) /\ exists tr', repr t' tr'.
Proof.
  induction h as [|[j c] h IH]; intros w outs w' D Hok; cbn [world_run].
  - intros E Hn i t tr T Rt rs t' E'. injection E as <- <-. injection E' as <- <-. eauto.
  - intros E Hn i t tr T Rt rs t' E'. unfold world_call in E. destruct (mpt_call (view w j) c) as [r t1] eqn:Ec.
    destruct (call_keeps keccak_len (view w j) c r t1 D Ec) as [D1 [S1 G1]].
    set (w1 := World (m_map t1) (m_log t1) (fun k => if k =? j then (m_root t1, m_secure t1) else w_tries w k)) in E.
    destruct (world_run w1 h) as [l w2] eqn:Er. injection E as <- <-.
    destruct (world_run_grows h w1 l w2 D1 Er) as [D2 G2].
    assert (N1 : nocoll (m_log t1)) by (eapply nocoll_incl; [|exact Hn]; intros x; exact (dext_log _ _ _ _ x G2)).
    inversion Hok as [|? ? Hc Hok0]; subst.
    assert (Hok' : Forall (fun x => ok_op (snd (w_tries w1 (fst x))) (c_op (snd x))) h).
    { eapply Forall_impl; [|exact Hok0]. intros [n c0] Ho. unfold w1. cbn [w_tries fst snd] in *.
      destruct (Nat.eqb_spec n j) as [->|_]; [|exact Ho]. cbn [snd]. rewrite S1. exact Ho. }
    unfold of in E' |- *. cbn [filter fst] in *. destruct (Nat.eqb_spec j i) as [->|Hji].
    + cbn [map snd run_results] in *. destruct (mpt_call t c) as [r0 t0] eqn:E0. destruct (run_results t0 _) as [rs0 t2] eqn:E2. injection E' as <- <-.
      assert (Hct : ok_op (m_secure t) (c_op c)).
      { destruct T as (_ & _ & _ & Es). replace (m_secure t) with (m_secure (view w i)). exact Hc. }
      pose proof (call_sim t (view w i) c T) as S. rewrite E0, Ec in S. cbn [fst snd] in S.
      assert (N0 : nocoll (m_log t0)).
      { destruct S as [[_ I]|[_ (_ & I & _)]]; (eapply nocoll_incl; [|exact N1]; exact I). }
      destruct S as [[S I]|[S (P & I & Eroot & Esec)]].
      { exfalso. apply (call_no_key t tr c Rt Hct); rewrite E0; cbn [fst snd]; auto. }
      assert (T1 : trel t0 (view w1 i)) by (unfold w1, view; cbn [w_tries w_map w_log]; rewrite Nat.eqb_refl; split; [exact P|]; split; [exact I|]; auto).
      assert (X : exists tr0, repr t0 tr0).
      { destruct Hct as [Hk Ho]. destruct c as [[k v|k] lim fl]; unfold mpt_call in E0; cbn [c_op c_lim c_faults op_key] in *.
        - destruct Ho as [Hv Hvs]. destruct (repr_update keccak_len lim fl t tr k v r0 t0 Rt E0 Hv) as (tr0 & R0 & _); [|exact N0|eauto].
          split; [rewrite eff_key_eff; apply eff_small; auto|unfold SZ; lia].
        - destruct (repr_delete keccak_len lim fl t tr k r0 t0 Rt E0 N0) as (tr0 & R0 & _). eauto. }
      destruct X as [tr0 R0].
      destruct (IH w1 l w2 D1 Hok' Er Hn i t0 tr0 T1 R0 rs0 t2 E2) as (-> & T2 & X). split; [|auto]. rewrite S. reflexivity.
    + apply (IH w1 l w2 D1 Hok' Er Hn i t tr); auto.
      eapply trel_more; [exact T|..]; unfold w1, view; cbn [w_tries w_map w_log m_root m_secure m_map m_log];
        try (destruct (Nat.eqb_spec i j); [congruence|reflexivity]).
      * intros k e. exact (dext_dget _ _ _ _ D D1 G1 N1 k e).
      * intros x. exact (dext_log _ _ _ _ x G1).
Qed.

Lemma trel_repr : forall t t2 tr, trel t t2 -> repr t tr -> dinv (m_map t2) (m_log t2) -> nocoll (m_log t2) -> repr t2 tr.
Proof.
  intros t t2 tr (P & I & Er & Es) (Hw & Hs & St & _ & _ & Hr) D N. unfold repr. rewrite <- Er, <- Es.
  split; [exact Hw|]. split; [exact Hs|]. split; [eapply stored_mono; [|exact St]; exact P|]. auto.
Qed.

Theorem shared_storage : forall mode h outs w, Forall (fun x => ok_op (mode (fst x)) (c_op (snd x))) h ->
  world_run (world_new mode) h = (outs, w) -> no_collision (w_log w) ->
  forall i rs t, run_results (mpt_new (mode i)) (of i h) = (rs, t) ->
  of i outs = rs /\ m_root (view w i) = m_root t /\ root_hash (view w i) = root_hash t /\ reads_alike t (view w i) /\
  exists l, reachable (mode i) l t.
Proof.
  intros mode h outs w Hok E Hn i rs t E'.
  assert (D0 : dinv (w_map (world_new mode)) (w_log (world_new mode))) by exact (new_dinv false).
  destruct (world_run_grows h _ _ _ D0 E) as [D G].
  assert (N0 : nocoll (m_log (mpt_new (mode i)))).
  { eapply nocoll_incl; [|exact Hn]. intros x. exact (dext_log _ _ _ _ x G). }
  destruct (world_sim h _ _ _ D0 Hok E Hn i (mpt_new (mode i)) TEmpty) with (rs := rs) (t' := t) as (Er & T & tr & Rt); auto.
  { split; [intros k e; discriminate|]. split; [apply incl_refl|]. split; reflexivity. }
  { apply mpt_new_repr; auto. }
  split; [congruence|]. split; [symmetry; apply T|]. split; [symmetry; apply root_hash_eq; apply T|]. split.
  - apply (reads_alike_repr keccak_len t (view w i) tr Rt); [eapply trel_repr; eauto|symmetry; apply T|symmetry; apply T].
  - destruct (run_results_run _ _ _ _ E') as [l El]. exists l, (of i h). split; [exact El|]. split.
    + unfold ok_history, of. rewrite Forall_map, Forall_forall. intros [j c] Hx. apply filter_In in Hx. destruct Hx as [Hx Hi]. apply Nat.eqb_eq in Hi. cbn [fst] in Hi. subst j.
      rewrite Forall_forall in Hok. exact (Hok _ Hx).
    + eapply nocoll_incl; [|exact Hn]. apply T.
Qed.
End S.
