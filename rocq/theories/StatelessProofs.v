(** What reads look at, and proofs used as storages. *)
From Coq Require Import List Bool Arith NArith ZArith Lia.
From Verif Require Import Base BaseProofs Rlp RlpProofs NibblePath NibbleProofs Node ProofObj Mpt Tree TreeEnc
  StoreProofs UpdateProofs DeleteProofs ReadProofs Spec SpecCodec SpecProof MptRefine MptProofs PoiProofs CostProofs SpecShared SimProofs SharedProofs.
Import ListNotations.

Section S.
Context {H : Hash}.
Hypothesis keccak_len : forall b, length (keccak b) = 32.

Lemma get_node_here : forall m m' t, t <> TEmpty -> here m t -> here m' t -> get_node m (tref t) = get_node m' (tref t).
Proof.
  intros m m' t Hn S1 S2. unfold get_node. rewrite (tref_32 keccak_len) by auto. rewrite tref_eq by auto.
  destruct (Nat.ltb_spec (length (tenc t)) 32) as [Hl|Hl]; cbn [negb]; auto. rewrite S1, S2 by auto. reflexivity.
Qed.

Definition four (m m' : dict bytes) (t : tree) (q : list nat) : Prop := forall fuel path acc, nibs path = q ->
  get_ fuel m' (tref t) path = get_ fuel m (tref t) path /\ contains_ fuel m' (tref t) path = contains_ fuel m (tref t) path /\
  get_poi_ fuel m' (tref t) path acc = get_poi_ fuel m (tref t) path acc /\
  get_poe_ fuel m' (tref t) path acc = get_poe_ fuel m (tref t) path acc.

(** The nodes a read visits. *)
Lemma trail : forall m t q, t <> TEmpty -> wf t -> small t -> stored m t ->
  exists R, length R <= length q + 1 /\ (forall s, In s R -> s <> TEmpty /\ here m s) /\ (forall L, walk t q L -> L = R) /\
    forall m', (forall s, In s R -> here m' s) -> four m m' t q.
Proof.
  intros m t. induction t as [|p w|p c IH|cs w IH] using tree_ind2; intros q Hn Hw Hs St; [congruence|..].
  - exists [TLeaf p w]. split; [cbn; lia|]. split; [intros s [<-|[]]; auto using here_of_stored|].
    split; [intros L W; inversion W; reflexivity|]. intros m' Hm' fuel path acc Eq.
    pose proof (get_node_here m m' _ Hn (here_of_stored _ _ St) (Hm' _ (or_introl eq_refl))) as Eg.
    destruct (get_node_stored keccak_len m _ Hn Hw Hs (here_of_stored _ _ St)) as (n & En & Hm).
    destruct fuel as [|f]; [auto|]. cbn [get_ contains_ get_poi_ get_poe_]. rewrite <- Eg, En.
    destruct n as [lp d|ep nr|bs d]; cbn [nmatch] in Hm; try contradiction. auto.
  - assert (Hw' := Hw). destruct Hw' as (Hp & Hp0 & Hb & Hwc).
    assert (Hc : c <> TEmpty) by (intros ->; contradiction). assert (St' := St). apply stored_ext in St'. destruct St' as [_ Stc].
    destruct (strip p q) as [z|] eqn:Es.
    + destruct (IH z Hc Hwc ltac:(eapply small_ext; eauto) Stc) as (R & Lr & HR & HL & Hf). exists (TExt p c :: R).
      apply strip_spec in Es. assert (Hpl : length p <> 0) by (destruct p; cbn; congruence).
      split; [cbn [length]; rewrite Es, app_length; lia|]. split.
      { intros s [<-|Hi]; auto using here_of_stored. }
      split.
      { intros L W. inversion W as [|p0 c0 r L0 W0 E1 E2| |]; subst. apply app_inv_head in E2. subst r. f_equal. apply HL. exact W0. }
      intros m' Hm' fuel path acc Eq.
      pose proof (get_node_here m m' _ Hn (here_of_stored _ _ St) (Hm' _ (or_introl eq_refl))) as Eg.
      destruct (get_node_stored keccak_len m _ Hn Hw Hs (here_of_stored _ _ St)) as (n & En & Hm).
      destruct fuel as [|f]; [auto|]. cbn [get_ contains_ get_poi_ get_poe_]. rewrite <- Eg, En.
      destruct n as [lp d|ep nr|bs d]; cbn [nmatch] in Hm; try contradiction. cbn [bind]. destruct Hm as [E1 ->].
      destruct (np_len path =? 0); [auto|].
      assert (Es' : strip (nibs ep) (nibs path) = Some z) by (apply strip_spec; congruence).
      rewrite np_starts_with_spec, Es'. pose proof (np_starts_with_skip _ _ _ Es') as Er.
      specialize (Hf m' (fun s Hi => Hm' s (or_intror Hi)) f (np_consume path (np_len ep))).
      destruct (Hf [] Er) as (F1 & F2 & _). split; [exact F1|]. split; [exact F2|].
      destruct (node_encode (Extension ep (tref c))) as [e|]; cbn [bind]; [|auto].
      destruct (Hf (acc ++ [e]) Er) as (_ & _ & F3 & F4). auto.
    + exists [TExt p c]. split; [cbn; lia|]. split; [intros s [<-|[]]; auto using here_of_stored|].
      split.
      { intros L W. inversion W as [|p0 c0 r L0 W0 E1 E2| |]; subst. exfalso. assert (X : strip p (p ++ r) = Some r) by (apply strip_spec; reflexivity). congruence. }
      intros m' Hm' fuel path acc Eq.
      pose proof (get_node_here m m' _ Hn (here_of_stored _ _ St) (Hm' _ (or_introl eq_refl))) as Eg.
      destruct (get_node_stored keccak_len m _ Hn Hw Hs (here_of_stored _ _ St)) as (n & En & Hm).
      destruct fuel as [|f]; [auto|]. cbn [get_ contains_ get_poi_ get_poe_]. rewrite <- Eg, En.
      destruct n as [lp d|ep nr|bs d]; cbn [nmatch] in Hm; try contradiction. cbn [bind]. destruct Hm as [E1 ->].
      destruct (np_len path =? 0); [auto|].
      rewrite np_starts_with_spec, E1, Eq, Es. auto.
  - apply wf_branch in Hw as Hw'. assert (St' := St). apply stored_branch in St'. destruct St' as [_ Stc].
    destruct q as [|i r].
    + exists [TBranch cs w]. split; [cbn; lia|]. split; [intros s [<-|[]]; auto using here_of_stored|].
      split; [intros L W; inversion W as [|p0 c0 r L0 W0 E1 E2| |]; subst; reflexivity|].
      intros m' Hm' fuel path acc Eq.
      pose proof (get_node_here m m' _ Hn (here_of_stored _ _ St) (Hm' _ (or_introl eq_refl))) as Eg.
      destruct fuel as [|f]; [auto|]. cbn [get_ contains_ get_poi_ get_poe_]. rewrite <- Eg.
      replace (np_len path =? 0) with true by (rewrite np_len_spec, Eq; reflexivity). auto.
    + destruct (0 <? length (tref (nth i cs TEmpty))) eqn:Ez.
      * apply (tref_pos keccak_len) in Ez as Hne.
        destruct (nth_in_or_default i cs TEmpty) as [Hi|Hd]; [|congruence]. rewrite Forall_forall in IH.
        destruct (IH _ Hi r Hne) as (R & Lr & HR & HL & Hf); [apply wf_nth; apply Hw'|eapply small_nth; eauto|apply stored_nth; exact Stc|].
        exists (TBranch cs w :: R). split; [cbn [length]; lia|]. split.
        { intros s [<-|Hs']; auto using here_of_stored. }
        split; [intros L W; inversion W; subst; f_equal; apply HL; assumption|].
        intros m' Hm' fuel path acc Eq.
        pose proof (get_node_here m m' _ Hn (here_of_stored _ _ St) (Hm' _ (or_introl eq_refl))) as Eg.
        destruct (get_node_stored keccak_len m _ Hn Hw Hs (here_of_stored _ _ St)) as (n & En & Hm).
        destruct fuel as [|f]; [auto|]. cbn [get_ contains_ get_poi_ get_poe_]. rewrite <- Eg, En.
        destruct n as [lp d|ep nr|bs d]; cbn [nmatch] in Hm; try contradiction. cbn [bind]. destruct Hm as [-> ->].
        replace (np_len path =? 0) with false by (rewrite np_len_spec, Eq; reflexivity).
        replace (np_at path 0) with i by (rewrite np_at_spec, Eq; reflexivity). rewrite nth_map_tref, Ez.
        assert (Er : nibs (np_consume path 1) = r) by (rewrite nibs_consume, Eq; reflexivity).
        specialize (Hf m' (fun s Hi' => Hm' s (or_intror Hi')) f (np_consume path 1)).
        destruct (Hf [] Er) as (F1 & F2 & _). split; [exact F1|]. split; [exact F2|].
        destruct (node_encode (Branch (map tref cs) w)) as [e|]; cbn [bind]; [|auto].
        destruct (Hf (acc ++ [e]) Er) as (_ & _ & F3 & F4). auto.
      * exists [TBranch cs w]. split; [cbn; lia|]. split; [intros s [<-|[]]; auto using here_of_stored|].
        split.
        { intros L W. inversion W as [| | |cs0 v0 i0 r0 L0 W0]; subst. exfalso. apply walk_ne in W0. apply (tref_pos keccak_len) in W0. congruence. }
        intros m' Hm' fuel path acc Eq.
        pose proof (get_node_here m m' _ Hn (here_of_stored _ _ St) (Hm' _ (or_introl eq_refl))) as Eg.
        destruct (get_node_stored keccak_len m _ Hn Hw Hs (here_of_stored _ _ St)) as (n & En & Hm).
        destruct fuel as [|f]; [auto|]. cbn [get_ contains_ get_poi_ get_poe_]. rewrite <- Eg, En.
        destruct n as [lp d|ep nr|bs d]; cbn [nmatch] in Hm; try contradiction. cbn [bind]. destruct Hm as [-> ->].
        replace (np_len path =? 0) with false by (rewrite np_len_spec, Eq; reflexivity).
        replace (np_at path 0) with i by (rewrite np_at_spec, Eq; reflexivity). rewrite nth_map_tref, Ez. auto.
Qed.

Lemma four_answers : forall t t' tr k, repr t tr -> tr <> TEmpty -> m_root t' = m_root t -> m_secure t' = m_secure t ->
  four (m_map t) (m_map t') tr (nibs_of (eff_key t k)) -> same_answers t t' k.
Proof.
  intros t t' tr k R Hne Er Es F lim time. destruct (repr_nonempty keccak_len t tr R Hne) as (F1 & F2 & F3 & F4).
  assert (E1 : root_falsy t' = root_falsy t) by (unfold root_falsy; rewrite Er; reflexivity).
  assert (E2 : root_is_empty t' = root_is_empty t) by (unfold root_is_empty; rewrite Er; reflexivity).
  assert (E3 : root_ref t' = root_ref t) by (unfold root_ref; rewrite Er; reflexivity).
  assert (E4 : root_hash t' = root_hash t) by (unfold root_hash; rewrite E1, E3; reflexivity).
  assert (Ek : eff_key t' k = eff_key t k) by (unfold eff_key; rewrite Es; reflexivity).
  destruct (F lim (np_of (eff_key t k)) [] (nibs_np_of _)) as (A1 & A2 & A3 & A4).
  assert (Hc : mpt_contains lim t' k = mpt_contains lim t k).
  { unfold mpt_contains. rewrite E1, E2, E3, Ek, F3, A2. reflexivity. }
  split; [|split; [exact Hc|split]].
  - unfold mpt_get. rewrite E1, E3, Ek, F3, A1. reflexivity.
  - unfold mpt_get_poi. rewrite E2, E3, Ek, F3, A3. reflexivity.
  - unfold mpt_get_poe. rewrite E2, E3, E4, Ek, F3, Hc, A4. reflexivity.
Qed.

Theorem reads_look : forall secure l t k, reachable secure l t -> exists R, length R <= frames secure k + 1 /\
  forall t', m_root t' = m_root t -> m_secure t' = m_secure t -> (forall h, In h R -> dget (m_map t') h = dget (m_map t) h) ->
  same_answers t t' k.
Proof.
  intros secure l t k R. destruct (reachable_repr keccak_len _ _ _ R) as (Es & tr & Rt & _).
  assert (Ln : length (nibs_of (eff_key t k)) = frames secure k).
  { rewrite nibs_of_length, eff_key_eff, Es, (eff_frames keccak_len). reflexivity. }
  destruct (tree_empty_dec tr) as [->|Hne].
  - destruct Rt as (_ & _ & _ & D & N & [[_ Hr]|[X _]] & _); [|congruence]. exists [EMPTY_HASH]. split; [cbn; lia|].
    intros t' Er Esec Ag lim time. specialize (Ag _ (or_introl eq_refl)).
    assert (E2 : root_is_empty t = true).
    { unfold root_is_empty. destruct Hr as [-> | ->]; auto. rewrite ?bytes_eqb_refl, ?orb_true_r. reflexivity. }
    assert (E2' : root_is_empty t' = true) by (rewrite <- E2; unfold root_is_empty; rewrite Er; reflexivity).
    assert (E1 : root_falsy t' = root_falsy t) by (unfold root_falsy; rewrite Er; reflexivity).
    assert (E3 : root_ref t' = root_ref t) by (unfold root_ref; rewrite Er; reflexivity).
    split; [|split; [|split]].
    + unfold mpt_get. rewrite E1, E3. destruct (root_falsy t) eqn:Ef; [reflexivity|].
      assert (Er3 : root_ref t = EMPTY_HASH).
      { unfold root_ref. destruct Hr as [Hr|Hr]; rewrite Hr; [|reflexivity]. unfold root_falsy in Ef. rewrite Hr in Ef. discriminate. }
      rewrite Er3. unfold eff_key. rewrite Esec. fold (eff_key t k).
      assert (Eg : get_node (m_map t') EMPTY_HASH = get_node (m_map t) EMPTY_HASH) by (unfold get_node; rewrite Ag; reflexivity).
      assert (En : dget (m_map t) EMPTY_HASH = None) by (eapply dget_empty_hash; eauto).
      destruct lim as [|f]; [reflexivity|]. cbn [get_]. rewrite Eg.
      replace (get_node (m_map t) EMPTY_HASH) with (@Err node KeyError); [reflexivity|].
      unfold get_node. rewrite En. replace (length EMPTY_HASH =? 32) with true; [reflexivity|]. symmetry. apply Nat.eqb_eq. apply keccak_len.
    + unfold mpt_contains. rewrite E1, E2, E2'. destruct (root_falsy t); reflexivity.
    + unfold mpt_get_poi. rewrite E2, E2'. reflexivity.
    + unfold mpt_get_poe. rewrite E2, E2'. reflexivity.
  - assert (Rt' := Rt). destruct Rt' as (Hw & Hs & St & _).
    destruct (trail (m_map t) tr (nibs_of (eff_key t k)) Hne Hw Hs St) as (L & Ll & HL & _ & Hf).
    exists (map (fun s => keccak (tenc s)) L). split; [rewrite map_length; lia|].
    intros t' Er Esec Ag. apply (four_answers t t' tr k); auto. apply Hf. intros s Hi Hn Hl.
    rewrite Ag by (apply (in_map (fun s => keccak (tenc s))); exact Hi). apply HL; auto.
Qed.

(** ** The nodes of a proof as a storage *)
Lemma encode_no_key : forall n, node_encode n <> Err KeyError.
Proof.
  assert (Hr : forall i, rlp_encode i <> Err KeyError) by (intros i; unfold rlp_encode; destruct (_ <? _)%N; discriminate).
  assert (Hd : forall r, prep_encoding r <> Err KeyError).
  { intros r. unfold prep_encoding. destruct (_ && _); [|discriminate]. unfold rlp_decode. destruct (dec _ _) as [[|? [|? ?]]|]; discriminate. }
  assert (Hm : forall l, mapM prep_encoding l <> Err KeyError).
  { induction l as [|r l IH]; cbn; [discriminate|]. specialize (Hd r). destruct (prep_encoding r); cbn; [|congruence].
    destruct (mapM prep_encoding l); cbn; congruence. }
  intros [p v|p r|bs v]; cbn [node_encode]; auto.
  - specialize (Hd r). destruct (prep_encoding r); cbn [bind]; [apply Hr|congruence].
  - specialize (Hm bs). destruct (mapM prep_encoding bs); cbn [bind]; [apply Hr|congruence].
Qed.
Lemma store_no_key : forall n s, fst (store_node n s) <> Err KeyError.
Proof.
  intros n s. unfold store_node, into_reference, lift, mbind, write, tick, ret. pose proof (encode_no_key n) as E. destruct (node_encode n) as [e|]; cbn [bind]; [|cbn; congruence].
  destruct (length _ =? 32); cbn; [|discriminate]. unfold mbind. destruct (s_faults s) as [|[|] ?]; cbn; discriminate.
Qed.

Lemma rd_here : forall t s, t <> TEmpty -> wf t -> small t -> here (s_map s) t ->
  fst (rd_node (tref t) s) = Err StorageFault \/
  exists n s1, rd_node (tref t) s = (Ok n, s1) /\ nmatch n t /\ s_map s1 = s_map s.
Proof.
  intros t s Hn Hw Hs St. destruct (get_node_stored keccak_len (s_map s) t Hn Hw Hs St) as (n & E & Hm).
  unfold rd_node, mbind, tick, ret. destruct (length (tref t) =? 32).
  - destruct (s_faults s) as [|[|] fs]; cbn [s_map]; [right; exists n; eexists; split; [rewrite E; reflexivity|split; [exact Hm|reflexivity]]|left; reflexivity|right; exists n; eexists; split; [rewrite E; reflexivity|split; [exact Hm|reflexivity]]].
  - right; exists n; eexists; split; [rewrite E; reflexivity|split; [exact Hm|reflexivity]].
Qed.

Lemma walk_update : forall t q L, walk t q L -> forall fuel path v s, nibs path = q -> wf t -> small t ->
  (forall x, In x L -> here (s_map s) x) -> fst (update_ fuel (tref t) path v s) <> Err KeyError.
Proof.
  assert (Hb : forall A (m : M A) f s, fst (m s) <> Err KeyError -> (forall a s', fst (f a s') <> Err KeyError) -> fst (@mbind A bytes m f s) <> Err KeyError).
  { intros A m f s H1 H2. unfold mbind. destruct (m s) as [[a|e] s']; cbn in *; auto. congruence. }
  intros t q L W. induction W as [p v0|p c r L W IH|cs v0|cs v0 i r L W IH]; intros fuel path v s Hp Hw Hs Hh;
    (destruct fuel as [|f]; [discriminate|]); cbn [update_];
    match goal with |- context [rd_node (tref ?t)] =>
      assert (Ht : t <> TEmpty) by discriminate;
      destruct (ref_is_empty (tref t)); [apply store_no_key|]; unfold mbind at 1;
      destruct (rd_here t s Ht Hw Hs (Hh _ (or_introl eq_refl))) as [E|(n & s1 & E & Hm & Em)];
        [destruct (rd_node (tref t) s) as [[n|e] s1]; cbn in E |- *; congruence|]; rewrite E end.
  - destruct n as [lp d| |]; cbn [nmatch] in Hm; try contradiction. destruct Hm as [E1 E2].
    replace (np_eq lp path) with true by (symmetry; apply np_eq_spec; congruence). apply store_no_key.
  - destruct n as [|ep nr|]; cbn [nmatch] in Hm; try contradiction. destruct Hm as [E1 ->].
    assert (Es : strip (nibs ep) (nibs path) = Some r) by (apply strip_spec; congruence).
    rewrite np_starts_with_spec, Es. pose proof (np_starts_with_skip _ _ _ Es) as Er.
    destruct Hw as (_ & _ & _ & Hwc). apply Hb; [|intros; apply store_no_key].
    apply IH; auto; [eapply small_ext; eauto|]. intros x Hx. rewrite Em. apply Hh. right. exact Hx.
  - destruct n as [| |bs d]; cbn [nmatch] in Hm; try contradiction.
    replace (np_len path =? 0) with true by (rewrite np_len_spec, Hp; reflexivity). apply store_no_key.
  - destruct n as [| |bs d]; cbn [nmatch] in Hm; try contradiction. destruct Hm as [-> ->].
    replace (np_len path =? 0) with false by (rewrite np_len_spec, Hp; reflexivity).
    replace (np_at path 0) with i by (rewrite np_at_spec, Hp; reflexivity). rewrite nth_map_tref.
    assert (Hw' := Hw). apply wf_branch in Hw'. apply Hb; [|intros; apply store_no_key].
    apply IH; auto; [rewrite nibs_consume, Hp; reflexivity|apply wf_nth; apply Hw'|eapply small_nth; eauto|].
    intros x Hx. rewrite Em. apply Hh. right. exact Hx.
Qed.

Lemma as_storage : forall L m log, nocoll (log ++ L) ->
  (forall h e, dget m h = Some e -> h = keccak e /\ In e log) ->
  forall h e, dget (fold_left (fun d e => dset d (keccak e) e) L m) h = Some e -> h = keccak e /\ In e (log ++ L).
Proof.
  induction L as [|x L IH]; intros m log Hn Hm h e; cbn [fold_left].
  - intros E. rewrite app_nil_r. auto.
  - intros E. replace (log ++ x :: L) with ((log ++ [x]) ++ L) in * by (rewrite <- app_assoc; reflexivity).
    apply (IH _ _ Hn) in E; auto. intros h' e' E'. rewrite dget_dset in E'. destruct (bytes_eqb_spec h' (keccak x)) as [->|_].
    + injection E' as <-. split; auto. apply in_or_app. right. left. reflexivity.
    + apply Hm in E'. destruct E' as [E1 E2]. split; auto. apply in_or_app. auto.
Qed.
Lemma as_storage_has : forall L m log, nocoll (log ++ L) -> (forall h e, dget m h = Some e -> h = keccak e /\ In e log) ->
  forall e, In e L \/ dget m (keccak e) = Some e -> dget (fold_left (fun d e => dset d (keccak e) e) L m) (keccak e) = Some e.
Proof.
  induction L as [|x L IH]; intros m log Hn Hm e He; cbn [fold_left]; [destruct He as [[]|He]; auto|].
  assert (Hn' := Hn). replace (log ++ x :: L) with ((log ++ [x]) ++ L) in Hn' by (rewrite <- app_assoc; reflexivity).
  apply (IH _ (log ++ [x])); auto.
  - intros h' e' E'. rewrite dget_dset in E'. destruct (bytes_eqb_spec h' (keccak x)) as [->|_].
    + injection E' as <-. split; auto. apply in_or_app. right. left. reflexivity.
    + apply Hm in E'. destruct E' as [E1 E2]. split; auto. apply in_or_app. auto.
  - destruct He as [[->|He]|He]; [right; rewrite dget_dset, bytes_eqb_refl; reflexivity|auto|].
    right. rewrite dget_dset. destruct (bytes_eqb_spec (keccak e) (keccak x)) as [E|_]; [|exact He].
    f_equal. symmetry. apply Hn; auto; apply in_or_app; [left; apply (Hm _ _ He)|right; left; reflexivity].
Qed.

Theorem proof_suffices : forall secure l t k v0 lim time p t', reachable secure l t -> keys_ok secure (k :: map op_key l) ->
  dict_after l k = Some v0 -> mpt_get_poi lim time t k = Ok p ->
  m_root t' = m_root t -> m_secure t' = m_secure t -> m_map t' = nodes_as_storage (proof_nodes p) ->
  no_collision (m_log t ++ proof_nodes p) ->
  same_answers t t' k /\ answers_part t' t /\
  forall v lim' fl r t1 r' t1', ok_op secure (Put k v) -> mpt_update lim' fl t k v = (r, t1) -> no_collision (m_log t1) ->
    mpt_update lim' fl t' k v = (r', t1') -> r' = r /\ m_root t1' = m_root t1 /\ consistent (m_map t1') (m_map t1).
Proof.
  intros secure l t k v0 lim time p t' R Hk Ed Ep Er Esec Em Hn.
  destruct (reach_lookup keccak_len _ _ _ k R Hk) as (tr & Rt & Hh & Es & El). rewrite Ed in El.
  destruct (walk_of_lookup _ _ _ El) as [L W]. assert (Hne : tr <> TEmpty) by (eapply walk_ne; eauto).
  destruct (repr_nonempty keccak_len t tr Rt Hne) as (E1 & E2 & E3 & E4). assert (Rt' := Rt). destruct Rt' as (Hw & Hs & St & D & N & _).
  assert (Epn : proof_nodes p = map tenc L).
  { unfold mpt_get_poi in Ep. rewrite E2, E3 in Ep.
    assert (Y : forall q L t0, walk t0 q L -> forall fuel path acc x, nibs path = q -> wf t0 -> small t0 -> stored (m_map t) t0 ->
      get_poi_ fuel (m_map t) (tref t0) path acc = Ok x -> x = acc ++ map tenc L).
    { clear - keccak_len. intros q L t0 W fuel path acc x Hp Hw Hs St E.
      pose proof (get_poi_walk keccak_len q L t0 W (S (fuel + length q)) (m_map t) path acc Hp Hw Hs St ltac:(lia)) as E'.
      assert (Mono : forall f g r p a x, f <= g -> get_poi_ f (m_map t) r p a = Ok x -> get_poi_ g (m_map t) r p a = Ok x).
      { induction f as [|f IH]; intros g r0 p0 a y Hle; [discriminate|]. destruct g as [|g]; [lia|]. cbn [get_poi_].
        destruct (get_node (m_map t) r0) as [n|]; cbn [bind]; [|discriminate]. destruct (np_len p0 =? 0); [auto|].
        destruct n as [lp d|ep nr|bs d]; auto.
        - destruct (np_starts_with p0 ep); [|auto]. destruct (node_encode _); cbn [bind]; [|auto]. apply IH. lia.
        - destruct (0 <? _); [|auto]. destruct (node_encode _); cbn [bind]; [|auto]. apply IH. lia. }
      apply (Mono _ (S (fuel + length q))) in E; [|lia]. congruence. }
    destruct (get_poi_ lim (m_map t) (tref tr) (np_of (eff_key t k)) []) as [x|] eqn:Eg; cbn [bind] in Ep; [|discriminate].
    apply (Y _ _ _ W) in Eg; auto using nibs_np_of. cbn [app] in Eg. subst x.
    unfold new_proof in Ep. repeat match type of Ep with (if ?c then _ else _) = _ => destruct c; [discriminate|] end. injection Ep as <-.
    unfold proof_nodes. cbn [pf_proof]. clear. induction L; cbn; [reflexivity|f_equal; assumption]. }
  assert (Hn' : nocoll (proof_nodes p)) by (eapply nocoll_incl; [|exact Hn]; intros; apply in_or_app; auto).
  assert (HL : forall s, In s L -> here (m_map t') s).
  { intros s Hi _ Hl. rewrite Em. apply (as_storage_has (proof_nodes p) [] []); [exact Hn'|discriminate|]. left. rewrite Epn. apply in_map. exact Hi. }
  assert (C : consistent (m_map t') (m_map t)).
  { intros h e e' A B. rewrite Em in A. apply (as_storage (proof_nodes p) [] []) in A; [|exact Hn'|discriminate].
    destruct A as [A1 A2]. apply D in B. destruct B as (B1 & B2 & _). apply Hn; [apply in_or_app; right; exact A2|apply in_or_app; left; exact B2|congruence]. }
  split; [|split].
  - apply (four_answers t t' tr k); auto.
    destruct (trail (m_map t) tr (nibs_of (eff_key t k)) Hne Hw Hs St) as (L' & _ & _ & HW & Hf).
    apply Hf. rewrite <- (HW L W). exact HL.
  - apply (partial_reads keccak_len secure l t t' R Er Esec C). exists k, v0. auto.
  - intros v lim' fl r t1 r' t1' Ho Eu Hn1 Eu'.
    destruct (partial_call keccak_len secure l t t' (Call (Put k v) lim' fl) r t1 r' t1') as [[X _]|X]; auto; [|tauto].
    exfalso. unfold mpt_update, run_op in Eu'. unfold eff_key in Eu'. rewrite Esec in Eu'. fold (eff_key t k) in Eu'.
    unfold root_ref in Eu' at 1. rewrite Er in Eu'. fold (root_ref t) in Eu'. rewrite E3 in Eu'.
    pose proof (walk_update tr _ L W lim' (np_of (eff_key t k)) v (mkStore (m_map t') (m_log t') fl) (nibs_np_of _) Hw Hs HL) as Nk.
    destruct (update_ _ _ _ _ _) as [[a|e] s]; injection Eu' as <- <-; [discriminate|]. cbn in Nk. congruence.
Qed.
End S.
