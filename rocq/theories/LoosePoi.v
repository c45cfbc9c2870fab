(** Proofs of inclusion in plain tries with empty values.  Copies of the proofs of PoiProofs.v for loose trees. *)
From Coq Require Import List Bool Arith NArith ZArith Lia.
From Verif Require Import Base BaseProofs Rlp RlpProofs NibblePath NibbleProofs Node ProofObj Mpt Tree TreeEnc
  StoreProofs UpdateProofs DeleteProofs ReadProofs Spec SpecCodec SpecProof MptRefine MptProofs PoiProofs PoeProofs SpecLoose LooseProofs LooseThms.
Import ListNotations.

Section Poi.
Context {H : Hash}.
Hypothesis keccak_len : forall b, length (keccak b) = 32.

Definition lgood (s : tree) : Prop := s <> TEmpty /\ lwf s /\ small s.

Lemma lwalk_good : forall t q L, walk t q L -> lwf t -> small t -> Forall lgood L.
Proof.
  induction 1 as [p v|p c r L W IH|cs v|cs v i r L W IH]; intros Hw Hs.
  - constructor; [split; [discriminate|split; auto]|constructor].
  - constructor; [split; [discriminate|split; auto]|]. apply IH; [apply Hw|eapply small_ext; eauto].
  - constructor; [split; [discriminate|split; auto]|constructor].
  - constructor; [split; [discriminate|split; auto]|]. assert (Hw' := Hw). apply lwf_branch in Hw'.
    apply IH; [apply lwf_nth; apply Hw'|eapply small_nth; eauto].
Qed.

Lemma lget_poi_walk : forall q L t, walk t q L -> forall fuel m path acc, nibs path = q -> lwf t -> small t -> stored m t ->
  length q < fuel -> get_poi_ fuel m (tref t) path acc = Ok (acc ++ map tenc L).
Proof.
  intros q L t W. induction W as [p v|p c r L W IH|cs v|cs v i r L W IH]; intros fuel m path acc Hp Hw Hs St Hf;
    (destruct fuel as [|f]; [cbn in Hf; lia|]); cbn [get_poi_].
  - destruct (lget_node_stored keccak_len m (TLeaf p v) ltac:(discriminate) Hw Hs (here_of_stored _ _ St)) as (n & En & Hm).
    rewrite En. cbn [bind]. pose proof (lnode_encode_match keccak_len _ _ Hm Hw Hs) as Ee.
    destruct n as [lp d| |]; cbn [nmatch] in Hm; try contradiction. destruct Hm as [E1 E2].
    rewrite Ee. cbn [bind]. replace (np_eq lp path) with true by (symmetry; apply np_eq_spec; congruence).
    destruct (np_len path =? 0); reflexivity.
  - destruct (lget_node_stored keccak_len m (TExt p c) ltac:(discriminate) Hw Hs (here_of_stored _ _ St)) as (n & En & Hm).
    rewrite En. cbn [bind]. pose proof (lnode_encode_match keccak_len _ _ Hm Hw Hs) as Ee.
    destruct n as [|ep nr|]; cbn [nmatch] in Hm; try contradiction. destruct Hm as [E1 ->].
    rewrite Ee. cbn [bind]. destruct Hw as (_ & Hpn & _ & Hwc).
    assert (Hpl : length p <> 0) by (destruct p; cbn; congruence).
    replace (np_len path =? 0) with false
      by (symmetry; apply Nat.eqb_neq; rewrite np_len_spec, Hp, app_length; lia).
    assert (Es : strip (nibs ep) (nibs path) = Some r) by (apply strip_spec; congruence).
    rewrite np_starts_with_spec, Es. pose proof (np_starts_with_skip _ _ _ Es) as Er.
    rewrite (IH f m _ (acc ++ [tenc (TExt p c)])); auto.
    + rewrite <- app_assoc. reflexivity.
    + eapply small_ext; eauto.
    + apply stored_ext in St. apply St.
    + rewrite app_length in Hf. lia.
  - destruct (lget_node_stored keccak_len m (TBranch cs v) ltac:(discriminate) Hw Hs (here_of_stored _ _ St)) as (n & En & Hm).
    rewrite En. cbn [bind]. pose proof (lnode_encode_match keccak_len _ _ Hm Hw Hs) as Ee.
    rewrite Ee. cbn [bind]. rewrite np_len_spec, Hp. reflexivity.
  - destruct (lget_node_stored keccak_len m (TBranch cs v) ltac:(discriminate) Hw Hs (here_of_stored _ _ St)) as (n & En & Hm).
    rewrite En. cbn [bind]. pose proof (lnode_encode_match keccak_len _ _ Hm Hw Hs) as Ee.
    destruct n as [| |bs d]; cbn [nmatch] in Hm; try contradiction. destruct Hm as [-> ->].
    rewrite Ee. cbn [bind]. rewrite np_len_spec, Hp. cbn [length Nat.eqb].
    rewrite np_at_spec, Hp. cbn [nth]. rewrite nth_map_tref.
    replace (0 <? length (tref (nth i cs TEmpty))) with true by (symmetry; apply (tref_pos keccak_len); eapply walk_ne; eauto).
    assert (Hw' := Hw). apply lwf_branch in Hw'. apply stored_branch in St.
    rewrite (IH f m _ (acc ++ [tenc (TBranch cs v)])); auto.
    + rewrite <- app_assoc. reflexivity.
    + rewrite nibs_consume, Hp. reflexivity.
    + apply lwf_nth; apply Hw'.
    + eapply small_nth; eauto.
    + apply stored_nth. apply St.
    + cbn [length] in Hf. lia.
Qed.

Lemma lstore_proof_good : forall s d, lgood s -> store_proof_node d (PB (tenc s)) = Ok (dset d (tref s) (tenc s)).
Proof.
  intros s d (Hn & Hw & Hs). cbn [store_proof_node].
  destruct (lnode_decode_tenc keccak_len s Hn Hw Hs) as (n & En & Hm). rewrite En. cbn [bind].
  rewrite (linto_reference_match keccak_len n s Hm Hw Hs). reflexivity.
Qed.

Lemma lpoi_storage_good : forall L d, Forall lgood L -> poi_storage (map PB (map tenc L)) d = Ok (Some (pstore L d)).
Proof.
  induction L as [|s L IH]; intros d Hg; [reflexivity|]. inversion Hg; subst. cbn [map poi_storage].
  rewrite lstore_proof_good by auto. apply IH; auto.
Qed.

Lemma ltref_same : forall L a b, hashed_ok L -> In a L -> In b L -> lgood a -> lgood b -> tref a = tref b -> tenc a = tenc b.
Proof.
  intros L a b Hh Ia Ib (Ha & _) (Hb & _) E. rewrite !tref_eq in E by auto.
  destruct (Nat.ltb_spec (length (tenc a)) 32) as [L1|L1], (Nat.ltb_spec (length (tenc b)) 32) as [L2|L2]; auto.
  - pose proof (keccak_len (tenc b)) as Hk. rewrite <- E in Hk. lia.
  - pose proof (keccak_len (tenc a)) as Hk. rewrite E in Hk. lia.
Qed.

Lemma lpstore_get : forall M L d s, hashed_ok M -> Forall lgood M -> incl L M ->
  In s M -> (dget d (tref s) = Some (tenc s) \/ In s L) -> dget (pstore L d) (tref s) = Some (tenc s).
Proof.
  intros M. induction L as [|x L IH]; intros d s Hh Hg Hi Hs Hor.
  - destruct Hor as [E|[]]. exact E.
  - cbn [pstore fold_left]. fold (pstore L (dset d (tref x) (tenc x))). apply IH; auto.
    + intros y Hy. apply Hi. right. auto.
    + rewrite dget_dset. destruct (bytes_eqb_spec (tref s) (tref x)) as [E|Hne].
      * left. f_equal. assert (Hx : In x M) by (apply Hi; left; auto). rewrite Forall_forall in Hg.
        apply (ltref_same M); auto.
      * destruct Hor as [E|[->|Hin]]; auto. congruence.
Qed.

Lemma lverify_walk : forall q L t, walk t q L -> forall fuel ps path, nibs path = q -> lwf t -> small t ->
  (forall s, In s L -> 32 <= length (tenc s) -> dget ps (keccak (tenc s)) = Some (tenc s)) ->
  length q < fuel -> verify_poi_ fuel ps (tref t) path = Ok true.
Proof.
  assert (Hraw : forall ps t, t <> TEmpty -> (32 <= length (tenc t) -> dget ps (keccak (tenc t)) = Some (tenc t)) ->
    (if length (tref t) =? 32 then dget ps (tref t) else Some (tref t)) = Some (tenc t)).
  { intros ps t Hn Hd. rewrite (tref_32 keccak_len) by auto. rewrite tref_eq by auto.
    destruct (Nat.ltb_spec (length (tenc t)) 32); cbn [negb]; auto. }
  intros q L t W. induction W as [p v|p c r L W IH|cs v|cs v i r L W IH]; intros fuel ps path Hp Hw Hs Hd Hf;
    (destruct fuel as [|f]; [cbn in Hf; lia|]); cbn [verify_poi_];
    (rewrite Hraw by (try discriminate; apply Hd; left; reflexivity));
    match goal with |- context [node_decode (tenc ?t)] =>
      destruct (lnode_decode_tenc keccak_len t ltac:(discriminate) Hw Hs) as (n & En & Hm) end; rewrite En; cbn [bind].
  - destruct n as [lp d| |]; cbn [nmatch] in Hm; try contradiction. destruct Hm as [E1 E2].
    destruct (np_len path =? 0); auto. f_equal. apply np_eq_spec. congruence.
  - destruct n as [|ep nr|]; cbn [nmatch] in Hm; try contradiction. destruct Hm as [E1 ->].
    destruct Hw as (_ & Hpn & _ & Hwc). assert (Hpl : length p <> 0) by (destruct p; cbn; congruence).
    replace (np_len path =? 0) with false
      by (symmetry; apply Nat.eqb_neq; rewrite np_len_spec, Hp, app_length; lia).
    assert (Es : strip (nibs ep) (nibs path) = Some r) by (apply strip_spec; congruence).
    rewrite np_starts_with_spec, Es. pose proof (np_starts_with_skip _ _ _ Es) as Er.
    apply IH; auto.
    + eapply small_ext; eauto.
    + intros s Hin. apply Hd. right. exact Hin.
    + rewrite app_length in Hf. lia.
  - rewrite np_len_spec, Hp. cbn [length Nat.eqb]. destruct n; cbn [nmatch] in Hm; try contradiction. reflexivity.
  - destruct n as [| |bs d]; cbn [nmatch] in Hm; try contradiction. destruct Hm as [-> ->].
    rewrite np_len_spec, Hp. cbn [length Nat.eqb]. rewrite np_at_spec, Hp. cbn [nth]. rewrite nth_map_tref.
    replace (0 <? length (tref (nth i cs TEmpty))) with true by (symmetry; apply (tref_pos keccak_len); eapply walk_ne; eauto).
    assert (Hw' := Hw). apply lwf_branch in Hw'.
    apply IH; auto.
    + rewrite nibs_consume, Hp. reflexivity.
    + apply lwf_nth; apply Hw'.
    + eapply small_nth; eauto.
    + intros s Hin. apply Hd. right. exact Hin.
    + cbn [length] in Hf. lia.
Qed.

Lemma lroot_hash_repr : forall t tr, lrepr t tr -> tr <> TEmpty -> root_hash t = keccak (tenc tr).
Proof.
  intros t tr R Hne. destruct (lrepr_nonempty keccak_len t tr R Hne) as (E1 & E2 & E3 & E4). unfold root_hash.
  rewrite E1, E3, (tref_32 keccak_len) by auto. rewrite tref_eq by auto.
  destruct (Nat.ltb_spec (length (tenc tr)) 32); reflexivity.
Qed.

Lemma lreencode_vmatch : forall b n t, node_decode b = Ok n -> node_encode n = Ok (tenc t) -> lgood t -> vmatch n t.
Proof.
  intros b n t Ed Ee (Hne & Hw & Hs).
  assert (Hp := lpayload_small keccak_len t Hw Hs).
  destruct n as [p v|p r|bs v]; cbn [node_encode] in Ee.
  - apply rlp_encode_renc in Ee. destruct Ee as [Ee Hb]. apply renc_inj in Ee; auto.
    destruct t as [|q w|q c|cs w]; [congruence|..]; cbn [titem] in Ee.
    + injection Ee as E1 E2. rewrite np_encode_hp in E1. symmetry in E1.
      apply hp_inj in E1; [|apply nibs_ok|apply Hw]. cbn. split; [apply E1|congruence].
    + injection Ee as E1 E2. rewrite np_encode_hp in E1. symmetry in E1.
      apply hp_inj in E1; [|apply nibs_ok|apply Hw]. destruct E1; discriminate.
    + exfalso. injection Ee as E1. apply lwf_branch in Hw. destruct Hw as [Hl _].
      apply (f_equal (@length item)) in E1. rewrite app_length, map_length, Hl in E1. cbn in E1. lia.
  - destruct (prep_encoding r) as [i|] eqn:Er; [|discriminate]. cbn [bind] in Ee.
    apply rlp_encode_renc in Ee. destruct Ee as [Ee Hb]. apply renc_inj in Ee; auto.
    destruct t as [|q w|q c|cs w]; [congruence|..]; cbn [titem] in Ee.
    + injection Ee as E1 E2. rewrite np_encode_hp in E1. symmetry in E1.
      apply hp_inj in E1; [|apply nibs_ok|apply Hw]. destruct E1; discriminate.
    + injection Ee as E1 E2. rewrite np_encode_hp in E1. symmetry in E1.
      apply hp_inj in E1; [|apply nibs_ok|apply Hw]. cbn. split; [apply E1|]. fold (ritem c) in E2. rewrite <- E2 in Er.
      destruct (encoding_ritem_inv keccak_len r c Er) as [E|[E _]]; auto. subst c. destruct Hw as (_ & _ & [] & _).
    + exfalso. injection Ee as E1. apply lwf_branch in Hw. destruct Hw as [Hl _].
      apply (f_equal (@length item)) in E1. rewrite app_length, map_length, Hl in E1. cbn in E1. lia.
  - destruct (mapM prep_encoding bs) as [is|] eqn:Em; [|discriminate]. cbn [bind] in Ee.
    apply rlp_encode_renc in Ee. destruct Ee as [Ee Hb]. apply renc_inj in Ee; auto.
    assert (Hl16 := node_decode_branch _ _ _ Ed). assert (Hlis := mapM_length _ _ _ _ _ Em).
    destruct t as [|q w|q c|cs w]; [congruence|..]; cbn [titem] in Ee.
    + exfalso. injection Ee as E1. apply (f_equal (@length item)) in E1. rewrite app_length, Hlis, Hl16 in E1. discriminate.
    + exfalso. injection Ee as E1. apply (f_equal (@length item)) in E1. rewrite app_length, Hlis, Hl16 in E1. discriminate.
    + injection Ee as E1. apply app_inj_tail in E1. destruct E1 as [E1 E2]. injection E2 as E2.
      change (fun c => cap (titem c)) with ritem in E1. rewrite <- E1 in Em.
      destruct (mapM_encoding_inv keccak_len bs cs Em). cbn. auto.
Qed.

Definition lvagree (ps : dict bytes) (t : tree) : Prop :=
  forall s, lgood s -> 32 <= length (tenc s) -> In (tenc s) (encs t) ->
    forall b n, dget ps (keccak (tenc s)) = Some b -> node_decode b = Ok n -> vmatch n s.

Lemma lvagree_ext : forall ps p c, lvagree ps (TExt p c) -> lvagree ps c.
Proof. intros ps p c Hv s Hg Hl Hi. apply Hv; auto. apply encs_ext; auto. Qed.

Lemma lvagree_nth : forall ps cs v i, lvagree ps (TBranch cs v) -> lvagree ps (nth i cs TEmpty).
Proof.
  intros ps cs v i Hv s Hg Hl Hi. apply Hv; auto.
  destruct (nth_in_or_default i cs TEmpty) as [Hin|Hd]; [eapply encs_child; eauto|]. rewrite Hd in Hi. contradiction.
Qed.

Lemma lverify_poi_sound : forall fuel ps t path, lgood t -> lvagree ps t -> verify_poi_ fuel ps (tref t) path = Ok true ->
  exists r w, lookup t (nibs path ++ r) = Some w.
Proof.
  induction fuel as [|f IH]; intros ps t path Hg Hv E; [discriminate|]. cbn [verify_poi_] in E.
  assert (Hg' := Hg). destruct Hg' as (Hne & Hw & Hs).
  assert (Hn : exists n, vmatch n t /\
    (if np_len path =? 0 then Ok (match n with Extension _ _ => false | _ => true end)
     else match n with
          | Leaf lp _ => Ok (np_eq lp path)
          | Extension ep nr =>
              if np_starts_with path ep then verify_poi_ f ps nr (np_consume path (np_len ep)) else Err ExtensionPathError
          | Branch bs _ =>
              let b := nth (np_at path 0) bs [] in
              if 0 <? length b then verify_poi_ f ps b (np_consume path 1) else Err BranchPathError
          end) = Ok true).
  { rewrite (tref_32 keccak_len) in E by auto. rewrite tref_eq in E by auto.
    destruct (lnode_decode_tenc keccak_len t Hne Hw Hs) as (n' & E' & Hm).
    destruct (Nat.ltb_spec (length (tenc t)) 32) as [Hl|Hl]; cbn [negb] in E.
    - rewrite E' in E. cbn [bind] in E. exists n'. split; auto using nmatch_vmatch.
    - destruct (dget ps (keccak (tenc t))) as [b|] eqn:Eb; [|discriminate].
      destruct (node_decode b) as [n|] eqn:Ed; [|discriminate]. cbn [bind] in E.
      exists n. split; auto. eapply Hv; eauto. apply encs_here; auto. }
  clear E. destruct Hn as (n & Hm & E).
  destruct (path_cases path) as [[Hz Hn]|(i & q & Hn & Hz & Hi & Hq)]; rewrite Hz in E; cbn [Nat.eqb] in E.
  - rewrite Hn. destruct (lwf_has_key t Hw Hne) as (q & w & El). exists q, w. exact El.
  - destruct n as [lp d|ep nr|bs d], t as [|p w|p c|cs w]; cbn [vmatch] in Hm; try contradiction.
    + destruct Hm as [<- <-]. injection E as E. apply np_eq_spec in E. exists [], d. rewrite app_nil_r, <- E.
      apply lookup_leaf_self.
    + destruct Hm as [<- ->]. rewrite np_starts_with_spec in E.
      destruct (strip (nibs ep) (nibs path)) as [r|] eqn:Es; [|discriminate].
      pose proof (np_starts_with_skip _ _ _ Es) as Er. apply strip_spec in Es.
      destruct Hw as (_ & Hpn & Hb & Hwc).
      assert (Hgc : lgood c).
      { split; [intros ->; contradiction|]. split; auto. eapply small_ext; eauto. }
      destruct (IH ps c _ Hgc (lvagree_ext _ _ _ Hv) E) as (r' & w & El). rewrite Er in El.
      exists r', w. rewrite Es, <- app_assoc, lookup_ext_app. exact El.
    + destruct Hm as (<- & Hlen & Hch). rewrite Hi in E. cbn zeta in E.
      destruct (0 <? length (nth i bs [])) eqn:Ep; [|discriminate].
      destruct (Hch i) as [Hb|[Hb1 Hb2]].
      * rewrite Hb in E, Ep. apply tref_pos in Ep; auto.
        assert (Hw' := Hw). apply lwf_branch in Hw'.
        assert (Hgc : lgood (nth i cs TEmpty)).
        { split; auto. split; [apply lwf_nth; apply Hw'|eapply small_nth; eauto]. }
        destruct (IH ps _ _ Hgc (lvagree_nth _ _ _ _ Hv) E) as (r' & w & El). rewrite Hq in El.
        exists r', w. rewrite Hn. cbn [app]. rewrite lookup_branch. exact El.
      * exfalso. rewrite Hb2 in E. destruct f; [discriminate|]. cbn in E. discriminate.
Qed.

Lemma lpoi_sound_tree : forall lim t tr t0 p, lrepr t tr -> m_root t0 = m_root t ->
  no_collision (proof_hashed (pf_proof p) ++ hashed_by t) -> mpt_verify_poi lim t0 p = Ok true ->
  exists r w, lookup tr (nibs_of (pf_key p) ++ r) = Some w.
Proof.
  intros lim t tr t0 p R Hr Hn E. apply verify_poi_true in E.
  destruct E as (_ & Ere & _ & _ & ps & Eps & Ev). unfold root_ref in Ev. rewrite Hr in Ev. fold (root_ref t) in Ev.
  destruct (tree_empty_dec tr) as [->|Hne].
  { destruct (lrepr_empty_root t R) as [Er _]. unfold root_is_empty in *. rewrite Hr in Ere. congruence. }
  destruct (lrepr_nonempty keccak_len t tr R Hne) as (E1 & E2 & E3 & E4). rewrite E3 in Ev.
  assert (R' := R). destruct R' as (Hw & Hs & St & (_ & _ & D) & _).
  rewrite <- nibs_np_of. eapply lverify_poi_sound; [|..|exact Ev].
  - split; auto.
  - intros s Hg Hl Hi b n Eb Ed. destruct (poi_storage_inv _ _ _ Eps _ _ Eb) as [C|(n' & e & F1 & F2 & F3 & F4)]; [discriminate|].
    assert (n' = n) by congruence. subst n'. apply (lreencode_vmatch b); auto. rewrite F2. f_equal.
    destruct (Nat.ltb_spec (length e) 32) as [He|He].
    + exfalso. pose proof (keccak_len (tenc s)) as Hk. rewrite F4 in Hk. lia.
    + symmetry. apply Hn; auto.
      * apply in_or_app. right. right. apply (D (keccak (tenc s)) (tenc s)). apply (encs_stored (m_map t) tr); auto.
      * apply in_or_app. left. exact F3.
Qed.


Lemma lpoi_made : forall t tr k v lim time, lrepr t tr -> lookup tr (nibs_of k) = Some v -> 2 * length k < lim ->
  exists L, walk tr (nibs_of k) L /\
    mpt_get_poi lim time t k = Ok (mkProof MPT_POI time k (root_ref t) (map PB (map tenc L))).
Proof.
  intros t tr k v lim time Rt El Hl. destruct (walk_of_lookup _ _ _ El) as [L W]. exists L. split; auto.
  assert (Hne : tr <> TEmpty) by (eapply walk_ne; eauto).
  destruct (lrepr_nonempty keccak_len t tr Rt Hne) as (E1 & E2 & E3 & E4). unfold mpt_get_poi. rewrite E2, E3, (leff _ _ k Rt).
  destruct Rt as (Hw & Hs & St & _). rewrite (lget_poi_walk _ _ _ W lim (m_map t) (np_of k) []); auto.
  rewrite nibs_of_length. exact Hl.
Qed.

Lemma lpoi_accepted : forall t tr k v lim lim' time t', lrepr t tr -> lookup tr (nibs_of k) = Some v ->
  2 * length k < lim -> 2 * length k < lim' -> length (root_ref t) = 32 -> m_root t' = m_root t ->
  exists p, mpt_get_poi lim time t k = Ok p /\ mpt_verify_poi lim' t' p = Ok true.
Proof.
  intros t tr k v lim lim' time t' Rt El Hl Hl' Hr Hr'.
  destruct (lpoi_made t tr k v lim time Rt El Hl) as (L & W & E). eexists. split; [exact E|].
  assert (Hne : tr <> TEmpty) by (eapply walk_ne; eauto).
  destruct (lrepr_nonempty keccak_len t tr Rt Hne) as (E1 & E2 & E3 & E4).
  unfold mpt_verify_poi. cbn [pf_type pf_proof pf_key pf_root]. rewrite bytes_eqb_refl. cbn [negb].
  assert (F : root_is_empty t' = root_is_empty t /\ root_ref t' = root_ref t /\ root_hash t' = root_hash t).
  { unfold root_hash, root_falsy, root_is_empty, root_ref. rewrite Hr'. auto. }
  destruct F as (-> & -> & ->). rewrite E2. destruct (walk_head _ _ _ W) as [L' EL].
  unfold hash_first. cbn [pf_proof]. rewrite EL at 1. cbn [map]. cbn [bind].
  rewrite (lroot_hash_repr t tr Rt Hne), bytes_eqb_refl. cbn [negb].
  assert (Rt' := Rt). destruct Rt' as (Hw & Hs & St & Hd & Hn & _).
  assert (Hg : Forall lgood L) by (eapply lwalk_good; eauto).
  rewrite lpoi_storage_good by auto. cbn [bind]. rewrite E3 at 1.
  rewrite (lverify_walk _ _ _ W); auto.
  - cbn [bind andb]. f_equal. rewrite E3, tref_eq in * by auto.
    destruct (Nat.ltb_spec (length (tenc tr)) 32); [lia|]. apply bytes_eqb_refl.
  - intros s Hin Hls. assert (Hgs : lgood s) by (rewrite Forall_forall in Hg; auto).
    assert (Etr : tref s = keccak (tenc s)).
    { rewrite tref_eq by apply Hgs. destruct (Nat.ltb_spec (length (tenc s)) 32); [lia|reflexivity]. }
    rewrite <- Etr. apply (lpstore_get L L); auto using incl_refl. eapply walk_hashed_ok; eauto.
  - rewrite nibs_of_length. exact Hl'.
Qed.

(** ** Proofs of exclusion are made where contains says no *)
Lemma lpoe_of_contains : forall fuel m t path acc n q, t <> TEmpty -> lwf t -> small t -> stored m t ->
  contains_ fuel m (tref t) path = Ok (n, q) ->
  exists L, get_poe_ fuel m (tref t) path acc = Ok (n, L, q) /\ length (nibs q) <= length (nibs path).
Proof.
  induction fuel as [|f IH]; intros m t path acc n q Hne Hw Hs St E; [discriminate|]. cbn [contains_] in E. cbn [get_poe_].
  destruct (lget_node_stored keccak_len m t Hne Hw Hs (here_of_stored _ _ St)) as (n0 & En & Hm).
  pose proof (lnode_encode_match keccak_len _ _ Hm Hw Hs) as Ee. rewrite En in E |- *. cbn [bind].
  destruct (np_len path =? 0) eqn:Ez.
  - injection E as <- <-. rewrite Ee. cbn [bind]. eexists. split; [reflexivity|lia].
  - destruct n0 as [lp d|ep nr|bs d], t as [|p w|p c|cs w]; cbn [nmatch] in Hm; try contradiction.
    + injection E as <- <-. rewrite Ee. cbn [bind]. eexists. split; [reflexivity|lia].
    + destruct Hm as [<- ->]. rewrite np_starts_with_spec in *.
      destruct (strip (nibs ep) (nibs path)) as [r|] eqn:Es.
      * rewrite Ee. cbn [bind]. pose proof (np_starts_with_skip _ _ _ Es) as Er. apply strip_spec in Es.
        destruct Hw as (_ & _ & Hb & Hwc). apply stored_ext in St. destruct St as [_ St].
        destruct (IH m c (np_consume path (np_len ep)) (acc ++ [tenc (TExt (nibs ep) c)]) n q) as (L & EL & Hq); auto.
        { intros ->. contradiction. }
        { eapply small_ext; eauto. }
        rewrite EL. exists L. split; auto. rewrite Er in Hq. rewrite Es, app_length. lia.
      * injection E as <- <-. eexists. split; [reflexivity|lia].
    + destruct Hm as [-> ->]. rewrite Ee. cbn [bind].
      destruct (0 <? length (nth (np_at path 0) (map tref cs) [])) eqn:Eb.
      * rewrite nth_map_tref in *. apply (tref_pos keccak_len) in Eb. apply lwf_branch in Hw. apply stored_branch in St.
        destruct (IH m (nth (np_at path 0) cs TEmpty) (np_consume path 1) (acc ++ [tenc (TBranch cs w)]) n q) as (L & EL & Hq); auto.
        { apply lwf_nth. apply Hw. }
        { eapply small_nth; eauto. }
        { apply stored_nth. apply St. }
        cbn zeta. rewrite EL. exists L. split; auto. rewrite nibs_consume, skipn_length in Hq. lia.
      * injection E as <- <-. cbn zeta. eexists. split; [reflexivity|lia].
Qed.

Lemma lpoe_made : forall t tr k lim time, lrepr t tr -> tr <> TEmpty -> (blen k < 2 ^ 59)%N -> mpt_contains lim t k = Ok false ->
  exists p, mpt_get_poe lim time t k = Ok p /\ pf_type p = MPT_POE /\ pf_time p = time /\ pf_key p = k /\ pf_root p = root_hash t.
Proof.
  intros t tr k lim time R Hne Hk C. destruct (lrepr_nonempty keccak_len t tr R Hne) as (E1 & E2 & E3 & E4).
  unfold mpt_get_poe. rewrite E2, C. cbn [bind]. unfold mpt_contains in C. rewrite E1, E2, E3, (leff _ _ k R) in *.
  destruct (contains_ _ _ _ _) as [[n q]|] eqn:Ec; [|discriminate].
  destruct R as (Hw & Hs & St & _).
  destruct (lpoe_of_contains _ _ _ _ [] _ _ Hne Hw Hs St Ec) as (L & EL & Hq). rewrite EL. cbn [bind].
  destruct (null_leaf keccak_len q) as (e & nn & N1 & N2 & N3).
  { rewrite nibs_np_of, nibs_of_length in Hq. unfold SZ, blen in *. lia. }
  rewrite N1. cbn [bind]. unfold new_proof. cbn [existsb accepted_types].
  destruct n as [lp d|ep nr|bs d].
  - injection C as ->. eexists. split; [reflexivity|]. repeat split; reflexivity.
  - eexists. split; [reflexivity|]. repeat split; reflexivity.
  - injection C as C. apply negb_false_iff in C. rewrite C. eexists. split; [reflexivity|]. repeat split; reflexivity.
Qed.

(** ** After any calls *)
Lemma plain_same : forall h d1 d2 rs e1 e2, (forall q, d1 q = d2 q) -> plain_run d1 h rs e1 -> plain_run d2 h rs e2 ->
  forall q, e1 q = e2 q.
Proof.
  induction h as [|c h IH]; intros d1 d2 rs e1 e2 E P1 P2.
  - inversion P1; inversion P2; subst. auto.
  - apply plain_inv in P1, P2. destruct P1 as (r1 & l1 & -> & Q1), P2 as (r2 & l2 & F & Q2). injection F as <- <-.
    destruct r1 as [u1|x1].
    + destruct (c_op c) as [k v|k].
      * destruct Q1 as (f1 & T1 & Q1), Q2 as (f2 & T2 & Q2). apply (IH f1 f2 l1 e1 e2); auto. eapply takes_same; eauto.
      * destruct Q1 as (_ & f1 & T1 & Q1), Q2 as (_ & f2 & T2 & Q2). apply (IH f1 f2 l1 e1 e2); auto.
        intros q. rewrite T1, T2. cbn. destruct (bytes_eqb q k); auto.
    + destruct Q1 as [_ Q1], Q2 as [_ Q2]. apply (IH d1 d2 l1 e1 e2); auto.
Qed.

Lemma plain_repr : forall h rs t d, outcomes (mpt_new false) h = (rs, t) -> sized h -> no_collision (m_log t) ->
  plain_run (fun _ => None) h rs d -> exists tr, lrepr t tr /\ holds tr d.
Proof.
  intros h rs t d E Hs Hn P.
  assert (G : nocoll (m_log (mpt_new false))).
  { clear Hs P. assert (D := new_dinv false). revert E D. generalize (mpt_new false). revert rs.
    induction h as [|c h IH]; intros rs t0 E D; cbn [outcomes] in E.
    - injection E as <- <-. exact Hn.
    - destruct (mpt_call t0 c) as [r t1] eqn:Ec. destruct (outcomes t1 h) as [rs1 t2] eqn:Eo. injection E as <- <-.
      destruct (call_keeps keccak_len _ _ _ _ D Ec) as [D1 G1]. eapply grows_nocoll; [exact G1|]. eapply IH; eauto. }
  destruct (loose_run keccak_len h (mpt_new false) TEmpty (fun _ => None) rs t (lnew_repr G)) as (tr & d0 & R & [H1 H2] & P0); auto.
  - split; [reflexivity|discriminate].
  - exists tr. split; auto. split; auto. intros k. rewrite H1. eapply plain_same; [|exact P0|exact P]. reflexivity.
Qed.

(** C184 *)
Theorem plain_inclusion : forall h rs t d, outcomes (mpt_new false) h = (rs, t) -> sized h -> no_collision (m_log t) ->
  plain_run (fun _ => None) h rs d ->
  forall k v lim lim' time t', d k = Some v -> 2 * length k < lim -> 2 * length k < lim' ->
  length (root_ref t) = 32 -> m_root t' = m_root t ->
  exists p, mpt_get_poi lim time t k = Ok p /\ mpt_verify_poi lim' t' p = Ok true.
Proof.
  intros h rs t d E Hs Hn P k v lim lim' time t' Ed Hl Hl' Hr Hr'.
  destruct (plain_repr h rs t d E Hs Hn P) as (tr & R & [H1 H2]). eapply lpoi_accepted; eauto. rewrite H1. exact Ed.
Qed.

Theorem plain_inclusion_sound : forall h rs t d, outcomes (mpt_new false) h = (rs, t) -> sized h -> no_collision (m_log t) ->
  plain_run (fun _ => None) h rs d ->
  forall lim p t', m_root t' = m_root t -> no_collision (proof_hashed (pf_proof p) ++ hashed_by t) ->
  mpt_verify_poi lim t' p = Ok true -> exists r v, d (pf_key p ++ r) = Some v.
Proof.
  intros h rs t d E Hs Hn P lim p t' Hr Hc Ev.
  destruct (plain_repr h rs t d E Hs Hn P) as (tr & R & [H1 H2]).
  destruct (lpoi_sound_tree lim t tr t' p R Hr Hc Ev) as (r & w & El).
  destruct (H2 _ _ El) as (x & Ex). symmetry in Ex. destruct (nibs_of_app_inv _ _ _ Ex) as (s & -> & _).
  exists s, w. rewrite <- H1, Ex. exact El.
Qed.

Theorem plain_exclusion : forall h rs t d, outcomes (mpt_new false) h = (rs, t) -> sized h -> no_collision (m_log t) ->
  plain_run (fun _ => None) h rs d ->
  forall lim time k, 2 * length k < lim -> (blen k < 2 ^ 59)%N ->
  ((forall q, d q = None) /\ mpt_get_poe lim time t k = Err ValueError) \/
  ((d k <> None \/ false_positive d k) /\ mpt_get_poe lim time t k = Err PoeError) \/
  ((exists q, d q <> None) /\ d k = None /\ ~ false_positive d k /\
   exists p, mpt_get_poe lim time t k = Ok p /\ pf_type p = MPT_POE /\ pf_time p = time /\ pf_key p = k /\ pf_root p = root_hash t).
Proof.
  intros h rs t d E Hs Hn P lim time k Hl Hk.
  destruct (plain_repr h rs t d E Hs Hn P) as (tr & R & Hh). assert (Hh0 := Hh). destruct Hh as [H1 H2].
  destruct (tree_empty_dec tr) as [->|Hne].
  - left. split; [intros q; rewrite <- H1; reflexivity|]. destruct (lrepr_empty_root t R) as [Er _]. unfold mpt_get_poe. rewrite Er. reflexivity.
  - right. pose proof (lrepr_contains keccak_len t tr lim k R) as C. destruct (mpt_contains lim t k) as [b|e] eqn:Ec; [|lia].
    rewrite H1, (holds_false_hit _ _ _ Hh0) in C. destruct b.
    + left. split; [apply C; reflexivity|]. destruct (lrepr_nonempty keccak_len t tr R Hne) as (_ & E2 & _).
      unfold mpt_get_poe. rewrite E2, Ec. reflexivity.
    + right. split.
      { destruct R as (Hw & _). destruct (lwf_has_key tr Hw Hne) as (q & w & Eq). destruct (H2 _ _ Eq) as (x & ->). exists x.
        rewrite <- H1, Eq. discriminate. }
      assert (Nc : ~ (d k <> None \/ false_positive d k)) by (intros F; apply C in F; discriminate).
      split; [destruct (d k); [exfalso; apply Nc; left; discriminate|reflexivity]|]. split; [tauto|].
      eapply lpoe_made; eauto.
Qed.
End Poi.

Theorem plain_same_contents : forall h d rs e1 e2, plain_run d h rs e1 -> plain_run d h rs e2 -> forall q, e1 q = e2 q.
Proof. intros h d rs e1 e2. apply plain_same. reflexivity. Qed.
