(** Proofs of inclusion: completeness, soundness, staleness. *)
From Coq Require Import List Bool Arith NArith ZArith Lia.
From Verif Require Import Base BaseProofs Rlp RlpProofs NibblePath NibbleProofs Node ProofObj Mpt Tree TreeEnc
  StoreProofs UpdateProofs DeleteProofs ReadProofs Spec SpecCodec SpecProof MptRefine MptProofs.
Import ListNotations.

Section Poi.
Context {H : Hash}.
Hypothesis keccak_len : forall b, length (keccak b) = 32.

(** The nodes on the way to a present key. *)
Inductive walk : tree -> list nat -> list tree -> Prop :=
  | w_leaf : forall p v, walk (TLeaf p v) p [TLeaf p v]
  | w_ext : forall p c r L, walk c r L -> walk (TExt p c) (p ++ r) (TExt p c :: L)
  | w_end : forall cs v, walk (TBranch cs v) [] [TBranch cs v]
  | w_branch : forall cs v i r L, walk (nth i cs TEmpty) r L -> walk (TBranch cs v) (i :: r) (TBranch cs v :: L).

Lemma walk_of_lookup : forall t q v, lookup t q = Some v -> exists L, walk t q L.
Proof.
  induction t as [|p w|p c IH|cs w IH] using tree_ind2; intros q v E.
  - discriminate.
  - apply leaf_key_inv in E. destruct E as [-> _]. eauto using walk.
  - cbn [lookup] in E. destruct (strip p q) as [r|] eqn:Es; [|discriminate]. apply strip_spec in Es. subst q.
    destruct (IH r v E) as [L HL]. eauto using walk.
  - destruct q as [|i r]; [eauto using walk|]. rewrite lookup_branch in E.
    destruct (nth_in_or_default i cs TEmpty) as [Hi|Hd]; [|rewrite Hd in E; discriminate].
    rewrite Forall_forall in IH. destruct (IH _ Hi r v E) as [L HL]. eauto using walk.
Qed.

Lemma walk_ne : forall t q L, walk t q L -> t <> TEmpty.
Proof. intros t q L Hw. inversion Hw; discriminate. Qed.

Definition good (s : tree) : Prop := s <> TEmpty /\ wf s /\ small s.

Lemma walk_good : forall t q L, walk t q L -> wf t -> small t -> Forall good L.
Proof.
  induction 1 as [p v|p c r L W IH|cs v|cs v i r L W IH]; intros Hw Hs.
  - constructor; [split; [discriminate|split; auto]|constructor].
  - constructor; [split; [discriminate|split; auto]|]. apply IH; [apply Hw|eapply small_ext; eauto].
  - constructor; [split; [discriminate|split; auto]|constructor].
  - constructor; [split; [discriminate|split; auto]|]. assert (Hw' := Hw). apply wf_branch in Hw'.
    apply IH; [apply wf_nth; apply Hw'|eapply small_nth; eauto].
Qed.

Lemma walk_encs : forall t q L, walk t q L -> forall s, In s L -> 32 <= length (tenc s) -> In (tenc s) (encs t).
Proof.
  induction 1 as [p v|p c r L W IH|cs v|cs v i r L W IH]; intros s Hs Hl.
  - destruct Hs as [<-|[]]. apply encs_here; [discriminate|auto].
  - destruct Hs as [<-|Hs]; [apply encs_here; [discriminate|auto]|]. apply encs_ext; auto.
  - destruct Hs as [<-|[]]. apply encs_here; [discriminate|auto].
  - destruct Hs as [<-|Hs]; [apply encs_here; [discriminate|auto]|].
    destruct (nth_in_or_default i cs TEmpty) as [Hi|Hd]; [|exfalso; apply (walk_ne _ _ _ W); exact Hd].
    eapply encs_child; eauto.
Qed.

Lemma walk_head : forall t q L, walk t q L -> exists L', L = t :: L'.
Proof. intros t q L W. inversion W; eauto. Qed.

Lemma get_poi_walk : forall q L t, walk t q L -> forall fuel m path acc, nibs path = q -> wf t -> small t -> stored m t ->
  length q < fuel -> get_poi_ fuel m (tref t) path acc = Ok (acc ++ map tenc L).
Proof.
  intros q L t W. induction W as [p v|p c r L W IH|cs v|cs v i r L W IH]; intros fuel m path acc Hp Hw Hs St Hf;
    (destruct fuel as [|f]; [cbn in Hf; lia|]); cbn [get_poi_].
  - destruct (get_node_stored keccak_len m (TLeaf p v) ltac:(discriminate) Hw Hs (here_of_stored _ _ St)) as (n & En & Hm).
    rewrite En. cbn [bind]. pose proof (node_encode_match keccak_len _ _ Hm Hw Hs) as Ee.
    destruct n as [lp d| |]; cbn [nmatch] in Hm; try contradiction. destruct Hm as [E1 E2].
    rewrite Ee. cbn [bind]. replace (np_eq lp path) with true by (symmetry; apply np_eq_spec; congruence).
    destruct (np_len path =? 0); reflexivity.
  - destruct (get_node_stored keccak_len m (TExt p c) ltac:(discriminate) Hw Hs (here_of_stored _ _ St)) as (n & En & Hm).
    rewrite En. cbn [bind]. pose proof (node_encode_match keccak_len _ _ Hm Hw Hs) as Ee.
    destruct n as [|ep nr|]; cbn [nmatch] in Hm; try contradiction. destruct Hm as [E1 ->].
    rewrite Ee. cbn [bind]. destruct Hw as (_ & Hpn & _ & Hwc).
    assert (Hpl : length p <> 0) by (destruct p; cbn; congruence).
    replace (np_len path =? 0) with false
      by (symmetry; apply Nat.eqb_neq; rewrite np_len_spec, Hp, app_length; lia).
    assert (Es : strip (nibs ep) (nibs path) = Some r) by (apply strip_spec; congruence).
    rewrite np_starts_with_spec, Es. pose proof (np_starts_with_skip _ _ _ Es) as Er.
    rewrite (IH f m _ (acc ++ [tenc (TExt p c)])); auto.
    + rewrite <- app_assoc. reflexivity.
    + eapply small_ext; eauto.
    + apply stored_ext in St. apply St.
    + rewrite app_length in Hf. lia.
  - destruct (get_node_stored keccak_len m (TBranch cs v) ltac:(discriminate) Hw Hs (here_of_stored _ _ St)) as (n & En & Hm).
    rewrite En. cbn [bind]. pose proof (node_encode_match keccak_len _ _ Hm Hw Hs) as Ee.
    rewrite Ee. cbn [bind]. rewrite np_len_spec, Hp. reflexivity.
  - destruct (get_node_stored keccak_len m (TBranch cs v) ltac:(discriminate) Hw Hs (here_of_stored _ _ St)) as (n & En & Hm).
    rewrite En. cbn [bind]. pose proof (node_encode_match keccak_len _ _ Hm Hw Hs) as Ee.
    destruct n as [| |bs d]; cbn [nmatch] in Hm; try contradiction. destruct Hm as [-> ->].
    rewrite Ee. cbn [bind]. rewrite np_len_spec, Hp. cbn [length Nat.eqb].
    rewrite np_at_spec, Hp. cbn [nth]. rewrite nth_map_tref.
    replace (0 <? length (tref (nth i cs TEmpty))) with true by (symmetry; apply (tref_pos keccak_len); eapply walk_ne; eauto).
    assert (Hw' := Hw). apply wf_branch in Hw'. apply stored_branch in St.
    rewrite (IH f m _ (acc ++ [tenc (TBranch cs v)])); auto.
    + rewrite <- app_assoc. reflexivity.
    + rewrite nibs_consume, Hp. reflexivity.
    + apply wf_nth; apply Hw'.
    + eapply small_nth; eauto.
    + apply stored_nth. apply St.
    + cbn [length] in Hf. lia.
Qed.

(** ** The storage the verifier builds from honest proof nodes. *)
Definition pstore (L : list tree) (d : dict bytes) : dict bytes :=
  fold_left (fun d s => dset d (tref s) (tenc s)) L d.

Lemma store_proof_good : forall s d, good s -> store_proof_node d (PB (tenc s)) = Ok (dset d (tref s) (tenc s)).
Proof.
  intros s d (Hn & Hw & Hs). cbn [store_proof_node].
  destruct (node_decode_tenc keccak_len s Hn Hw Hs) as (n & En & Hm). rewrite En. cbn [bind].
  rewrite (into_reference_match keccak_len n s Hm Hw Hs). reflexivity.
Qed.

Lemma poi_storage_good : forall L d, Forall good L -> poi_storage (map PB (map tenc L)) d = Ok (Some (pstore L d)).
Proof.
  induction L as [|s L IH]; intros d Hg; [reflexivity|]. inversion Hg; subst. cbn [map poi_storage].
  rewrite store_proof_good by auto. apply IH; auto.
Qed.

Lemma tref_tenc : forall a b, good a -> good b -> nocoll [tenc a; tenc b] -> tref a = tref b -> tenc a = tenc b.
Proof.
  intros a b (Ha & _) (Hb & _) Hn E. rewrite !tref_eq in E by auto.
  destruct (Nat.ltb_spec (length (tenc a)) 32) as [L1|L1], (Nat.ltb_spec (length (tenc b)) 32) as [L2|L2]; auto.
  - pose proof (keccak_len (tenc b)) as Hk. rewrite <- E in Hk. lia.
  - pose proof (keccak_len (tenc a)) as Hk. rewrite E in Hk. lia.
  - apply Hn; auto; cbn; auto.
Qed.

(** Encodings that are hashed on either side do not collide. *)
Definition hashed_ok (L : list tree) : Prop :=
  forall a b, In a L -> In b L -> 32 <= length (tenc a) -> 32 <= length (tenc b) ->
    keccak (tenc a) = keccak (tenc b) -> tenc a = tenc b.

Lemma tref_same : forall L a b, hashed_ok L -> In a L -> In b L -> good a -> good b -> tref a = tref b -> tenc a = tenc b.
Proof.
  intros L a b Hh Ia Ib (Ha & _) (Hb & _) E. rewrite !tref_eq in E by auto.
  destruct (Nat.ltb_spec (length (tenc a)) 32) as [L1|L1], (Nat.ltb_spec (length (tenc b)) 32) as [L2|L2]; auto.
  - pose proof (keccak_len (tenc b)) as Hk. rewrite <- E in Hk. lia.
  - pose proof (keccak_len (tenc a)) as Hk. rewrite E in Hk. lia.
Qed.

Lemma pstore_get : forall M L d s, hashed_ok M -> Forall good M -> incl L M ->
  In s M -> (dget d (tref s) = Some (tenc s) \/ In s L) -> dget (pstore L d) (tref s) = Some (tenc s).
Proof.
  intros M. induction L as [|x L IH]; intros d s Hh Hg Hi Hs Hor.
  - destruct Hor as [E|[]]. exact E.
  - cbn [pstore fold_left]. fold (pstore L (dset d (tref x) (tenc x))). apply IH; auto.
    + intros y Hy. apply Hi. right. auto.
    + rewrite dget_dset. destruct (bytes_eqb_spec (tref s) (tref x)) as [E|Hne].
      * left. f_equal. assert (Hx : In x M) by (apply Hi; left; auto). rewrite Forall_forall in Hg.
        apply (tref_same M); auto.
      * destruct Hor as [E|[->|Hin]]; auto. congruence.
Qed.

Lemma walk_hashed_ok : forall t q L m log, walk t q L -> stored m t -> dinv m log -> nocoll log -> hashed_ok L.
Proof.
  intros t q L m log W St (_ & _ & D) Hn a b Ha Hb La Lb E.
  assert (Hin : forall s, In s L -> 32 <= length (tenc s) -> In (tenc s) log).
  { intros s Hs Hl. apply (D (keccak (tenc s)) (tenc s)). apply (encs_stored m t); auto. eapply walk_encs; eauto. }
  apply Hn; auto.
Qed.

Lemma verify_walk : forall q L t, walk t q L -> forall fuel ps path, nibs path = q -> wf t -> small t ->
  (forall s, In s L -> 32 <= length (tenc s) -> dget ps (keccak (tenc s)) = Some (tenc s)) ->
  length q < fuel -> verify_poi_ fuel ps (tref t) path = Ok true.
Proof.
  assert (Hraw : forall ps t, t <> TEmpty -> (32 <= length (tenc t) -> dget ps (keccak (tenc t)) = Some (tenc t)) ->
    (if length (tref t) =? 32 then dget ps (tref t) else Some (tref t)) = Some (tenc t)).
  { intros ps t Hn Hd. rewrite (tref_32 keccak_len) by auto. rewrite tref_eq by auto.
    destruct (Nat.ltb_spec (length (tenc t)) 32); cbn [negb]; auto. }
  intros q L t W. induction W as [p v|p c r L W IH|cs v|cs v i r L W IH]; intros fuel ps path Hp Hw Hs Hd Hf;
    (destruct fuel as [|f]; [cbn in Hf; lia|]); cbn [verify_poi_];
    (rewrite Hraw by (try discriminate; apply Hd; left; reflexivity));
    match goal with |- context [node_decode (tenc ?t)] =>
      destruct (node_decode_tenc keccak_len t ltac:(discriminate) Hw Hs) as (n & En & Hm) end; rewrite En; cbn [bind].
  - destruct n as [lp d| |]; cbn [nmatch] in Hm; try contradiction. destruct Hm as [E1 E2].
    destruct (np_len path =? 0); auto. f_equal. apply np_eq_spec. congruence.
  - destruct n as [|ep nr|]; cbn [nmatch] in Hm; try contradiction. destruct Hm as [E1 ->].
    destruct Hw as (_ & Hpn & _ & Hwc). assert (Hpl : length p <> 0) by (destruct p; cbn; congruence).
    replace (np_len path =? 0) with false
      by (symmetry; apply Nat.eqb_neq; rewrite np_len_spec, Hp, app_length; lia).
    assert (Es : strip (nibs ep) (nibs path) = Some r) by (apply strip_spec; congruence).
    rewrite np_starts_with_spec, Es. pose proof (np_starts_with_skip _ _ _ Es) as Er.
    apply IH; auto.
    + eapply small_ext; eauto.
    + intros s Hin. apply Hd. right. exact Hin.
    + rewrite app_length in Hf. lia.
  - rewrite np_len_spec, Hp. cbn [length Nat.eqb]. destruct n; cbn [nmatch] in Hm; try contradiction. reflexivity.
  - destruct n as [| |bs d]; cbn [nmatch] in Hm; try contradiction. destruct Hm as [-> ->].
    rewrite np_len_spec, Hp. cbn [length Nat.eqb]. rewrite np_at_spec, Hp. cbn [nth]. rewrite nth_map_tref.
    replace (0 <? length (tref (nth i cs TEmpty))) with true by (symmetry; apply (tref_pos keccak_len); eapply walk_ne; eauto).
    assert (Hw' := Hw). apply wf_branch in Hw'.
    apply IH; auto.
    + rewrite nibs_consume, Hp. reflexivity.
    + apply wf_nth; apply Hw'.
    + eapply small_nth; eauto.
    + intros s Hin. apply Hd. right. exact Hin.
    + cbn [length] in Hf. lia.
Qed.

(** The proof made for a present key. *)
Lemma poi_shape : forall secure l t k v lim time, reachable secure l t -> keys_ok secure (k :: map op_key l) ->
  dict_after l k = Some v -> frames secure k < lim ->
  exists tr L, repr t tr /\ walk tr (nibs_of (eff_key t k)) L /\
    mpt_get_poi lim time t k = Ok (mkProof MPT_POI time (eff_key t k) (root_ref t) (map PB (map tenc L))).
Proof.
  intros secure l t k v lim time R Hk Ed Hl.
  destruct (reach_lookup keccak_len _ _ _ k R Hk) as (tr & Rt & Hh & Es & El). rewrite Ed in El.
  destruct (walk_of_lookup _ _ _ El) as [L W]. exists tr, L. split; auto. split; auto.
  assert (Hne : tr <> TEmpty) by (eapply walk_ne; eauto).
  destruct (repr_nonempty keccak_len t tr Rt Hne) as (E1 & E2 & E3 & E4). unfold mpt_get_poi. rewrite E2, E3.
  destruct Rt as (Hw & Hs & St & _).
  rewrite (get_poi_walk _ _ _ W lim (m_map t) (np_of (eff_key t k)) []); auto.
  - rewrite nibs_of_length, eff_key_eff, Es, (eff_frames keccak_len). exact Hl.
Qed.

Lemma root_hash_repr : forall t tr, repr t tr -> tr <> TEmpty -> root_hash t = keccak (tenc tr).
Proof.
  intros t tr R Hne. destruct (repr_nonempty keccak_len t tr R Hne) as (E1 & E2 & E3 & E4). unfold root_hash.
  rewrite E1, E3, (tref_32 keccak_len) by auto. rewrite tref_eq by auto.
  destruct (Nat.ltb_spec (length (tenc tr)) 32); reflexivity.
Qed.

(** C15 *)
Lemma poi_complete : forall secure l t k v lim lim' time t', reachable secure l t -> keys_ok secure (k :: map op_key l) ->
  dict_after l k = Some v -> frames secure k < lim -> frames secure k < lim' ->
  length (root_ref t) = 32 -> m_root t' = m_root t ->
  exists p, mpt_get_poi lim time t k = Ok p /\ mpt_verify_poi lim' t' p = Ok true.
Proof.
  intros secure l t k v lim lim' time t' R Hk Ed Hl Hl' Hr Hr'.
  destruct (poi_shape secure l t k v lim time R Hk Ed Hl) as (tr & L & Rt & W & E). eexists. split; [exact E|].
  assert (Hne : tr <> TEmpty) by (eapply walk_ne; eauto).
  destruct (repr_nonempty keccak_len t tr Rt Hne) as (E1 & E2 & E3 & E4).
  assert (Es : m_secure t = secure) by (destruct (reachable_repr keccak_len _ _ _ R); auto).
  unfold mpt_verify_poi. cbn [pf_type pf_proof pf_key pf_root]. rewrite bytes_eqb_refl. cbn [negb].
  assert (F : root_is_empty t' = root_is_empty t /\ root_ref t' = root_ref t /\ root_hash t' = root_hash t).
  { unfold root_hash, root_falsy, root_is_empty, root_ref. rewrite Hr'. auto. }
  destruct F as (-> & -> & ->). rewrite E2. destruct (walk_head _ _ _ W) as [L' EL].
  unfold hash_first. cbn [pf_proof]. rewrite EL at 1. cbn [map]. cbn [bind].
  rewrite (root_hash_repr t tr Rt Hne), bytes_eqb_refl. cbn [negb].
  assert (Rt' := Rt). destruct Rt' as (Hw & Hs & St & Hd & Hn & _).
  assert (Hg : Forall good L) by (eapply walk_good; eauto).
  rewrite poi_storage_good by auto. cbn [bind]. rewrite E3 at 1.
  rewrite (verify_walk _ _ _ W); auto.
  - cbn [bind andb]. f_equal. rewrite E3, tref_eq in * by auto.
    destruct (Nat.ltb_spec (length (tenc tr)) 32); [lia|]. apply bytes_eqb_refl.
  - intros s Hin Hls. assert (Hgs : good s) by (rewrite Forall_forall in Hg; auto).
    assert (Etr : tref s = keccak (tenc s)).
    { rewrite tref_eq by apply Hgs. destruct (Nat.ltb_spec (length (tenc s)) 32); [lia|reflexivity]. }
    rewrite <- Etr. apply (pstore_get L L); auto using incl_refl. eapply walk_hashed_ok; eauto.
  - rewrite nibs_of_length, eff_key_eff, Es, (eff_frames keccak_len). exact Hl'.
Qed.

(** ** Soundness *)
(** What a decoded node that re-encodes to the node [t] looks like.  An empty slot may
    also be given as the string 0x80, which no walk can follow. *)
Definition vmatch (n : node) (t : tree) : Prop :=
  match n, t with
  | Leaf p v, TLeaf q w => nibs p = q /\ v = w
  | Extension p r, TExt q c => nibs p = q /\ r = tref c
  | Branch bs v, TBranch cs w => v = w /\ length bs = length cs /\
      forall i, nth i bs [] = tref (nth i cs TEmpty) \/ (nth i cs TEmpty = TEmpty /\ nth i bs [] = [x80])
  | _, _ => False
  end.

Lemma nmatch_vmatch : forall n t, nmatch n t -> vmatch n t.
Proof.
  intros n t Hm. destruct n, t; cbn in *; auto. destruct Hm as [-> ->]. split; auto. split; [apply map_length|].
  intros i. left. apply nth_map_tref.
Qed.

Lemma encoding_ritem_inv : forall r t, prep_encoding r = Ok (ritem t) -> r = tref t \/ (t = TEmpty /\ r = [x80]).
Proof.
  intros r t E. unfold prep_encoding in E. destruct (tree_empty_dec t) as [->|Hne].
  - change (ritem TEmpty) with (IBytes []) in E.
    destruct ((0 <? length r) && (length r <? 32)) eqn:Er.
    + right. split; auto. apply rlp_decode_inv in E. destruct E as [-> _]. reflexivity.
    + left. injection E as ->. reflexivity.
  - left. unfold ritem, cap in E. fold (tenc t) in E. rewrite tref_eq by auto.
    destruct (titem_list t Hne) as [l El].
    destruct ((0 <? length r) && (length r <? 32)) eqn:Er.
    + apply rlp_decode_inv in E. destruct E as [E _]. rewrite E.
      destruct (Nat.ltb_spec (length (tenc t)) 32); [reflexivity|]. exfalso.
      apply andb_true_iff in Er. destruct Er as [_ Er]. apply Nat.ltb_lt in Er. rewrite E in Er.
      rewrite renc_hdr, app_length in Er. cbn [payload] in Er. rewrite keccak_len in Er. lia.
    + destruct (Nat.ltb_spec (length (tenc t)) 32); [|injection E as ->; reflexivity]. congruence.
Qed.

Lemma mapM_encoding_inv : forall bs cs, mapM prep_encoding bs = Ok (map ritem cs) -> length bs = length cs /\
  forall i, nth i bs [] = tref (nth i cs TEmpty) \/ (nth i cs TEmpty = TEmpty /\ nth i bs [] = [x80]).
Proof.
  induction bs as [|b bs IH]; intros cs E; cbn [mapM] in E.
  - destruct cs; [|discriminate]. split; auto. intros i. left. destruct i; reflexivity.
  - destruct (prep_encoding b) as [x|] eqn:Eb; [|discriminate]. cbn [bind] in E.
    destruct (mapM prep_encoding bs) as [xs|] eqn:Ebs; [|discriminate]. cbn [bind] in E.
    destruct cs as [|c cs]; [discriminate|]. cbn [map] in E. injection E as -> ->.
    destruct (IH cs eq_refl) as [Hl Hi]. split; [cbn; congruence|]. intros [|i]; cbn [nth]; auto.
    apply encoding_ritem_inv. exact Eb.
Qed.

Lemma rlp_encode_renc : forall i b, rlp_encode i = Ok b -> b = renc i /\ (blen (payload i) < 2 ^ 64)%N.
Proof.
  intros i b E. apply rlp_encode_decode in E. apply rlp_decode_inv in E. exact E.
Qed.

Lemma mapM_length : forall (A B : Type) (f : A -> result B) l l', mapM f l = Ok l' -> length l' = length l.
Proof.
  induction l as [|x l IH]; intros l' E; cbn [mapM] in E; [injection E as <-; reflexivity|].
  destruct (f x); [|discriminate]. cbn [bind] in E. destruct (mapM f l); [|discriminate]. cbn [bind] in E.
  injection E as <-. cbn. f_equal. apply IH. reflexivity.
Qed.

Lemma node_decode_branch : forall b bs v, node_decode b = Ok (Branch bs v) -> length bs = 16.
Proof.
  intros b bs v E. unfold node_decode in E. destruct (rlp_decode b) as [[s|l]|]; [..|discriminate]; cbn [bind] in E.
  { destruct (_ || _); discriminate. }
  destruct (length l =? 17) eqn:E17.
  - destruct (mapM prep_usage (firstn 16 l)) as [xs|] eqn:Em; [|discriminate]. cbn [bind] in E.
    apply Nat.eqb_eq in E17. apply mapM_length in Em. rewrite firstn_length, E17 in Em.
    destruct (nth 16 l (IBytes [])); [injection E as <- _; exact Em|discriminate E].
  - exfalso. destruct l as [|[d|[]] [|c [|]]]; try discriminate.
    destruct (np_decode_with_type d) as [[p []]|]; cbn [bind] in E; try discriminate.
    + destruct c; discriminate.
    + destruct (prep_usage c); discriminate.
Qed.

Lemma reencode_vmatch : forall b n t, node_decode b = Ok n -> node_encode n = Ok (tenc t) -> good t -> vmatch n t.
Proof.
  intros b n t Ed Ee (Hne & Hw & Hs).
  assert (Hp := payload_small keccak_len t Hw Hs).
  destruct n as [p v|p r|bs v]; cbn [node_encode] in Ee.
  - apply rlp_encode_renc in Ee. destruct Ee as [Ee Hb]. apply renc_inj in Ee; auto.
    destruct t as [|q w|q c|cs w]; [congruence|..]; cbn [titem] in Ee.
    + injection Ee as E1 E2. rewrite np_encode_hp in E1. symmetry in E1.
      apply hp_inj in E1; [|apply nibs_ok|apply Hw]. cbn. split; [apply E1|congruence].
    + injection Ee as E1 E2. rewrite np_encode_hp in E1. symmetry in E1.
      apply hp_inj in E1; [|apply nibs_ok|apply Hw]. destruct E1; discriminate.
    + exfalso. injection Ee as E1. apply wf_branch in Hw. destruct Hw as [Hl _].
      apply (f_equal (@length item)) in E1. rewrite app_length, map_length, Hl in E1. cbn in E1. lia.
  - destruct (prep_encoding r) as [i|] eqn:Er; [|discriminate]. cbn [bind] in Ee.
    apply rlp_encode_renc in Ee. destruct Ee as [Ee Hb]. apply renc_inj in Ee; auto.
    destruct t as [|q w|q c|cs w]; [congruence|..]; cbn [titem] in Ee.
    + injection Ee as E1 E2. rewrite np_encode_hp in E1. symmetry in E1.
      apply hp_inj in E1; [|apply nibs_ok|apply Hw]. destruct E1; discriminate.
    + injection Ee as E1 E2. rewrite np_encode_hp in E1. symmetry in E1.
      apply hp_inj in E1; [|apply nibs_ok|apply Hw]. cbn. split; [apply E1|]. fold (ritem c) in E2. rewrite <- E2 in Er.
      destruct (encoding_ritem_inv r c Er) as [E|[E _]]; auto. subst c. destruct Hw as (_ & _ & [] & _).
    + exfalso. injection Ee as E1. apply wf_branch in Hw. destruct Hw as [Hl _].
      apply (f_equal (@length item)) in E1. rewrite app_length, map_length, Hl in E1. cbn in E1. lia.
  - destruct (mapM prep_encoding bs) as [is|] eqn:Em; [|discriminate]. cbn [bind] in Ee.
    apply rlp_encode_renc in Ee. destruct Ee as [Ee Hb]. apply renc_inj in Ee; auto.
    assert (Hl16 := node_decode_branch _ _ _ Ed). assert (Hlis := mapM_length _ _ _ _ _ Em).
    destruct t as [|q w|q c|cs w]; [congruence|..]; cbn [titem] in Ee.
    + exfalso. injection Ee as E1. apply (f_equal (@length item)) in E1. rewrite app_length, Hlis, Hl16 in E1. discriminate.
    + exfalso. injection Ee as E1. apply (f_equal (@length item)) in E1. rewrite app_length, Hlis, Hl16 in E1. discriminate.
    + injection Ee as E1. apply app_inj_tail in E1. destruct E1 as [E1 E2]. injection E2 as E2.
      change (fun c => cap (titem c)) with ritem in E1. rewrite <- E1 in Em.
      destruct (mapM_encoding_inv bs cs Em). cbn. auto.
Qed.

(** What the verifier may find under the hash of a node of [t]. *)
Definition vagree (ps : dict bytes) (t : tree) : Prop :=
  forall s, good s -> 32 <= length (tenc s) -> In (tenc s) (encs t) ->
    forall b n, dget ps (keccak (tenc s)) = Some b -> node_decode b = Ok n -> vmatch n s.

Lemma vagree_ext : forall ps p c, vagree ps (TExt p c) -> vagree ps c.
Proof. intros ps p c Hv s Hg Hl Hi. apply Hv; auto. apply encs_ext; auto. Qed.
Lemma vagree_nth : forall ps cs v i, vagree ps (TBranch cs v) -> vagree ps (nth i cs TEmpty).
Proof.
  intros ps cs v i Hv s Hg Hl Hi. apply Hv; auto.
  destruct (nth_in_or_default i cs TEmpty) as [Hin|Hd]; [eapply encs_child; eauto|]. rewrite Hd in Hi. contradiction.
Qed.

Lemma verify_poi_sound : forall fuel ps t path, good t -> vagree ps t -> verify_poi_ fuel ps (tref t) path = Ok true ->
  exists r w, lookup t (nibs path ++ r) = Some w.
Proof.
  induction fuel as [|f IH]; intros ps t path Hg Hv E; [discriminate|]. cbn [verify_poi_] in E.
  assert (Hg' := Hg). destruct Hg' as (Hne & Hw & Hs).
  assert (Hn : exists n, vmatch n t /\
    (if np_len path =? 0 then Ok (match n with Extension _ _ => false | _ => true end)
     else match n with
          | Leaf lp _ => Ok (np_eq lp path)
          | Extension ep nr =>
              if np_starts_with path ep then verify_poi_ f ps nr (np_consume path (np_len ep)) else Err ExtensionPathError
          | Branch bs _ =>
              let b := nth (np_at path 0) bs [] in
              if 0 <? length b then verify_poi_ f ps b (np_consume path 1) else Err BranchPathError
          end) = Ok true).
  { rewrite (tref_32 keccak_len) in E by auto. rewrite tref_eq in E by auto.
    destruct (node_decode_tenc keccak_len t Hne Hw Hs) as (n' & E' & Hm).
    destruct (Nat.ltb_spec (length (tenc t)) 32) as [Hl|Hl]; cbn [negb] in E.
    - rewrite E' in E. cbn [bind] in E. exists n'. split; auto using nmatch_vmatch.
    - destruct (dget ps (keccak (tenc t))) as [b|] eqn:Eb; [|discriminate].
      destruct (node_decode b) as [n|] eqn:Ed; [|discriminate]. cbn [bind] in E.
      exists n. split; auto. eapply Hv; eauto. apply encs_here; auto. }
  clear E. destruct Hn as (n & Hm & E).
  destruct (path_cases path) as [[Hz Hn]|(i & q & Hn & Hz & Hi & Hq)]; rewrite Hz in E; cbn [Nat.eqb] in E.
  - rewrite Hn. destruct (wf_has_key t Hw Hne) as (q & w & El). exists q, w. exact El.
  - destruct n as [lp d|ep nr|bs d], t as [|p w|p c|cs w]; cbn [vmatch] in Hm; try contradiction.
    + destruct Hm as [<- <-]. injection E as E. apply np_eq_spec in E. exists [], d. rewrite app_nil_r, <- E.
      apply lookup_leaf_self.
    + destruct Hm as [<- ->]. rewrite np_starts_with_spec in E.
      destruct (strip (nibs ep) (nibs path)) as [r|] eqn:Es; [|discriminate].
      pose proof (np_starts_with_skip _ _ _ Es) as Er. apply strip_spec in Es.
      destruct Hw as (_ & Hpn & Hb & Hwc).
      assert (Hgc : good c).
      { split; [intros ->; contradiction|]. split; auto. eapply small_ext; eauto. }
      destruct (IH ps c _ Hgc (vagree_ext _ _ _ Hv) E) as (r' & w & El). rewrite Er in El.
      exists r', w. rewrite Es, <- app_assoc, lookup_ext_app. exact El.
    + destruct Hm as (<- & Hlen & Hch). rewrite Hi in E. cbn zeta in E.
      destruct (0 <? length (nth i bs [])) eqn:Ep; [|discriminate].
      destruct (Hch i) as [Hb|[Hb1 Hb2]].
      * rewrite Hb in E, Ep. apply tref_pos in Ep; auto.
        assert (Hw' := Hw). apply wf_branch in Hw'.
        assert (Hgc : good (nth i cs TEmpty)).
        { split; auto. split; [apply wf_nth; apply Hw'|eapply small_nth; eauto]. }
        destruct (IH ps _ _ Hgc (vagree_nth _ _ _ _ Hv) E) as (r' & w & El). rewrite Hq in El.
        exists r', w. rewrite Hn. cbn [app]. rewrite lookup_branch. exact El.
      * exfalso. rewrite Hb2 in E. destruct f; [discriminate|]. cbn in E. discriminate.
Qed.

Lemma poi_storage_inv : forall l d ps, poi_storage l d = Ok (Some ps) ->
  forall k b, dget ps k = Some b -> dget d k = Some b \/
    exists n e, node_decode b = Ok n /\ node_encode n = Ok e /\ In e (proof_hashed l) /\
      k = (if length e <? 32 then e else keccak e).
Proof.
  induction l as [|x l IH]; intros d ps E k b Eg; cbn [poi_storage] in E; [injection E as ->; auto|].
  destruct (store_proof_node d x) as [d'|x0] eqn:Ex.
  - destruct (IH _ _ E _ _ Eg) as [E1|(n & e & E1 & E2 & E3 & E4)].
    + unfold store_proof_node in Ex. destruct x as [b'|]; [|discriminate].
      destruct (node_decode b') as [n|] eqn:Ed; [|discriminate]. cbn [bind] in Ex.
      unfold into_reference in Ex. destruct (node_encode n) as [e|] eqn:Ee; [|discriminate]. cbn [bind] in Ex.
      injection Ex as <-. rewrite dget_dset in E1.
      destruct (bytes_eqb_spec k (if length e <? 32 then e else keccak e)) as [Ek|Ek]; [|auto].
      injection E1 as <-. right. exists n, e. split; auto. split; auto. split; auto.
      unfold proof_hashed. cbn [flat_map]. rewrite Ed, Ee. left. reflexivity.
    + right. exists n, e. split; auto. split; auto. split; auto. unfold proof_hashed. cbn [flat_map].
      apply in_or_app. right. exact E3.
  - destruct x0; discriminate.
Qed.

Lemma verify_poi_true : forall lim t p, mpt_verify_poi lim t p = Ok true ->
  pf_type p = MPT_POI /\ root_is_empty t = false /\ pf_root p = root_hash t /\
  (exists b l, pf_proof p = PB b :: l /\ keccak b = root_hash t) /\
  exists ps, poi_storage (pf_proof p) [] = Ok (Some ps) /\ verify_poi_ lim ps (root_ref t) (np_of (pf_key p)) = Ok true.
Proof.
  intros lim t p E. unfold mpt_verify_poi in E. destruct (bytes_eqb_spec (pf_type p) MPT_POI) as [Et|]; [|discriminate].
  cbn [negb] in E. destruct (root_is_empty t) eqn:Er; [discriminate|].
  destruct (hash_first p) as [h|] eqn:Eh; [|discriminate]. cbn [bind] in E.
  destruct (bytes_eqb_spec (root_hash t) h) as [<-|]; [|discriminate]. cbn [negb] in E.
  destruct (poi_storage (pf_proof p) []) as [[ps|]|] eqn:Ep; try discriminate. cbn [bind] in E.
  destruct (verify_poi_ _ _ _ _) as [v|] eqn:Ev; [|discriminate]. cbn [bind] in E. injection E as E.
  apply andb_true_iff in E. destruct E as [-> E]. apply bytes_eqb_eq in E.
  split; auto. split; auto. split; auto. split; eauto.
  unfold hash_first in Eh. destruct (pf_proof p) as [|[b|] l]; try discriminate. injection Eh as Eh. eauto.
Qed.

Lemma poi_sound_tree : forall lim t tr t0 p, repr t tr -> m_root t0 = m_root t ->
  no_collision (proof_hashed (pf_proof p) ++ hashed_by t) -> mpt_verify_poi lim t0 p = Ok true ->
  exists r w, lookup tr (nibs_of (pf_key p) ++ r) = Some w.
Proof.
  intros lim t tr t0 p R Hr Hn E. apply verify_poi_true in E.
  destruct E as (_ & Ere & _ & _ & ps & Eps & Ev). unfold root_ref in Ev. rewrite Hr in Ev. fold (root_ref t) in Ev.
  destruct (tree_empty_dec tr) as [->|Hne].
  { destruct (repr_empty_root t R) as [Er _]. unfold root_is_empty in *. rewrite Hr in Ere. congruence. }
  destruct (repr_nonempty keccak_len t tr R Hne) as (E1 & E2 & E3 & E4). rewrite E3 in Ev.
  assert (R' := R). destruct R' as (Hw & Hs & St & (_ & _ & D) & _).
  rewrite <- nibs_np_of. eapply verify_poi_sound; [|..|exact Ev].
  - split; auto.
  - intros s Hg Hl Hi b n Eb Ed. destruct (poi_storage_inv _ _ _ Eps _ _ Eb) as [C|(n' & e & F1 & F2 & F3 & F4)]; [discriminate|].
    assert (n' = n) by congruence. subst n'. apply (reencode_vmatch b); auto. rewrite F2. f_equal.
    destruct (Nat.ltb_spec (length e) 32) as [He|He].
    + exfalso. pose proof (keccak_len (tenc s)) as Hk. rewrite F4 in Hk. lia.
    + symmetry. apply Hn; auto.
      * apply in_or_app. right. right. apply (D (keccak (tenc s)) (tenc s)). apply (encs_stored (m_map t) tr); auto.
      * apply in_or_app. left. exact F3.
Qed.

(** C17 *)
Lemma poi_sound : forall secure l t t0 lim p, reachable secure l t -> keys_ok secure (map op_key l) ->
  m_root t0 = m_root t -> no_collision (proof_hashed (pf_proof p) ++ hashed_by t) ->
  mpt_verify_poi lim t0 p = Ok true ->
  exists k v r, dict_after l k = Some v /\ eff secure k = pf_key p ++ r.
Proof.
  intros secure l t t0 lim p R Hk Hr Hn E.
  destruct (reachable_repr keccak_len _ _ _ R) as (Es & tr & Rt & Hh).
  destruct (poi_sound_tree lim t tr t0 p Rt Hr Hn E) as (r & w & El). destruct Hh as [H1 H2].
  destruct (H2 _ _ El) as (x & Ex). symmetry in Ex. destruct (nibs_of_app_inv _ _ _ Ex) as (s & -> & _).
  assert (Ed : dict_after (map (eff_op secure) l) (pf_key p ++ s) = Some w) by (rewrite <- H1, Ex; exact El).
  destruct (dict_after_eff_inv secure l _ _ Hk Ed) as (k & Hkx & Hv). exists k, w, s. auto.
Qed.

(** Exact soundness when lengths match. *)
Lemma poi_sound_exact : forall secure l t t0 lim p k, reachable secure l t -> keys_ok secure (k :: map op_key l) ->
  m_root t0 = m_root t -> no_collision (proof_hashed (pf_proof p) ++ hashed_by t) ->
  mpt_verify_poi lim t0 p = Ok true -> pf_key p = trie_key secure k -> same_length secure (dict_after l) k ->
  exists v, dict_after l k = Some v.
Proof.
  intros secure l t t0 lim p k R Hk Hr Hn E Ek Hl.
  destruct (poi_sound secure l t t0 lim p R) as (k' & v & r & Ed & Ekr); auto.
  { eapply keys_ok_incl; [|exact Hk]. intros x Hx. right. exact Hx. }
  change (eff secure k') with (trie_key secure k') in Ekr. rewrite Ek in Ekr.
  assert (Hr0 : r = []).
  { apply (f_equal (@length byte)) in Ekr. rewrite app_length in Ekr. apply length_zero_iff_nil.
    unfold trie_key in Ekr. destruct secure; [rewrite !keccak_len in Ekr; lia|].
    destruct Hl as [Hl|Hl]; [discriminate|]. apply Hl in Ed. lia. }
  subst r. rewrite app_nil_r in Ekr. exists v. rewrite <- Ed. f_equal. unfold trie_key in Ekr.
  destruct secure; [|auto]. apply (Hk eq_refl); auto; [left; auto|]. right. eapply dict_after_keys; eauto.
Qed.

(** C19 *)
Lemma get_poi_head : forall fuel m r path acc l, get_poi_ fuel m r path acc = Ok l ->
  exists n e l', get_node m r = Ok n /\ node_encode n = Ok e /\ l = acc ++ e :: l'.
Proof.
  induction fuel as [|f IH]; intros m r path acc l E; [discriminate|]. cbn [get_poi_] in E.
  destruct (get_node m r) as [n|] eqn:En; [|discriminate]. cbn [bind] in E.
  exists n. destruct (node_encode n) as [e|] eqn:Ee; cbn [bind] in E.
  - exists e. destruct (np_len path =? 0).
    { exists []. injection E as <-. auto. }
    destruct n as [lp d|ep nr|bs d].
    + destruct (np_eq lp path); [|discriminate]. injection E as <-. eauto.
    + destruct (np_starts_with path ep); [|discriminate].
      destruct (IH _ _ _ _ _ E) as (n' & e' & l' & _ & _ & ->). rewrite <- app_assoc. cbn [app]. eauto.
    + cbn zeta in E. destruct (0 <? _); [|discriminate].
      destruct (IH _ _ _ _ _ E) as (n' & e' & l' & _ & _ & ->). rewrite <- app_assoc. cbn [app]. eauto.
  - exfalso. destruct (np_len path =? 0); [discriminate|]. destruct n as [lp d|ep nr|bs d].
    + destruct (np_eq lp path); discriminate.
    + destruct (np_starts_with path ep); discriminate.
    + cbn zeta in E. destruct (0 <? _); discriminate.
Qed.

Lemma poi_fresh_root : forall lim t p, mpt_verify_poi lim t p = Ok true ->
  pf_root p = root_hash t /\ exists b l, pf_proof p = PB b :: l /\ keccak b = root_hash t.
Proof. intros lim t p E. apply verify_poi_true in E. tauto. Qed.

Lemma poi_stale : forall secure l t1 lim time k p t2 lim2, reachable secure l t1 ->
  mpt_get_poi lim time t1 k = Ok p -> root_hash t2 <> root_hash t1 -> root_is_empty t2 = false ->
  mpt_verify_poi lim2 t2 p = Ok false.
Proof.
  intros secure l t1 lim time k p t2 lim2 R E Hne Ht2.
  destruct (reachable_repr keccak_len _ _ _ R) as (Es & tr & Rt & Hh).
  unfold mpt_get_poi in E. destruct (root_is_empty t1) eqn:Er; [discriminate|].
  destruct (get_poi_ _ _ _ _ _) as [L|] eqn:Eg; [|discriminate]. cbn [bind] in E.
  assert (Htr : tr <> TEmpty).
  { intros ->. destruct (repr_empty_root t1 Rt). congruence. }
  destruct (repr_nonempty keccak_len t1 tr Rt Htr) as (E1 & E2 & E3 & E4).
  destruct (get_poi_head _ _ _ _ _ _ Eg) as (n & e & L' & F1 & F2 & ->). cbn [app map] in E.
  assert (He : keccak e = root_hash t1).
  { rewrite (root_hash_repr t1 tr Rt Htr). destruct Rt as (Hw & Hs & St & _).
    destruct (get_node_stored keccak_len (m_map t1) tr Htr Hw Hs (here_of_stored _ _ St)) as (n' & G1 & G2).
    rewrite E3 in F1. rewrite G1 in F1. injection F1 as ->.
    rewrite (node_encode_match keccak_len n tr) in F2 by auto. injection F2 as <-. reflexivity. }
  unfold new_proof in E. cbn in E. injection E as <-. unfold mpt_verify_poi. cbn [pf_type pf_proof].
  rewrite bytes_eqb_refl, Ht2. cbn [negb hash_first pf_proof bind]. rewrite He.
  destruct (bytes_eqb_spec (root_hash t2) (root_hash t1)); [contradiction|reflexivity].
Qed.

(** C23 *)
Lemma poi_type : forall lim t p, pf_type p <> MPT_POI -> mpt_verify_poi lim t p = Err TypeError.
Proof.
  intros lim t p Hp. unfold mpt_verify_poi. destruct (bytes_eqb_spec (pf_type p) MPT_POI); [contradiction|reflexivity].
Qed.
Lemma poe_type : forall lim t p, pf_type p <> MPT_POE -> mpt_verify_poe lim t p = Err TypeError.
Proof.
  intros lim t p Hp. unfold mpt_verify_poe. destruct (bytes_eqb_spec (pf_type p) MPT_POE); [contradiction|reflexivity].
Qed.
Lemma poi_made : forall lim time t k p, mpt_get_poi lim time t k = Ok p -> pf_type p = MPT_POI /\ pf_time p = time /\
  pf_key p = trie_key (m_secure t) k /\ pf_root p = root_ref t.
Proof.
  intros lim time t k p E. unfold mpt_get_poi in E. destruct (root_is_empty t); [discriminate|].
  destruct (get_poi_ _ _ _ _ _); [|discriminate]. cbn in E. injection E as <-. auto.
Qed.
Lemma poe_made : forall lim time t k p, mpt_get_poe lim time t k = Ok p -> pf_type p = MPT_POE /\ pf_time p = time /\
  pf_key p = trie_key (m_secure t) k /\ pf_root p = root_hash t.
Proof.
  intros lim time t k p E. unfold mpt_get_poe in E. destruct (root_is_empty t); [discriminate|].
  destruct (mpt_contains _ _ _) as [[]|]; try discriminate. cbn [bind] in E.
  destruct (get_poe_ _ _ _ _ _) as [[[n L] path]|]; [|discriminate]. cbn [bind] in E.
  destruct (node_encode _); [|discriminate]. cbn [bind] in E. cbn zeta in E.
  destruct n as [lp d|ep nr|bs d].
  - destruct (np_eq lp path); [discriminate|]. cbn in E. injection E as <-. auto.
  - cbn in E. injection E as <-. auto.
  - destruct (bytes_eqb d []); [|discriminate]. cbn in E. injection E as <-. auto.
Qed.
End Poi.
