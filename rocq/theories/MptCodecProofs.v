(** MPT.encode and MPT.decode; what a trie object depends on. *)
From Coq Require Import List Bool Arith NArith ZArith Lia.
From Verif Require Import Base BaseProofs Rlp RlpProofs NibblePath NibbleProofs Node ProofObj Mpt Tree TreeEnc
  StoreProofs UpdateProofs DeleteProofs ReadProofs Spec SpecCodec SpecProof MptRefine MptProofs PoiProofs PoeProofs MptEq.
Import ListNotations.

Section Codec.
Context {H : Hash}.
Hypothesis keccak_len : forall b, length (keccak b) = 32.

(** ** The ghost log has no influence on results. *)
Definition alike (s s' : store) : Prop := s_map s = s_map s' /\ s_faults s = s_faults s'.
Definition blind {A} (m : M A) : Prop := forall s s', alike s s' -> fst (m s) = fst (m s') /\ alike (snd (m s)) (snd (m s')).

Lemma blind_ret : forall A (a : A), blind (ret a).
Proof. intros A a s s' Ha. split; auto. Qed.
Lemma blind_raise : forall A e, blind (@raise A e).
Proof. intros A e s s' Ha. split; auto. Qed.
Lemma blind_lift : forall A (r : result A), blind (lift r).
Proof. intros A r s s' Ha. destruct r; split; auto. Qed.
Lemma blind_bind : forall A B (m : M A) (f : A -> M B), blind m -> (forall a, blind (f a)) -> blind (mbind m f).
Proof.
  intros A B m f Hm Hf s s' Ha. unfold mbind. destruct (Hm s s' Ha) as [E1 E2].
  destruct (m s) as [r1 s1], (m s') as [r2 s2]. cbn [fst snd] in *. subst r2. destruct r1 as [a|e]; [apply Hf; auto|auto].
Qed.
Lemma blind_tick : blind tick.
Proof.
  intros s s' [E1 E2]. unfold tick. rewrite E2. destruct (s_faults s') as [|[] fl] eqn:Ef; cbn; split; auto; split; cbn; congruence.
Qed.
Lemma blind_write : forall r e, blind (write r e).
Proof.
  intros r e. unfold write. apply blind_bind; [apply blind_tick|]. intros _ s s' [E1 E2]. split; auto.
  split; cbn; [rewrite E1; auto|auto].
Qed.
Lemma blind_rd : forall r, blind (rd_node r).
Proof.
  intros r. unfold rd_node. apply blind_bind; [destruct (length r =? 32); [apply blind_tick|apply blind_ret]|].
  intros _ s s' [E1 E2]. cbn. rewrite E1. split; auto. split; auto.
Qed.
Lemma blind_store : forall n, blind (store_node n).
Proof.
  intros n. unfold store_node. apply blind_bind; [apply blind_lift|]. intros r.
  destruct (length r =? 32); [|apply blind_ret]. apply blind_bind; [apply blind_lift|]. intros e.
  apply blind_bind; [apply blind_write|]. intros. apply blind_ret.
Qed.
Create HintDb blind.
Ltac blind := repeat first
  [ apply blind_ret | apply blind_raise | apply blind_lift | apply blind_store | apply blind_rd
  | solve [eauto with blind]
  | apply blind_bind; [|intros ?]
  | match goal with |- blind (if ?b then _ else _) => destruct b end
  | match goal with |- blind (match ?x with _ => _ end) => destruct x end ].
Lemma blind_cbl : forall p v bs, blind (create_branch_leaf p v bs).
Proof. intros. unfold create_branch_leaf. blind. Qed.
#[local] Hint Resolve blind_cbl : blind.
Lemma blind_cbn : forall pa va pb vb, blind (create_branch_node pa va pb vb).
Proof. intros. unfold create_branch_node. blind. Qed.
Lemma blind_cbe : forall p nr bs, blind (create_branch_extension p nr bs).
Proof. intros. unfold create_branch_extension. blind. Qed.
Lemma blind_update : forall f r path v, blind (update_ f r path v).
Proof.
  induction f as [|f IH]; intros; cbn [update_]; [apply blind_raise|].
  destruct (ref_is_empty r); [apply blind_store|]. apply blind_bind; [apply blind_rd|]. intros n.
  destruct n; blind; auto using blind_cbn, blind_cbe.
Qed.
#[local] Hint Resolve blind_cbl blind_cbn blind_cbe : blind.
Lemma blind_build : forall bs, blind (build_new_node bs).
Proof. intros. unfold build_new_node. blind. Qed.
#[local] Hint Resolve blind_build : blind.
Lemma blind_bd : forall bs d, blind (branch_deleted bs d).
Proof. intros. unfold branch_deleted. blind. Qed.
Lemma blind_delete : forall f r path, blind (delete_ f r path).
Proof.
  induction f as [|f IH]; intros; cbn [delete_]; [apply blind_raise|].
  apply blind_bind; [apply blind_rd|]. intros n.
  destruct n; blind; auto using blind_bd.
Qed.

(** Two objects with the same storage contents, root and mode. *)
Definition same_state (t t' : mpt) : Prop := m_map t = m_map t' /\ m_root t = m_root t' /\ m_secure t = m_secure t'.

Lemma same_state_reads : forall t t', same_state t t' -> reads_alike t t'.
Proof.
  intros t t' (E1 & E2 & E3) lim k time.
  assert (F : root_falsy t' = root_falsy t /\ root_is_empty t' = root_is_empty t /\ root_ref t' = root_ref t /\
              root_hash t' = root_hash t /\ eff_key t' k = eff_key t k).
  { unfold root_hash, root_falsy, root_is_empty, root_ref, eff_key. rewrite E2, E3. auto. }
  destruct F as (F1 & F2 & F3 & F4 & F5).
  assert (Ec : mpt_contains lim t' k = mpt_contains lim t k).
  { unfold mpt_contains. rewrite F1, F2, F3, F5, E1. reflexivity. }
  split; [unfold mpt_get; rewrite F1, F3, F5, E1; reflexivity|]. split; [exact Ec|].
  split; [unfold mpt_get_poi; rewrite F2, F3, F5, E1; reflexivity|].
  split; [unfold mpt_get_poe; rewrite Ec, F2, F3, F4, F5, E1; reflexivity|].
  intros p. split; [unfold mpt_verify_poi|unfold mpt_verify_poe]; rewrite F2, F3, F4; reflexivity.
Qed.

Lemma same_state_run_op : forall A t t' fl (m : M A) nr, same_state t t' -> blind m ->
  fst (run_op t fl m nr) = fst (run_op t' fl m nr) /\ same_state (snd (run_op t fl m nr)) (snd (run_op t' fl m nr)).
Proof.
  intros A t t' fl m nr (E1 & E2 & E3) Hb. unfold run_op.
  destruct (Hb (mkStore (m_map t) (m_log t) fl) (mkStore (m_map t') (m_log t') fl)) as [F1 [F2 F3]]; [split; auto|].
  destruct (m _) as [r s], (m _) as [r' s']. cbn [fst snd] in *. subst r'.
  destruct r; split; auto; split; auto.
Qed.

Lemma same_state_call : forall t t' c, same_state t t' ->
  fst (mpt_call t c) = fst (mpt_call t' c) /\ same_state (snd (mpt_call t c)) (snd (mpt_call t' c)).
Proof.
  intros t t' c Hs. assert (Hs' := Hs). destruct Hs' as (E1 & E2 & E3). unfold mpt_call.
  assert (F : forall k, root_is_empty t' = root_is_empty t /\ root_ref t' = root_ref t /\ eff_key t' k = eff_key t k).
  { intros k. unfold root_is_empty, root_ref, eff_key. rewrite E2, E3. auto. }
  destruct (c_op c) as [k v|k]; destruct (F k) as (F1 & F2 & F3).
  - unfold mpt_update. rewrite F2, F3. apply same_state_run_op; auto. apply blind_update.
  - unfold mpt_delete. rewrite F1, F2, F3. destruct (root_is_empty t); [split; auto|].
    apply same_state_run_op; auto. apply blind_delete.
Qed.

Lemma same_state_mpt_run : forall h t t', same_state t t' ->
  fst (mpt_run t h) = fst (mpt_run t' h) /\ same_state (snd (mpt_run t h)) (snd (mpt_run t' h)).
Proof.
  induction h as [|c h IH]; intros t t' Hs; [split; auto|]. cbn [mpt_run].
  destruct (same_state_call t t' c Hs) as [F1 F2].
  destruct (mpt_call t c) as [r1 t1], (mpt_call t' c) as [r2 t2]. cbn [fst snd] in *. subst r2.
  destruct (IH t1 t2 F2) as [G1 G2]. destruct (mpt_run t1 h), (mpt_run t2 h). cbn [fst snd] in *. subst.
  destruct r1; split; auto.
Qed.

(** ** Round trip *)
Lemma rekey_id : forall m d, (forall k e, In (k, e) m -> k = keccak e) -> NoDup (dkeys d ++ dkeys m) ->
  rekey (dvals m) d = d ++ m.
Proof.
  induction m as [|[k e] m IH]; intros d Hk Hn; [cbn; rewrite app_nil_r; reflexivity|]. cbn [dvals map snd rekey].
  pose proof (Hk k e (or_introl eq_refl)) as Ek. subst k. cbn [dkeys map fst] in Hn.
  assert (Hf : ~ In (keccak e) (dkeys d)).
  { intros Hi. apply NoDup_remove_2 in Hn. apply Hn. apply in_or_app. auto. }
  rewrite dset_fresh by auto. fold (dvals m). rewrite IH.
  - rewrite <- app_assoc. reflexivity.
  - intros k e' Hi. apply Hk. right. exact Hi.
  - unfold dkeys. rewrite map_app, <- app_assoc. exact Hn.
Qed.

Lemma mapM_prep_big : forall l, (forall e, In e l -> 32 <= length e) -> mapM prep_encoding l = Ok (map IBytes l).
Proof.
  induction l as [|e l IH]; intros Hl; [reflexivity|]. cbn [mapM map].
  assert (He : 32 <= length e) by (apply Hl; left; auto).
  unfold prep_encoding at 1. destruct (Nat.ltb_spec (length e) 32); [lia|]. rewrite andb_false_r. cbn [bind].
  rewrite IH by (intros; apply Hl; right; auto). reflexivity.
Qed.
Lemma d_binlist_map : forall l, d_binlist (IList (map IBytes l)) = Ok l.
Proof.
  intros l. cbn [d_binlist]. induction l as [|e l IH]; [reflexivity|]. cbn [map mapM d_binary bind].
  rewrite IH. reflexivity.
Qed.

Lemma reach_dinv : forall secure l t, reachable secure l t -> dinv (m_map t) (m_log t).
Proof. intros secure l t R. destruct (reachable_repr keccak_len _ _ _ R) as (_ & tr & Rt & _). eapply repr_dinv; eauto. Qed.

Lemma dinv_vals : forall m log, dinv m log -> forall e, In e (dvals m) -> 32 <= length e.
Proof.
  intros m log (_ & Hn & D) e He. unfold dvals in He. apply in_map_iff in He. destruct He as ([k e'] & <- & Hi).
  apply In_dget in Hi; auto. apply D in Hi. apply Hi.
Qed.

Lemma mpt_encode_item : forall secure l t b, reachable secure l t -> mpt_encode t = Ok b ->
  exists r, m_root t = Some r /\ rlp_encode (IList [IBytes r; IList (map IBytes (dvals (m_map t))); e_bool (m_secure t)]) = Ok b.
Proof.
  intros secure l t b R E. assert (D := reach_dinv _ _ _ R). unfold mpt_encode in E.
  rewrite mapM_prep_big in E by (intros; eapply dinv_vals; eauto). cbn [bind] in E.
  destruct (m_root t) as [r|]; [|discriminate]. eauto.
Qed.

Lemma mpt_round_trip : forall secure l t b, reachable secure l t -> mpt_encode t = Ok b ->
  exists t', mpt_decode b = Ok t' /\ same_state t t'.
Proof.
  intros secure l t b R E. destruct (mpt_encode_item _ _ _ _ R E) as (r & Er & Eb).
  assert (D := reach_dinv _ _ _ R). apply rlp_encode_decode in Eb. unfold mpt_decode. rewrite Eb.
  cbn [bind d_binary]. rewrite d_binlist_map. cbn [bind].
  assert (Es : d_bool (e_bool (m_secure t)) = Ok (m_secure t)) by (destruct (m_secure t); reflexivity).
  rewrite Es. cbn [bind]. eexists. split; [reflexivity|]. unfold same_state. cbn [m_map m_root m_secure mpt_init].
  split; auto. destruct D as (_ & Hn & D). rewrite rekey_id; auto.
  intros k e Hi. apply In_dget in Hi; auto. apply D in Hi. apply Hi.
Qed.

Lemma same_state_alike : forall t t', same_state t t' -> behave_alike t t'.
Proof.
  intros t t' Hs. split; [apply same_state_reads; auto|]. intros h.
  destruct (same_state_mpt_run h t t' Hs) as [F1 F2]. split; auto. apply same_state_reads; auto.
Qed.

Lemma mpt_round_trip_reads : forall secure l t b, reachable secure l t -> mpt_encode t = Ok b ->
  exists t', mpt_decode b = Ok t' /\ m_map t' = m_map t /\ m_root t' = m_root t /\ m_secure t' = m_secure t /\
    behave_alike t t'.
Proof.
  intros secure l t b R E. destruct (mpt_round_trip _ _ _ _ R E) as (t' & E' & Hs). exists t'. split; auto.
  assert (Hs' := Hs). destruct Hs' as (E1 & E2 & E3). split; [auto|]. split; [auto|]. split; [auto|]. apply same_state_alike; auto.
Qed.

Lemma mpt_reopen : forall t, m_root t <> None -> behave_alike t (mpt_init (m_map t) (m_root t) (m_secure t)).
Proof.
  intros t Hr. apply same_state_alike. split; [reflexivity|]. split; [|reflexivity].
  unfold mpt_init. cbn. destruct (m_root t); [reflexivity|contradiction].
Qed.

(** Room in an RLP list. *)

Lemma flat_bytes_len : forall l, (fold_right (fun e n => (blen e + 9 + n)%N) 0%N l < 2 ^ 64)%N ->
  (blen (flat_map renc (map IBytes l)) <= fold_right (fun e n => (blen e + 9 + n)%N) 0%N l)%N.
Proof.
  induction l as [|e l IH]; intros Hl; cbn [map flat_map fold_right] in *; [cbn; lia|].
  rewrite blen_app. specialize (IH ltac:(lia)). pose proof (blen_renc_bytes e ltac:(lia)). lia.
Qed.

Lemma mpt_encode_total : forall secure l t r, reachable secure l t -> m_root t = Some r ->
  (storage_size t < 2 ^ 63)%N -> exists b, mpt_encode t = Ok b.
Proof.
  intros secure l t r R Er Hs. assert (D := reach_dinv _ _ _ R). unfold mpt_encode.
  rewrite mapM_prep_big by (intros; eapply dinv_vals; eauto). cbn [bind]. rewrite Er. unfold rlp_encode.
  destruct (N.ltb_spec (blen (payload (IList [IBytes r; IList (map IBytes (dvals (m_map t))); e_bool (m_secure t)]))) (2 ^ 64)) as [_|Hl];
    [eauto|]. exfalso. revert Hl. apply N.lt_nge. cbn [payload flat_map]. rewrite app_nil_r, !blen_app.
  assert (Hr : length r <= 32).
  { destruct (reachable_repr keccak_len _ _ _ R) as (_ & tr & Rt & _).
    destruct Rt as (_ & _ & _ & _ & _ & [[_ [E|E]]|[_ E]] & _); rewrite E in Er; try discriminate; injection Er as <-.
    - unfold EMPTY_HASH. rewrite keccak_len. lia.
    - apply (tref_le32 keccak_len). }
  assert (Hb1 : (blen (renc (IBytes r)) <= 41)%N).
  { pose proof (blen_renc_bytes r ltac:(unfold blen; lia)). unfold blen in *. lia. }
  assert (Hb3 : (blen (renc (e_bool (m_secure t))) <= 1)%N) by (destruct (m_secure t); cbn; lia).
  change (fold_right (fun e n => (blen e + 9 + n)%N) 0%N (dvals (m_map t)) < 2 ^ 63)%N in Hs. pose proof (flat_bytes_len (dvals (m_map t)) ltac:(lia)) as Hf.
  assert (Hb2 : (blen (renc (IList (map IBytes (dvals (m_map t))))) <= fold_right (fun e n => (blen e + 9 + n)%N) 0%N (dvals (m_map t)) + 9)%N).
  { pose proof (blen_renc (IList (map IBytes (dvals (m_map t))))) as Hx. cbn [payload] in Hx. specialize (Hx ltac:(lia)). lia. }
  lia.
Qed.

(** ** Untrusted input *)
Lemma rekey_get : forall l d k e, dget (rekey l d) k = Some e -> dget d k = Some e \/ (In e l /\ k = keccak e).
Proof.
  induction l as [|x l IH]; intros d k e E; [auto|]. cbn [rekey] in E.
  destruct (IH _ _ _ E) as [E'|[Hi Ek]]; [|right; split; auto; right; auto].
  rewrite dget_dset in E'. destruct (bytes_eqb_spec k (keccak x)) as [->|]; [|auto].
  injection E' as <-. right. split; auto. left. auto.
Qed.

Lemma mpt_decode_inv : forall b t, mpt_decode b = Ok t -> exists l, m_map t = rekey l [] /\ m_log t = [x80] :: l.
Proof.
  intros b t E. unfold mpt_decode in E. destruct (rlp_decode b) as [[|[|ri [|li [|si [|]]]]]|]; try discriminate.
  cbn [bind] in E. destruct (d_binary ri); [|discriminate]. cbn [bind] in E.
  destruct (d_binlist li) as [l|]; [|discriminate]. cbn [bind] in E.
  destruct (d_bool si); [|discriminate]. cbn [bind] in E. injection E as <-. exists l. auto.
Qed.

(** C26 *)
Lemma decode_cannot_forge : forall secure l t b t' k v lim, reachable secure l t -> keys_ok secure (k :: map op_key l) ->
  mpt_decode b = Ok t' -> m_root t' = m_root t -> m_secure t' = secure ->
  no_collision (m_log t' ++ hashed_by t) -> mpt_get lim t' k = Ok v ->
  (secure = true \/ ~ extended_in (dict_after l) k) -> dict_after l k = Some v.
Proof.
  intros secure l t b t' k v lim R Hk Ed Er Es Hn Eg Hx.
  destruct (reach_lookup keccak_len _ _ _ k R Hk) as (tr & Rt & Hh & Es' & El).
  destruct (mpt_decode_inv _ _ Ed) as (nodes & Em & Elog).
  assert (Hent : forall e0 e, In e0 (hashed_by t) -> dget (m_map t') (keccak e0) = Some e -> e = e0).
  { intros e0 e Hi Ee. rewrite Em in Ee. destruct (rekey_get _ _ _ _ Ee) as [C|[Hie Ek]]; [discriminate|].
    symmetry. apply Hn; auto; apply in_or_app; auto. left. rewrite Elog. right. exact Hie. }
  unfold mpt_get in Eg. destruct (root_falsy t') eqn:Ef; [discriminate|].
  assert (Err : root_ref t' = root_ref t) by (unfold root_ref; rewrite Er; reflexivity).
  assert (Eek : eff_key t' k = eff_key t k) by (unfold eff_key; rewrite Es, Es'; reflexivity).
  rewrite Err, Eek in Eg.
  destruct (tree_empty_dec tr) as [->|Hne].
  - exfalso. destruct (repr_empty_root t Rt) as [_ [E|E]].
    + unfold root_falsy in Ef. rewrite Er, E in Ef. discriminate.
    + unfold root_ref in Eg. rewrite E in Eg. destruct lim as [|f]; [discriminate|]. cbn [get_] in Eg.
      unfold get_node in Eg.
      replace (length EMPTY_HASH =? 32) with true in Eg by (unfold EMPTY_HASH; rewrite keccak_len; reflexivity).
      destruct (dget (m_map t') EMPTY_HASH) as [e|] eqn:Ee; [|discriminate].
      apply (Hent [x80]) in Ee; [|right; apply Rt]. subst e. discriminate.
  - destruct (repr_nonempty keccak_len t tr Rt Hne) as (E1 & E2 & E3 & E4). rewrite E3 in Eg.
    assert (Rt' := Rt). destruct Rt' as (Hw & Hs & St & (_ & _ & D) & _).
    destruct (get_ _ _ _ _) as [n|] eqn:Egn; [|discriminate].
    assert (Ha : agree (m_map t') tr).
    { apply (agree_intro keccak_len); auto. intros e k0 n0 Hi -> Ee. apply (Hent e); auto.
      right. apply (D (keccak e) e). eapply encs_stored; eauto. }
    destruct (get_Ok_inv keccak_len lim (m_map t') tr (np_of (eff_key t k)) n v Hne Hw Hs Ha Egn Eg) as [E|Ex];
      rewrite nibs_np_of in *.
    + rewrite <- El. exact E.
    + exfalso. destruct Hx as [->|Hx].
      * destruct Ex as (r & w & Hr & E). destruct Hh as [H1 H2]. destruct (H2 _ _ E) as (x & Ex).
        symmetry in Ex. destruct (nibs_of_app_inv _ _ _ Ex) as (s & -> & Hs2). rewrite <- Ex, H1 in E.
        destruct (dict_after_eff_inv true l _ _ ltac:(eapply keys_ok_incl; [|exact Hk]; intros y Hy; right; exact Hy) E)
          as (k2 & Ek2 & _). unfold eff, eff_key in Ek2. rewrite Es' in Ek2.
        apply (f_equal (@length byte)) in Ek2. rewrite app_length, !keccak_len in Ek2.
        assert (s = []) by (apply length_zero_iff_nil; lia). subst s. apply Hr. rewrite Hs2. reflexivity.
      * apply (holds_extended tr _ (eff_key t k) Hh) in Ex. unfold eff_key in Ex. rewrite Es' in Ex. destruct secure.
        { destruct Ex as (k' & w & (r & Hr & Ekr) & E).
          destruct (dict_after_eff_inv true l _ _ ltac:(eapply keys_ok_incl; [|exact Hk]; intros y Hy; right; exact Hy) E)
            as (k2 & Ek2 & _). unfold eff in Ek2. rewrite Ekr in Ek2.
          apply (f_equal (@length byte)) in Ek2. rewrite app_length, !keccak_len in Ek2.
          apply Hr. apply length_zero_iff_nil. lia. }
        { apply Hx. destruct Ex as (k' & w & Hp & E). exists k', w. split; auto.
          destruct (dict_after_eff_inv false l _ _ ltac:(intros C; discriminate) E) as (k2 & Ek2 & E2k).
          unfold eff in Ek2. subst k'. exact E2k. }
Qed.

Lemma encode_empty_root : forall t, m_root t = None -> mpt_encode t = Err TypeError \/ exists e, mpt_encode t = Err e.
Proof. intros t E. right. unfold mpt_encode. rewrite E. destruct (mapM _ _); cbn; eauto. Qed.

(** ** Equality of tries *)
Lemma digits_hexish : forall b acc und any z, digits b acc und any = Some z -> forallb hexish b = true.
Proof.
  induction b as [|c r IH]; intros acc und any z E; [reflexivity|]. cbn [digits] in E. cbn [forallb].
  destruct (hexval c) as [d|] eqn:Ec.
  - rewrite (IH _ _ _ _ E). unfold hexish. rewrite Ec, orb_true_r. reflexivity.
  - assert (Hs : (if any && negb und && forallb is_space (c :: r) then Some acc else None) = Some z ->
                 hexish c && forallb hexish r = true).
    { destruct (any && negb und) eqn:Ea; [|discriminate]. cbn [andb].
      destruct (forallb is_space (c :: r)) eqn:Ef; [|discriminate]. intros _. apply andb_true_iff.
      rewrite forallb_forall in Ef. split; [unfold hexish; rewrite (Ef c) by (left; auto); reflexivity|].
      apply forallb_forall. intros x Hx. unfold hexish. rewrite (Ef x) by (right; auto). reflexivity. }
    destruct c; try (exact (Hs E)); destruct und; try discriminate; cbn [andb hexish]; rewrite (IH _ _ _ _ E); reflexivity.
Qed.
Lemma skip_space_hexish : forall b, forallb hexish (skip_space b) = true -> forallb hexish b = true.
Proof.
  induction b as [|c r IH]; intros E; [reflexivity|]. cbn [skip_space] in E. destruct (is_space c) eqn:Ec; [|exact E].
  cbn [forallb]. rewrite (IH E). unfold hexish. rewrite Ec. reflexivity.
Qed.

Lemma strip_sign_hexish : forall b sg b', 
  (match b with x2b :: r => (1%Z, r) | x2d :: r => ((-1)%Z, r) | _ => (1%Z, b) end) = (sg, b') ->
  forallb hexish b' = true -> forallb hexish b = true.
Proof.
  intros [|c r] sg b' E Hb; [reflexivity|].
  destruct c; injection E as _ <-; solve [exact Hb | cbn [forallb]; rewrite Hb; reflexivity].
Qed.
Lemma strip_prefix_hexish : forall b,
  forallb hexish (match b with
           | x30 :: x78 :: r | x30 :: x58 :: r => match r with x5f :: r' => r' | _ => r end
           | _ => b end) = true -> forallb hexish b = true.
Proof.
  intros [|c r] Hb; [reflexivity|]. destruct c; try exact Hb. destruct r as [|d r]; [reflexivity|].
  destruct d; try exact Hb; (destruct r as [|e r]; [reflexivity|]); destruct e; try exact Hb; cbn [forallb]; rewrite Hb; reflexivity.
Qed.

Lemma py_int16_hexish : forall b z, py_int16 b = Some z -> forallb hexish b = true.
Proof.
  intros b z E. unfold py_int16 in E. apply skip_space_hexish.
  set (b1 := skip_space b) in *.
  destruct (match b1 with x2b :: r => (1%Z, r) | x2d :: r => ((-1)%Z, r) | _ => (1%Z, b1) end) as [sg b2] eqn:E1.
  eapply strip_sign_hexish; [exact E1|]. apply strip_prefix_hexish.
  destruct (digits _ 0 true false) as [w|] eqn:E2; [|discriminate]. eapply digits_hexish; eauto.
Qed.

Lemma mpt_eq_raises : forall t t' r, m_root t = Some r -> forallb hexish (keccak r) = false ->
  mpt_eq t t' = Err ValueError.
Proof.
  intros t t' r E Hx. unfold mpt_eq, mpt_hash. rewrite E. destruct (py_int16 (keccak r)) eqn:Ei; [|reflexivity].
  apply py_int16_hexish in Ei. congruence.
Qed.
Lemma mpt_eq_none : forall t t', m_root t = None -> mpt_eq t t' = Err TypeError.
Proof. intros t t' E. unfold mpt_eq, mpt_hash. rewrite E. reflexivity. Qed.
Lemma mpt_eq_same_root : forall t t' b, m_root t = m_root t' -> mpt_eq t t' = Ok b -> b = true.
Proof.
  intros t t' b E. unfold mpt_eq, mpt_hash. rewrite E. destruct (m_root t'); [|discriminate].
  destruct (py_int16 _); [|discriminate]. cbn. rewrite Z.eqb_refl. congruence.
Qed.
End Codec.
