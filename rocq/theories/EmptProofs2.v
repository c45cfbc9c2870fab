(** Proofs about EMPT: build_trie, root and sparse views, proofs, root hash, inherited dictionary methods. *)
From Coq Require Import List Bool Arith NArith ZArith Lia Permutation.
From Verif Require Import Base BaseProofs Rlp RlpProofs NibblePath NibbleProofs Node ProofObj Mpt Tree TreeEnc
  StoreProofs UpdateProofs DeleteProofs ReadProofs Spec SpecCodec SpecProof MptRefine MptProofs PoiProofs PoeProofs
  MptCodecProofs Empt SpecEmpt EmptProofs.
Import ListNotations.

Section EmptProofs2.
Context {H : Hash}.
Hypothesis keccak_len : forall b, length (keccak b) = 32.

(** ** Views *)
Lemma root_view : forall e, let r := empt_get_root_trie e in
  root_hash r = empt_root_hash e /\ m_secure r = m_secure (e_trie e) /\
  forall lim p, mpt_verify_poi lim r p = mpt_verify_poi lim (e_trie e) p /\
                mpt_verify_poe lim r p = mpt_verify_poe lim (e_trie e) p.
Proof.
  intros e r. subst r. unfold empt_get_root_trie, root_new, empt_root_hash. destruct (e_trie e) as [m log root s].
  cbn [m_root m_secure]. destruct root as [r|].
  - split; [reflexivity|]. split; [reflexivity|]. intros. split; reflexivity.
  - split.
    { unfold root_hash, root_falsy, root_ref, mpt_init. cbn [m_root].
      assert (El : length EMPTY_HASH = 32) by apply keccak_len.
      destruct EMPTY_HASH eqn:E; [reflexivity|]. rewrite El. reflexivity. }
    split; [reflexivity|]. intros lim p. unfold mpt_verify_poi, mpt_verify_poe, root_is_empty, mpt_init.
    cbn [m_root]. rewrite bytes_eqb_refl. split; reflexivity.
Qed.

Lemma copy_dict_app : forall (d c : dict bytes), NoDup (dkeys (c ++ d)) ->
  fold_left (fun c kv => dset c (fst kv) (snd kv)) d c = c ++ d.
Proof.
  induction d as [|[k v] d IH]; intros c Hn; cbn [fold_left]; [rewrite app_nil_r; reflexivity|]. cbn [fst snd].
  assert (Hc : dset c k v = c ++ [(k, v)]).
  { unfold dkeys in Hn. rewrite map_app in Hn. cbn [map fst] in Hn. apply NoDup_remove_2 in Hn.
    rewrite in_app_iff in Hn. apply Decidable.not_or in Hn. destruct Hn as [Hn _]. clear IH.
    induction c as [|[k0 v0] c IHc]; [reflexivity|]. cbn [dset]. destruct (bytes_eqb_spec k k0) as [->|].
    - exfalso. apply Hn. left. reflexivity.
    - cbn [app]. rewrite IHc; [reflexivity|]. intros Hi. apply Hn. right. exact Hi. }
  rewrite Hc. rewrite IH; [rewrite <- app_assoc; reflexivity|]. rewrite <- app_assoc. exact Hn.
Qed.
Lemma copy_dict_id : forall d : dict bytes, NoDup (dkeys d) -> copy_dict d = d.
Proof. intros d Hn. unfold copy_dict. rewrite copy_dict_app; [reflexivity|exact Hn]. Qed.

Lemma ereach_dinv : forall secure outs e, ereachable secure outs e -> dinv (m_map (e_trie e)) (m_log (e_trie e)).
Proof.
  intros secure outs e (h & E & _). eapply (e_run_grows keccak_len h (empt_new secure)); [apply new_dinv|exact E].
Qed.
Lemma ereach_secure : forall secure outs e, ereachable secure outs e -> m_secure (e_trie e) = secure.
Proof.
  intros secure outs e (h & E & _). destruct (e_run_grows keccak_len h (empt_new secure) _ _ (new_dinv secure) E) as [_ [G _]].
  exact G.
Qed.

Lemma sparse_view : forall secure outs e, ereachable secure outs e -> let s := empt_get_sparse_trie e in
  root_hash s = empt_root_hash e /\ m_secure s = secure /\ m_map s = m_map (e_trie e) /\
  (forall lim k, mpt_contains lim s k = empt_contains lim e k) /\
  (forall lim p, mpt_verify_poi lim s p = mpt_verify_poi lim (e_trie e) p /\
                 mpt_verify_poe lim s p = mpt_verify_poe lim (e_trie e) p) /\
  (empt_root e <> None -> behave_alike (e_trie e) s).
Proof.
  intros secure outs e R s. subst s. unfold empt_get_sparse_trie, sparse_new.
  pose proof (ereach_secure _ _ _ R) as Es. destruct (ereach_dinv _ _ _ R) as (_ & Hn & _).
  rewrite copy_dict_id by exact Hn.
  assert (Hv := root_view e). cbn zeta in Hv. destruct Hv as (V1 & V2 & V3). unfold empt_get_root_trie, root_new in *.
  split; [exact V1|]. split; [exact Es|]. split; [reflexivity|]. split; [|split].
  - intros lim k. unfold empt_contains. destruct (e_trie e) as [m log root s0]. cbn [m_root m_map m_secure].
    unfold mpt_contains, mpt_init, root_is_empty, root_falsy, root_ref, eff_key. cbn [m_root m_map m_secure]. destruct root as [r|]; [reflexivity|].
    rewrite bytes_eqb_refl. destruct EMPTY_HASH; reflexivity.
  - intros lim p. destruct (V3 lim p) as [<- <-]. split; reflexivity.
  - unfold empt_root. apply mpt_reopen.
Qed.

(** C35, second part *)
Lemma other_keys : forall secure outs e c r e' k v lim, ereachable secure outs e -> eok_op (ec_op c) -> empt_call e c = (r, e') ->
  no_collision (m_log (e_trie e')) -> k <> eop_key (ec_op c) -> keys_ok secure (k :: eop_key (ec_op c) :: okeys outs) ->
  frames secure k < lim ->
  (status_after outs k = Present v -> empt_get lim e' k = Ok v /\ empt_contains lim e' k = Ok true) /\
  (status_after outs k = Absent -> empt_get lim e' k = Err KeyError).
Proof.
  intros secure outs e c r e' k v lim R Hok E Hn Hk Hks Hl. pose proof (ereach_call _ _ _ _ _ _ R Hok E Hn) as R'.
  assert (Es : status_after (outs ++ [(ec_op c, is_ok r)]) k = status_after outs k).
  { unfold status_after. rewrite fold_left_app. apply step_other. exact Hk. }
  split; intros E0; rewrite <- Es in E0.
  - apply (present_get keccak_len _ _ _ _ _ _ R'); auto. eapply keys_ok_incl; [|exact Hks].
    intros x [<-|Hx]; [left; auto|]. unfold okeys in Hx. rewrite map_app in Hx. apply in_app_or in Hx.
    destruct Hx as [Hx|[<-|[]]]; [right; right; exact Hx|right; left; reflexivity].
  - apply (absent_get keccak_len _ _ _ _ lim R' E0).
Qed.

(** ** The root hash of an EMPT *)
Lemma content_dict : forall l D st k, tracks l D st ->
  match st k with
  | Present v => exists rb, ref_encode (ref_of k v) = Ok rb /\ dict_after l k = Some rb
  | Absent => dict_after l k = None
  | Unknown => True
  end.
Proof. intros l D st k T. pose proof (T k) as Tk. destruct (st k); auto; destruct Tk as (_ & Tk); auto. destruct Tk; auto. Qed.

Lemma empt_root_content : forall secure o1 e1 o2 e2, ereachable secure o1 e1 -> ereachable secure o2 e2 ->
  keys_ok secure (okeys o1 ++ okeys o2) ->
  (forall k, same_content (status_after o1 k) (status_after o2 k)) -> empt_root_hash e1 = empt_root_hash e2.
Proof.
  intros secure o1 e1 o2 e2 R1 R2 Hk Hs.
  destruct (ereach_inv keccak_len _ _ _ R1) as (l1 & (Q1 & N1 & T1) & K1).
  destruct (ereach_inv keccak_len _ _ _ R2) as (l2 & (Q2 & N2 & T2) & K2).
  apply (root_history_independent keccak_len secure l1 (e_trie e1) l2 (e_trie e2)); auto.
  - eapply keys_ok_incl; [|exact Hk]. intros x Hx. rewrite in_app_iff in *. destruct Hx; auto.
  - intros k. pose proof (content_dict _ _ _ k T1) as C1. pose proof (content_dict _ _ _ k T2) as C2. specialize (Hs k).
    destruct (status_after o1 k) as [v| |], (status_after o2 k) as [w| |]; cbn in Hs; try contradiction.
    + destruct C1 as (a & Ea & ->), C2 as (b & Eb & ->). unfold ref_of in *. rewrite Hs in Ea. congruence.
    + congruence.
Qed.

Lemma empt_root_commits : forall secure o1 e1 o2 e2, ereachable secure o1 e1 -> ereachable secure o2 e2 ->
  no_collision (hashed_by (e_trie e1) ++ hashed_by (e_trie e2)) -> keys_ok secure (okeys o1 ++ okeys o2) ->
  empt_root_hash e1 = empt_root_hash e2 ->
  forall k, status_after o1 k <> Unknown -> status_after o2 k <> Unknown ->
    same_content (status_after o1 k) (status_after o2 k).
Proof.
  intros secure o1 e1 o2 e2 R1 R2 Hn Hk E k U1 U2.
  destruct (ereach_inv keccak_len _ _ _ R1) as (l1 & (Q1 & N1 & T1) & K1).
  destruct (ereach_inv keccak_len _ _ _ R2) as (l2 & (Q2 & N2 & T2) & K2).
  assert (Ed : dict_after l1 k = dict_after l2 k).
  { apply (root_binding keccak_len secure l1 (e_trie e1) l2 (e_trie e2)); auto.
    eapply keys_ok_incl; [|exact Hk]. intros x Hx. rewrite in_app_iff in *. destruct Hx; auto. }
  pose proof (content_dict _ _ _ k T1) as C1. pose proof (content_dict _ _ _ k T2) as C2.
  destruct (status_after o1 k) as [v| |], (status_after o2 k) as [w| |]; try congruence; cbn; auto.
  - destruct C1 as (a & Ea & E1), C2 as (b & Eb & E2). apply ref_round_trip in Ea, Eb.
    assert (a = b) by congruence. subst b. rewrite Ea in Eb. injection Eb as Eb. exact Eb.
  - destruct C1 as (a & Ea & E1). congruence.
  - destruct C2 as (a & Ea & E1). congruence.
Qed.

(** ** Proofs of inclusion of an EMPT *)
Lemma empt_poi_complete : forall secure outs e k v lim lim' time, ereachable secure outs e ->
  keys_ok secure (k :: okeys outs) -> status_after outs k = Present v ->
  frames secure k < lim -> frames secure k < lim' -> length (root_ref (e_trie e)) = 32 ->
  exists p, mpt_get_poi lim time (e_trie e) k = Ok p /\ mpt_verify_poi lim' (empt_get_root_trie e) p = Ok true.
Proof.
  intros secure outs e k v lim lim' time R Hk Es Hl Hl' Hr.
  destruct (ereach_inv keccak_len _ _ _ R) as (l & (Q & N & T) & K).
  pose proof (content_dict _ _ _ k T) as C. rewrite Es in C. destruct C as (rb & _ & El).
  destruct (poi_complete keccak_len secure l (e_trie e) k rb lim lim' time (e_trie e) Q (ekeys_ok _ _ _ _ K Hk) El Hl Hl' Hr eq_refl)
    as (p & E1 & E2). exists p. split; auto. destruct (root_view e) as (_ & _ & V). destruct (V lim' p) as [-> _]. exact E2.
Qed.

Lemma empt_poi_sound : forall secure outs e lim p k, ereachable secure outs e -> keys_ok secure (k :: okeys outs) ->
  no_collision (proof_hashed (pf_proof p) ++ hashed_by (e_trie e)) ->
  mpt_verify_poi lim (empt_get_root_trie e) p = Ok true -> pf_key p = trie_key secure k ->
  secure = true \/ (forall k', status_after outs k' <> Absent -> length k' = length k) ->
  status_after outs k <> Absent.
Proof.
  intros secure outs e lim p k R Hk Hn E Ep Hl. destruct (root_view e) as (_ & _ & V). destruct (V lim p) as [V' _]. rewrite V' in E.
  destruct (ereach_inv keccak_len _ _ _ R) as (l & (Q & N & T) & K).
  destruct (poi_sound_exact keccak_len secure l (e_trie e) (e_trie e) lim p k Q (ekeys_ok _ _ _ _ K Hk) eq_refl Hn E Ep) as (v & Ev).
  - destruct Hl as [?|Hl]; [left; auto|right]. intros k' v' E'. apply Hl. eapply tracks_not_absent; eauto.
  - eapply tracks_not_absent; eauto.
Qed.

(** ** build_trie *)
Lemma build_loop_grows : forall lim l t r t', dinv (m_map t) (m_log t) -> build_loop lim t l = (r, t') ->
  dinv (m_map t') (m_log t') /\ grows t t'.
Proof.
  induction l as [|[k v] l IH]; intros t r t' Hd E; cbn [build_loop] in E.
  - injection E as <- <-. split; auto. apply grows_refl.
  - destruct (bind _ _) as [rb|]; [|injection E as <- <-; split; auto; apply grows_refl].
    destruct (mpt_update lim [] t k rb) as [r1 t1] eqn:Eu.
    destruct (call_keeps keccak_len t (Call (Put k rb) lim []) r1 t1 Hd Eu) as [D1 G1].
    destruct r1; [|injection E as <- <-; auto]. destruct (IH _ _ _ D1 E) as [D2 G2]. eauto using grows_trans.
Qed.

Lemma dset_fresh : forall (c : dict value) k v, ~ In k (dkeys c) -> dset c k v = c ++ [(k, v)].
Proof.
  induction c as [|[k0 v0] c IH]; intros k v Hn; [reflexivity|]. cbn [dset]. destruct (bytes_eqb_spec k k0) as [->|].
  - exfalso. apply Hn. left. reflexivity.
  - cbn [app]. rewrite IH; [reflexivity|]. intros Hi. apply Hn. right. exact Hi.
Qed.

Lemma build_loop_puts : forall secure lim l outs e r t', ereachable secure outs e ->
  NoDup (dkeys (e_data e ++ l)) ->
  Forall (fun kv => eok_op (EPut (fst kv) (snd kv)) /\ frames secure (fst kv) < lim /\ exists b, snd kv = VBytes b) l ->
  build_loop lim (e_trie e) l = (r, t') -> no_collision (m_log t') ->
  r = Ok tt /\ ereachable secure (outs ++ map put_out l) (mkEmpt (e_data e ++ l) t').
Proof.
  induction l as [|[k v] l IH]; intros outs e r t' R Hn Hf E Hc; cbn [build_loop] in E.
  - injection E as <- <-. split; auto. cbn [map]. rewrite !app_nil_r. destruct e. exact R.
  - inversion Hf as [|? ? (Ho & Hl & b & Hb) Hf']; subst. cbn [fst snd] in *. subst v.
    assert (Ho' := Ho). destruct Ho' as [Hk Hv]. cbn [eop_key val_bytes] in Hk, Hv.
    destruct (ref_encode_total keccak_len (mkRef k b) Hk Hv) as (rb & Erb & Hne & Hsz). cbn [new_ref] in E.
    assert (Eb : bind (Ok (mkRef k b)) (fun r => ref_encode r) = ref_encode (mkRef k b)) by reflexivity.
    rewrite Eb, Erb in E. destruct (mpt_update lim [] (e_trie e) k rb) as [r1 t1] eqn:Eu.
    pose proof (ereach_dinv _ _ _ R) as D0.
    destruct (call_keeps keccak_len (e_trie e) (Call (Put k rb) lim []) r1 t1 D0 Eu) as [D1 G1].
    assert (Hc1 : no_collision (m_log t1)).
    { destruct r1; [|injection E as <- <-; exact Hc]. destruct (build_loop_grows _ _ _ _ _ D1 E) as [_ G2].
      eapply grows_nocoll; eauto. }
    assert (Ep : empt_update lim [] false e k (VBytes b) =
                 match r1 with Ok _ => (Ok tt, mkEmpt (dset (e_data e) k (VBytes b)) t1) | Err x => (Err x, mkEmpt (e_data e) t1) end).
    { rewrite (update_eq lim [] false e k (VBytes b) (mkRef k b) rb eq_refl Erb), Eu. destruct r1; reflexivity. }
    assert (Hfresh : ~ In k (dkeys (e_data e))).
    { unfold dkeys in Hn. rewrite map_app in Hn. cbn [map fst] in Hn. apply NoDup_remove_2 in Hn.
      intros Hi. apply Hn. apply in_or_app. left. exact Hi. }
    destruct r1 as [[]|x].
    + destruct (put_succeeds keccak_len secure outs e k (VBytes b) lim (Ok tt) _ R Ho eq_refl Hl Ep Hc1) as [_ R1].
      rewrite dset_fresh in R1 by exact Hfresh.
      destruct (IH (outs ++ [(EPut k (VBytes b), true)]) (mkEmpt (e_data e ++ [(k, VBytes b)]) t1) r t' R1) as [-> R2]; auto.
      * cbn [e_data]. rewrite <- app_assoc. exact Hn.
      * split; auto. cbn [e_data] in R2. rewrite <- !app_assoc in R2. exact R2.
    + destruct (put_succeeds keccak_len secure outs e k (VBytes b) lim (Err x) _ R Ho eq_refl Hl Ep Hc1) as [? _]. discriminate.
Qed.

Lemma fold_status_other : forall l st k, ~ In k (okeys l) -> fold_left step_status l st k = st k.
Proof.
  induction l as [|o l IH]; intros st k Hn; [reflexivity|]. cbn [fold_left]. rewrite IH; [apply step_other|]; intros E; apply Hn; [left|right]; auto.
Qed.
Lemma puts_status : forall (ds : dict value) st k v, NoDup (dkeys ds) -> dget ds k = Some v ->
  fold_left step_status (map put_out ds) st k = Present v.
Proof.
  induction ds as [|[k0 v0] ds IH]; intros st k v Hn E; [discriminate|]. cbn [map fold_left dget] in *.
  inversion_clear Hn as [|? ? Hni Hn']. destruct (bytes_eqb_spec k k0) as [->|Hk]; [|apply IH; auto].
  injection E as ->. rewrite fold_status_other.
  - unfold step_status, put_out. cbn [fst snd eop_key]. rewrite bytes_eqb_refl. reflexivity.
  - intros Hi. apply Hni. unfold okeys in Hi. rewrite map_map in Hi. exact Hi.
Qed.
Lemma okeys_puts : forall ds, okeys (map put_out ds) = dkeys ds.
Proof. intros. unfold okeys, dkeys. rewrite map_map. reflexivity. Qed.

(** C37 *)
Lemma build_trie_ok : forall secure lim ds r e', NoDup (dkeys ds) ->
  Forall (fun kv => eok_op (EPut (fst kv) (snd kv)) /\ frames secure (fst kv) < lim /\ exists b, snd kv = VBytes b) ds ->
  empt_build lim (mkEmpt ds (mpt_new secure)) = (r, e') -> no_collision (m_log (e_trie e')) ->
  r = Ok tt /\ e_data e' = ds /\ ereachable secure (map put_out ds) e' /\
  (keys_ok secure (dkeys ds) -> forall k v, dget ds k = Some v -> empt_get lim e' k = Ok v).
Proof.
  intros secure lim ds r e' Hn Hf E Hc.
  assert (E2 : empt_build lim (mkEmpt ds (mpt_new secure)) =
               let (r, t) := build_loop lim (mpt_new secure) ds in (r, mkEmpt ds t)) by reflexivity.
  rewrite E2 in E. destruct (build_loop lim (mpt_new secure) ds) as [r1 t1] eqn:Eb.
  injection E as <- <-. cbn [e_trie e_data] in *.
  assert (D0 : dinv (m_map (mpt_new secure)) (m_log (mpt_new secure))) by apply new_dinv.
  destruct (build_loop_grows _ _ _ _ _ D0 Eb) as [_ G].
  assert (R0 : ereachable secure [] (empt_new secure)).
  { exists []. split; [reflexivity|]. split; [constructor|]. eapply grows_nocoll; [exact G|exact Hc]. }
  destruct (build_loop_puts secure lim ds [] (empt_new secure) r1 t1 R0 Hn Hf Eb Hc) as [-> R1]. cbn [app e_data empt_new] in R1.
  split; auto. split; auto. split; auto. intros Hk k v Ed.
  assert (Hin : In (k, v) ds) by (apply dget_In; exact Ed).
  apply (present_get keccak_len secure (map put_out ds) (mkEmpt ds t1) k v lim R1).
  - rewrite okeys_puts. eapply keys_ok_incl; [|exact Hk]. intros x [<-|Hx]; auto. eapply dget_Some_key; eauto.
  - apply puts_status; auto.
  - rewrite Forall_forall in Hf. apply (Hf _ Hin).
Qed.

(** ** Inherited methods *)
Lemma pop_present : forall secure outs e k v d lim r e', ereachable secure outs e -> (blen k < 2 ^ 57)%N ->
  keys_ok secure (k :: okeys outs) -> status_after outs k = Present v -> frames secure k < lim ->
  empt_pop lim e k d = (r, e') -> no_collision (m_log (e_trie e')) ->
  r = Ok v /\ ereachable secure (outs ++ [(EDel k, true)]) e'.
Proof.
  intros secure outs e k v d lim r e' R Hs Hk Es Hl E Hn.
  destruct (present_get keccak_len _ _ _ _ _ _ R Hk Es Hl) as [Eg _]. unfold empt_pop in E. rewrite Eg in E.
  destruct (empt_delete lim false false [] e k) as [r1 e1] eqn:Ed.
  assert (e1 = e') by (destruct r1; injection E as _ <-; reflexivity). subst e1.
  destruct (del_succeeds keccak_len _ _ _ _ _ _ _ _ R Hs Hk Es Hl Ed Hn) as [-> R1]. injection E as <-. auto.
Qed.
Lemma pop_absent : forall secure outs e k d lim, ereachable secure outs e -> status_after outs k = Absent ->
  empt_pop lim e k d = (match d with Some x => Ok x | None => Err KeyError end, e).
Proof.
  intros secure outs e k d lim R Es. unfold empt_pop. rewrite (absent_get keccak_len _ _ _ _ lim R Es). reflexivity.
Qed.
Lemma setdefault_present : forall secure outs e k v d lim, ereachable secure outs e ->
  keys_ok secure (k :: okeys outs) -> status_after outs k = Present v -> frames secure k < lim ->
  empt_setdefault lim e k d = (Ok v, e).
Proof.
  intros secure outs e k v d lim R Hk Es Hl. unfold empt_setdefault.
  destruct (present_get keccak_len _ _ _ _ _ _ R Hk Es Hl) as [-> _]. reflexivity.
Qed.
Lemma setdefault_absent : forall secure outs e k d lim r e', ereachable secure outs e ->
  status_after outs k = Absent -> frames secure k < lim -> eok_op (EPut k d) -> storable d = true ->
  empt_setdefault lim e k d = (r, e') -> no_collision (m_log (e_trie e')) ->
  r = Ok d /\ ereachable secure (outs ++ [(EPut k d, true)]) e'.
Proof.
  intros secure outs e k d lim r e' R Es Hl Ho Hst E Hn. unfold empt_setdefault in E.
  rewrite (absent_get keccak_len _ _ _ _ lim R Es) in E.
  destruct (empt_update lim [] false e k d) as [r1 e1] eqn:Eu.
  assert (e1 = e') by (destruct r1; injection E as _ <-; reflexivity). subst e1.
  destruct (put_succeeds keccak_len _ _ _ _ _ _ _ _ R Ho Hst Hl Eu Hn) as [-> R1]. injection E as <-. auto.
Qed.

Lemma mapM_Ok : forall {A B} (f : A -> result B) (g : A -> B) l, (forall a, In a l -> f a = Ok (g a)) -> mapM f l = Ok (map g l).
Proof.
  intros A B f g l. induction l as [|a l IH]; intros Hf; [reflexivity|]. cbn [mapM map]. rewrite Hf by (left; auto).
  cbn [bind]. rewrite IH by (intros; apply Hf; right; auto). reflexivity.
Qed.
Lemma mapM_exists : forall {A B} (f : A -> result B) (P : A -> B -> Prop) l,
  (forall a, In a l -> exists b, f a = Ok b /\ P a b) -> exists bs, mapM f l = Ok bs /\ Forall2 P l bs.
Proof.
  intros A B f P l. induction l as [|a l IH]; intros Hf; [exists []; split; [reflexivity|constructor]|].
  destruct (Hf a (or_introl eq_refl)) as (b & Eb & Pb). destruct IH as (bs & E & Pbs); [intros; apply Hf; right; auto|].
  exists (b :: bs). cbn [mapM]. rewrite Eb. cbn [bind]. rewrite E. cbn [bind]. split; [reflexivity|constructor; auto].
Qed.

Lemma keys_status : forall secure outs e k, ereachable secure outs e -> (forall x, status_after outs x <> Unknown) ->
  In k (empt_keys e) -> exists v, status_after outs k = Present v.
Proof. intros secure outs e k R Hu Hi. apply (keys_exact keccak_len _ _ _ R Hu). exact Hi. Qed.

Lemma items_exact : forall secure outs e lim, ereachable secure outs e -> (forall x, status_after outs x <> Unknown) ->
  keys_ok secure (okeys outs) -> (forall k, In k (okeys outs) -> frames secure k < lim) ->
  exists l, empt_items lim e = Ok l /\ NoDup (map fst l) /\
    forall k v, In (k, v) l <-> status_after outs k = Present v.
Proof.
  intros secure outs e lim R Hu Hk Hl. destruct (keys_exact keccak_len _ _ _ R Hu) as (Hn & _ & Hi).
  assert (Hok : forall k v, status_after outs k = Present v -> In k (okeys outs)).
  { intros k v Es. destruct (in_dec bytes_eq_dec k (okeys outs)) as [|Hni]; auto. unfold status_after in Es.
    rewrite fold_status_other in Es by auto. discriminate. }
  destruct (mapM_exists (fun k => bind (empt_get lim e k) (fun v => Ok (k, v)))
    (fun k kv => fst kv = k /\ status_after outs k = Present (snd kv)) (empt_keys e)) as (l & El & Hf).
  { intros k Hin. apply Hi in Hin. destruct Hin as [v Es].
    destruct (present_get keccak_len secure outs e k v lim R) as [Eg _]; auto.
    - eapply keys_ok_incl; [|exact Hk]. intros x [<-|Hx]; eauto.
    - eauto.
    - exists (k, v). rewrite Eg. cbn [bind]. split; [reflexivity|]. split; auto. }
  exists l. split; [exact El|].
  assert (Em : map fst l = empt_keys e).
  { clear - Hf. induction Hf as [|k kv ks l [E _] _ IH]; [reflexivity|]. cbn [map]. rewrite IH, E. reflexivity. }
  split; [rewrite Em; exact Hn|]. intros k v.
  assert (Hall : forall kv, In kv l -> status_after outs (fst kv) = Present (snd kv)).
  { clear - Hf. induction Hf as [|k kv ks l [E E2] _ IH]; intros x []; subst; auto. }
  split; intros Hx.
  - apply (Hall (k, v) Hx).
  - assert (Hin : In k (map fst l)) by (rewrite Em; apply Hi; eauto).
    apply in_map_iff in Hin. destruct Hin as ([k' v'] & Ek & Hin). cbn [fst] in Ek. subst k'.
    pose proof (Hall _ Hin) as Ev. cbn [fst snd] in Ev. assert (v' = v) by congruence. subst. exact Hin.
Qed.

Lemma popitem_empty : forall secure outs e lim, ereachable secure outs e -> (forall x, status_after outs x = Absent) ->
  empt_popitem lim e = (Err KeyError, e).
Proof.
  intros secure outs e lim R Ha. unfold empt_popitem. destruct (empt_keys e) as [|k ks] eqn:E; [reflexivity|].
  assert (Hu : forall x, status_after outs x <> Unknown) by (intros x; rewrite Ha; discriminate).
  destruct (keys_status _ _ _ k R Hu) as [v Ev]; [rewrite E; left; auto|]. rewrite Ha in Ev. discriminate.
Qed.

Lemma popitem_some : forall secure outs e lim r e' k0 v0, ereachable secure outs e ->
  (forall x, status_after outs x <> Unknown) -> status_after outs k0 = Present v0 ->
  keys_ok secure (okeys outs) -> (forall k, In k (okeys outs) -> frames secure k < lim /\ (blen k < 2 ^ 57)%N) ->
  empt_popitem lim e = (r, e') -> no_collision (m_log (e_trie e')) ->
  exists k v, r = Ok (k, v) /\ status_after outs k = Present v /\ ereachable secure (outs ++ [(EDel k, true)]) e' /\
    empt_len e = S (empt_len e').
Proof.
  intros secure outs e lim r e' k0 v0 R Hu E0 Hk Hl E Hn.
  assert (Hok : forall k v, status_after outs k = Present v -> In k (okeys outs)).
  { intros k v Es. destruct (in_dec bytes_eq_dec k (okeys outs)) as [|Hni]; auto. unfold status_after in Es.
    rewrite fold_status_other in Es by auto. discriminate. }
  unfold empt_popitem in E. destruct (empt_keys e) as [|k ks] eqn:Eks.
  { exfalso. destruct (keys_exact keccak_len _ _ _ R Hu) as (_ & _ & Hi). rewrite Eks in Hi. apply (Hi k0). eauto. }
  destruct (keys_status _ _ _ k R Hu) as [v Ev]; [rewrite Eks; left; auto|].
  assert (Hin := Hok _ _ Ev). destruct (Hl _ Hin) as [Hl1 Hl2].
  assert (Hk' : keys_ok secure (k :: okeys outs)) by (eapply keys_ok_incl; [|exact Hk]; intros x [<-|Hx]; auto).
  destruct (present_get keccak_len _ _ _ _ _ _ R Hk' Ev Hl1) as [Eg Ec]. rewrite Eg in E.
  destruct (empt_delete lim false false [] e k) as [r1 e1] eqn:Ed.
  assert (e1 = e') by (destruct r1; injection E as _ <-; reflexivity). subst e1.
  destruct (del_succeeds keccak_len _ _ _ _ _ _ _ _ R Hl2 Hk' Ev Hl1 Ed Hn) as [-> R1]. injection E as <-.
  exists k, v. split; auto. split; auto. split; auto.
  unfold empt_delete, empt_contains in Ed, Ec. rewrite Ec in Ed.
  unfold empt_keys, dkeys in Eks. unfold empt_len. destruct (e_data e) as [|[k1 w] D] eqn:ED; [discriminate|].
  injection Eks as -> _. cbn [dget] in Ed. rewrite bytes_eqb_refl in Ed.
  destruct (mpt_delete lim [] (e_trie e) k) as [r2 t2]. injection Ed as _ <-. cbn [e_data ddel].
  rewrite bytes_eqb_refl. reflexivity.
Qed.

Lemma status_snoc : forall l o k, status_after (l ++ [o]) k = step_status (status_after l) o k.
Proof. intros. unfold status_after. rewrite fold_left_app. reflexivity. Qed.

Lemma clear_grows : forall n lim e r e', dinv (m_map (e_trie e)) (m_log (e_trie e)) -> clear_loop n lim e = (r, e') ->
  dinv (m_map (e_trie e')) (m_log (e_trie e')) /\ grows (e_trie e) (e_trie e').
Proof.
  induction n as [|n IH]; intros lim e r e' Hd E; cbn [clear_loop] in E.
  - injection E as <- <-. split; auto. apply grows_refl.
  - destruct (empt_popitem lim e) as [r1 e1] eqn:Ep.
    assert (G1 : dinv (m_map (e_trie e1)) (m_log (e_trie e1)) /\ grows (e_trie e) (e_trie e1)).
    { unfold empt_popitem in Ep. destruct (empt_keys e) as [|k ks]; [injection Ep as _ <-; split; auto; apply grows_refl|].
      destruct (empt_get lim e k); [|injection Ep as _ <-; split; auto; apply grows_refl].
      destruct (empt_delete lim false false [] e k) as [r2 e2] eqn:Ed.
      assert (e2 = e1) by (destruct r2; injection Ep as _ <-; reflexivity). subst e2.
      exact (e_call_grows keccak_len e (ECall (EDel k) lim false false []) r2 e1 Hd Ed). }
    destruct G1 as [D1 G1]. destruct r1 as [kv|x].
    + destruct (IH _ _ _ _ D1 E) as [D2 G2]. eauto using grows_trans.
    + destruct x; injection E as _ <-; auto.
Qed.

Lemma clear_loop_ok : forall n secure outs e lim r e', ereachable secure outs e -> empt_len e < n ->
  (forall x, status_after outs x <> Unknown) ->
  keys_ok secure (okeys outs) -> (forall k, In k (okeys outs) -> frames secure k < lim /\ (blen k < 2 ^ 57)%N) ->
  clear_loop n lim e = (r, e') -> no_collision (m_log (e_trie e')) ->
  r = Ok tt /\ exists outs', ereachable secure outs' e' /\ (forall x, status_after outs' x = Absent) /\ incl (okeys outs') (okeys outs).
Proof.
  induction n as [|n IH]; intros secure outs e lim r e' R Hlen Hu Hk Hl E Hn; [lia|]. cbn [clear_loop] in E.
  destruct (empt_popitem lim e) as [r1 e1] eqn:Ep.
  assert (Hc : (exists k v, status_after outs k = Present v) \/ (forall x, status_after outs x = Absent)).
  { destruct (keys_exact keccak_len _ _ _ R Hu) as (_ & _ & Hi). destruct (empt_keys e) as [|k ks].
    - right. intros x. destruct (status_after outs x) as [v| |] eqn:Ex; auto.
      + exfalso. apply (Hi x). eauto.
      + exfalso. eapply Hu; eauto.
    - left. destruct (proj1 (Hi k) (or_introl eq_refl)) as [v Ev]. eauto. }
  destruct Hc as [(k0 & v0 & E0)|Ha].
  - assert (Hn1 : no_collision (m_log (e_trie e1))).
    { assert (D1 : dinv (m_map (e_trie e1)) (m_log (e_trie e1)) /\ grows (e_trie e) (e_trie e1)).
      { apply (clear_grows 1 lim e (match r1 with Ok _ => Err RecursionError | Err KeyError => Ok tt | Err x => Err x end) e1 (ereach_dinv _ _ _ R)).
        cbn [clear_loop]. rewrite Ep. destruct r1 as [|[]]; reflexivity. }
      destruct r1 as [kv|x].
      + destruct (clear_grows _ _ _ _ _ (proj1 D1) E) as [_ G2]. eapply grows_nocoll; [exact G2|exact Hn].
      + destruct x; injection E as _ <-; exact Hn. }
    destruct (popitem_some _ _ _ _ _ _ _ _ R Hu E0 Hk Hl Ep Hn1) as (k & v & -> & Ev & R1 & El).
    assert (Hin : In k (okeys outs)).
    { destruct (in_dec bytes_eq_dec k (okeys outs)) as [|Hni]; auto. unfold status_after in Ev.
      rewrite fold_status_other in Ev by auto. discriminate. }
    assert (Hincl : incl (okeys (outs ++ [(EDel k, true)])) (okeys outs)).
    { intros x Hx. unfold okeys in Hx. rewrite map_app in Hx. apply in_app_or in Hx. destruct Hx as [Hx|[<-|[]]]; auto. }
    destruct (IH secure (outs ++ [(EDel k, true)]) e1 lim r e' R1) as (-> & outs' & R' & Ha' & Hi'); auto.
    + lia.
    + intros x. rewrite status_snoc. unfold step_status. cbn [fst eop_key]. destruct (bytes_eqb x k); [discriminate|apply Hu].
    + eapply keys_ok_incl; eauto.
    + split; auto. exists outs'. split; auto. split; auto. eapply incl_tran; eauto.
  - rewrite (popitem_empty _ _ _ lim R Ha) in Ep. injection Ep as <- <-. injection E as <- <-. split; auto. exists outs.
    split; auto. split; auto. apply incl_refl.
Qed.

Lemma clear_ok : forall secure outs e lim r e', ereachable secure outs e ->
  (forall x, status_after outs x <> Unknown) ->
  keys_ok secure (okeys outs) -> (forall k, In k (okeys outs) -> frames secure k < lim /\ (blen k < 2 ^ 57)%N) ->
  empt_clear lim e = (r, e') -> no_collision (m_log (e_trie e')) ->
  r = Ok tt /\ empt_keys e' = [] /\ empt_root_hash e' = EMPTY_HASH /\ (forall x lim, empt_get lim e' x = Err KeyError).
Proof.
  intros secure outs e lim r e' R Hu Hk Hl E Hn. unfold empt_clear in E.
  destruct (clear_loop_ok _ _ _ _ _ _ _ R (Nat.lt_succ_diag_r _) Hu Hk Hl E Hn) as [-> (outs' & R' & Ha & Hi)].
  split; auto. split; [|split].
  - destruct (empt_keys e') as [|k ks] eqn:Eks; auto.
    assert (Hu' : forall x, status_after outs' x <> Unknown) by (intros x; rewrite Ha; discriminate).
    destruct (keys_status _ _ _ k R' Hu') as [v Ev]; [rewrite Eks; left; auto|]. rewrite Ha in Ev. discriminate.
  - destruct (ereach_inv keccak_len _ _ _ R') as (l & (Q & N & T) & K).
    assert (Q0 : reachable secure [] (mpt_new secure)).
    { exists []. split; [reflexivity|]. split; [constructor|]. intros a b [<-|[]] [<-|[]] _. reflexivity. }
    destruct (root_history_independent keccak_len secure l (e_trie e') [] (mpt_new secure) Q Q0) as [Er _].
    + eapply keys_ok_incl; [|exact Hk]. intros x Hx. cbn [map] in Hx. rewrite app_nil_r in Hx. apply Hi. apply K. exact Hx.
    + intros k. pose proof (content_dict _ _ _ k T) as C. rewrite Ha in C. exact C.
    + unfold empt_root_hash. rewrite Er. unfold root_hash, root_falsy, root_ref. cbn [mpt_new mpt_init m_root].
      assert (El : length EMPTY_HASH = 32) by apply keccak_len. destruct EMPTY_HASH; [reflexivity|]. rewrite El. reflexivity.
  - intros x lim'. apply (absent_get keccak_len secure outs' e' x lim' R' (Ha x)).
Qed.
End EmptProofs2.

Section EmptProofs3.
Context {H : Hash}.
Hypothesis keccak_len : forall b, length (keccak b) = 32.

(** ** SparseEMPT *)
Lemma sparse_reference : forall secure outs e k v lim, ereachable secure outs e -> keys_ok secure (k :: okeys outs) ->
  status_after outs k = Present v -> frames secure k < lim ->
  trie_reference lim (empt_get_sparse_trie e) k = Ok (mkRef k (val_bytes v)).
Proof.
  intros secure outs e k v lim R Hk Es Hl.
  assert (Hroot : empt_root e <> None).
  { destruct (present_get keccak_len _ _ _ _ _ _ R Hk Es Hl) as [_ Ec]. unfold empt_contains, mpt_contains, root_falsy in Ec.
    unfold empt_root. intros E. unfold root_is_empty in Ec. rewrite E in Ec. discriminate. }
  destruct (sparse_view keccak_len _ _ _ R) as (_ & _ & _ & _ & _ & B). destruct (B Hroot) as [B1 _].
  destruct (B1 lim k []) as (Eg & _). unfold trie_reference. rewrite Eg.
  destruct (ereach_inv keccak_len _ _ _ R) as (l & (Q & N & T) & K).
  pose proof (content_dict _ _ _ k T) as C. rewrite Es in C. destruct C as (rb & Erb & El).
  rewrite (get_present_ok keccak_len _ _ _ _ _ _ Q (ekeys_ok _ _ _ _ K Hk) El Hl). cbn [bind].
  apply ref_round_trip. exact Erb.
Qed.

(** The copy keeps up with the EMPT: the same update of bytes, the same deletion, gives the same root. *)
Lemma sparse_updates_alike : forall t s lim k b e, same_state t s -> e_trie e = t ->
  fst (empt_update lim [] false e k (VBytes b)) = fst (sparse_update lim [] s k (VBytes b)) /\
  same_state (e_trie (snd (empt_update lim [] false e k (VBytes b)))) (snd (sparse_update lim [] s k (VBytes b))).
Proof.
  intros t s lim k b e Hs Et. unfold empt_update, sparse_update.
  change (update_ref k (VBytes b)) with (sparse_ref k (VBytes b)).
  destruct (bind (sparse_ref k (VBytes b)) _) as [rb|x]; [|split; [reflexivity|cbn [snd]; rewrite Et; exact Hs]].
  destruct (same_state_call t s (Call (Put k rb) lim []) Hs) as [F1 F2]. unfold mpt_call in F1, F2. cbn [c_op c_lim c_faults] in *.
  rewrite Et. destruct (mpt_update lim [] t k rb) as [r1 t1], (mpt_update lim [] s k rb) as [r2 t2]. cbn [fst snd] in *. subst r2.
  destruct r1 as [[]|]; split; auto.
Qed.

Lemma sparse_follows : forall secure outs e k b lim, ereachable secure outs e -> empt_root e <> None ->
  let '(r, e') := empt_update lim [] false e k (VBytes b) in
  let '(r', s') := sparse_update lim [] (empt_get_sparse_trie e) k (VBytes b) in
  r' = r /\ root_hash s' = empt_root_hash e' /\ m_root s' = empt_root e' /\ behave_alike (e_trie e') s'.
Proof.
  intros secure outs e k b lim R Hr.
  assert (Hs : same_state (e_trie e) (empt_get_sparse_trie e)).
  { unfold empt_get_sparse_trie, sparse_new. destruct (ereach_dinv keccak_len _ _ _ R) as (_ & Hn & _).
    rewrite copy_dict_id by exact Hn. split; [reflexivity|]. split; [|reflexivity]. unfold empt_root in Hr.
    cbn. destruct (m_root (e_trie e)); [reflexivity|contradiction]. }
  destruct (sparse_updates_alike (e_trie e) (empt_get_sparse_trie e) lim k b e Hs eq_refl) as [F1 F2].
  destruct (empt_update lim [] false e k (VBytes b)) as [r e'], (sparse_update lim [] (empt_get_sparse_trie e) k (VBytes b)) as [r' s'].
  cbn [fst snd] in *. split; auto. assert (F2' := F2). destruct F2' as (_ & G & _). split; [|split; auto; apply same_state_alike; auto].
  unfold empt_root_hash, root_hash, root_falsy, root_ref. rewrite G. reflexivity.
Qed.

End EmptProofs3.
