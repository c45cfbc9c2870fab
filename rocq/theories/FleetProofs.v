(** Proofs about SpecFleet.v. *)
From Coq Require Import List Bool Arith NArith ZArith Lia.
From Verif Require Import Base BaseProofs Rlp RlpProofs NibblePath NibbleProofs Node ProofObj Mpt Tree TreeEnc
  StoreProofs Spec SpecCodec SpecProof MptRefine MptProofs Empt SpecEmpt EmptProofs EmptProofs2 SpecGet SpecWalk EmptPy SpecEvery
  EveryProofs EveryProofs2 SpecData DataProofs SpecShared SimProofs SharedProofs PoeExact SpecYp YpEmpt Fleet SpecFleet.
Import ListNotations.

Section Fleets.
Context {H : Hash}.
Hypothesis keccak_len : forall b, length (keccak b) = 32.

(** A long value is in a node that is stored. *)
Lemma renc_list_ge : forall l b, In (IBytes b) l -> length b <= length (renc (IList l)).
Proof.
  intros l b Hi. pose proof (payload_len (IList l)) as P. pose proof (payload_len (IBytes b)) as P2. pose proof (flat_map_len_in (IBytes b) l Hi) as P3.
  cbn [payload] in P, P2. unfold blen in *. lia.
Qed.
Lemma long_stored : forall m t q v, stored m t -> lookup t q = Some v -> 32 <= length v -> m <> [].
Proof.
  intros m t. induction t as [|p w|p c IH|cs w IH] using tree_ind2; intros q v St El Hv.
  - discriminate.
  - cbn [lookup] in El. destruct (path_dec q p); [injection El as ->|discriminate]. destruct St as [St _].
    intros ->. specialize (St ltac:(discriminate)). cbn [dget] in St. discriminate St.
    unfold tenc. cbn [titem]. pose proof (renc_list_ge [IBytes (hp p true); IBytes v] v ltac:(right; left; reflexivity)). lia.
  - cbn [lookup] in El. destruct (strip p q) as [r|]; [|discriminate]. apply stored_ext in St. eapply IH; [apply St|exact El|exact Hv].
  - apply stored_branch in St. destruct St as [Sh Sc]. destruct q as [|i q].
    + cbn [lookup] in El. assert (w = v) by (destruct w; [discriminate|congruence]). subst w.
      intros ->. specialize (Sh ltac:(discriminate)). cbn [dget] in Sh. discriminate Sh.
      unfold tenc. cbn [titem]. pose proof (renc_list_ge (map (fun c => cap (titem c)) cs ++ [IBytes v]) v ltac:(apply in_or_app; right; left; reflexivity)). lia.
    + rewrite lookup_branch in El. destruct (nth_in_or_default i cs TEmpty) as [Hi|E]; [|rewrite E in El; discriminate].
      rewrite Forall_forall in IH, Sc. eapply IH; eauto.
Qed.

(** A reference is short only if the digest begins with zeros. *)
Lemma ref_long : forall k b rb, ref_encode (mkRef k b) = Ok rb -> (2 ^ 208 <= unbe (keccak (k ++ b)))%N -> 32 <= length rb.
Proof.
  intros k b rb E Hh. rewrite ref_encode_eq in E. 
  assert (Er : rb = renc (IList [IBytes ref_flag; IBytes k; IBytes b; e_int (ref_hash (mkRef k b))])).
  { revert E. unfold rlp_encode. generalize (IList [IBytes ref_flag; IBytes k; IBytes b; e_int (ref_hash (mkRef k b))]). intros i E. destruct (_ <? _)%N; congruence. }
  rewrite Er. clear Er E.
  set (n := unbe (keccak (k ++ b))) in *. assert (Hn : 27 <= length (be n)).
  { destruct (le_lt_dec 27 (length (be n))) as [|F]; auto. exfalso. pose proof (unbe_lt (be n)) as U. unfold blen in U. rewrite unbe_be in U.
    assert (256 ^ N.of_nat (length (be n)) <= 256 ^ 26)%N by (apply N.pow_le_mono_r; lia).
    change (256 ^ 26)%N with (2 ^ 208)%N in *. lia. }
  pose proof (payload_len (IList [IBytes ref_flag; IBytes k; IBytes b; e_int (ref_hash (mkRef k b))])) as P0. unfold blen in P0.
  change (e_int (ref_hash (mkRef k b))) with (IBytes (be n)) in *. cbn [payload flat_map] in P0. rewrite !app_length in P0.
  assert (P : forall i, 1 <= length (renc i)) by (intros i; pose proof (renc_nonempty i); destruct (renc i); [congruence|cbn [length]; lia]).
  pose proof (P (IBytes k)). pose proof (P (IBytes b)). pose proof (payload_len (IBytes (be n))) as P3. unfold blen in P3. cbn [payload] in P3.
  assert (length (renc (IBytes ref_flag)) = 3) by reflexivity. lia.
Qed.

Section Mode.
Variable faint : Prop.
Variables (secure : bool) (K : list bytes).
Hypothesis K_ok : keys_ok secure K.
Hypothesis K_small : forall k, In k K -> (blen k < 2 ^ 57)%N.

(** An object that shares its trie storage behaves as one that does not. *)
Definition binv (t : mpt) (r : kvmap) (used : bool) : Prop :=
  (exists l t0, tinv secure K l t0 r used /\ trel t0 t) /\ (used = true -> faint \/ m_map t <> []).
Definition tfine (t : mpt) : Prop := dinv (m_map t) (m_log t) /\ no_collision (m_log t).

Lemma tinv_repr : forall l t r used, tinv secure K l t r used -> m_secure t = secure /\ exists tr, repr t tr.
Proof. intros l t r used (R & _). destruct (reachable_repr keccak_len _ _ _ R) as (Es & tr & Rt & _). eauto. Qed.
Lemma alike : forall l t0 t r used, tinv secure K l t0 r used -> trel t0 t -> tfine t -> reads_alike t0 t.
Proof.
  intros l t0 t r used I T [D N]. destruct (tinv_repr _ _ _ _ I) as [Es [tr Rt]].
  pose proof (trel_repr _ _ _ T Rt D N) as Rt'. destruct T as (_ & _ & Er & Em). apply (reads_alike_repr keccak_len t0 t tr); auto.
Qed.
Lemma alike_ref : forall t0 t lim k, reads_alike t0 t -> trie_reference lim t k = trie_reference lim t0 k.
Proof. intros t0 t lim k A. unfold trie_reference. destruct (A lim k []) as (-> & _). reflexivity. Qed.
Lemma alike_get : forall t0 t ds lim k, reads_alike t0 t -> empt_get lim (mkEmpt ds t) k = empt_get lim (mkEmpt ds t0) k.
Proof. intros t0 t ds lim k A. unfold empt_get. cbn [e_data e_trie]. destruct (A lim k []) as (-> & _). reflexivity. Qed.

Lemma b_ref : forall t r used k lim a, binv t r used -> tfine t -> In k K -> trie_reference lim t k = a -> refers secure lim r used k a.
Proof.
  intros t r used k lim a [(l & t0 & I & T) _] F Hk E. pose proof (alike _ _ _ _ _ I T F) as A. rewrite (alike_ref _ _ _ _ A) in E.
  exact (ref_sound keccak_len secure K K_ok K_small _ _ _ _ _ _ _ I Hk E).
Qed.
Lemma b_ref_exact : forall t r used k lim a, binv t r used -> tfine t -> In k K -> frames secure k < lim ->
  refers secure lim r used k a -> trie_reference lim t k = a.
Proof.
  intros t r used k lim a [(l & t0 & I & T) _] F Hk Hl E. pose proof (alike _ _ _ _ _ I T F) as A. rewrite (alike_ref _ _ _ _ A).
  apply (ref_exact keccak_len secure K K_ok K_small _ _ _ _ _ _ _ I Hk Hl). exact E.
Qed.
Lemma b_in : forall t r used k lim a, binv t r used -> tfine t -> In k K -> mpt_contains lim t k = a -> asks secure lim r k a.
Proof.
  intros t r used k lim a [(l & t0 & I & T) _] F Hk E. pose proof (alike _ _ _ _ _ I T F) as A. destruct (A lim k []) as (_ & Ec & _). rewrite Ec in E.
  exact (in_sound keccak_len secure K K_ok _ _ _ _ _ _ _ I Hk E).
Qed.
Lemma b_get : forall t r used ds k lim a, binv t r used -> tfine t -> In k K -> NoDup (map fst ds) -> empt_get lim (mkEmpt ds t) k = a ->
  reads_data secure lim r used ds k a.
Proof.
  intros t r used ds k lim a [(l & t0 & I & T) _] F Hk Hn E. pose proof (alike _ _ _ _ _ I T F) as A. rewrite (alike_get _ _ _ _ _ A) in E.
  exact (data_sound keccak_len secure K K_ok K_small _ _ _ _ _ _ _ _ I Hk Hn E).
Qed.
Lemma b_get_exact : forall t r used ds k lim a, binv t r used -> tfine t -> In k K -> NoDup (map fst ds) -> frames secure k < lim ->
  reads_data secure lim r used ds k a -> empt_get lim (mkEmpt ds t) k = a.
Proof.
  intros t r used ds k lim a [(l & t0 & I & T) _] F Hk Hn Hl E. pose proof (alike _ _ _ _ _ I T F) as A. rewrite (alike_get _ _ _ _ _ A).
  exact (data_exact keccak_len secure K K_ok K_small _ _ _ _ _ _ _ _ I Hk Hn Hl E).
Qed.
(** One call on the trie. *)
Lemma b_call : forall t r used l t0 c res t', tinv secure K l t0 r used -> trel t0 t -> ok_op secure (c_op c) -> mpt_call t c = (res, t') ->
  no_collision (m_log t') -> exists t0', mpt_call t0 c = (res, t0') /\ trel t0' t' /\ no_collision (m_log t0').
Proof.
  intros t r used l t0 c res t' I T Ho E N. destruct (tinv_repr _ _ _ _ I) as [Es [tr Rt]]. pose proof (call_sim t0 t c T) as S.
  destruct (mpt_call t0 c) as [r0 t0'] eqn:E0. rewrite E in S. cbn [fst snd] in S.
  assert (N0 : nocoll (m_log t0')) by (destruct S as [[_ S]|[_ (_ & S & _)]]; (eapply nocoll_incl; [|exact N]; exact S)).
  destruct S as [[-> S]|[-> S]].
  - exfalso. apply (call_no_key keccak_len t0 tr c Rt); rewrite ?Es, ?E0; cbn [fst snd]; auto.
  - exists t0'. auto.
Qed.
Lemma more_map : forall t c res t', tfine t -> mpt_call t c = (res, t') -> m_map t <> [] -> m_map t' <> [].
Proof.
  intros t c res t' [D _] E Hm. destruct (call_keeps keccak_len _ _ _ _ D E) as (_ & _ & _ & (x & Ex)). intros Em. rewrite Em in Ex. cbn in Ex.
  destruct (m_map t) as [|[a b] m]; [congruence|discriminate].
Qed.
Lemma b_put : forall t r used k b rb lim fl res t', binv t r used -> tfine t -> In k K -> (blen b < 2 ^ 57)%N -> ((unbe (keccak (k ++ b)) < 2 ^ 208)%N -> faint) ->
  ref_encode (mkRef k b) = Ok rb -> mpt_update lim fl t k rb = (res, t') -> no_collision (m_log t') ->
  match res with Ok _ => binv t' (set_ref r k b) true | Err x => gives_up secure lim fl k x /\ binv t' r used end.
Proof.
  intros t r used k b rb lim fl res t' [(l & t0 & I & T) Hm] F Hk Hb Hf Erb E N.
  destruct (ref_encode_total keccak_len (mkRef k b) (K_small _ Hk) Hb) as (rb' & Erb' & Hne & Hsz). assert (rb' = rb) by congruence. subst rb'.
  assert (Ho : ok_op secure (Put k rb)).
  { split; [cbn [op_key]; specialize (K_small _ Hk); lia|]. split; [intros _|]; [exact Hne|exact Hsz]. }
  destruct (b_call _ _ _ _ _ (Call (Put k rb) lim fl) res t' I T Ho E N) as (t0' & E0 & T' & N0).
  pose proof (put_inv keccak_len secure K K_small _ _ _ _ _ _ _ _ _ _ _ I Hk Hb Erb E0 N0) as P. destruct res as [u|x].
  - destruct P as [l' P]. split; [exists l', t0'; auto|]. intros _. destruct (N.lt_ge_cases (unbe (keccak (k ++ b))) (2 ^ 208)) as [Hs|Hlong]; [auto|]. right.
    destruct P as (R & S & _ & Hi). pose proof (sr_some' _ _ k b S) as Q. unfold set_ref in Q. rewrite bytes_eqb_refl in Q.
    destruct (Q eq_refl) as (rb' & Ed & Erb2). assert (rb' = rb) by congruence. subst rb'.
    destruct (reach_lookup keccak_len _ _ _ k R) as (tr & Rt & _ & Es & El); [eapply keys_ok_incl; [|exact K_ok]; intros y [<-|Hy]; auto|].
    rewrite Ed in El. destruct Rt as (_ & _ & St & _). destruct T' as (Pm & _). apply (stored_mono _ _ _ Pm) in St.
    eapply long_stored; [exact St|exact El|]. exact (ref_long _ _ _ Erb Hlong).
  - destruct P as [G P]. split; auto. split; [exists l, t0'; auto|]. intros Hu. destruct (Hm Hu) as [|Hu']; [auto|]. right. exact (more_map t (Call (Put k rb) lim fl) _ _ F E Hu').
Qed.
Lemma b_del : forall t r used k lim fl res t', binv t r used -> tfine t -> In k K -> mpt_delete lim fl t k = (res, t') -> no_collision (m_log t') ->
  match res with
  | Ok _ => r k <> None /\ binv t' (drop_ref r k) used
  | Err x => (gives_up secure lim fl k x \/
              (r k = None /\ (held secure r k -> delete_raises (present_keys secure r) (nibbles (trie_key secure k)) x))) /\ binv t' r used
  end.
Proof.
  intros t r used k lim fl res t' [(l & t0 & I & T) Hm] F Hk E N.
  assert (Ho : ok_op secure (Del k)) by (split; [cbn [op_key]; specialize (K_small _ Hk); lia|exact Logic.I]).
  destruct (b_call _ _ _ _ _ (Call (Del k) lim fl) res t' I T Ho E N) as (t0' & E0 & T' & N0).
  assert (Hm' : used = true -> faint \/ m_map t' <> []) by (intros Hu; destruct (Hm Hu) as [|Hu']; [auto|]; right; exact (more_map t (Call (Del k) lim fl) _ _ F E Hu')).
  pose proof (del_inv keccak_len secure K K_ok K_small _ _ _ _ _ _ _ _ _ I Hk E0 N0) as P. destruct res as [u|x].
  - destruct P as [Hr [l' P]]. split; auto. split; [exists l', t0'; auto|exact Hm'].
  - destruct P as [G P]. split; [|split; [exists l, t0'; auto|exact Hm']]. destruct G as [G|G]; [auto|].
    destruct (in_sound keccak_len secure K K_ok _ _ _ _ _ (Datatypes.S (frames secure k)) _ I Hk eq_refl) as [Hh|Hh|Hh]; [|right; split; [auto|contradiction]|lia].
      destruct (lost_any keccak_len secure K K_ok K_small _ _ _ _ _ _ _ _ _ I Hk G Hh E0); auto.
Qed.

(** *** One object *)
Definition oinv (e : empt) (g : eview) : Prop :=
  binv (e_trie e) (ev_refs g) (ev_used g) /\ e_data e = ev_vals g /\ NoDup (map fst (ev_vals g)) /\ incl (map fst (ev_vals g)) K.
Definition efine (e : empt) : Prop := tfine (e_trie e).
Lemma grown_fine : forall e e', dgood e -> grown e e' -> no_collision (m_log (e_trie e')) -> efine e.
Proof. intros e e' D G N. split; [exact D|]. eapply grown_nc; eauto. Qed.

Lemma fetch_sound : forall e g k lim a, oinv e g -> efine e -> In k K -> empt_get lim e k = a -> fetches secure lim g k a.
Proof.
  intros [d t] g k lim a (I & Ed & Hn & Hk) F Hi E. cbn [e_data e_trie] in *. subst d. exact (b_get _ _ _ _ _ _ _ I F Hi Hn E).
Qed.
Lemma fetch_exact : forall e g k lim a, oinv e g -> efine e -> In k K -> frames secure k < lim -> fetches secure lim g k a -> empt_get lim e k = a.
Proof.
  intros [d t] g k lim a (I & Ed & Hn & Hk) F Hi Hl E. cbn [e_data e_trie] in *. subst d. exact (b_get_exact _ _ _ _ _ _ _ I F Hi Hn Hl E).
Qed.
Lemma entered_incl : forall l k v l', entered l k v l' -> In k K -> incl (map fst l) K -> incl (map fst l') K.
Proof.
  intros l k v l' En Hk Hi x Hx. apply in_fst in Hx. destruct Hx as [w Hx]. destruct (entered_In _ _ _ _ _ _ En Hx) as [[-> _]|Hx']; auto.
  apply Hi. apply in_map_iff. exists (x, w). auto.
Qed.
Lemma store_sound : forall e g k v lim fl df r e', oinv e g -> dgood e -> In k K -> (blen (val_bytes v) < 2 ^ 57)%N ->
  ((unbe (keccak (k ++ val_bytes v)) < 2 ^ 208)%N -> faint) ->
  empt_update lim fl df e k v = (r, e') -> no_collision (m_log (e_trie e')) ->
  exists g', stores secure lim fl df g k v r g' /\ oinv e' g'.
Proof.
  intros e g k v lim fl df r e' O D Hk Hb Hf E Hnc. pose proof (grown_fine _ _ D (update_grown keccak_len _ _ _ _ _ _ _ _ D E) Hnc) as F.
  assert (O0 := O). destruct O as (I & Ed & Hn & Hi). destruct (storable v) eqn:Es.
  2:{ destruct (unstorable_ref k v Es) as [x Ex]. unfold empt_update in E. rewrite Ex in E. cbn [bind] in E. injection E as <- <-.
      exists g. split; [apply stores_unfit; eapply unfit_update; eauto|auto]. }
  destruct (storable_ref k v Es) as [Eu _].
  destruct (ref_encode_total keccak_len (ref_of k v) (K_small _ Hk) Hb) as (rb & Erb & _ & _). rewrite (update_eq _ _ _ _ _ _ _ _ Eu Erb) in E.
  destruct (mpt_update lim fl (e_trie e) k rb) as [r1 t] eqn:Em.
  assert (Et : e_trie e' = t) by (destruct r1; [destruct df|]; injection E as <- <-; reflexivity).
  pose proof (b_put _ _ _ _ _ _ _ _ _ _ I F Hk Hb Hf Erb Em ltac:(rewrite <- Et; exact Hnc)) as P.
  destruct r1 as [u|x].
  - destruct df; injection E as <- <-.
    + exists (EView (ev_vals g) (set_ref (ev_refs g) k (val_bytes v)) true). split; [apply stores_half; auto|].
      split; [exact P|]. split; [exact Ed|]. split; [exact Hn|exact Hi].
    + exists (EView (dset (ev_vals g) k v) (set_ref (ev_refs g) k (val_bytes v)) true).
      pose proof (entered_dset (ev_vals g) k v Hn) as En. split; [apply stores_both; auto|].
      split; [exact P|]. split; [cbn [e_data ev_vals]; congruence|]. split; [apply NoDup_dset; exact Hn|]. exact (entered_incl _ _ _ _ En Hk Hi).
  - injection E as <- <-. destruct P as [G P]. exists g. split; [apply stores_not; auto|]. split; [exact P|]. auto.
Qed.
Lemma drop_sound : forall e g k lim cf df fl r e', oinv e g -> dgood e -> In k K ->
  empt_delete lim cf df fl e k = (r, e') -> no_collision (m_log (e_trie e')) ->
  exists g', drops secure lim cf df fl g k r g' /\ oinv e' g'.
Proof.
  intros e g k lim cf df fl r e' O D Hk E Hnc. pose proof (grown_fine _ _ D (delete_grown keccak_len _ _ _ _ _ _ _ _ D E) Hnc) as F.
  assert (O0 := O). destruct O as (I & Ed & Hn & Hi).
  unfold empt_delete in E. destruct cf; [injection E as <- <-; exists g; split; auto; apply drops_ask; auto|].
  pose proof (b_in _ _ _ _ lim _ I F Hk eq_refl) as A. destruct (mpt_contains lim (e_trie e) k) as [[]|x].
  2:{ injection E as <- <-. exists g. split; auto. inversion A. apply drops_none; auto. }
  2:{ injection E as <- <-. exists g. split; auto. inversion A. apply drops_deep; auto. }
  assert (Hh : held secure (ev_refs g) k) by (inversion A; auto).
  destruct df; [injection E as <- <-; exists g; split; auto; apply drops_fault; auto|].
  rewrite Ed in E. destruct (dget (ev_vals g) k) as [v|] eqn:Eg.
  2:{ injection E as <- <-. exists g. split; auto. apply drops_missing; auto. apply dget_None_key in Eg. exact Eg. }
  destruct (mpt_delete lim fl (e_trie e) k) as [r1 t] eqn:Em. injection E as <- <-. cbn [e_trie] in Hnc.
  pose proof (dget_In _ _ _ Eg) as Hin. pose proof (removed_ddel _ _ _ Hn Hin) as Rm.
  assert (Hi' : incl (map fst (ddel (ev_vals g) k)) K).
  { intros x Hx. apply in_fst in Hx. destruct Hx as [w Hx]. destruct (removed_In _ _ _ _ _ _ Hn Rm Hx) as [Hx' _]. apply Hi. apply in_map_iff. exists (x, w). auto. }
  pose proof (b_del _ _ _ _ _ _ _ _ I F Hk Em Hnc) as P. destruct r1 as [[]|x].
  - destruct P as [Hr P]. exists (EView (ddel (ev_vals g) k) (drop_ref (ev_refs g) k) (ev_used g)).
    split; [eapply drops_both; eauto|]. split; [exact P|]. split; [reflexivity|]. split; [eapply removed_NoDup; eauto|exact Hi'].
  - destruct P as [G P]. exists (EView (ddel (ev_vals g) k) (ev_refs g) (ev_used g)).
    split; [destruct G as [G|[Er G]]; [eapply drops_half; eauto|eapply drops_lost; eauto]|].
    split; [exact P|]. split; [reflexivity|]. split; [eapply removed_NoDup; eauto|exact Hi'].
Qed.
Lemma get_not_missing : forall e k lim v, empt_get lim e k = Ok v -> In k (map fst (e_data e)).
Proof. intros e k lim v E. unfold empt_get in E. destruct (dget (e_data e) k) as [w|] eqn:Eg; [|discriminate]. apply dget_In in Eg. apply in_map_iff. exists (k, w). auto. Qed.

Lemma pop_grown : forall lim e k d r e', dgood e -> empt_pop lim e k d = (r, e') -> grown e e'.
Proof. intros lim e k d r e' D E. apply (do_grown keccak_len lim e (QPop (KBytes k) d) (AVal r) e' D). cbn [empt_do with_key']. rewrite E. reflexivity. Qed.
Lemma pull_sound : forall e g k lim r e', oinv e g -> dgood e -> In k K -> empt_pop lim e k None = (r, e') -> no_collision (m_log (e_trie e')) ->
  exists g', pulls secure lim g k r g' /\ oinv e' g'.
Proof.
  intros e g k lim r e' O D Hk E Hnc. pose proof (grown_fine _ _ D (pop_grown _ _ _ _ _ _ D E) Hnc) as F. unfold empt_pop in E.
  pose proof (fetch_sound _ _ _ lim _ O F Hk eq_refl) as R. destruct (empt_get lim e k) as [v|x].
  - destruct (empt_delete lim false false [] e k) as [r2 e2] eqn:Ed.
    assert (e2 = e') by (destruct r2; injection E as _ <-; reflexivity). subst e2.
    destruct (drop_sound _ _ _ _ _ _ _ _ _ O D Hk Ed Hnc) as (g' & Rm & O'). exists g'. split; auto.
    destruct r2 as [[]|x]; injection E as <-; [eapply pulls_ok|eapply pulls_fail]; eauto.
  - exists g. assert (E' : (Err x, e) = (r, e')) by (destruct x; exact E). injection E' as <- <-. split; auto. apply pulls_not; auto.
Qed.
Lemma oinv_key : forall e g k v vs, oinv e g -> ev_vals g = (k, v) :: vs -> In k K /\ empt_keys e = k :: map fst vs.
Proof.
  intros e g k v vs (I & Ed & Hn & Hi) E. split; [apply Hi; rewrite E; left; reflexivity|]. unfold empt_keys. rewrite Ed, E. reflexivity.
Qed.
Lemma oinv_nokeys : forall e g, oinv e g -> ev_vals g = [] -> empt_keys e = [].
Proof. intros e g (I & Ed & Hn & Hi) E. unfold empt_keys. rewrite Ed, E. reflexivity. Qed.
Lemma pulls_len : forall lim g k v g', pulls secure lim g k (Ok v) g' -> length (ev_vals g) = Datatypes.S (length (ev_vals g')).
Proof.
  intros lim g k v g' F. remember (Ok v) as a eqn:Ea. destruct F as [y R|w g1 R Rm|w y g1 R Rm]; try discriminate.
  remember (Ok tt) as b eqn:Eb. destruct Rm as [ | | | | |w' l Hc Hd Hr Rm| | ]; try discriminate. destruct Rm. cbn [ev_vals].
  rewrite !app_length. cbn [length]. lia.
Qed.
Lemma clear_step : forall n lim e r e' (k : bytes) ks r1 e1, empt_keys e = k :: ks -> empt_pop lim e k None = (r1, e1) -> clear_loop (Datatypes.S n) lim e = (r, e') ->
  match r1 with Ok _ => clear_loop n lim e1 = (r, e') | Err x => e' = e1 /\ ((x = KeyError /\ r = Ok tt) \/ (x <> KeyError /\ r = Err x)) end.
Proof.
  intros n lim e r e' k ks r1 e1 Ek Ep E. cbn [clear_loop] in E. rewrite (popitem_pop _ _ _ _ Ek), Ep in E. destruct r1 as [w|x]; [exact E|].
  destruct x; injection E as <- <-; split; auto; try (left; split; reflexivity); right; split; congruence.
Qed.
Lemma wipe_sound : forall n e g lim r e', oinv e g -> dgood e -> length (ev_vals g) < n -> clear_loop n lim e = (r, e') ->
  no_collision (m_log (e_trie e')) -> exists g', wipes secure lim g r g' /\ oinv e' g'.
Proof.
  induction n as [|n IH]; intros e g lim r e' O D Hl E Hnc; [lia|]. destruct (ev_vals g) as [|[k v] vs] eqn:Ev.
  - cbn [clear_loop] in E. unfold empt_popitem in E. rewrite (oinv_nokeys _ _ O Ev) in E. injection E as <- <-. exists g. split; auto. apply wipes_end; auto.
  - destruct (oinv_key _ _ _ _ _ O Ev) as [Hk Ek]. destruct (empt_pop lim e k None) as [r1 e1] eqn:Ep.
    pose proof (pop_grown _ _ _ _ _ _ D Ep) as Pg. pose proof (clear_step _ _ _ _ _ _ _ _ _ Ek Ep E) as St. destruct r1 as [w|x].
    + assert (Hn1 : no_collision (m_log (e_trie e1))).
      { destruct (clear_grows keccak_len _ _ _ _ _ (proj1 Pg) St) as [_ G2]. eapply grows_nocoll; [exact G2|exact Hnc]. }
      destruct (pull_sound _ _ _ _ _ _ O D Hk Ep Hn1) as (g1 & Tk & O1).
      pose proof (pulls_len _ _ _ _ _ Tk) as Len. rewrite Ev in Len. cbn [length] in Len, Hl.
      destruct (IH _ _ _ _ _ O1 (proj1 Pg) ltac:(lia) St Hnc) as (g2 & Cl & O2).
      exists g2. split; auto. eapply wipes_next; eauto.
    + destruct St as [-> St]. destruct (pull_sound _ _ _ _ _ _ O D Hk Ep Hnc) as (g1 & Tk & O1). exists g1. split; auto.
      destruct St as [[-> ->]|[Hx ->]]; [eapply wipes_key|eapply wipes_stop]; eauto.
Qed.
Lemma scan_sound : forall e g lim r, oinv e g -> efine e -> empt_items lim e = r -> scans secure lim g r.
Proof.
  intros e g lim r O F E. assert (O0 := O). destruct O as (I & Ed & Hn & Hi). unfold empt_items, empt_keys in E. rewrite Ed in E.
  assert (P : forall l2 l1, ev_vals g = l1 ++ l2 -> Forall (fun kv => fetches secure lim g (fst kv) (Ok (snd kv))) l1 ->
    match mapM (fun k => bind (empt_get lim e k) (fun v => Ok (k, v))) (dkeys l2) with
    | Ok ys => ys = l2 /\ Forall (fun kv => fetches secure lim g (fst kv) (Ok (snd kv))) l2
    | Err x => scans secure lim g (Err x)
    end).
  { induction l2 as [|[k v] l2 IH]; intros l1 El F1; cbn [dkeys map fst mapM]; [auto|].
    assert (Hin : In (k, v) (ev_vals g)) by (rewrite El; apply in_or_app; right; left; reflexivity).
    assert (Hk : In k K) by (apply Hi; apply in_map_iff; exists (k, v); auto).
    pose proof (fetch_sound _ _ _ lim _ O0 F Hk eq_refl) as R.
    destruct (empt_get lim e k) as [w|x] eqn:Eg; cbn [bind].
    - assert (w = v). { unfold empt_get in Eg. rewrite Ed in Eg. rewrite (dget_of_In _ _ _ Hn Hin) in Eg.
        repeat match type of Eg with bind ?m _ = _ => destruct m; cbn [bind] in Eg; [|discriminate] end. destruct (ref_eq _ _); congruence. } subst w.
      specialize (IH (l1 ++ [(k, v)])). rewrite <- app_assoc in IH. specialize (IH El).
      assert (F2 : Forall (fun kv => fetches secure lim g (fst kv) (Ok (snd kv))) (l1 ++ [(k, v)])) by (apply Forall_app; split; auto).
      specialize (IH F2). unfold dkeys in IH. destruct (mapM _ (map fst l2)) as [ys|x]; [destruct IH as [-> IH]; split; auto|exact IH].
    - eapply scans_stop; eauto. }
  specialize (P (ev_vals g) [] eq_refl (Forall_nil _)). rewrite E in P. destruct r as [ys|x]; [|exact P]. destruct P as [-> P]. apply scans_all. exact P.
Qed.

Lemma xdo_sound : forall e g lim c o e', oinv e g -> dgood e -> incl (ekeys1 c) K ->
  (forall k b, In (k, b) (etexts1 c) -> (blen b < 2 ^ 57)%N /\ ((unbe (keccak (k ++ b)) < 2 ^ 208)%N -> faint)) ->
  empt_do lim e c = (o, e') -> no_collision (m_log (e_trie e')) -> exists g', xdoes secure lim g c o g' /\ oinv e' g'.
Proof.
  intros e g lim c o e' O D HK HT E Hnc. pose proof (grown_fine _ _ D (do_grown keccak_len _ _ _ _ _ D E) Hnc) as F. assert (O0 := O).
  destruct O as (I & Ed & Hn & Hi).
  destruct c as [k|k|k|k v fl df|k cf df fl|k d| | |k v| | | |]; cbn [empt_do] in E.
  - injection E as <- <-. exists g. split; auto. destruct k as [k|]; cbn [with_key]; [|apply xdoes_get_other].
    apply xdoes_get. eapply fetch_sound; eauto. apply HK. left. reflexivity.
  - injection E as <- <-. exists g. split; auto. destruct k as [k|]; cbn [with_key]; [|apply xdoes_ref_other].
    apply xdoes_ref. eapply b_ref; [exact I|exact F| |reflexivity]. apply HK. left. reflexivity.
  - injection E as <- <-. exists g. split; auto. destruct k as [k|]; cbn [with_key]; [|apply xdoes_in_other].
    apply xdoes_in. eapply b_in; [exact I|exact F| |reflexivity]. apply HK. left. reflexivity.
  - destruct (empt_update_py lim fl df e k v) as [r e1] eqn:Eu. injection E as <- <-. destruct k as [k|].
    + assert (Eu' : empt_update lim fl df e k v = (r, e1)) by (rewrite <- update_py_bytes; exact Eu).
      destruct (HT k (val_bytes v)) as [Hb Ht]; [left; reflexivity|].
      destruct (store_sound _ _ _ _ _ _ _ _ _ O0 D (HK k (or_introl eq_refl)) Hb Ht Eu' Hnc) as (g' & S & O').
      exists g'. split; auto. apply xdoes_put. exact S.
    + exists g. unfold empt_update_py in Eu.
      destruct v as [b|b|[] [] b]; cbn [with_key'] in Eu; injection Eu as <- <-; (split; [|exact O0]);
        try (apply xdoes_put_other; reflexivity); apply xdoes_put_unfit; constructor; reflexivity.
  - destruct k as [k|]; cbn [with_key'] in E; [|injection E as <- <-; exists g; split; auto; apply xdoes_del_other].
    destruct (empt_delete lim cf df fl e k) as [r e1] eqn:Ee. injection E as <- <-.
    destruct (drop_sound _ _ _ _ _ _ _ _ _ O0 D (HK k (or_introl eq_refl)) Ee Hnc) as (g' & S & O'). exists g'. split; auto. apply xdoes_del; auto.
  - destruct k as [k|]; cbn [with_key'] in E; [|injection E as <- <-; exists g; split; auto; apply xdoes_pop_other].
    pose proof (HK k (or_introl eq_refl)) as Hk. pose proof (fetch_sound _ _ _ lim _ O0 F Hk eq_refl) as R. unfold empt_pop in E.
    destruct (empt_get lim e k) as [w|x].
    + destruct (empt_delete lim false false [] e k) as [r2 e2] eqn:Ee.
      assert (e2 = e') by (destruct r2; injection E as _ <-; reflexivity). subst e2.
      destruct (drop_sound _ _ _ _ _ _ _ _ _ O0 D Hk Ee Hnc) as (g' & Rm & O'). exists g'. split; auto.
      destruct r2 as [[]|x]; injection E as <-; [eapply xdoes_pop|eapply xdoes_pop_stuck]; eauto.
    + assert (Ee : e' = e /\ ((x = KeyError /\ o = AVal (match d with Some v => Ok v | None => Err KeyError end)) \/ (x <> KeyError /\ o = AVal (Err x)))).
      { destruct x; injection E as <- <-; split; auto; try (left; split; reflexivity); right; split; congruence. }
      destruct Ee as [-> [[-> ->]|[Hx ->]]]; exists g; (split; [|exact O0]); [apply xdoes_pop_none|apply xdoes_pop_fail]; auto.
  - destruct (ev_vals g) as [|[k v] vs] eqn:Ev.
    + unfold empt_popitem in E. rewrite (oinv_nokeys _ _ O0 Ev) in E. injection E as <- <-. exists g. split; auto. apply xdoes_popitem_none; auto.
    + destruct (oinv_key _ _ _ _ _ O0 Ev) as [Hk Ek]. rewrite (popitem_pop _ _ _ _ Ek) in E.
      destruct (empt_pop lim e k None) as [r e1] eqn:Ee. injection E as <- <-.
      destruct (pull_sound _ _ _ _ _ _ O0 D Hk Ee Hnc) as (g' & Tk & O'). exists g'. split; auto.
      destruct r; [eapply xdoes_popitem|eapply xdoes_popitem_fail]; eauto.
  - destruct (empt_clear lim e) as [r e1] eqn:Ee. injection E as <- <-. unfold empt_clear in Ee.
    assert (Hlen : length (ev_vals g) < Datatypes.S (empt_len e)) by (unfold empt_len; rewrite Ed; lia).
    destruct (wipe_sound _ _ _ _ _ _ O0 D Hlen Ee Hnc) as (g' & Cl & O'). exists g'. split; auto. apply xdoes_clear; auto.
  - destruct k as [k|]; cbn [with_key'] in E; [|injection E as <- <-; exists g; split; auto; apply xdoes_default_other].
    pose proof (HK k (or_introl eq_refl)) as Hk. pose proof (fetch_sound _ _ _ lim _ O0 F Hk eq_refl) as R. unfold empt_setdefault in E.
    destruct (empt_get lim e k) as [w|x].
    + injection E as <- <-. exists g. split; auto. apply xdoes_default_old; auto. discriminate.
    + assert (Ex : x = KeyError \/ (x <> KeyError /\ o = AVal (Err x) /\ e' = e)).
      { destruct x; try (left; reflexivity); right; injection E as <- <-; repeat split; congruence. }
      destruct Ex as [->|(Hx & -> & ->)]; [|exists g; split; auto; apply xdoes_default_old; [auto|congruence]].
      destruct (empt_update lim [] false e k v) as [r2 e2] eqn:Ee.
      assert (e2 = e') by (destruct r2; injection E as _ <-; reflexivity). subst e2.
      destruct (HT k (val_bytes v)) as [Hb Ht]; [left; reflexivity|].
      destruct (store_sound _ _ _ _ _ _ _ _ _ O0 D Hk Hb Ht Ee Hnc) as (g' & S & O'). exists g'. split; auto.
      destruct r2 as [[]|x]; injection E as <-; [apply xdoes_default_new|apply xdoes_default_fail]; auto.
  - injection E as <- <-. exists g. split; auto. apply xdoes_items. eapply scan_sound; eauto.
  - injection E as <- <-. exists g. split; auto. rewrite values_items. apply xdoes_values. eapply scan_sound; eauto.
  - injection E as <- <-. exists g. split; auto. assert (Ek : empt_keys e = map fst (ev_vals g)) by (unfold empt_keys; rewrite Ed; reflexivity).
    rewrite Ek. apply xdoes_keys.
  - injection E as <- <-. exists g. split; auto. assert (Ek : empt_len e = length (ev_vals g)) by (unfold empt_len; rewrite Ed; reflexivity).
    rewrite Ek. apply xdoes_len.
Qed.

(** *** Only one answer *)
Section Quiet.
Variable lim : nat.
Hypothesis deep : forall k, In k K -> frames secure k < lim.
Lemma oinv_gwf : forall e g, oinv e g -> gwf K g.
Proof. intros e g (I & Ed & Hn & Hi). split; auto. Qed.
Lemma drops_det : forall e g k a b ga gb, oinv e g -> In k K ->
  drops secure lim false false [] g k a ga -> drops secure lim false false [] g k b gb -> a = b /\ ga = gb.
Proof.
  intros e g k a b ga gb O Hk Ra Rb. pose proof (deep k Hk) as Hl. destruct O as ([(l & t0 & I & _) _] & _ & Hn & _).
  assert (Hx : forall x x', held secure (ev_refs g) k -> ev_refs g k = None ->
    delete_raises (present_keys secure (ev_refs g)) (nibbles (trie_key secure k)) x ->
    delete_raises (present_keys secure (ev_refs g)) (nibbles (trie_key secure k)) x' -> x = x').
  { intros x x' Hh Er X X'. apply (lost_exact keccak_len secure K K_ok _ _ _ _ _ _ _ I Hk Hl Er Hh) in X.
    apply (lost_exact keccak_len secure K K_ok _ _ _ _ _ _ _ I Hk Hl Er Hh) in X'. congruence. }
  assert (Hq : forall x, ~ gives_up secure lim [] k x) by (intros x [[_ F]|[_ F]]; [congruence|lia]).
  assert (Hh : ev_refs g k <> None -> held secure (ev_refs g) k) by (intros Hr; left; exact Hr).
  destruct Ra as [F|_ F|_ F|_ F1 F|_ F1 _ F|v l1 _ _ Hr Rm|v l1 x _ _ F1 Rm U|v l1 x _ _ F1 Hr Rm X]; try discriminate; try lia; try (exfalso; eapply Hq; eauto; fail);
    destruct Rb as [F'|_ F'|_ F'|_ F1' F'|_ F1' _ F'|v' l1' _ _ Hr' Rm'|v' l1' x' _ _ F1' Rm' U'|v' l1' x' _ _ F1' Hr' Rm' X'];
    try discriminate; try lia; try (exfalso; eapply Hq; eauto; fail);
    auto; try tauto; try (exfalso; eapply removed_key in Rm; tauto); try (exfalso; eapply removed_key in Rm'; tauto);
    destruct (removed_fun _ _ _ _ _ _ Hn Rm Rm') as [<- <-]; auto.
  rewrite (Hx _ _ F1 Hr X X'). auto.
Qed.
Lemma drop_only : forall e g k r e' r1 g1, oinv e g -> dgood e -> In k K -> empt_delete lim false false [] e k = (r, e') -> no_collision (m_log (e_trie e')) ->
  drops secure lim false false [] g k r1 g1 -> r1 = r /\ oinv e' g1.
Proof.
  intros e g k r e' r1 g1 O D Hk E N Dr. destruct (drop_sound _ _ _ _ _ _ _ _ _ O D Hk E N) as (g2 & Dr2 & O2).
  destruct (drops_det _ _ _ _ _ _ _ O Hk Dr Dr2) as [-> ->]. auto.
Qed.
Lemma pull_only : forall e g k r e' r1 g1, oinv e g -> dgood e -> In k K -> empt_pop lim e k None = (r, e') -> no_collision (m_log (e_trie e')) ->
  pulls secure lim g k r1 g1 -> r1 = r /\ oinv e' g1.
Proof.
  intros e g k r e' r1 g1 O D Hk E N P. pose proof (grown_fine _ _ D (pop_grown _ _ _ _ _ _ D E) N) as F. unfold empt_pop in E.
  assert (X : forall v x ga, fetches secure lim g k (Ok v) -> drops secure lim false false [] g k x ga ->
     match x with Ok _ => Ok v | Err y => Err y end = r /\ oinv e' ga).
  { intros v x ga R Dr. rewrite (fetch_exact _ _ _ _ _ O F Hk (deep k Hk) R) in E. destruct (empt_delete lim false false [] e k) as [r2 e2] eqn:Ed.
    assert (e2 = e') by (destruct r2; injection E as _ <-; reflexivity). subst e2.
    destruct (drop_only _ _ _ _ _ _ _ O D Hk Ed N Dr) as [-> O2]. split; auto. destruct r2; injection E as <-; reflexivity. }
  destruct P as [x R|v g' R Dr|v x g' R Dr].
  - rewrite (fetch_exact _ _ _ _ _ O F Hk (deep k Hk) R) in E. assert (E' : (Err x, e) = (r, e')) by (destruct x; exact E). injection E' as <- <-. auto.
  - exact (X _ _ _ R Dr).
  - exact (X _ _ _ R Dr).
Qed.
Lemma wipe_only : forall n e g r e' r1 g1, oinv e g -> dgood e -> length (ev_vals g) < n -> clear_loop n lim e = (r, e') ->
  no_collision (m_log (e_trie e')) -> wipes secure lim g r1 g1 -> r1 = r /\ oinv e' g1.
Proof.
  induction n as [|n IH]; intros e g r e' r1 g1 O D Hl E Hnc W; [lia|].
  assert (X : forall k v l ra ga, ev_vals g = (k, v) :: l -> pulls secure lim g k ra ga -> exists e1, oinv e1 ga /\ dgood e1 /\
    match ra with Ok _ => clear_loop n lim e1 = (r, e') /\ length (ev_vals g) = Datatypes.S (length (ev_vals ga)) | Err x => e' = e1 /\ ((x = KeyError /\ r = Ok tt) \/ (x <> KeyError /\ r = Err x)) end).
  { intros k v l ra ga Ev P. destruct (oinv_key _ _ _ _ _ O Ev) as [Hk Ek]. destruct (empt_pop lim e k None) as [r2 e1] eqn:Ep.
    pose proof (pop_grown _ _ _ _ _ _ D Ep) as Pg. pose proof (clear_step _ _ _ _ _ _ _ _ _ Ek Ep E) as St. exists e1.
    assert (Hn1 : no_collision (m_log (e_trie e1))).
    { destruct r2 as [w|x]; [|destruct St as [<- _]; exact Hnc]. destruct (clear_grows keccak_len _ _ _ _ _ (proj1 Pg) St) as [_ G2]. eapply grows_nocoll; [exact G2|exact Hnc]. }
    destruct (pull_only _ _ _ _ _ _ _ O D Hk Ep Hn1 P) as [-> O1]. split; [exact O1|]. split; [apply Pg|]. destruct r2 as [w|x]; [|exact St].
    split; [exact St|]. eapply pulls_len; eauto. }
  destruct W as [g Ev|g k v w l g2 r2 g3 Ev P W|g k v l g2 Ev P|g k v l x g2 Ev Hx P].
  - cbn [clear_loop] in E. unfold empt_popitem in E. rewrite (oinv_nokeys _ _ O Ev) in E. injection E as <- <-. auto.
  - destruct (X _ _ _ _ _ Ev P) as (e1 & O1 & D1 & St & Len). apply (IH e1 g2); auto. lia.
  - destruct (X _ _ _ _ _ Ev P) as (e1 & O1 & D1 & -> & [[_ ->]|[F _]]); [auto|congruence].
  - destruct (X _ _ _ _ _ Ev P) as (e1 & O1 & D1 & -> & [[F _]|[_ ->]]); [congruence|auto].
Qed.
Lemma scan_only : forall e g r r1, oinv e g -> efine e -> empt_items lim e = r -> scans secure lim g r1 -> r1 = r.
Proof.
  intros e g r r1 O F E Sc. assert (O0 := O). destruct O as (I & Ed & Hn & Hi). unfold empt_items, empt_keys in E. rewrite Ed in E.
  assert (P : forall l1 l2, incl (map fst l1) K -> Forall (fun kv => fetches secure lim g (fst kv) (Ok (snd kv))) l1 ->
    mapM (fun k => bind (empt_get lim e k) (fun v => Ok (k, v))) (dkeys (l1 ++ l2)) =
    match mapM (fun k => bind (empt_get lim e k) (fun v => Ok (k, v))) (dkeys l2) with Ok ys => Ok (l1 ++ ys) | Err x => Err x end).
  { induction l1 as [|[k v] l1 IH]; intros l2 Hk Fa; cbn [app].
    - destruct (mapM _ (dkeys l2)); reflexivity.
    - inversion_clear Fa as [|? ? F1 F2]. cbn [fst snd] in F1. assert (Hkk : In k K) by (apply Hk; left; reflexivity).
      unfold dkeys. cbn [map fst mapM]. rewrite (fetch_exact _ _ _ _ _ O0 F Hkk (deep k Hkk) F1). cbn [bind].
      specialize (IH l2 (fun x Hx => Hk x (or_intror Hx)) F2). unfold dkeys in IH. rewrite IH. destruct (mapM _ (map fst l2)); reflexivity. }
  destruct Sc as [Fa|l1 k v l2 x Ev Fa R].
  - specialize (P (ev_vals g) [] Hi Fa). rewrite app_nil_r in P. rewrite P in E. cbn [dkeys map mapM] in E. rewrite app_nil_r in E. exact E.
  - rewrite Ev in E, Hi. rewrite map_app in Hi. rewrite (P l1 _ (fun y Hy => Hi y (in_or_app _ _ _ (or_introl Hy))) Fa) in E.
    assert (Hk : In k K) by (apply Hi; apply in_or_app; right; left; reflexivity).
    unfold dkeys in E. cbn [map fst mapM] in E. rewrite (fetch_exact _ _ _ _ _ O0 F Hk (deep k Hk) R) in E. exact E.
Qed.
Lemma xdo_only : forall e g c o1 e' o g', oinv e g -> dgood e -> incl (ekeys1 c) K -> equiet1 c ->
  (forall k b, In (k, b) (etexts1 c) -> (blen b < 2 ^ 57)%N /\ ((unbe (keccak (k ++ b)) < 2 ^ 208)%N -> faint)) ->
  empt_do lim e c = (o1, e') -> no_collision (m_log (e_trie e')) -> xdoes secure lim g c o g' -> o = o1 /\ oinv e' g'.
Proof.
  intros e g c o1 e' o g' O D HK Hq HT E Hnc X. pose proof (grown_fine _ _ D (do_grown keccak_len _ _ _ _ _ D E) Hnc) as F. assert (O0 := O).
  pose proof (oinv_gwf _ _ O) as Gw. destruct O as (I & Ed & Hn & Hi).
  assert (Ft : forall k a, In k K -> fetches secure lim g k a -> empt_get lim e k = a) by (intros k a Hk R; exact (fetch_exact _ _ _ _ _ O0 F Hk (deep k Hk) R)).
  assert (St : forall k v r e1 a ga, In k (ekeys1 c) -> In (k, val_bytes v) (etexts1 c) -> empt_update lim [] false e k v = (r, e1) -> no_collision (m_log (e_trie e1)) ->
     stores secure lim [] false g k v a ga -> a = r /\ oinv e1 ga).
  { intros k v r e1 a ga Hk Hkb Eu N1 S. destruct (HT _ _ Hkb) as [Hb Ht].
    destruct (store_sound _ _ _ _ _ _ _ _ _ O0 D (HK k Hk) Hb Ht Eu N1) as (g2 & S2 & O2).
    destruct (stores_det keccak_len secure K K_small _ _ _ _ _ _ _ _ Gw (HK k Hk) deep S S2) as [-> ->]. auto. }
  destruct X as [k r R|k r R|k r R|k v fl df r g' S|k cf df fl r g' Dr|k d v g' R Dr|k d R|k d x R Hx|k d v x g' R Dr|Ev|k v w l g' Ev P|k v l x g' Ev P|r g' W|
      k v r R Hx|k v g' R S|k v x g' R S|r Sc|r Sc| | | | | |v fl df x U|v fl df Es| | | ]; cbn [empt_do with_key with_key'] in E; cbn [ekeys1] in HK; cbn [equiet1] in Hq.
  - injection E as <- <-. rewrite (Ft k r (HK k (or_introl eq_refl)) R). auto.
  - injection E as <- <-. pose proof (HK k (or_introl eq_refl)) as Hk. rewrite <- (b_ref_exact _ _ _ _ _ _ I F Hk (deep k Hk) R). auto.
  - injection E as <- <-. pose proof (HK k (or_introl eq_refl)) as Hk. pose proof (b_in _ _ _ _ lim _ I F Hk eq_refl) as A.
    rewrite (asks_det keccak_len secure K K_small _ _ _ _ _ Hk deep R A). auto.
  - destruct Hq as [-> ->]. rewrite update_py_bytes in E. destruct (empt_update lim [] false e k v) as [r1 e1] eqn:Eu. injection E as <- <-.
    destruct (St k v r1 e1 r g' (or_introl eq_refl) (or_introl eq_refl) Eu Hnc S) as [-> O']. auto.
  - destruct Hq as (-> & -> & ->). destruct (empt_delete lim false false [] e k) as [r1 e1] eqn:Ee. injection E as <- <-.
    destruct (drop_only _ _ _ _ _ _ _ O0 D (HK k (or_introl eq_refl)) Ee Hnc Dr) as [-> O']. auto.
  - pose proof (HK k (or_introl eq_refl)) as Hk. unfold empt_pop in E. rewrite (Ft _ _ Hk R) in E.
    destruct (empt_delete lim false false [] e k) as [r2 e2] eqn:Ee.
    assert (e2 = e') by (destruct r2; injection E as _ <-; reflexivity). subst e2.
    destruct (drop_only _ _ _ _ _ _ _ O0 D Hk Ee Hnc Dr) as [<- O']. injection E as <-. auto.
  - unfold empt_pop in E. rewrite (Ft _ _ (HK k (or_introl eq_refl)) R) in E. injection E as <- <-. auto.
  - unfold empt_pop in E. rewrite (Ft _ _ (HK k (or_introl eq_refl)) R) in E. 
    assert (E' : o1 = AVal (Err x) /\ e' = e) by (destruct x; try congruence; injection E as <- <-; auto). destruct E' as [-> ->]. auto.
  - pose proof (HK k (or_introl eq_refl)) as Hk. unfold empt_pop in E. rewrite (Ft _ _ Hk R) in E.
    destruct (empt_delete lim false false [] e k) as [r2 e2] eqn:Ee.
    assert (e2 = e') by (destruct r2; injection E as _ <-; reflexivity). subst e2.
    destruct (drop_only _ _ _ _ _ _ _ O0 D Hk Ee Hnc Dr) as [<- O']. injection E as <-. auto.
  - unfold empt_popitem in E. rewrite (oinv_nokeys _ _ O0 Ev) in E. injection E as <- <-. auto.
  - destruct (oinv_key _ _ _ _ _ O0 Ev) as [Hk Ek]. rewrite (popitem_pop _ _ _ _ Ek) in E.
    destruct (empt_pop lim e k None) as [r1 e1] eqn:Ee. injection E as <- <-.
    destruct (pull_only _ _ _ _ _ _ _ O0 D Hk Ee Hnc P) as [<- O']. auto.
  - destruct (oinv_key _ _ _ _ _ O0 Ev) as [Hk Ek]. rewrite (popitem_pop _ _ _ _ Ek) in E.
    destruct (empt_pop lim e k None) as [r1 e1] eqn:Ee. injection E as <- <-.
    destruct (pull_only _ _ _ _ _ _ _ O0 D Hk Ee Hnc P) as [<- O']. auto.
  - destruct (empt_clear lim e) as [r1 e1] eqn:Ee. injection E as <- <-. unfold empt_clear in Ee.
    assert (Hlen : length (ev_vals g) < Datatypes.S (empt_len e)) by (unfold empt_len; rewrite Ed; lia).
    destruct (wipe_only _ _ _ _ _ _ _ O0 D Hlen Ee Hnc W) as [-> O']. auto.
  - unfold empt_setdefault in E. rewrite (Ft _ _ (HK k (or_introl eq_refl)) R) in E. 
    assert (E' : o1 = AVal r /\ e' = e) by (destruct r as [w|x]; [|destruct x; try congruence]; injection E as <- <-; auto). destruct E' as [-> ->]. auto.
  - unfold empt_setdefault in E. rewrite (Ft _ _ (HK k (or_introl eq_refl)) R) in E. destruct (empt_update lim [] false e k v) as [r2 e2] eqn:Ee.
    assert (e2 = e') by (destruct r2; injection E as _ <-; reflexivity). subst e2.
    destruct (St k v r2 e' _ g' (or_introl eq_refl) (or_introl eq_refl) Ee Hnc S) as [<- O']. injection E as <-. auto.
  - unfold empt_setdefault in E. rewrite (Ft _ _ (HK k (or_introl eq_refl)) R) in E. destruct (empt_update lim [] false e k v) as [r2 e2] eqn:Ee.
    assert (e2 = e') by (destruct r2; injection E as _ <-; reflexivity). subst e2.
    destruct (St k v r2 e' _ g' (or_introl eq_refl) (or_introl eq_refl) Ee Hnc S) as [<- O']. injection E as <-. auto.
  - injection E as <- <-. rewrite (scan_only _ _ _ _ O0 F eq_refl Sc). auto.
  - injection E as <- <-. rewrite values_items, (scan_only _ _ _ _ O0 F eq_refl Sc). auto.
  - injection E as <- <-. unfold empt_keys. rewrite Ed. auto.
  - injection E as <- <-. unfold empt_len. rewrite Ed. auto.
  - injection E as <- <-. auto.
  - injection E as <- <-. auto.
  - injection E as <- <-. auto.
  - destruct U; unfold empt_update_py in E; cbn [with_key'] in E.
    + destruct e0, d; try discriminate; injection E as <- <-; auto.
    + injection E as <- <-; auto.
  - unfold empt_update_py in E. destruct v as [b|b|[] [] b]; try discriminate Es; cbn [with_key'] in E; injection E as <- <-; auto.
  - injection E as <- <-. auto.
  - injection E as <- <-. auto.
  - injection E as <- <-. auto.
Qed.
End Quiet.

(** *** Roots, and storages that grow *)
Lemma b_more : forall t t' r used, binv t r used -> tfine t' -> dinv (m_map t) (m_log t) -> m_root t' = m_root t -> m_secure t' = m_secure t ->
  dext (m_map t) (m_log t) (m_map t') (m_log t') -> binv t' r used.
Proof.
  intros t t' r used [(l & t0 & I & T) Hm] [D' N'] D Er Es X. split.
  - exists l, t0. split; [exact I|]. apply (trel_more t0 t t'); auto.
    + intros k e. exact (dext_dget _ _ _ _ D D' X N' k e).
    + intros x. exact (dext_log _ _ _ _ x X).
  - intros Hu. destruct (Hm Hu) as [|Hu']; [auto|]. right. intros Em. destruct X as [_ [x Ex]]. rewrite Em in Ex. cbn in Ex.
    destruct (m_map t) as [|[a b] m]; [congruence|discriminate].
Qed.
Lemma b_roots : forall t r used, binv t r used -> (used = true /\ (forall k, r k = None) /\ m_root t = None) \/
  ((used = false \/ exists k, r k <> None) /\ m_root t <> None).
Proof.
  intros t r used [(l & t0 & I & T) _]. assert (I0 := I). destruct I as (R & S & U & Hi). destruct T as (_ & _ & <- & _).
  destruct (dict_dec l) as [De|(k0 & v0 & Ek)].
  - assert (X : (root_falsy t0 = true <-> l <> []) /\ (m_root t0 = None \/ m_root t0 = Some EMPTY_HASH)).
    { set (k := match l with [] => [] | o :: _ => op_key o end).
      assert (Hk : keys_ok secure (k :: map op_key l)).
      { destruct l as [|o l]; [intros _ x y [<-|[]] [<-|[]] _; reflexivity|]. eapply keys_ok_incl; [|exact K_ok]. intros y [<-|Hy]; [apply Hi; left; reflexivity|auto]. }
      destruct (empty_trie_calls keccak_len secure l t0 k 1 R Hk De ltac:(lia)) as (_ & Ef & _). split; [exact Ef|].
      apply (repr_empty_root t0). eapply (reach_empty keccak_len); eauto. }
    destruct X as [Hf Hr]. destruct used.
    + left. split; auto. split; [intros k; apply (sr_none _ _ _ S); auto|]. destruct Hr as [Hr|Hr]; [exact Hr|]. exfalso.
      assert (F : root_falsy t0 = true) by (apply Hf; apply U; reflexivity). unfold root_falsy in F. rewrite Hr in F.
      pose proof (keccak_len [x80]) as L. unfold EMPTY_HASH in F. destruct (keccak [x80]); discriminate.
    + right. split; auto. destruct Hr as [Hr|Hr]; [|congruence]. exfalso. assert (F : root_falsy t0 = true) by (unfold root_falsy; rewrite Hr; reflexivity).
      apply Hf in F. apply U in F. discriminate.
  - right. split.
    + right. exists k0. intros En. apply (sr_none _ _ _ S) in En. congruence.
    + destruct (reach_lookup keccak_len _ _ _ k0 R) as (tr & Rt & _ & Es & El).
      { eapply keys_ok_incl; [|exact K_ok]. intros y [<-|Hy]; auto. apply Hi. eapply dict_after_keys; eauto. }
      rewrite Ek in El. destruct Rt as (_ & _ & _ & _ & _ & [[-> _]|[_ Er]] & _); [discriminate|congruence].
Qed.
Lemma b_root : forall t r used x, binv t r used -> (yp_root (refs_of secure r) x <-> root_hash t = x).
Proof.
  intros t r used x [(l & t0 & I & T) _]. destruct T as (_ & _ & Er & _). rewrite <- (root_hash_eq t0 t Er).
  apply (tinv_root keccak_len secure K l t0 r used K_ok I).
Qed.
Lemma b_new : forall m log, dinv m log -> binv (mkMpt m log (m_root (mpt_new secure)) secure) no_refs false.
Proof.
  intros m log D. split; [|discriminate]. exists [], (mpt_new secure). split; [apply new_tinv|]. split; [intros h e E; discriminate|].
  split; [|split; reflexivity]. intros x [<-|[]]. apply D.
Qed.
End Mode.

(** *** All objects *)
Section World.
Variables (modes : list bool) (h0 : list fcmd).
Let K := fkeys h0.
Let faint := ffaint h0.
Hypothesis fits : ffits h0.
Hypothesis keys : fkeys_ok modes h0.
Definition minv (w : fleet) (h : option bytes * bool) (m : member) : Prop :=
  snd h = mb_secure m /\ In (mb_secure m) modes /\ binv faint (mb_secure m) K (e_trie (obj_of w h)) (mb_refs m) (mb_used m).
Definition winv (w : fleet) (g : fview) : Prop :=
  dinv (fl_trie w) (fl_log w) /\ fl_data w = fv_vals g /\ NoDup (map fst (fv_vals g)) /\ incl (map fst (fv_vals g)) K /\
  Forall2 (minv w) (fl_objs w) (fv_objs g).

Lemma new_winv : winv (fleet_new modes) (fleet_start modes).
Proof.
  assert (D : dinv (fl_trie (fleet_new modes)) (fl_log (fleet_new modes))) by exact (new_dinv false).
  split; [exact D|]. split; [reflexivity|]. split; [constructor|]. split; [intros x []|]. unfold fleet_new, fleet_start. cbn [fl_objs fv_objs].
  assert (P : forall l, incl l modes -> Forall2 (minv (fleet_new modes)) (map (fun m => (m_root (e_trie (empt_new m)), m)) l) (map (fun m => Member m no_refs false) l)).
  { induction l as [|m l IH]; intros Hi; cbn [map]; constructor.
    - split; [reflexivity|]. split; [apply Hi; left; reflexivity|]. apply (b_new faint m K). exact D.
    - apply IH. intros x Hx. apply Hi. right. exact Hx. }
  apply P. apply incl_refl.
Qed.
Lemma Forall2_impl : forall A B (R R' : A -> B -> Prop) l l', (forall a b, R a b -> R' a b) -> Forall2 R l l' -> Forall2 R' l l'.
Proof. intros A B R R' l l' HR F. induction F; constructor; auto. Qed.
Lemma Forall2_nth : forall A B (R : A -> B -> Prop) l l' i, Forall2 R l l' ->
  match nth_error l i, nth_error l' i with Some a, Some b => R a b | None, None => length l' <= i | _, _ => False end.
Proof.
  intros A B R l l' i F. revert i. induction F as [|a b l l' Hab F IH]; intros [|i]; cbn [nth_error length]; try lia; auto.
  specialize (IH i). destruct (nth_error l i), (nth_error l' i); auto. lia.
Qed.
Lemma set_at_spec : forall A (l : list A) i x y, nth_error l i = Some x -> exists l1 l2, l = l1 ++ x :: l2 /\ length l1 = i /\ set_at i y l = l1 ++ y :: l2.
Proof.
  intros A l i x y E. apply nth_error_split in E. destruct E as (l1 & l2 & -> & <-). exists l1, l2. split; auto. split; auto.
  unfold set_at. rewrite firstn_app, Nat.sub_diag, firstn_all, skipn_app, skipn_all, Nat.sub_diag. cbn [firstn skipn app]. rewrite app_nil_r. reflexivity.
Qed.
Lemma Forall2_split : forall A B (R : A -> B -> Prop) l1 x l2 l', Forall2 R (l1 ++ x :: l2) l' ->
  exists l1' y l2', l' = l1' ++ y :: l2' /\ length l1' = length l1 /\ Forall2 R l1 l1' /\ R x y /\ Forall2 R l2 l2'.
Proof.
  induction l1 as [|a l1 IH]; intros x l2 l' F; cbn [app] in F; inversion_clear F as [|? b ? l0 Hab F'].
  - exists [], b, l0. repeat split; auto.
  - destruct (IH _ _ _ F') as (l1' & y & l2' & -> & L & F1 & Hy & F2). exists (b :: l1'), y, l2'. cbn [length]. repeat split; auto.
Qed.
Lemma nth_mid : forall A (l1 : list A) x l2, nth_error (l1 ++ x :: l2) (length l1) = Some x.
Proof. intros A l1 x l2. rewrite nth_error_app2 by lia. rewrite Nat.sub_diag. reflexivity. Qed.
Lemma replaced_mid : forall A (l1 : list A) x l2 y l', replaced (l1 ++ x :: l2) (length l1) y l' -> l' = l1 ++ y :: l2.
Proof.
  intros A l1 x l2 y l' R. remember (l1 ++ x :: l2) as l eqn:El. remember (length l1) as n eqn:En. destruct R as [a1 a y a2].
  assert (X : forall (a1 l1 : list A) a a2 x l2, a1 ++ a :: a2 = l1 ++ x :: l2 -> length a1 = length l1 -> a1 = l1 /\ a2 = l2).
  { clear. induction a1 as [|u a1 IH]; intros [|v l1] a a2 x l2 E L; cbn [app length] in *; try discriminate; injection E as E1 E2; auto.
    destruct (IH l1 a a2 x l2 E2 ltac:(lia)) as [-> ->]. subst. auto. }
  destruct (X _ _ _ _ _ _ El En) as [-> ->]. reflexivity.
Qed.

(** The steps of the model and of the description together. *)
Lemma call_step : forall w g i lim c o w', winv w g -> incl (ekeys1 c) K ->
  (forall k b, In (k, b) (etexts1 c) -> (blen b < 2 ^ 57)%N /\ ((unbe (keccak (k ++ b)) < 2 ^ 208)%N -> faint)) ->
  fleet_do w (FCall i lim c) = (o, w') -> no_collision (fl_log w') ->
  (exists g', fdoes faint g (FCall i lim c) o g' /\ winv w' g') /\
  (equiet1 c -> (forall m k, In m modes -> In k K -> frames m k < lim) -> forall o1 g1, fdoes faint g (FCall i lim c) o1 g1 -> o1 = o /\ winv w' g1).
Proof.
  intros w g i lim c o w' W0 HK HT E N. assert (W1 := W0). destruct W1 as (D & Ed & Hn & Hi & F2). cbn [fleet_do] in E.
  pose proof (Forall2_nth _ _ _ _ _ i F2) as Fi. destruct (nth_error (fl_objs w) i) as [h|] eqn:Eh.
  2:{ destruct (nth_error (fv_objs g) i) as [m|] eqn:Em; [contradiction|]. injection E as <- <-. split.
      - exists g. split; [apply fdoes_call_nobody; exact Fi|exact W0].
      - intros _ _ o1 g1 X. inversion X as [? ? ? ? ? ? ? ? ? Em'| | | | | | ]; subst; [congruence|]. auto. }
  destruct (nth_error (fv_objs g) i) as [m|] eqn:Em; [|contradiction]. clear Fi.
  destruct (empt_do lim (obj_of w h) c) as [o1 e] eqn:Eo. injection E as <- <-. cbn [fl_log] in N.
  pose proof (do_grown keccak_len lim (obj_of w h) c o1 e D Eo) as [D' [S' X']].
  destruct (set_at_spec _ _ _ _ (m_root (e_trie e), m_secure (e_trie e)) Eh) as (a1 & a2 & El & Ei & Es). rewrite Es. rewrite El in F2.
  destruct (Forall2_split _ _ _ _ _ _ _ F2) as (b1 & m' & b2 & Eg & Lb & Fa & Hm & Fb).
  assert (Emm : m' = m) by (rewrite Eg, <- Ei, <- Lb, nth_mid in Em; congruence). subst m'.
  destruct Hm as (Hs & Hmo & Hb).
  assert (O : oinv faint (mb_secure m) K (obj_of w h) (EView (fv_vals g) (mb_refs m) (mb_used m))) by (split; [exact Hb|]; split; [exact Ed|]; split; auto).
  assert (Keep : forall vals r used, oinv faint (mb_secure m) K e (EView vals r used) ->
    winv (Fleet (m_map (e_trie e)) (m_log (e_trie e)) (e_data e) (a1 ++ (m_root (e_trie e), m_secure (e_trie e)) :: a2))
         (FView vals (b1 ++ Member (mb_secure m) r used :: b2))).
  { intros vals r used (Ib & Ie & In1 & In2). cbn [ev_refs ev_used ev_vals] in *. split; [exact D'|]. split; [exact Ie|]. split; [exact In1|]. split; [exact In2|].
    assert (Mono : forall h m, minv w h m -> minv (Fleet (m_map (e_trie e)) (m_log (e_trie e)) (e_data e) (a1 ++ (m_root (e_trie e), m_secure (e_trie e)) :: a2)) h m).
    { intros h1 m1 (Hs1 & Hmo1 & Hb1). split; [exact Hs1|]. split; [exact Hmo1|]. eapply b_more; [exact Hb1|split; [exact D'|exact N]|exact D|reflexivity|reflexivity|exact X']. }
    apply Forall2_app; [eapply Forall2_impl; [|exact Fa]; auto|]. constructor; [|eapply Forall2_impl; [|exact Fb]; auto].
    split; [cbn [snd mb_secure]; rewrite S'; exact Hs|]. split; [exact Hmo|]. cbn [mb_refs mb_used mb_secure]. unfold obj_of. cbn [e_trie fl_trie fl_log fst snd].
    replace (mkMpt (m_map (e_trie e)) (m_log (e_trie e)) (m_root (e_trie e)) (m_secure (e_trie e))) with (e_trie e) by (destruct (e_trie e); reflexivity). exact Ib. }
  split.
  - destruct (xdo_sound faint (mb_secure m) K (keys _ Hmo) (proj1 fits) _ _ _ _ _ _ O D HK HT Eo N) as ([vals r used] & X & O').
    exists (FView vals (b1 ++ Member (mb_secure m) r used :: b2)). split; [|apply Keep; exact O'].
    eapply fdoes_call; [exact Em|exact X|]. rewrite Eg, <- Ei, <- Lb. apply replaced_at.
  - intros Hq Hd o2 g1 X. inversion X as [i0 lim0 c0 o0 m0 vals r used objs Em' Xd Rp| | | | |? ? ? Hl| ]; subst; [|apply nth_error_None in Hl; congruence].
    assert (m0 = m) by congruence. subst m0.
    destruct (xdo_only faint (mb_secure m) K (keys _ Hmo) (proj1 fits) lim (fun k Hk => Hd _ k Hmo Hk) _ _ _ _ _ _ _ O D HK Hq HT Eo N Xd) as [-> O'].
    split; [reflexivity|]. rewrite Eg, <- Lb in Rp. apply replaced_mid in Rp. subst objs. apply Keep. exact O'.
Qed.
Lemma open_step : forall w g i o w', winv w g -> fleet_do w (FOpen i) = (o, w') ->
  (exists g', fdoes faint g (FOpen i) o g' /\ winv w' g') /\ (~ faint -> forall o1 g1, fdoes faint g (FOpen i) o1 g1 -> o1 = o /\ winv w' g1).
Proof.
  intros w g i o w' W E. assert (W0 := W). destruct W as (D & Ed & Hn & Hi & F2). cbn [fleet_do] in E.
  pose proof (Forall2_nth _ _ _ _ _ i F2) as Fi. destruct (nth_error (fl_objs w) i) as [h|] eqn:Eh.
  2:{ destruct (nth_error (fv_objs g) i) as [m|] eqn:Em; [contradiction|]. injection E as <- <-. split.
      - exists g. split; [apply fdoes_open_nobody; exact Fi|exact W0].
      - intros _ o1 g1 X. inversion X; subst; try congruence. auto. }
  destruct (nth_error (fv_objs g) i) as [m|] eqn:Em; [|contradiction]. destruct Fi as (Hs & Hmo & Hb).
  unfold empt_root, obj_of in E. cbn [e_trie m_root] in E.
  assert (Add : forall rt m1, mb_secure m1 = snd h -> In (mb_secure m1) modes ->
    binv faint (mb_secure m1) K (mkMpt (fl_trie w) (fl_log w) rt (snd h)) (mb_refs m1) (mb_used m1) ->
    winv (Fleet (fl_trie w) (fl_log w) (fl_data w) (fl_objs w ++ [(rt, snd h)])) (FView (fv_vals g) (fv_objs g ++ [m1]))).
  { intros rt m1 Es Ho Hbb. split; [exact D|]. split; [exact Ed|]. split; [exact Hn|]. split; [exact Hi|].
    apply Forall2_app; [exact F2|]. constructor; [|constructor]. split; [symmetry; exact Es|]. split; [exact Ho|exact Hbb]. }
  destruct (b_roots faint (mb_secure m) K (keys _ Hmo) (proj1 fits) _ _ _ Hb) as [(Hu & He & Er)|(Hu & Er)]; unfold obj_of in Er; cbn [e_trie m_root] in Er.
  - rewrite Er in E. unfold empt_init in E. destruct (fl_trie w) as [|x tr] eqn:Et.
    + injection E as <- <-. assert (Hf : faint) by (destruct Hb as [_ Hb]; destruct (Hb Hu) as [|F]; [assumption|]; elim F; exact Et).
      split; [|intros X; contradiction]. eexists. split; [eapply fdoes_open_void; eauto|]. cbn [e_trie mpt_init m_root m_secure].
      apply Add; [auto|exact Hmo|]. cbn [mb_secure mb_refs mb_used]. rewrite Hs. apply (b_new faint (mb_secure m) K). exact D.
    + injection E as <- <-. split; [exists g; split; [eapply fdoes_open_empty; eauto|exact W0]|]. intros Hf o1 g1 X.
      inversion X as [ |? m0 Em' Hc|? m0 Em' Hu' He'|? m0 Em' Hu' He' Hf'| | |? Hl]; subst; [|auto|contradiction|apply nth_error_None in Hl; congruence].
      exfalso. assert (m0 = m) by congruence. subst m0. destruct Hc as [Hc|[k Hc]]; [congruence|]. apply Hc. apply He.
  - destruct (fst h) as [rt|] eqn:Ert; [|congruence]. assert (Ei : empt_init (fl_trie w) (fl_data w) (Some rt) (snd h) = Ok (mkEmpt (fl_data w) (mpt_init (fl_trie w) (Some rt) (snd h)))) by (unfold empt_init; destruct (fl_trie w); reflexivity).
    rewrite Ei in E. cbn [e_trie mpt_init m_root m_secure] in E. injection E as <- <-.
    assert (Wn : winv (Fleet (fl_trie w) (fl_log w) (fl_data w) (fl_objs w ++ [(Some rt, snd h)])) (FView (fv_vals g) (fv_objs g ++ [m]))).
    { apply Add; [symmetry; exact Hs|exact Hmo|]. rewrite <- Ert. exact Hb. }
    split; [exists (FView (fv_vals g) (fv_objs g ++ [m])); split; [eapply fdoes_open; eauto|exact Wn]|]. intros Hf o1 g1 X.
    inversion X as [ |? m0 Em' Hc|? m0 Em' Hu' He'|? m0 Em' Hu' He' Hf'| | |? Hl]; subst; [|exfalso|contradiction|apply nth_error_None in Hl; congruence];
      assert (m0 = m) by congruence; subst m0; [auto|].
    destruct Hu as [Hu|[k Hu]]; [congruence|]. apply Hu. apply He'.
Qed.
Lemma do_log : forall w c o w', dinv (fl_trie w) (fl_log w) -> fleet_do w c = (o, w') ->
  dinv (fl_trie w') (fl_log w') /\ incl (fl_log w) (fl_log w').
Proof.
  intros w c o w' D E. destruct c as [i lim c|i|l]; cbn [fleet_do] in E.
  - destruct (nth_error (fl_objs w) i) as [h|]; [|injection E as _ <-; auto using incl_refl].
    destruct (empt_do lim (obj_of w h) c) as [o1 e] eqn:Eo. injection E as _ <-.
    destruct (do_grown keccak_len lim (obj_of w h) c o1 e D Eo) as [D' [_ X]]. split; [exact D'|]. intros x. exact (dext_log _ _ _ _ x X).
  - destruct (nth_error (fl_objs w) i) as [h|]; [|injection E as _ <-; auto using incl_refl].
    destruct (empt_init _ _ _ _); injection E as _ <-; auto using incl_refl.
  - injection E as _ <-. auto using incl_refl.
Qed.
Lemma run_log : forall h w os w', dinv (fl_trie w) (fl_log w) -> fleet_run w h = (os, w') -> incl (fl_log w) (fl_log w').
Proof.
  induction h as [|c h IH]; intros w os w' D E; cbn [fleet_run] in E; [injection E as _ <-; apply incl_refl|].
  destruct (fleet_do w c) as [o w1] eqn:Eo. destruct (fleet_run w1 h) as [os' w2] eqn:Er. injection E as _ <-.
  destruct (do_log _ _ _ _ D Eo) as [D1 I1]. eapply incl_tran; [exact I1|]. eapply IH; eauto.
Qed.
Lemma run_step : forall h w g os w', winv w g -> (forall c, In c h -> In c h0) -> fleet_run w h = (os, w') -> no_collision (fl_log w') ->
  (exists g', ffollows faint g h os g' /\ winv w' g') /\
  (~ faint -> fquiet modes h0 -> forall os1 g1, ffollows faint g h os1 g1 -> os1 = os /\ winv w' g1).
Proof.
  induction h as [|c h IH]; intros w g os w' W Hh E N; cbn [fleet_run] in E.
  - injection E as <- <-. split; [exists g; split; [constructor|exact W]|]. intros _ _ os1 g1 F. inversion F; subst. auto.
  - destruct (fleet_do w c) as [o w1] eqn:Eo. destruct (fleet_run w1 h) as [os' w2] eqn:Er. injection E as <- <-.
    destruct (do_log _ _ _ _ (proj1 W) Eo) as [D1 _]. pose proof (run_log _ _ _ _ D1 Er) as I2.
    assert (N1 : no_collision (fl_log w1)) by (intros x y Hx Hy; apply N; apply I2; assumption).
    assert (Hc : In c h0) by (apply Hh; left; reflexivity).
    assert (St : (exists g', fdoes faint g c o g' /\ winv w1 g') /\ (~ faint -> fquiet modes h0 -> forall o1 g1, fdoes faint g c o1 g1 -> o1 = o /\ winv w1 g1)).
    { destruct c as [i lim c|i|l].
      - assert (HK : incl (ekeys1 c) K) by (intros k Hk; apply in_flat_map; exists (FCall i lim c); auto).
        assert (HT : forall k b, In (k, b) (etexts1 c) -> (blen b < 2 ^ 57)%N /\ ((unbe (keccak (k ++ b)) < 2 ^ 208)%N -> faint)).
        { intros k b Hkb. assert (Hi : In (k, b) (ftexts h0)) by (apply in_flat_map; exists (FCall i lim c); auto).
          split; [eapply (proj1 (proj2 fits)); eauto|]. intros Hs. exists k, b. auto. }
        destruct (call_step _ _ _ _ _ _ _ W HK HT Eo N1) as [S1 S2]. split; [exact S1|]. intros _ Hq o1 g1 X.
        destruct (Hq _ _ _ Hc) as [Hq1 Hq2]. exact (S2 Hq1 Hq2 o1 g1 X).
      - destruct (open_step _ _ _ _ _ W Eo) as [S1 S2]. split; [exact S1|]. intros Hf _. exact (S2 Hf).
      - cbn [fleet_do] in Eo. injection Eo as <- <-.
        assert (W1 : winv (Fleet (fl_trie w) (fl_log w) l (fl_objs w)) (FView l (fv_objs g))).
        { destruct W as (D & Ed & Hn & Hi & F2). split; [exact D|]. split; [reflexivity|]. split; [apply (proj2 (proj2 fits)); exact Hc|]. split; [|exact F2].
          intros k Hk. apply in_flat_map. exists (FOutside l). auto. }
        split; [exists (FView l (fv_objs g)); split; [constructor|exact W1]|]. intros _ _ o1 g1 X. inversion X; subst. auto. }
    destruct St as [(g1 & X1 & W1) Only].
    split.
    + destruct (IH w1 g1 os' w2 W1 (fun x Hx => Hh x (or_intror Hx)) Er N) as [(g2 & F2 & W2) _]. exists g2. split; [econstructor; eauto|exact W2].
    + intros Hf Hq os1 gz F. inversion F as [|? ? o1 g2 ? outs2 ? X2 F2']; subst. destruct (Only Hf Hq _ _ X2) as [-> W2].
      destruct (IH w1 g2 os' w2 W2 (fun x Hx => Hh x (or_intror Hx)) Er N) as [_ Only2]. destruct (Only2 Hf Hq _ _ F2') as [-> W3]. auto.
Qed.
Lemma winv_roots : forall w g, winv w g -> length (fl_objs w) = length (fv_objs g) /\
  forall i h m, nth_error (fl_objs w) i = Some h -> nth_error (fv_objs g) i = Some m ->
  forall x, yp_root (refs_of (mb_secure m) (mb_refs m)) x <-> empt_root_hash (obj_of w h) = x.
Proof.
  intros w g (_ & _ & _ & _ & F2). split; [clear - F2; induction F2; cbn [length]; congruence|]. intros i h m Eh Em x. pose proof (Forall2_nth _ _ _ _ _ i F2) as Fi.
  rewrite Eh, Em in Fi. destruct Fi as (Hs & Hmo & Hb). apply (b_root faint (mb_secure m) K (keys _ Hmo) _ _ _ _ Hb).
Qed.
End World.

Theorem fleet_sound : forall modes h outs w, fleet_run (fleet_new modes) h = (outs, w) -> ffits h -> fkeys_ok modes h -> no_collision (fl_log w) ->
  exists g, ffollows (ffaint h) (fleet_start modes) h outs g /\ fv_vals g = fl_data w /\ same_roots w g.
Proof.
  intros modes h outs w E Hf Hk N. destruct (run_step modes h Hf Hk h _ _ _ _ (new_winv modes h) (fun c Hc => Hc) E N) as [(g & F & W) _].
  exists g. split; [exact F|]. split; [symmetry; apply W|]. eapply winv_roots; eauto.
Qed.
Theorem fleet_only : forall modes h outs w, fleet_run (fleet_new modes) h = (outs, w) -> ffits h -> fkeys_ok modes h -> no_collision (fl_log w) ->
  fquiet modes h -> ~ ffaint h ->
  forall outs' g, ffollows (ffaint h) (fleet_start modes) h outs' g -> outs' = outs /\ fv_vals g = fl_data w /\ same_roots w g.
Proof.
  intros modes h outs w E Hf Hk N Hq Hn outs' g F. destruct (run_step modes h Hf Hk h _ _ _ _ (new_winv modes h) (fun c Hc => Hc) E N) as [_ Only].
  destruct (Only Hn Hq _ _ F) as [-> W]. split; auto. split; [symmetry; apply W|]. eapply winv_roots; eauto.
Qed.

(** *** Objects opened on an old root *)
Lemma looks_same : forall lim e c, looks c -> snd (empt_do lim e c) = e.
Proof. intros lim e c L. destruct L; reflexivity. Qed.
Lemma xdoes_looks : forall s lim g c o g', xdoes s lim g c o g' -> looks c -> g' = g.
Proof. intros s lim g c o g' X L. destruct L; inversion X; subst; reflexivity. Qed.
Lemma replaced_other : forall A l i (x : A) l' n, replaced l i x l' -> n <> i -> nth_error l' n = nth_error l n.
Proof.
  intros A l i x l' n R Hn. destruct R as [l1 a y l2]. destruct (Nat.lt_ge_cases n (length l1)) as [Hl|Hl].
  - rewrite !nth_error_app1 by exact Hl. reflexivity.
  - rewrite !nth_error_app2 by exact Hl. destruct (n - length l1) eqn:E; [lia|reflexivity].
Qed.
Lemma replaced_here : forall A l i (x : A) l', replaced l i x l' -> nth_error l' i = Some x.
Proof. intros A l i x l' R. destruct R. apply nth_mid. Qed.
Lemma fdoes_keep : forall faint g c o g' n m, fdoes faint g c o g' -> nth_error (fv_objs g) n = Some m ->
  (forall lim q, c = FCall n lim q -> looks q) -> nth_error (fv_objs g') n = Some m.
Proof.
  intros faint g c o g' n m X En Hl.
  assert (Ext : forall m1, nth_error (fv_objs g ++ [m1]) n = Some m).
  { intros m1. rewrite nth_error_app1; [exact En|]. apply nth_error_Some. congruence. }
  destruct X as [i lim q o m1 vals r used objs Em Xd Rp| | | | | | ]; cbn [fv_objs]; auto.
  destruct (Nat.eq_dec n i) as [->|Hn].
  - rewrite (replaced_here _ _ _ _ _ Rp). assert (m1 = m) by congruence. subst m1.
    pose proof (xdoes_looks _ _ _ _ _ _ Xd (Hl _ _ eq_refl)) as E. injection E as -> -> ->. destruct m; reflexivity.
  - rewrite (replaced_other _ _ _ _ _ _ Rp Hn). exact En.
Qed.
Lemma ffollows_keep : forall faint g h os g' n m, ffollows faint g h os g' -> nth_error (fv_objs g) n = Some m ->
  (forall lim q, In (FCall n lim q) h -> looks q) -> nth_error (fv_objs g') n = Some m.
Proof.
  intros faint g h os g' n m F. induction F as [|g c o g1 h os g2 X F IH]; intros En Hl; [exact En|]. apply IH.
  - eapply fdoes_keep; [exact X|exact En|]. intros lim q ->. apply (Hl lim). left. reflexivity.
  - intros lim q Hq. apply (Hl lim). right. exact Hq.
Qed.
Lemma fleet_run_app : forall h1 w h2, fleet_run w (h1 ++ h2) =
  let (o1, w1) := fleet_run w h1 in let (o2, w2) := fleet_run w1 h2 in (o1 ++ o2, w2).
Proof.
  induction h1 as [|c h1 IH]; intros w h2; cbn [app fleet_run]; [destruct (fleet_run w h2); reflexivity|].
  destruct (fleet_do w c) as [o w1]. rewrite IH. destruct (fleet_run w1 h1) as [o1 w2]. destruct (fleet_run w2 h2); reflexivity.
Qed.
Lemma look_do : forall w i lim c h, looks c -> nth_error (fl_objs w) i = Some h ->
  exists w', fleet_do w (FCall i lim c) = (FAns (fst (empt_do lim (obj_of w h) c)), w') /\ fl_log w' = fl_log w.
Proof.
  intros w i lim c h L E. cbn [fleet_do]. rewrite E. pose proof (looks_same lim (obj_of w h) c L) as Es.
  destruct (empt_do lim (obj_of w h) c) as [o e]. cbn [snd] in Es. subst e. cbn [fst]. eexists. split; reflexivity.
Qed.

Theorem fleet_snapshot : forall modes h1 outs1 w1 j hj w1' h2 outs2 w2 k lim,
  fleet_run (fleet_new modes) h1 = (outs1, w1) -> nth_error (fl_objs w1) j = Some hj -> empt_root (obj_of w1 hj) <> None ->
  fleet_do w1 (FOpen j) = (FOpened (Ok tt), w1') -> fleet_run w1' h2 = (outs2, w2) ->
  (forall lim q, In (FCall (length (fl_objs w1)) lim q) h2 -> looks q) ->
  let n := length (fl_objs w1) in
  ffits (h1 ++ h2 ++ [FCall n lim (QGet (KBytes k))]) -> fkeys_ok modes (h1 ++ h2 ++ [FCall n lim (QGet (KBytes k))]) -> no_collision (fl_log w2) ->
  (forall m, In m modes -> forall x, In x (k :: fkeys (h1 ++ h2)) -> frames m x < lim) ->
  (exists hn, nth_error (fl_objs w2) n = Some hn /\ empt_root_hash (obj_of w2 hn) = empt_root_hash (obj_of w1 hj)) /\
  answer w2 n lim (QRef (KBytes k)) = answer w1 j lim (QRef (KBytes k)) /\
  answer w2 n lim (QIn (KBytes k)) = answer w1 j lim (QIn (KBytes k)) /\
  forall v, answer w2 n lim (QGet (KBytes k)) = FAns (AVal (Ok v)) ->
    In (k, v) (fl_data w2) /\ exists k' b, answer w1 j lim (QRef (KBytes k)) = FAns (ARef (Ok (mkRef k' b))) /\ keccak (k' ++ b) = keccak (k ++ val_bytes v).
Proof.
  intros modes h1 outs1 w1 j hj w1' h2 outs2 w2 k lim E1 Ej Hr Eo E2 Hl n Hf Hk N Hd.
  set (h0 := h1 ++ h2 ++ [FCall n lim (QGet (KBytes k))]) in *.
  assert (D0 : dinv (fl_trie (fleet_new modes)) (fl_log (fleet_new modes))) by apply (new_winv modes h0).
  assert (Sub1 : forall c, In c h1 -> In c h0) by (intros c Hc; apply in_or_app; auto).
  assert (Sub2 : forall c, In c h2 -> In c h0) by (intros c Hc; apply in_or_app; right; apply in_or_app; auto).
  assert (Il : incl (fl_log w1) (fl_log w2)).
  { assert (D1 : dinv (fl_trie w1) (fl_log w1)).
    { clear - E1 D0 keccak_len. revert E1 D0. generalize (fleet_new modes). revert outs1. induction h1 as [|c h IH]; intros os w E D; cbn [fleet_run] in E; [injection E as _ <-; exact D|].
      destruct (fleet_do w c) as [o w2] eqn:Eo. destruct (fleet_run w2 h) as [os' w3] eqn:Er. injection E as _ <-.
      eapply IH; [exact Er|]. eapply (do_log w c); eauto. }
    destruct (do_log _ _ _ _ D1 Eo) as [D1' I1]. eapply incl_tran; [exact I1|]. eapply run_log; eauto. }
  assert (N1 : no_collision (fl_log w1)) by (intros x y Hx Hy; apply N; apply Il; assumption).
  destruct (run_step modes h0 Hf Hk h1 _ _ _ _ (new_winv modes h0) Sub1 E1 N1) as [(g1 & F1 & W1) _].
  destruct (open_step modes h0 Hf Hk _ _ _ _ _ W1 Eo) as [(g1' & X1 & W1') _].
  destruct (run_step modes h0 Hf Hk h2 _ _ _ _ W1' Sub2 E2 N) as [(g2 & F2 & W2) _].
  assert (Len : length (fv_objs g1) = n) by (symmetry; apply (winv_roots modes h0 Hk _ _ W1)).
  pose proof (Forall2_nth _ _ _ _ _ j (proj2 (proj2 (proj2 (proj2 W1))))) as Fj. rewrite Ej in Fj.
  destruct (nth_error (fv_objs g1) j) as [m|] eqn:Em; [|contradiction]. destruct Fj as (Hs & Hmo & Hb).
  assert (Ng : nth_error (fv_objs g1') n = Some m).
  { inversion X1 as [ |? m0 Em' Hc|? m0 Em' Hu He|? m0 Em' Hu He Hf'| | |? Hx]; subst.
    - assert (m0 = m) by congruence. subst m0. cbn [fv_objs]. rewrite <- Len. apply nth_mid.
    - exfalso. assert (m0 = m) by congruence. subst m0. apply Hr.
      destruct (b_roots (ffaint h0) (mb_secure m) (fkeys h0) (Hk _ Hmo) (proj1 Hf) _ _ _ Hb) as [(_ & _ & Er)|([Hu'|[x Hx]] & _)]; [exact Er|congruence|elim Hx; apply He]. }
  assert (Ng2 : nth_error (fv_objs g2) n = Some m) by (eapply ffollows_keep; eauto).
  pose proof (Forall2_nth _ _ _ _ _ n (proj2 (proj2 (proj2 (proj2 W2))))) as Fn. rewrite Ng2 in Fn.
  destruct (nth_error (fl_objs w2) n) as [hn|] eqn:En; [|contradiction]. clear Fn.
  assert (Hkk : incl [k] (fkeys h0)).
  { intros x [<-|[]]. apply in_flat_map. exists (FCall n lim (QGet (KBytes k))). split; [|left; reflexivity]. apply in_or_app. right. apply in_or_app. right. left. reflexivity. }
  assert (Hd0 : forall m x, In m modes -> In x (fkeys h0) -> frames m x < lim).
  { intros m1 x Hm Hx. apply Hd; [exact Hm|]. unfold h0, fkeys in Hx. rewrite app_assoc, flat_map_app in Hx. apply in_app_or in Hx. destruct Hx as [Hx|[<-|[]]]; [right; exact Hx|left; reflexivity]. }
  (* what a reading call answers follows from the member and the data alone *)
  assert (Ask : forall w g i hi c, winv modes h0 w g -> no_collision (fl_log w) -> nth_error (fl_objs w) i = Some hi -> nth_error (fv_objs g) i = Some m ->
    looks c -> incl (ekeys1 c) (fkeys h0) -> etexts1 c = [] -> equiet1 c ->
    exists o, answer w i lim c = FAns o /\ xdoes (mb_secure m) lim (EView (fv_vals g) (mb_refs m) (mb_used m)) c o (EView (fv_vals g) (mb_refs m) (mb_used m)) /\
      forall o1, xdoes (mb_secure m) lim (EView (fv_vals g) (mb_refs m) (mb_used m)) c o1 (EView (fv_vals g) (mb_refs m) (mb_used m)) -> o1 = o).
  { intros w g i hi c W Nw Ei Eg Lc Hc Ht Hq. destruct (look_do w i lim c hi Lc Ei) as (w' & Ew & El).
    destruct (call_step modes h0 Hf Hk w g i lim c _ _ W Hc ltac:(rewrite Ht; intros ? ? []) Ew ltac:(rewrite El; exact Nw)) as [(g' & X & _) Only].
    exists (fst (empt_do lim (obj_of w hi) c)). split; [unfold answer; rewrite Ew; reflexivity|]. split.
    - inversion X as [? ? ? ? m0 vals r used objs Em' Xd Rp| | | | | |]; subst. assert (m0 = m) by congruence. subst m0.
      pose proof (xdoes_looks _ _ _ _ _ _ Xd Lc) as Ex. rewrite Ex in Xd. exact Xd.
    - intros o1 X1'. destruct (Only Hq Hd0 (FAns o1) (FView (fv_vals g) (fv_objs g))) as [E _]; [|injection E; auto].
      eapply fdoes_call; [exact Eg|exact X1'|]. apply nth_error_split in Eg. destruct Eg as (a & b & Eab & <-). rewrite Eab. destruct m; apply replaced_at. }
  destruct (Ask w1 g1 j hj (QRef (KBytes k)) W1 N1 Ej Em ltac:(constructor) Hkk eq_refl I) as (a1 & A1 & Xa1 & Oa1).
  destruct (Ask w2 g2 n hn (QRef (KBytes k)) W2 N En Ng2 ltac:(constructor) Hkk eq_refl I) as (a2 & A2 & Xa2 & Oa2).
  destruct (Ask w1 g1 j hj (QIn (KBytes k)) W1 N1 Ej Em ltac:(constructor) Hkk eq_refl I) as (b1 & B1 & Xb1 & Ob1).
  destruct (Ask w2 g2 n hn (QIn (KBytes k)) W2 N En Ng2 ltac:(constructor) Hkk eq_refl I) as (b2 & B2 & Xb2 & Ob2).
  destruct (Ask w2 g2 n hn (QGet (KBytes k)) W2 N En Ng2 ltac:(constructor) Hkk eq_refl I) as (c2 & C2 & Xc2 & Oc2).
  split; [|split; [|split]].
  - exists hn. split; [reflexivity|]. apply (proj2 (winv_roots modes h0 Hk _ _ W2) n hn m En Ng2). apply (proj2 (winv_roots modes h0 Hk _ _ W1) j hj m Ej Em). reflexivity.
  - rewrite A1, A2. f_equal. symmetry. apply Oa2. inversion Xa1; subst. constructor. assumption.
  - rewrite B1, B2. f_equal. symmetry. apply Ob2. inversion Xb1; subst. constructor. assumption.
  - intros v Ev. rewrite C2 in Ev. injection Ev as ->. inversion Xc2 as [? ? Fk| | | | | | | | | | | | | | | | | | | | | | | | | | |]; subst.
    inversion Fk as [| | |? k' b Hi Href Hv Hdg|]; subst. cbn [ev_vals ev_refs ev_used] in *.
    split; [rewrite (proj1 (proj2 W2)); exact Hi|]. exists k', b. split; [|exact Hdg]. rewrite A1. f_equal. symmetry. apply Oa1. constructor. exact Href.
Qed.
End Fleets.
