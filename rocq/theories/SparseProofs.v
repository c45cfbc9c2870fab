(** Proofs about SparseEMPT and RootEMPT on their own. *)
From Coq Require Import List Bool Arith NArith ZArith Lia.
From Verif Require Import Base BaseProofs Rlp RlpProofs NibblePath NibbleProofs Node ProofObj Mpt Tree TreeEnc
  StoreProofs UpdateProofs DeleteProofs ReadProofs Spec SpecCodec SpecProof MptRefine MptProofs PoiProofs PoeProofs
  MptCodecProofs Empt SpecEmpt EmptProofs EmptProofs2 SpecGet MptGetExact SpecSparse.
Import ListNotations.

Section SparseProofs.
Context {H : Hash}.
Hypothesis keccak_len : forall b, length (keccak b) = 32.

(** The trie of [l'] holds the references of what [l] holds. *)
Definition refs (l l' : list op) : Prop :=
  forall k, match dict_after l k with
            | Some b => exists rb, ref_encode (mkRef k b) = Ok rb /\ dict_after l' k = Some rb
            | None => dict_after l' k = None
            end.
Definition sinv (secure : bool) (l : list op) (t : mpt) : Prop :=
  exists l', reachable secure l' t /\ refs l l' /\ (forall k, In k (map op_key l') <-> In k (map op_key l)).

Lemma sparse_ref_Ok : forall k v r, sparse_ref k v = Ok r -> r = mkRef k (val_bytes v).
Proof. intros k [b|b|[] e b] r E; cbn in E; try discriminate; injection E as <-; reflexivity. Qed.

Lemma sparse_bytes : forall lim fl t k b rb, ref_encode (mkRef k b) = Ok rb ->
  sparse_update lim fl t k (VBytes b) = mpt_update lim fl t k rb.
Proof. intros lim fl t k b rb E. unfold sparse_update, sparse_ref, new_ref. cbn [bind]. rewrite E. reflexivity. Qed.

Lemma sparse_stored : forall lim fl t k v r rb, sparse_ref k v = Ok r -> ref_encode r = Ok rb ->
  sparse_update lim fl t k v = mpt_update lim fl t k rb.
Proof. intros lim fl t k v r rb E1 E2. unfold sparse_update. rewrite E1. cbn [bind]. rewrite E2. reflexivity. Qed.
Lemma sparse_refused : forall lim fl t k v x, sparse_ref k v = Err x -> sparse_update lim fl t k v = (Err x, t).
Proof. intros lim fl t k v x E. unfold sparse_update. rewrite E. reflexivity. Qed.

Lemma dict_snoc : forall l o, dict_after (l ++ [o]) = apply_op (dict_after l) o.
Proof. intros. unfold dict_after, apply_ops. rewrite fold_left_app. reflexivity. Qed.

Lemma refs_put : forall l l' k b rb, refs l l' -> ref_encode (mkRef k b) = Ok rb ->
  refs (l ++ [Put k b]) (l' ++ [Put k rb]).
Proof.
  intros l l' k b rb R E x. rewrite !dict_snoc. cbn [apply_op]. destruct (bytes_eqb_spec x k) as [->|]; [eauto|apply R].
Qed.
Lemma refs_del : forall l l' k, refs l l' -> refs (l ++ [Del k]) (l' ++ [Del k]).
Proof.
  intros l l' k R x. rewrite !dict_snoc. cbn [apply_op]. destruct (bytes_eqb_spec x k) as [->|]; [auto|apply R].
Qed.
Lemma refs_keys : forall l l' o o', op_key o = op_key o' -> (forall k, In k (map op_key l') <-> In k (map op_key l)) ->
  forall k, In k (map op_key (l' ++ [o'])) <-> In k (map op_key (l ++ [o])).
Proof.
  intros l l' o o' E Hi k. rewrite !map_app, !in_app_iff, Hi. cbn [map In]. rewrite E. tauto.
Qed.

Lemma sparse_call_grows : forall t c r t', dinv (m_map t) (m_log t) -> sparse_call t c = (r, t') ->
  dinv (m_map t') (m_log t') /\ grows t t'.
Proof.
  intros t [o lim cf fl] r t' Hd E. unfold sparse_call in E. cbn [sc_op sc_lim sc_cfault sc_faults] in E.
  assert (Hs : t' = t -> dinv (m_map t') (m_log t') /\ grows t t') by (intros ->; split; auto; apply grows_refl).
  destruct o as [k v|k].
  - unfold sparse_update in E. destruct (bind _ _) as [rb|x]; [|injection E as <- <-; auto].
    exact (call_keeps keccak_len t (Call (Put k rb) lim fl) r t' Hd E).
  - unfold sparse_delete in E. destruct cf; [injection E as <- <-; auto|].
    destruct (mpt_contains lim t k) as [[]|x]; try (injection E as <- <-; auto; fail).
    exact (call_keeps keccak_len t (Call (Del k) lim fl) r t' Hd E).
Qed.
Lemma sparse_run_grows : forall h t l t', dinv (m_map t) (m_log t) -> sparse_run t h = (l, t') ->
  dinv (m_map t') (m_log t') /\ grows t t'.
Proof.
  induction h as [|c h IH]; intros t l t' Hd E; cbn [sparse_run] in E.
  - injection E as <- <-. split; auto. apply grows_refl.
  - destruct (sparse_call t c) as [r t1] eqn:Ec. destruct (sparse_run t1 h) as [l2 t2] eqn:Er. injection E as <- <-.
    destruct (sparse_call_grows _ _ _ _ Hd Ec) as [D1 G1]. destruct (IH _ _ _ D1 Er) as [D2 G2].
    eauto using grows_trans.
Qed.

Lemma sparse_call_inv : forall secure l t c r t', sinv secure l t -> eok_op (sc_op c) ->
  sparse_call t c = (r, t') -> no_collision (m_log t') ->
  sinv secure (match r with Ok _ => l ++ [sop (sc_op c)] | Err _ => l end) t'.
Proof.
  intros secure l t [o lim cf fl] r t' (l' & R & Rf & Hk) Hok E Hn. unfold sparse_call in E.
  cbn [sc_op sc_lim sc_cfault sc_faults] in *.
  assert (Hs : forall x, (Err x, t) = (r, t') -> sinv secure (match r with Ok _ => l ++ [sop o] | Err _ => l end) t').
  { intros x Ex. injection Ex as <- <-. exists l'. auto. }
  destruct o as [k v|k].
  - destruct (sparse_ref k v) as [rf|x] eqn:Er; [|rewrite (sparse_refused _ _ _ _ _ _ Er) in E; eauto].
    pose proof (sparse_ref_Ok _ _ _ Er) as Erf. subst rf. destruct Hok as [Hk1 Hv1]. cbn [eop_key] in Hk1.
    destruct (ref_encode_total keccak_len (mkRef k (val_bytes v)) Hk1 Hv1) as (rb & Erb & Hne & Hsz). rewrite (sparse_stored _ _ _ _ _ _ _ Er Erb) in E.
    assert (Hop : ok_op secure (Put k rb)) by (split; cbn [op_key]; [lia|split; auto]).
    pose proof (reachable_call secure l' t (Call (Put k rb) lim fl) r t' R Hop E Hn) as R'. cbn [c_op] in R'.
    destruct r as [u|x].
    + exists (l' ++ [Put k rb]). split; [exact R'|]. split; [apply refs_put; auto|]. apply refs_keys; auto.
    + exists l'. auto.
  - unfold sparse_delete in E. destruct cf; [eauto|].
    destruct (mpt_contains lim t k) as [[]|x]; [|eauto|eauto].
    assert (Hop : ok_op secure (Del k)).
    { destruct Hok as [Hk1 _]. cbn [eop_key] in Hk1. split; cbn [op_key]; [lia|auto]. }
    pose proof (reachable_call secure l' t (Call (Del k) lim fl) r t' R Hop E Hn) as R'. cbn [c_op] in R'.
    destruct r as [u|x].
    + exists (l' ++ [Del k]). split; [exact R'|]. split; [apply refs_del; auto|]. apply refs_keys; auto.
    + exists l'. auto.
Qed.

Lemma sparse_run_inv : forall h secure l t l2 t', sinv secure l t -> Forall (fun c => eok_op (sc_op c)) h ->
  sparse_run t h = (l2, t') -> no_collision (m_log t') -> sinv secure (l ++ l2) t'.
Proof.
  induction h as [|c h IH]; intros secure l t l2 t' I Hok E Hn; cbn [sparse_run] in E.
  - injection E as <- <-. rewrite app_nil_r. exact I.
  - destruct (sparse_call t c) as [r t1] eqn:Ec. destruct (sparse_run t1 h) as [l3 t2] eqn:Er. injection E as <- <-.
    inversion_clear Hok as [|? ? Hc Hh].
    assert (D0 : dinv (m_map t) (m_log t)) by (destruct I as (l' & R & _); eapply (reach_dinv keccak_len); eauto).
    destruct (sparse_call_grows _ _ _ _ D0 Ec) as [D1 G1]. destruct (sparse_run_grows _ _ _ _ D1 Er) as [D2 G2].
    assert (Hn1 : no_collision (m_log t1)) by (eapply grows_nocoll; eauto).
    pose proof (sparse_call_inv _ _ _ _ _ _ I Hc Ec Hn1) as I1.
    pose proof (IH _ _ _ _ _ I1 Hh Er Hn) as I2. destruct r; auto. rewrite <- app_assoc in I2. exact I2.
Qed.

Lemma sreach_inv : forall secure l t, sreachable secure l t -> sinv secure l t.
Proof.
  intros secure l t (h & E & Hok & Hn). unfold sparse_new in E. fold (mpt_new secure) in E.
  destruct (sparse_run_grows _ _ _ _ (new_dinv secure) E) as [D1 G1].
  apply (sparse_run_inv h secure [] (mpt_new secure)); auto. exists []. split; [|split; [intros k; reflexivity|reflexivity]].
  exists []. split; [reflexivity|]. split; [constructor|]. eapply grows_nocoll; eauto.
Qed.

Lemma sparse_run_app : forall h1 h2 t l1 t1 l2 t2, sparse_run t h1 = (l1, t1) -> sparse_run t1 h2 = (l2, t2) ->
  sparse_run t (h1 ++ h2) = (l1 ++ l2, t2).
Proof.
  induction h1 as [|c h1 IH]; intros h2 t l1 t1 l2 t2 E1 E2; cbn [sparse_run app] in *.
  - injection E1 as <- <-. exact E2.
  - destruct (sparse_call t c) as [r t3]. destruct (sparse_run t3 h1) as [l3 t4] eqn:Er. injection E1 as <- <-.
    rewrite (IH _ _ _ _ _ _ Er E2). destruct r; reflexivity.
Qed.
Lemma sreach_call : forall secure l t c r t', sreachable secure l t -> eok_op (sc_op c) ->
  sparse_call t c = (r, t') -> no_collision (m_log t') ->
  sreachable secure (match r with Ok _ => l ++ [sop (sc_op c)] | Err _ => l end) t'.
Proof.
  intros secure l t c r t' (h & E & Hok & _) Hc Ec Hn. exists (h ++ [c]). split; [|split; auto].
  - rewrite (sparse_run_app h [c] _ _ _ (match r with Ok _ => [sop (sc_op c)] | Err _ => [] end) t' E).
    + destruct r; [|rewrite app_nil_r]; reflexivity.
    + cbn [sparse_run]. rewrite Ec. reflexivity.
  - apply Forall_app. auto.
Qed.

Lemma skeys_ok : forall secure l l' k, (forall x, In x (map op_key l') <-> In x (map op_key l)) ->
  keys_ok secure (k :: map op_key l) -> keys_ok secure (k :: map op_key l').
Proof. intros secure l l' k Hi. apply keys_ok_incl. intros x [<-|Hx]; [left; auto|right; apply Hi; auto]. Qed.

(** A present key: its reference, and [contains]. *)
Lemma sparse_present : forall secure l t k b lim, sreachable secure l t -> keys_ok secure (k :: map op_key l) ->
  dict_after l k = Some b -> frames secure k < lim ->
  trie_reference lim t k = Ok (mkRef k b) /\ mpt_contains lim t k = Ok true.
Proof.
  intros secure l t k b lim R Hk E Hl. destruct (sreach_inv _ _ _ R) as (l' & R' & Rf & Ki).
  pose proof (Rf k) as Rk. rewrite E in Rk. destruct Rk as (rb & Erb & E').
  pose proof (skeys_ok _ _ _ _ Ki Hk) as Hk'. split.
  - unfold trie_reference. rewrite (get_present_ok keccak_len _ _ _ _ _ _ R' Hk' E' Hl). cbn [bind].
    apply ref_round_trip. exact Erb.
  - destruct (contains_exact_nf keccak_len _ _ _ _ _ R' Hk' Hl) as (c & -> & Hc). f_equal. apply Hc. left. congruence.
Qed.

Lemma refs_none : forall l l' k, refs l l' -> (dict_after l' k = None <-> dict_after l k = None).
Proof.
  intros l l' k Rf. pose proof (Rf k) as Rk. destruct (dict_after l k); [destruct Rk as (rb & _ & ->); split; discriminate|tauto].
Qed.
Lemma refs_some : forall l l' k v, refs l l' -> dict_after l' k = Some v -> exists b, dict_after l k = Some b /\ ref_encode (mkRef k b) = Ok v.
Proof.
  intros l l' k v Rf E. pose proof (Rf k) as Rk. destruct (dict_after l k) as [b|]; [|congruence].
  destruct Rk as (rb & Erb & E'). exists b. split; congruence.
Qed.
Lemma refs_prefixed : forall l l' k, refs l l' -> prefixed_in (dict_after l') k -> prefixed_in (dict_after l) k.
Proof. intros l l' k Rf (k' & v & Hp & E). destruct (refs_some _ _ _ _ Rf E) as (b & Eb & _). exists k', b. auto. Qed.

(** [contains] *)
Lemma sparse_contains : forall secure l t k lim, sreachable secure l t -> keys_ok secure (k :: map op_key l) ->
  frames secure k < lim -> secure = true \/ ~ prefixed_in (dict_after l) k ->
  mpt_contains lim t k = Ok (match dict_after l k with Some _ => true | None => false end).
Proof.
  intros secure l t k lim R Hk Hl Hp. destruct (sreach_inv _ _ _ R) as (l' & R' & Rf & Ki).
  rewrite (contains_exact keccak_len _ _ _ _ _ R' (skeys_ok _ _ _ _ Ki Hk) Hl).
  - pose proof (Rf k) as Rk. destruct (dict_after l k); [destruct Rk as (rb & _ & ->)|rewrite Rk]; reflexivity.
  - destruct Hp as [?|Hp]; [left; auto|right]. intros F. apply Hp. eapply refs_prefixed; eauto.
Qed.

Lemma ref_decode_nil : exists e, ref_decode [] = Err e.
Proof. unfold ref_decode. change (rlp_decode []) with (@Err item DecodingError). cbn [bind]. eauto. Qed.

(** [get_reference] answers with a stored reference, of the key or of a longer one. *)
Lemma sparse_reference_exact : forall secure l t k lim r, sreachable secure l t -> keys_ok secure (k :: map op_key l) ->
  frames secure k < lim ->
  trie_reference lim t k = Ok r <->
  dict_after l (r_key r) = Some (r_data r) /\
  (r_key r = k \/ (secure = false /\ dict_after l k = None /\ sole_extension (dict_after l) k (r_data r) /\
     exists x, r_key r = k ++ x)).
Proof.
  intros secure l t k lim r R Hk Hl. destruct (sreach_inv _ _ _ R) as (l' & R' & Rf & Ki).
  pose proof (skeys_ok _ _ _ _ Ki Hk) as Hk'. unfold trie_reference. split.
  - intros E. destruct (mpt_get lim t k) as [v|] eqn:Eg; [|discriminate]. cbn [bind] in E.
    pose proof (ref_decode_sound _ _ E) as Ev.
    apply (get_exact keccak_len _ _ _ _ _ _ R' Hk' Hl) in Eg. destruct Eg as [Eg|(-> & N & [[-> _]|S])].
    + destruct (refs_some _ _ _ _ Rf Eg) as (b & Eb & Erb). apply ref_round_trip in Erb. rewrite Erb in E. injection E as <-.
      cbn [r_key r_data]. auto.
    + destruct ref_decode_nil as (e & F). congruence.
    + destruct S as ((x & Hx & Ex & Hu) & S). destruct (refs_some _ _ _ _ Rf Ex) as (b & Eb & Erb).
      apply ref_round_trip in Erb. rewrite Erb in E. injection E as <-. cbn [r_key r_data]. split; auto. right.
      split; auto. split; [apply (refs_none _ _ _ Rf); auto|]. split; [|eauto]. split.
      * exists x. split; auto. split; auto. intros x' Hx'. apply Hu. intros F. apply Hx'. apply (refs_none _ _ _ Rf). exact F.
      * destruct S as [?|(p & c & c' & s & E1 & E2 & E3 & E4)]; [auto|right]. exists p, c, c', s. repeat split; auto.
        intros F. apply E4. apply (refs_none _ _ _ Rf). exact F.
  - intros [Er [Ek|(-> & N & S & x & Ek)]]; destruct r as [rk rd]; cbn [r_key r_data] in *; subst rk.
    + apply (sparse_present secure l t k rd lim R Hk Er Hl).
    + pose proof (Rf (k ++ x)) as Rk. rewrite Er in Rk. destruct Rk as (rb & Erb & E').
      assert (Eg : mpt_get lim t k = Ok rb).
      { apply (get_exact keccak_len _ _ _ _ _ _ R' Hk' Hl). right. split; auto. split; [apply (refs_none _ _ _ Rf); auto|].
        right. destruct S as ((y & Hy & Ey & Hu) & S). assert (y = x) as -> by (symmetry; apply Hu; congruence). split.
        - exists x. split; auto. split; auto. intros x' Hx'. apply Hu. intros F. apply Hx'. apply (refs_none _ _ _ Rf). exact F.
        - destruct S as [?|(p & c & c' & s & E1 & E2 & E3 & E4)]; [auto|right]. exists p, c, c', s. repeat split; auto.
          intros F. apply E4. apply (refs_none _ _ _ Rf). exact F. }
      rewrite Eg. cbn [bind]. apply ref_round_trip. exact Erb.
Qed.

(** Calls that succeed. *)
Lemma sparse_update_ok : forall secure l t k b lim res t', sreachable secure l t ->
  (blen k < 2 ^ 57)%N -> (blen b < 2 ^ 57)%N -> sparse_update lim [] t k (VBytes b) = (res, t') ->
  no_collision (m_log t') -> frames secure k < lim ->
  res = Ok tt /\ sreachable secure (l ++ [Put k b]) t'.
Proof.
  intros secure l t k b lim res t' R Hk Hb E Hn Hl. destruct (sreach_inv _ _ _ R) as (l' & R' & Rf & Ki).
  destruct (ref_encode_total keccak_len (mkRef k b) Hk Hb) as (rb & Erb & Hne & Hsz).
  assert (Hop : ok_op secure (Put k rb)) by (split; cbn [op_key]; [lia|split; auto]).
  assert (res = Ok tt) as ->.
  { rewrite (sparse_bytes _ _ _ _ _ _ Erb) in E. apply (update_succeeds keccak_len _ _ _ _ _ _ _ _ R' Hop E Hn Hl). }
  split; auto. apply (sreach_call secure l t (SCall (EPut k (VBytes b)) lim false []) (Ok tt) t' R); auto. split; auto.
Qed.
Lemma sparse_delete_ok : forall secure l t k b lim res t', sreachable secure l t ->
  (blen k < 2 ^ 57)%N -> keys_ok secure (k :: map op_key l) -> sparse_delete lim false [] t k = (res, t') ->
  no_collision (m_log t') -> frames secure k < lim -> dict_after l k = Some b ->
  res = Ok tt /\ sreachable secure (l ++ [Del k]) t'.
Proof.
  intros secure l t k b lim res t' R Hs Hk E Hn Hl Ed. destruct (sreach_inv _ _ _ R) as (l' & R' & Rf & Ki).
  destruct (sparse_present _ _ _ _ _ _ R Hk Ed Hl) as [_ Ec].
  assert (res = Ok tt) as ->.
  { unfold sparse_delete in E. rewrite Ec in E. pose proof (Rf k) as Rk. rewrite Ed in Rk. destruct Rk as (rb & _ & E').
    apply (delete_present keccak_len secure l' t k rb lim res t' R' ltac:(lia) (skeys_ok _ _ _ _ Ki Hk) E Hn Hl E'). }
  split; auto. apply (sreach_call secure l t (SCall (EDel k) lim false []) (Ok tt) t' R); auto. split; cbn; auto.
Qed.
Lemma sparse_delete_absent : forall secure l t k lim cf fl res t', sreachable secure l t ->
  keys_ok secure (k :: map op_key l) -> sparse_delete lim cf fl t k = (res, t') ->
  no_collision (m_log t') -> dict_after l k = None -> exists e, res = Err e.
Proof.
  intros secure l t k lim cf fl res t' R Hk E Hn Ed. destruct (sreach_inv _ _ _ R) as (l' & R' & Rf & Ki).
  unfold sparse_delete in E. destruct cf; [injection E as <- <-; eauto|].
  destruct (mpt_contains lim t k) as [[]|x]; try (injection E as <- <-; eauto; fail).
  apply (delete_absent keccak_len secure l' t k lim fl res t' R' (skeys_ok _ _ _ _ Ki Hk) E Hn).
  apply (refs_none _ _ _ Rf). exact Ed.
Qed.

Lemma sparse_delete_missing : forall secure l t k lim fl, sreachable secure l t -> keys_ok secure (k :: map op_key l) ->
  frames secure k < lim -> secure = true \/ ~ prefixed_in (dict_after l) k -> dict_after l k = None ->
  sparse_delete lim false fl t k = (Err KeyNotFoundError, t).
Proof.
  intros secure l t k lim fl R Hk Hl Hp Ed. unfold sparse_delete. rewrite (sparse_contains _ _ _ _ _ R Hk Hl Hp), Ed. reflexivity.
Qed.

(** Same content, same root as an EMPT. *)
Lemma sparse_empt_root : forall secure l t outs e, sreachable secure l t -> ereachable secure outs e ->
  keys_ok secure (map op_key l ++ okeys outs) -> agrees (dict_after l) (status_after outs) ->
  root_hash t = empt_root_hash e.
Proof.
  intros secure l t outs e R Re Hk Ha. destruct (sreach_inv _ _ _ R) as (l' & R' & Rf & Ki).
  destruct (ereach_inv keccak_len _ _ _ Re) as (l2 & (Q2 & N2 & T2) & K2).
  apply (root_history_independent keccak_len secure l' t l2 (e_trie e)); auto.
  - eapply keys_ok_incl; [|exact Hk]. intros x Hx. rewrite in_app_iff in *. destruct Hx; [left; apply Ki|right]; auto.
  - intros k. pose proof (content_dict _ _ _ k T2) as C2. specialize (Ha k). pose proof (Rf k) as Rk.
    destruct (status_after outs k) as [v| |]; [| |contradiction].
    + rewrite Ha in Rk. destruct Rk as (a & Ea & ->), C2 as (b & Eb & ->). unfold ref_of in *. congruence.
    + rewrite Ha in Rk. congruence.
Qed.

(** The codec. *)
Lemma sparse_round_trip : forall secure l t b, sreachable secure l t -> sparse_encode t = Ok b ->
  exists t', sparse_decode b = Ok t' /\ m_map t' = m_map t /\ m_root t' = m_root t /\ m_secure t' = m_secure t /\
    behave_alike t t'.
Proof.
  intros secure l t b R E. destruct (sreach_inv _ _ _ R) as (l' & R' & _). eapply (mpt_round_trip_reads keccak_len); eauto.
Qed.

Lemma root_item_small : forall r s, (blen r < 2 ^ 57)%N ->
  exists b, rlp_encode (IList [IBytes r; IList []; e_bool s]) = Ok b.
Proof.
  intros r s Hr. unfold rlp_encode. set (i := IList _).
  assert (Hp : (blen (payload i) < 2 ^ 58)%N).
  { unfold i. cbn [payload flat_map]. rewrite app_nil_r, !blen_app.
    pose proof (blen_renc_bytes r ltac:(lia)) as H1.
    assert (E : (blen (renc (IList [])) = 1)%N) by reflexivity.
    assert (E' : (blen (renc (e_bool s)) = 1)%N) by (destruct s; reflexivity). lia. }
  destruct (N.ltb_spec (blen (payload i)) (2 ^ 64)); [|lia]. eauto.
Qed.
Lemma root_encodes : forall r s b, rlp_encode (IList [IBytes r; IList []; e_bool s]) = Ok b ->
  mpt_encode (mkMpt [] [[x80]] (Some r) s) = Ok b.
Proof. intros r s b E. unfold mpt_encode. cbn [m_map dvals map mapM bind m_root m_secure]. exact E. Qed.

(** A RootEMPT can always be encoded, and decodes to one that checks proofs alike. *)
Lemma root_round_trip : forall root secure, (forall r, root = Some r -> (blen r < 2 ^ 57)%N) ->
  exists b t', root_encode (root_new root secure) = Ok b /\ root_decode b = Ok t' /\
    m_root t' = m_root (root_new root secure) /\ m_secure t' = secure /\ root_hash t' = root_hash (root_new root secure) /\
    behave_alike (root_new root secure) t'.
Proof.
  intros root secure Hr. set (r := match root with None => EMPTY_HASH | Some r => r end).
  assert (Er : root_new root secure = mkMpt [] [[x80]] (Some r) secure) by reflexivity.
  assert (Hr' : (blen r < 2 ^ 57)%N).
  { unfold r. destruct root as [r0|]; [apply Hr; reflexivity|]. unfold blen, EMPTY_HASH. rewrite keccak_len. lia. }
  destruct (root_item_small r secure Hr') as (b & Eb). exists b, (mkMpt [] [[x80]] (Some r) secure). rewrite Er.
  split; [apply root_encodes; exact Eb|]. split.
  - unfold root_decode, mpt_decode. apply rlp_encode_decode in Eb. rewrite Eb. cbn [bind d_binary d_binlist mapM].
    assert (Es : d_bool (e_bool secure) = Ok secure) by (destruct secure; reflexivity). rewrite Es. reflexivity.
  - split; [reflexivity|]. split; [reflexivity|]. split; [reflexivity|]. apply same_state_alike. repeat split.
Qed.

(** So the root of an EMPT can be sent as bytes. *)
Lemma root_sent : forall secure outs e, ereachable secure outs e ->
  exists b t', root_encode (empt_get_root_trie e) = Ok b /\ root_decode b = Ok t' /\
    root_hash t' = empt_root_hash e /\ m_secure t' = secure /\
    forall lim p, mpt_verify_poi lim t' p = mpt_verify_poi lim (e_trie e) p /\
    mpt_verify_poe lim t' p = mpt_verify_poe lim (e_trie e) p.
Proof.
  intros secure outs e R. destruct (root_view keccak_len e) as (V1 & V2 & V3). pose proof (ereach_secure keccak_len _ _ _ R) as Es.
  unfold empt_get_root_trie in *.
  destruct (root_round_trip (m_root (e_trie e)) (m_secure (e_trie e))) as (b & t' & E1 & E2 & E3 & E4 & E5 & (B & _)).
  { intros r Er. destruct (ereach_inv keccak_len _ _ _ R) as (l & (Q & _) & _).
    destruct (reachable_repr keccak_len _ _ _ Q) as (_ & tr & Rt & _). destruct Rt as (_ & _ & _ & _ & _ & Hrt & _).
    assert (length r <= 32); [|unfold blen; lia].
    destruct Hrt as [[_ [F|F]]|[_ F]]; rewrite F in Er; try discriminate; injection Er as <-.
    - unfold EMPTY_HASH. rewrite keccak_len. lia.
    - apply (tref_le32 keccak_len). }
  exists b, t'. split; [exact E1|]. split; [exact E2|]. split; [congruence|]. split; [congruence|].
  intros lim p. destruct (V3 lim p) as [<- <-]. destruct (B lim [] []) as (_ & _ & _ & _ & B'). apply B'.
Qed.
End SparseProofs.
