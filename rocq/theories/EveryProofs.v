(** Proofs about SpecEvery.v: what every call on an EMPT or a SparseEMPT does. *)
From Coq Require Import List Bool Arith NArith ZArith Lia.
From Verif Require Import Base BaseProofs Rlp RlpProofs NibblePath NibbleProofs Node ProofObj Mpt Tree TreeEnc
  StoreProofs UpdateProofs DeleteProofs ReadProofs Spec SpecCodec SpecProof MptRefine MptProofs PoiProofs PoeProofs
  MptCodecProofs Empt SpecEmpt EmptProofs EmptProofs2 SpecGet MptGetExact SpecWalk WalkProofs PoeExact EmptPy SpecEvery.
Import ListNotations.

Section Every.
Context {H : Hash}.
Hypothesis keccak_len : forall b, length (keccak b) = 32.

(** ** More frames do not change an answer *)
Lemma get_more : forall f f' m r p, f <= f' -> get_ f m r p = Err RecursionError \/ get_ f' m r p = get_ f m r p.
Proof.
  induction f as [|f IH]; intros f' m r p Hf; cbn [get_]; [auto|]. destruct f' as [|f']; [lia|]. cbn [get_].
  destruct (get_node m r) as [n|e]; [|auto]. destruct (np_len p =? 0); [auto|]. destruct n as [lp d|ep nr|bs d]; [auto|..].
  - destruct (np_starts_with p ep); [|auto]. apply IH. lia.
  - cbv zeta. destruct (0 <? _); [|auto]. apply IH. lia.
Qed.
Lemma mpt_get_more : forall lim lim' t k, lim <= lim' ->
  mpt_get lim t k = Err RecursionError \/ mpt_get lim' t k = mpt_get lim t k.
Proof.
  intros lim lim' t k Hl. unfold mpt_get. destruct (root_falsy t); [auto|].
  destruct (get_more _ _ (m_map t) (root_ref t) (np_of (eff_key t k)) Hl) as [->| ->]; auto.
Qed.

Section Mode.
Variables (secure : bool) (K : list bytes).
Hypothesis K_ok : keys_ok secure K.
Hypothesis K_small : forall k, In k K -> (blen k < 2 ^ 57)%N.

(** ** The trie *)
Definition same_refs (d r : kvmap) : Prop :=
  forall k, match r k with Some b => exists rb, ref_encode (mkRef k b) = Ok rb /\ d k = Some rb | None => d k = None end.
Definition tinv (l : list op) (t : mpt) (r : kvmap) (used : bool) : Prop :=
  reachable secure l t /\ same_refs (dict_after l) r /\ (used = true <-> l <> []) /\ incl (map op_key l) K.

Lemma sr_none : forall d r k, same_refs d r -> (d k = None <-> r k = None).
Proof. intros d r k S. specialize (S k). destruct (r k); [destruct S as (? & _ & ->); split; discriminate|tauto]. Qed.
Lemma sr_some : forall d r k v, same_refs d r -> d k = Some v -> exists b, r k = Some b /\ ref_encode (mkRef k b) = Ok v.
Proof. intros d r k v S E. specialize (S k). destruct (r k) as [b|]; [|congruence]. destruct S as (rb & E1 & E2). exists b. split; congruence. Qed.
Lemma sr_some' : forall d r k b, same_refs d r -> r k = Some b -> exists rb, d k = Some rb /\ ref_encode (mkRef k b) = Ok rb.
Proof. intros d r k v S E. specialize (S k). rewrite E in S. destruct S as (rb & E1 & E2). eauto. Qed.
Lemma sr_not : forall d r k, same_refs d r -> (d k <> None <-> r k <> None).
Proof. intros d r k S. rewrite (sr_none _ _ k S). tauto. Qed.

Lemma sr_forks : forall d r k, same_refs d r -> (forks_at d k <-> forks_at r k).
Proof.
  intros d r k S. split; intros (b1 & r1 & b2 & r2 & Hh & H1 & H2); exists b1, r1, b2, r2; split; auto;
    rewrite ?(sr_not _ _ _ S) in *; auto.
Qed.
Lemma sr_sole : forall d r k y b rb, same_refs d r -> r (k ++ y) = Some b -> d (k ++ y) = Some rb ->
  (sole_extension d k rb <-> sole_extension r k b).
Proof.
  intros d r k y b rb S Er Ed. split; intros ((x & Hx & Ex & Hu) & N); split.
  - assert (y = x) as -> by (apply Hu; congruence). exists x. split; auto. split; auto. intros x' Hx'. apply Hu. apply (sr_not _ _ _ S). auto.
  - destruct N as [?|(p & c & c' & s & E1 & E2 & E3 & E4)]; [auto|right]. exists p, c, c', s. rewrite <- (sr_not _ _ _ S). auto.
  - assert (y = x) as -> by (apply Hu; congruence). exists x. split; auto. split; auto. intros x' Hx'. apply Hu. apply (sr_not _ _ _ S). auto.
  - destruct N as [?|(p & c & c' & s & E1 & E2 & E3 & E4)]; [auto|right]. exists p, c, c', s. rewrite (sr_not _ _ _ S). auto.
Qed.
Lemma sr_present : forall d r, same_refs d r -> forall q, present_keys secure d q <-> present_keys secure r q.
Proof.
  intros d r S q. split; intros (k & v & E & ->).
  - destruct (sr_some _ _ _ _ S E) as (b & Eb & _). exists k, b. auto.
  - destruct (sr_some' _ _ _ _ S E) as (b & Eb & _). exists k, b. auto.
Qed.
Lemma sr_false_positive : forall d r k, same_refs d r -> (false_positive d k <-> false_positive r k).
Proof.
  intros d r k S. split; intros (p & b & q & v & -> & Ep & (k' & v' & Hp & Ek) & Hn).
  - destruct (sr_some _ _ _ _ S Ep) as (v1 & E1 & _). destruct (sr_some _ _ _ _ S Ek) as (v2 & E2 & _).
    exists p, b, q, v1. split; auto. split; auto. split; [exists k', v2; auto|]. intros b' r' Hb. apply (sr_none _ _ _ S). auto.
  - destruct (sr_some' _ _ _ _ S Ep) as (v1 & E1 & _). destruct (sr_some' _ _ _ _ S Ek) as (v2 & E2 & _).
    exists p, b, q, v1. split; auto. split; auto. split; [exists k', v2; auto|]. intros b' r' Hb. apply (sr_none _ _ _ S). auto.
Qed.

Lemma k_ok : forall l k, incl (map op_key l) K -> In k K -> keys_ok secure (k :: map op_key l).
Proof. intros l k Hi Hk. eapply keys_ok_incl; [|exact K_ok]. intros x [<-|Hx]; auto. Qed.

Lemma dict_dec : forall l, (forall k, dict_after l k = None) \/ (exists k v, dict_after l k = Some v).
Proof.
  intros l. destruct (Exists_dec (fun k => dict_after l k <> None) (map op_key l)) as [X|X].
  - intros k. destruct (dict_after l k); [left|right]; congruence.
  - right. apply Exists_exists in X. destruct X as (k & _ & Hk). destruct (dict_after l k) as [v|] eqn:E; [|congruence]. eauto.
  - left. intros k. destruct (dict_after l k) as [v|] eqn:E; auto. exfalso. apply X. apply Exists_exists. exists k.
    split; [eapply dict_after_keys; eauto|congruence].
Qed.

Lemma raises_present : forall d q x, get_raises (present_keys secure d) q x -> exists k v, d k = Some v.
Proof. intros d q x (p & s & (_ & (y & k & v & E & _) & _) & _). eauto. Qed.

Lemma ref_exact : forall l t r used k lim a, tinv l t r used -> In k K -> frames secure k < lim ->
  trie_reference lim t k = a <-> refers secure lim r used k a.
Proof.
  intros l t r used k lim a (R & S & U & Hi) HkK Hl. pose proof (k_ok _ _ Hi HkK) as Hk. unfold trie_reference. split.
  - intros E. destruct (r k) as [b|] eqn:Er.
    { destruct (sr_some' _ _ _ _ S Er) as (rb & Ed & Erb). rewrite (get_present_ok keccak_len _ _ _ _ _ _ R Hk Ed Hl) in E.
      cbn [bind] in E. rewrite (ref_round_trip _ _ Erb) in E. subst a. constructor. exact Er. }
    pose proof (proj2 (sr_none _ _ k S) Er) as Ed. destruct (dict_dec l) as [De|Dn].
    { destruct (empty_trie_calls keccak_len secure l t k lim R Hk De ltac:(lia)) as (Eg & Ef & _).
      rewrite Eg in E. cbn [bind] in E. subst a.
      replace (root_falsy t) with used; [|apply eq_true_iff_eq; rewrite Ef; exact U].
      constructor. intros x. apply (sr_none _ _ _ S). auto. }
    destruct (mpt_get lim t k) as [v|e] eqn:Eg; cbn [bind] in E.
    + apply (get_exact keccak_len _ _ _ _ _ _ R Hk Hl) in Eg. destruct Eg as [Eg|(Em & _ & [[-> F]|F])]; [congruence|..].
      * subst a. apply refers_fork; auto. apply (sr_forks _ _ _ S). exact F.
      * assert (F0 := F). destruct F as ((y & Hy & Ey & _) & _). destruct (sr_some _ _ _ _ S Ey) as (b & Eb & Erb).
        rewrite (ref_round_trip _ _ Erb) in E. subst a. apply refers_other; auto.
        apply (sr_sole _ _ _ _ _ _ S Eb Ey). exact F0.
    + subst a. apply refers_lost; auto. apply (get_Err_raises keccak_len _ _ _ _ _ _ R Hk Ed Dn Hl) in Eg.
      eapply get_raises_same; [|exact Eg]. intros q. symmetry. apply sr_present. exact S.
  - intros F. destruct F as [b Er|De|x Er F|Em Er F|y b Em Er F Eb|F].
    + destruct (sr_some' _ _ _ _ S Er) as (rb & Ed & Erb). rewrite (get_present_ok keccak_len _ _ _ _ _ _ R Hk Ed Hl).
      cbn [bind]. apply ref_round_trip. exact Erb.
    + destruct (empty_trie_calls keccak_len secure l t k lim R Hk) as (Eg & Ef & _); [intros x; apply (sr_none _ _ _ S); auto|lia|].
      rewrite Eg. cbn [bind]. replace (root_falsy t) with used; [reflexivity|apply eq_true_iff_eq; rewrite Ef; exact U].
    + assert (F' : get_raises (present_keys secure (dict_after l)) (nibbles (trie_key secure k)) x)
        by (eapply get_raises_same; [|exact F]; intros q; apply sr_present; exact S).
      pose proof (raises_present _ _ _ F') as Dn.
      apply (get_Err_raises keccak_len _ _ _ _ _ _ R Hk (proj2 (sr_none _ _ k S) Er) Dn Hl) in F'. rewrite F'. reflexivity.
    + assert (Eg : mpt_get lim t k = Ok []).
      { apply (get_exact keccak_len _ _ _ _ _ _ R Hk Hl). right. split; auto. split; [apply (sr_none _ _ _ S); auto|].
        left. split; auto. apply (sr_forks _ _ _ S). exact F. }
      rewrite Eg. reflexivity.
    + destruct (sr_some' _ _ _ _ S Eb) as (rb & Ed & Erb).
      assert (Eg : mpt_get lim t k = Ok rb).
      { apply (get_exact keccak_len _ _ _ _ _ _ R Hk Hl). right. split; auto. split; [apply (sr_none _ _ _ S); auto|].
        right. apply (sr_sole _ _ _ _ _ _ S Eb Ed). exact F. }
      rewrite Eg. cbn [bind]. apply ref_round_trip. exact Erb.
    + lia.
Qed.
Lemma ref_sound : forall l t r used k lim a, tinv l t r used -> In k K -> trie_reference lim t k = a -> refers secure lim r used k a.
Proof.
  intros l t r used k lim a I Hk E. destruct (le_lt_dec lim (frames secure k)) as [Hl|Hl]; [|eapply ref_exact; eauto].
  destruct (mpt_get_more lim (S (frames secure k)) t k ltac:(lia)) as [Eg|Eg].
  - unfold trie_reference in E. rewrite Eg in E. cbn [bind] in E. subst a. apply refers_deep. exact Hl.
  - assert (E' : trie_reference (S (frames secure k)) t k = a) by (unfold trie_reference in *; rewrite Eg; exact E).
    apply (ref_exact _ _ _ _ _ _ _ I Hk (Nat.lt_succ_diag_r _)) in E'.
    destruct E' as [b Er|De|x Er F|Em Er F|y b Em Er F Eb|F];
      [apply refers_own|apply refers_empty|apply refers_lost|apply refers_fork|apply refers_other|apply refers_deep]; auto.
Qed.

Lemma in_sound : forall l t r used k lim a, tinv l t r used -> In k K -> mpt_contains lim t k = a -> asks secure lim r k a.
Proof.
  intros l t r used k lim a (R & S & U & Hi) HkK E. pose proof (k_ok _ _ Hi HkK) as Hk.
  assert (Hh : dict_after l k <> None \/ secure = false /\ false_positive (dict_after l) k <-> held secure r k).
  { unfold held. rewrite (sr_not _ _ _ S), (sr_false_positive _ _ _ S). tauto. }
  pose proof (contains_exact_nf keccak_len secure l t k (Datatypes.S (frames secure k)) R Hk (Nat.lt_succ_diag_r _)) as (b & Eb & Hb).
  destruct (reach_lookup keccak_len _ _ _ _ R Hk) as (tr & Rt & _ & Es & El).
  pose proof (repr_contains keccak_len t tr lim k Rt) as C. rewrite E in C.
  pose proof (repr_contains keccak_len t tr (Datatypes.S (frames secure k)) k Rt) as C2. rewrite Eb in C2.
  destruct a as [c|e].
  - assert (c = b) as -> by (apply eq_true_iff_eq; exact (iff_trans C (iff_sym C2))). rewrite Hh in Hb. destruct b; constructor.
    + apply Hb. auto.
    + intros F. apply Hb in F. discriminate.
  - destruct C as [-> Hl]. rewrite eff_key_eff, Es, (eff_frames keccak_len) in Hl. constructor. exact Hl.
Qed.
Lemma in_exact : forall l t r used k lim a, tinv l t r used -> In k K -> frames secure k < lim ->
  mpt_contains lim t k = a <-> asks secure lim r k a.
Proof.
  intros l t r used k lim a I Hk Hl. split; [eapply in_sound; eauto|]. intros A.
  pose proof (in_sound _ _ _ _ _ lim _ I Hk eq_refl) as B. remember (mpt_contains lim t k) as b.
  destruct A as [A|A|A]; destruct B as [B|B|B]; auto; try contradiction; lia.
Qed.

Lemma sr_set : forall l r k b rb, same_refs (dict_after l) r -> ref_encode (mkRef k b) = Ok rb ->
  same_refs (dict_after (l ++ [Put k rb])) (set_ref r k b).
Proof.
  intros l r k b rb S E x. rewrite dict_after_snoc. unfold set_ref. cbn [apply_op]. destruct (bytes_eqb_spec x k) as [->|]; [eauto|apply S].
Qed.
Lemma sr_drop : forall l r k, same_refs (dict_after l) r -> same_refs (dict_after (l ++ [Del k])) (drop_ref r k).
Proof.
  intros l r k S x. rewrite dict_after_snoc. unfold drop_ref. cbn [apply_op]. destruct (bytes_eqb_spec x k) as [->|]; [auto|apply S].
Qed.
Lemma keys_snoc : forall l o, incl (map op_key l) K -> In (op_key o) K -> incl (map op_key (l ++ [o])) K.
Proof. intros l o Hi Ho x Hx. rewrite map_app, in_app_iff in Hx. destruct Hx as [Hx|[<-|[]]]; auto. Qed.

Lemma put_inv : forall l t r used k b rb lim fl res t', tinv l t r used -> In k K -> (blen b < 2 ^ 57)%N ->
  ref_encode (mkRef k b) = Ok rb -> mpt_update lim fl t k rb = (res, t') -> no_collision (m_log t') ->
  match res with
  | Ok _ => exists l', tinv l' t' (set_ref r k b) true
  | Err x => gives_up secure lim fl k x /\ tinv l t' r used
  end.
Proof.
  intros l t r used k b rb lim fl res t' (R & S & U & Hi) Hk Hb Erb E Hn.
  destruct (ref_encode_total keccak_len (mkRef k b) (K_small _ Hk) Hb) as (rb' & Erb' & Hne & Hsz).
  assert (rb' = rb) by congruence. subst rb'. pose proof (K_small _ Hk) as Hks.
  assert (Hop : ok_op secure (Put k rb)) by (split; cbn [op_key]; [lia|split; auto]).
  pose proof (reachable_call secure l t (Call (Put k rb) lim fl) res t' R Hop E Hn) as R'. cbn [c_op] in R'.
  destruct res as [u|x].
  - exists (l ++ [Put k rb]). split; [exact R'|]. split; [apply sr_set; auto|].
    split; [split; auto; intros _; destruct l; discriminate|]. apply keys_snoc; auto.
  - destruct (reachable_repr keccak_len _ _ _ R) as (Es & tr & Rt & Hh).
    destruct (repr_update keccak_len lim fl t tr k rb (Err x) t') as (tr' & R2 & _ & _ & F); auto.
    { split; [apply eff_small; auto; lia|unfold SZ; lia]. }
    split; [|split; [exact R'|auto]].
    unfold fails in F. rewrite eff_key_eff, Es, (eff_frames keccak_len) in F. exact F.
Qed.

Lemma del_inv : forall l t r used k lim fl res t', tinv l t r used -> In k K ->
  mpt_delete lim fl t k = (res, t') -> no_collision (m_log t') ->
  match res with
  | Ok _ => r k <> None /\ exists l', tinv l' t' (drop_ref r k) used
  | Err x => (gives_up secure lim fl k x \/ r k = None) /\ tinv l t' r used
  end.
Proof.
  intros l t r used k lim fl res t' (R & S & U & Hi) HkK E Hn. pose proof (K_small _ HkK) as Hks.
  pose proof (k_ok _ _ Hi HkK) as Hk.
  assert (Hop : ok_op secure (Del k)) by (split; cbn [op_key]; [lia|exact I]).
  pose proof (reachable_call secure l t (Call (Del k) lim fl) res t' R Hop E Hn) as R'. cbn [c_op] in R'.
  destruct (reach_lookup keccak_len _ _ _ _ R Hk) as (tr & Rt & _ & Es & El).
  destruct (repr_delete keccak_len lim fl t tr k res t' Rt E Hn) as (tr' & R2 & F).
  destruct res as [u|x].
  - destruct F as [F _]. rewrite El in F. split; [apply (sr_not _ _ _ S); auto|].
    exists (l ++ [Del k]). split; [exact R'|]. split; [apply sr_drop; auto|]. split; [|apply keys_snoc; auto].
    rewrite U. assert (l <> []) by (intros ->; apply F; reflexivity). split; auto. intros _. destruct l; discriminate.
  - destruct F as (_ & _ & F). split; [|split; [exact R'|auto]].
    destruct F as [F|F]; [left|right; apply (sr_none _ _ _ S); congruence].
    unfold fails in F. rewrite eff_key_eff, Es, (eff_frames keccak_len) in F. exact F.
Qed.

Lemma lost_exact : forall l t r used k lim x, tinv l t r used -> In k K -> frames secure k < lim -> r k = None -> held secure r k ->
  mpt_delete lim [] t k = (Err x, t) <-> delete_raises (present_keys secure r) (nibbles (trie_key secure k)) x.
Proof.
  intros l t r used k lim x (R & S & U & Hi) HkK Hl Er Hh. pose proof (k_ok _ _ Hi HkK) as Hk.
  assert (Dn : exists k0 v0, dict_after l k0 = Some v0).
  { destruct Hh as [Hh|(_ & p & b & q & v & _ & Ep & _)]; [congruence|].
    destruct (sr_some' _ _ _ _ S Ep) as (rb & Eb & _). eauto. }
  rewrite (delete_Err_raises keccak_len _ _ _ _ _ _ R Hk (proj2 (sr_none _ _ k S) Er) Dn Hl).
  apply delete_raises_same. apply sr_present. exact S.
Qed.

(** Removing an absent key with few frames left and accesses that raise. *)
Lemma rd_any : forall m log fl t, t <> TEmpty -> wf t -> small t -> stored m t ->
  exists fl', (rd_node (tref t) (mkStore m log fl) = (Err StorageFault, mkStore m log fl') /\ fl <> []) \/
    (exists n, rd_node (tref t) (mkStore m log fl) = (Ok n, mkStore m log fl') /\ nmatch n t /\ (fl' <> [] -> fl <> [])).
Proof.
  intros m log fl t Hne Hw Hs St.
  destruct (get_node_stored keccak_len m t Hne Hw Hs (here_of_stored _ _ St)) as (n & En & Hm).
  unfold rd_node, mbind, tick. destruct (length (tref t) =? 32); cbn.
  - destruct fl as [|[] fl]; cbn.
    + exists []. right. exists n. rewrite En. auto.
    + exists fl. left. split; auto. discriminate.
    + exists fl. right. exists n. rewrite En. split; auto. split; auto. intros _. discriminate.
  - exists fl. right. exists n. rewrite En. auto.
Qed.
Lemma delete_any : forall fuel m log fl t path u r, t <> TEmpty -> wf t -> small t -> stored m t ->
  halt t (nibs path) = (u, r) -> lookup t (nibs path) = None ->
  exists x fl', delete_ fuel (tref t) path (mkStore m log fl) = (Err x, mkStore m log fl') /\
    ((x = StorageFault /\ fl <> []) \/ (x = RecursionError /\ fuel <= length (nibs path)) \/ x = delete_end u r).
Proof.
  induction fuel as [|f IH]; intros m log fl t path u r Hne Hw Hs St Eh El.
  { exists RecursionError, fl. split; [reflexivity|]. right. left. split; auto. lia. }
  rewrite delete_unfold. unfold mbind at 1.
  destruct (rd_any m log fl t Hne Hw Hs St) as (fl1 & [[En Hfl]|(n & En & Hm & Hfl)]); rewrite En; [exists StorageFault, fl1; auto|].
  destruct n as [lp d|ep nr|bs d], t as [|p w|p c|cs w]; cbn [nmatch] in Hm; try contradiction; cbn [delete_cont].
  - destruct Hm as [<- <-]. injection Eh as <- <-.
    destruct (np_eq path lp) eqn:Eq; [apply np_eq_spec in Eq; rewrite Eq, lookup_leaf_self in El; discriminate|].
    eexists _, fl1. split; [reflexivity|auto].
  - destruct Hm as [<- ->]. destruct Hw as (Hep & Hep0 & Hb & Hwc).
    assert (Hep' : length (nibs ep) <> 0) by (destruct (nibs ep); cbn; congruence).
    assert (Hc : c <> TEmpty) by (intros ->; contradiction).
    apply stored_ext in St. destruct St as [_ St]. cbn [halt] in Eh.
    destruct (strip (nibs ep) (nibs path)) as [q|] eqn:Es.
    + rewrite np_starts_with_spec, Es. pose proof (np_starts_with_skip _ _ _ Es) as Er. cbn [lookup] in El. rewrite Es in El.
      apply strip_spec in Es. assert (Hl := f_equal (@length nat) Es). rewrite app_length in Hl.
      destruct (IH m log fl1 c (np_consume path (np_len ep)) u r) as (x & fl' & Ed & Hx); auto; try (rewrite Er; auto; lia).
      { eapply small_ext; eauto. }
      exists x, fl'. unfold mbind. rewrite Ed. split; [reflexivity|]. rewrite Er in Hx.
      destruct Hx as [[-> Hx]|[[-> Hx]|Hx]]; auto. right. left. split; auto. lia.
    + rewrite np_starts_with_spec, Es. injection Eh as <- <-. eexists _, fl1. split; [reflexivity|auto].
  - destruct Hm as [-> <-]. apply wf_branch in Hw. destruct Hw as (Hlen & Hok & Hwc).
    apply stored_branch in St. destruct St as [_ St].
    destruct (path_cases path) as [[Hz Hn]|(i & q & Hn & Hz & Hi & Hq)]; rewrite Hz; cbn [Nat.eqb]; rewrite Hn in Eh, El.
    + injection Eh as <- <-. cbn [lookup] in El. destruct d; [|discriminate]. eexists _, fl1. split; [reflexivity|auto].
    + rewrite lookup_branch in El. rewrite halt_branch in Eh. cbn [andb]. rewrite Hi, nth_map_tref.
      destruct (tree_empty_dec (nth i cs TEmpty)) as [Hc|Hc].
      * injection Eh as <- <-. rewrite Hc. eexists _, fl1. split; [reflexivity|auto].
      * replace (length (tref (nth i cs TEmpty)) =? 0) with false.
        2:{ symmetry. apply Nat.eqb_neq. apply (tref_pos keccak_len) in Hc. apply Nat.ltb_lt in Hc. lia. }
        destruct (IH m log fl1 (nth i cs TEmpty) (np_consume path 1) u r) as (x & fl' & Ed & Hx); auto using wf_nth, stored_nth; try (rewrite Hq; auto).
        { eapply small_nth; eauto. }
        exists x, fl'. unfold mbind. rewrite Ed. split; [reflexivity|]. rewrite Hq in Hx.
        destruct Hx as [[-> Hx]|[[-> Hx]|Hx]]; auto. right. left. split; auto. rewrite Hn. cbn [length]. lia.
Qed.
Lemma lost_any : forall l t r used k lim fl x t', tinv l t r used -> In k K -> r k = None -> held secure r k ->
  mpt_delete lim fl t k = (Err x, t') ->
  gives_up secure lim fl k x \/ delete_raises (present_keys secure r) (nibbles (trie_key secure k)) x.
Proof.
  intros l t r used k lim fl x t' I HkK Er Hh E. assert (I0 := I). destruct I as (R & S & U & Hi). pose proof (k_ok _ _ Hi HkK) as Hk.
  assert (Dn : exists k0 v0, dict_after l k0 = Some v0).
  { destruct Hh as [Hh|(_ & p & b & q & v & _ & Ep & _)]; [congruence|].
    destruct (sr_some' _ _ _ _ S Ep) as (rb & Eb & _). eauto. }
  destruct (reach_halt keccak_len _ _ _ _ R Hk (proj2 (sr_none _ _ k S) Er) Dn) as (tr & u & q & Rt & Hne & Es & Eh & El & HK & Eq).
  destruct (repr_nonempty keccak_len t tr Rt Hne) as (E1 & E2 & E3 & E4). destruct Rt as (Hw & Hs & St & _).
  assert (El' : lookup tr (nibs (np_of (eff_key t k))) = None) by (rewrite nibs_np_of; exact El).
  assert (Eh' : halt tr (nibs (np_of (eff_key t k))) = (u, q)) by (rewrite nibs_np_of; exact Eh).
  pose proof (delete_any (Datatypes.S (frames secure k)) (m_map t) (m_log t) [] tr (np_of (eff_key t k)) u q Hne Hw Hs St Eh' El') as (x1 & fl1 & D1 & C1).
  destruct (delete_any lim (m_map t) (m_log t) fl tr (np_of (eff_key t k)) u q Hne Hw Hs St Eh' El') as (x2 & fl2 & D2 & C2).
  unfold mpt_delete, run_op in E. rewrite E2, E3, D2 in E. cbn in E. injection E as <- _.
  assert (Fr : length (nibs (np_of (eff_key t k))) = frames secure k).
  { rewrite nibs_np_of, nibs_of_length, eff_key_eff, Es, (eff_frames keccak_len). reflexivity. }
  rewrite Fr in C1, C2. destruct C2 as [C2|[C2|C2]]; [left; left; exact C2|left; right; exact C2|right].
  destruct C1 as [[_ C1]|[[_ C1]|C1]]; [congruence|lia|].
  apply (lost_exact _ _ _ _ _ (Datatypes.S (frames secure k)) _ I0 HkK (Nat.lt_succ_diag_r _) Er Hh).
  unfold mpt_delete, run_op. rewrite E2, E3, (delete_halt keccak_len (Datatypes.S (frames secure k)) (m_map t) (m_log t) tr (np_of (eff_key t k)) u q Hne Hw Hs St); auto.
  - cbn. subst x2. destruct t; reflexivity.
  - rewrite Fr. lia.
Qed.

(** ** SparseEMPT *)
Definition tgood (t : mpt) : Prop := dinv (m_map t) (m_log t).
Definition tgrown (t t' : mpt) : Prop := tgood t' /\ grows t t'.
Lemma tgrown_refl : forall t, tgood t -> tgrown t t.
Proof. intros t D. split; auto. apply grows_refl. Qed.
Lemma sparse_grown : forall lim t c o t', tgood t -> sparse_do lim t c = (o, t') -> tgrown t t'.
Proof.
  intros lim t c o t' D E. destruct c as [k|k|k|k v fl|k cf fl|]; cbn [sparse_do] in E;
    try (injection E as _ <-; apply tgrown_refl; exact D).
  - destruct k; injection E as _ <-; apply tgrown_refl; exact D.
  - destruct (sparse_update_py lim fl t k v) as [r t1] eqn:Eu. injection E as _ <-. unfold sparse_update_py in Eu.
    assert (P : forall k r t1, sparse_update lim fl t k v = (r, t1) -> tgrown t t1).
    { intros k0 r0 t0 E0. unfold sparse_update in E0. destruct (bind _ _) as [rb|x]; [|injection E0 as _ <-; apply tgrown_refl; exact D].
      exact (call_keeps keccak_len t (Call (Put k0 rb) lim fl) r0 t0 D E0). }
    destruct v as [b|b|[] d b]; try (injection Eu as _ <-; apply tgrown_refl; exact D);
      (destruct k; [eapply P; eauto|injection Eu as _ <-; apply tgrown_refl; exact D]).
  - destruct k as [k|]; [|injection E as _ <-; apply tgrown_refl; exact D].
    destruct (sparse_delete lim cf fl t k) as [r t1] eqn:Eu. injection E as _ <-. unfold sparse_delete in Eu.
    destruct cf; [injection Eu as _ <-; apply tgrown_refl; exact D|].
    destruct (mpt_contains lim t k) as [[]|x]; try (injection Eu as _ <-; apply tgrown_refl; exact D).
    exact (call_keeps keccak_len t (Call (Del k) lim fl) r t1 D Eu).
Qed.

Lemma sparse_array : forall lim fl t k b, sparse_update lim fl t k (VBytearray b) = (Err TypeError, t).
Proof. intros. unfold sparse_update, sparse_ref. cbn [new_ref bind]. reflexivity. Qed.
Lemma sparse_bytes : forall lim fl t k b rb, ref_encode (mkRef k b) = Ok rb -> sparse_update lim fl t k (VBytes b) = mpt_update lim fl t k rb.
Proof.
  intros lim fl t k b rb E. unfold sparse_update.
  assert (Eb : bind (sparse_ref k (VBytes b)) (fun r => ref_encode r) = ref_encode (mkRef k b)) by reflexivity. rewrite Eb, E. reflexivity.
Qed.
Lemma held_dec : forall l t r used k lim x, tinv l t r used -> In k K -> mpt_contains lim t k = Ok x -> (x = true <-> held secure r k).
Proof.
  intros l t r used k lim x I Hk E. pose proof (in_sound _ _ _ _ _ _ _ I Hk E) as A. remember (Ok x) as a eqn:Ea. destruct A as [F|F|F]; try discriminate;
    injection Ea as <-; split; intros; try discriminate; try contradiction; auto.
Qed.
Lemma sparse_sound : forall l t r used lim c o t', tinv l t r used -> incl (skeys1 c) K -> sfits1 c ->
  sparse_do lim t c = (o, t') -> no_collision (m_log t') ->
  exists l' r' used', sdoes secure lim r used c o r' used' /\ tinv l' t' r' used'.
Proof.
  intros l t r used lim c o t' I HK Hf E Hnc. destruct c as [k|k|k|k v fl|k cf fl|]; cbn [sparse_do] in E.
  - exists l, r, used. assert (E' : (BVal (Err TypeError), t) = (o, t')) by (destruct k; exact E). injection E' as <- <-.
    split; auto. apply sdoes_item.
  - injection E as <- <-. exists l, r, used. split; auto. destruct k as [k|]; cbn [with_key]; [|apply sdoes_ref_other].
    apply sdoes_ref. eapply ref_sound; [exact I| |reflexivity]. apply HK. left. reflexivity.
  - injection E as <- <-. exists l, r, used. split; auto. destruct k as [k|]; cbn [with_key]; [|apply sdoes_in_other].
    apply sdoes_in. eapply in_sound; [exact I| |reflexivity]. apply HK. left. reflexivity.
  - destruct (sparse_update_py lim fl t k v) as [a t1] eqn:Eu. injection E as <- <-. unfold sparse_update_py in Eu.
    destruct v as [b|b|[] d b]; try (injection Eu as <- <-; exists l, r, used; split; [constructor|exact I]; fail).
    + destruct k as [k|]; [|injection Eu as <- <-; exists l, r, used; split; [constructor|exact I]].
      pose proof (HK k (or_introl eq_refl)) as Hk. cbn [sfits1 val_bytes] in Hf.
      destruct (ref_encode_total keccak_len (mkRef k b) (K_small _ Hk) Hf) as (rb & Erb & _ & _).
      rewrite (sparse_bytes _ _ _ _ _ _ Erb) in Eu.
      pose proof (put_inv _ _ _ _ _ _ _ _ _ _ _ I Hk Hf Erb Eu Hnc) as P. destruct a as [[]|x].
      * destruct P as [l' P]. exists l', (set_ref r k b), true. split; auto. apply sdoes_put.
      * destruct P as [F P]. exists l, r, used. split; auto. apply sdoes_put_not; auto.
    + assert (E' : (Err TypeError, t) = (a, t1)) by (destruct k; [rewrite sparse_array in Eu|]; exact Eu). injection E' as <- <-.
      exists l, r, used. split; auto. apply sdoes_put_array.
  - destruct k as [k|]; [|injection E as <- <-; exists l, r, used; split; auto; apply sdoes_del_other].
    pose proof (HK k (or_introl eq_refl)) as Hk. destruct (sparse_delete lim cf fl t k) as [a t1] eqn:Eu. injection E as <- <-. unfold sparse_delete in Eu.
    destruct cf; [injection Eu as <- <-; exists l, r, used; split; auto; apply sdoes_del_fault|].
    destruct (mpt_contains lim t k) as [[]|x] eqn:Ec.
    + assert (Hh : held secure r k) by (eapply held_dec; eauto).
      pose proof (del_inv _ _ _ _ _ _ _ _ _ I Hk Eu Hnc) as P. destruct a as [[]|x].
      * destruct P as [Hn [l' P]]. exists l', (drop_ref r k), used. split; auto. apply sdoes_del; auto.
      * destruct P as [F P]. exists l, r, used. split; auto. destruct (r k) as [b|] eqn:Er.
        -- destruct F as [F|F]; [|discriminate]. apply sdoes_del_not; auto. congruence.
        -- apply sdoes_del_lost; auto. exact (lost_any _ _ _ _ _ _ _ _ _ I Hk Er Hh Eu).
    + injection Eu as <- <-. exists l, r, used. split; auto. apply sdoes_del_none. intros F. eapply held_dec in F; eauto. discriminate.
    + injection Eu as <- <-. exists l, r, used. split; auto. pose proof (in_sound _ _ _ _ _ _ _ I Hk Ec) as A.
      remember (Err x) as z eqn:Ez. destruct A as [F|F|F]; try discriminate. injection Ez as <-. apply sdoes_del_deep. exact F.
  - injection E as <- <-. exists l, r, used. split; auto. apply sdoes_root.
Qed.
Lemma sdoes_det : forall l t r used lim c a b ra ua rb ub, tinv l t r used -> incl (skeys1 c) K -> squiet1 c ->
  (forall k, In k K -> frames secure k < lim) ->
  sdoes secure lim r used c a ra ua -> sdoes secure lim r used c b rb ub -> a = b /\ ra = rb /\ ua = ub.
Proof.
  intros l t r used lim c a b ra ua rb ub I HK Hq Hd Da Db.
  destruct c as [k|k|k|k v fl|k cf fl|]; cbn [squiet1] in Hq.
  - inversion Da; subst. inversion Db; subst. auto.
  - destruct k as [k|]; [|inversion Da; subst; inversion Db; subst; auto].
    pose proof (HK k (or_introl eq_refl)) as Hk.
    inversion Da as [ | |? x Rx| | | | | | | | | | | | | | | | ]; subst. inversion Db as [ | |? y Ry| | | | | | | | | | | | | | | | ]; subst.
    apply (ref_exact _ _ _ _ _ _ _ I Hk (Hd k Hk)) in Rx. apply (ref_exact _ _ _ _ _ _ _ I Hk (Hd k Hk)) in Ry. split; [congruence|auto].
  - destruct k as [k|]; [|inversion Da; subst; inversion Db; subst; auto].
    pose proof (HK k (or_introl eq_refl)) as Hk. pose proof (Hd k Hk) as Hl.
    inversion Da as [ | | | |? x Rx| | | | | | | | | | | | | | ]; subst. inversion Db as [ | | | |? y Ry| | | | | | | | | | | | | | ]; subst.
    destruct Rx, Ry; auto; try tauto; lia.
  - subst fl. destruct k as [k|].
    + pose proof (HK k (or_introl eq_refl)) as Hk. pose proof (Hd k Hk) as Hl.
      assert (Hg : forall x, ~ gives_up secure lim [] k x) by (intros x [[_ F]|[_ F]]; [congruence|lia]).
      inversion Da; subst; try (exfalso; eapply Hg; eauto; fail); inversion Db; subst; try (exfalso; eapply Hg; eauto; fail); auto.
    + inversion Da; subst; inversion Db; subst; auto.
  - destruct Hq as [-> ->]. destruct k as [k|]; [|inversion Da; subst; inversion Db; subst; auto].
    pose proof (HK k (or_introl eq_refl)) as Hk. pose proof (Hd k Hk) as Hl.
    assert (Hg : forall x, ~ gives_up secure lim [] k x) by (intros x [[_ F]|[_ F]]; [congruence|lia]).
    assert (Hlost : forall x, gives_up secure lim [] k x \/ delete_raises (present_keys secure r) (nibbles (trie_key secure k)) x ->
      r k = None -> held secure r k -> mpt_delete lim [] t k = (Err x, t)).
    { intros x [F|F] Er Hh; [exfalso; eapply Hg; eauto|]. apply (lost_exact _ _ _ _ _ _ _ I Hk Hl Er Hh). exact F. }
    inversion Da; subst; try (exfalso; eapply Hg; eauto; fail); try lia; inversion Db; subst; try (exfalso; eapply Hg; eauto; fail); try lia; auto;
      try (exfalso; match goal with F : ~ held _ _ _ |- _ => apply F; auto; left; auto end; fail); try congruence.
    assert (Ex : (@Err unit x, t) = (Err x0, t)) by (rewrite <- (Hlost x), <- (Hlost x0); auto). split; [congruence|auto].
  - inversion Da; subst. inversion Db; subst. auto.
Qed.
Lemma sparse_session_grown : forall h t outs t', tgood t -> sparse_session t h = (outs, t') -> tgrown t t'.
Proof.
  induction h as [|[lim c] h IH]; intros t outs t' D E; cbn [sparse_session] in E.
  - injection E as _ <-. apply tgrown_refl; auto.
  - destruct (sparse_do lim t c) as [o t1] eqn:Eo. destruct (sparse_session t1 h) as [os t2] eqn:Es. injection E as _ <-.
    destruct (sparse_grown _ _ _ _ _ D Eo) as [D1 G1]. destruct (IH _ _ _ D1 Es) as [D2 G2]. split; auto. eapply grows_trans; eauto.
Qed.
Lemma sparse_session_sound : forall h l t r used outs t', tinv l t r used -> tgood t -> incl (skeys h) K ->
  (forall lim c, In (lim, c) h -> sfits1 c) -> sparse_session t h = (outs, t') -> no_collision (m_log t') ->
  (exists l' r' used', sfollows secure r used h outs r' used' /\ tinv l' t' r' used') /\
  ((forall lim c, In (lim, c) h -> squiet1 c /\ forall k, In k K -> frames secure k < lim) ->
   forall outs' r' used', sfollows secure r used h outs' r' used' -> outs' = outs).
Proof.
  induction h as [|[lim c] h IH]; intros l t r used outs t' I D HK Hf E Hnc; cbn [sparse_session] in E.
  - injection E as <- <-. split.
    + exists l, r, used. split; auto. constructor.
    + intros _ outs' r' used' F. inversion F; subst. reflexivity.
  - destruct (sparse_do lim t c) as [o t1] eqn:Eo. destruct (sparse_session t1 h) as [os t2] eqn:Es. injection E as <- <-.
    destruct (sparse_grown _ _ _ _ _ D Eo) as [D1 G1]. destruct (sparse_session_grown _ _ _ _ D1 Es) as [_ G2].
    assert (HK1 : incl (skeys1 c) K) by (intros k Hk; apply HK; apply in_or_app; auto).
    assert (HK2 : incl (skeys h) K) by (intros k Hk; apply HK; apply in_or_app; auto).
    assert (Hf2 : forall lim' c', In (lim', c') h -> sfits1 c') by (intros lim' c' Hi; eapply Hf; right; exact Hi).
    destruct (sparse_sound _ _ _ _ _ _ _ _ I HK1 (Hf lim c (or_introl eq_refl)) Eo (grows_nocoll _ _ G2 Hnc)) as (l1 & r1 & u1 & Do & I1).
    destruct (IH _ _ _ _ _ _ I1 D1 HK2 Hf2 Es Hnc) as [(l2 & r2 & u2 & Fo & I2) Only]. split.
    + exists l2, r2, u2. split; auto. econstructor; eauto.
    + intros Hq outs' r' used' F. inversion F as [|? ? ? ? o' r1' u1' ? outs2 ? ? Do' Fo']; subst.
      destruct (Hq lim c (or_introl eq_refl)) as [Hq1 Hd].
      destruct (sdoes_det _ _ _ _ _ _ _ _ _ _ _ _ I HK1 Hq1 Hd Do Do') as (<- & <- & <-). f_equal. eapply Only; [|exact Fo'].
      intros lim' c' Hi. apply Hq. right. exact Hi.
Qed.

(** ** The EMPT *)
Variable T : list bytes.
Hypothesis T_ok : no_collision T.

Definition ginv (l : list op) (e : empt) (g : eview) : Prop :=
  tinv l (e_trie e) (ev_refs g) (ev_used g) /\ e_data e = ev_vals g /\ NoDup (map fst (ev_vals g)) /\
  (forall k v, In (k, v) (ev_vals g) -> storable v = true /\ In k K /\ In (k ++ val_bytes v) T /\ ev_refs g k <> None) /\
  (forall k b, ev_refs g k = Some b -> In (k ++ b) T).

Lemma in_fst : forall (l : list (bytes * value)) k, In k (map fst l) -> exists v, In (k, v) l.
Proof. intros l k Hk. apply in_map_iff in Hk. destruct Hk as ([k' v] & <- & Hin). eauto. Qed.
Lemma dget_of_In : forall (l : list (bytes * value)) k v, NoDup (map fst l) -> In (k, v) l -> dget l k = Some v.
Proof.
  induction l as [|[k' v'] l IH]; intros k v Hn Hi; [destruct Hi|]. cbn [map fst] in Hn. inversion_clear Hn as [|? ? Hk Hn']. cbn [dget].
  destruct Hi as [E|Hi].
  - injection E as -> ->. rewrite bytes_eqb_refl. reflexivity.
  - destruct (bytes_eqb_spec k k') as [->|]; [|auto]. exfalso. apply Hk. apply in_map_iff. exists (k', v). auto.
Qed.
Lemma unique_val : forall (l : list (bytes * value)) k v w, NoDup (map fst l) -> In (k, v) l -> In (k, w) l -> v = w.
Proof. intros l k v w Hn H1 H2. apply (dget_of_In _ _ _ Hn) in H1. apply (dget_of_In _ _ _ Hn) in H2. congruence. Qed.

Lemma ref_eq_text : forall k a b, In (k ++ a) T -> In (k ++ b) T -> (ref_eq (mkRef k a) (mkRef k b) = true <-> a = b).
Proof.
  intros k a b Ha Hb. rewrite (ref_eq_keccak keccak_len). cbn [r_key r_data]. split; [|intros ->; reflexivity].
  intros E. apply T_ok in E; auto. eapply app_inv_head; eauto.
Qed.

Lemma refers_err : forall lim r used k x, refers secure lim r used k (Err x) -> r k <> None -> x = RecursionError /\ lim <= frames secure k.
Proof.
  intros lim r used k x F Hn. remember (Err x) as a eqn:Ea. destruct F as [b Eb|De|y Eb _|_ Eb _|y b _ Eb _ _|Hl]; try discriminate; try congruence.
  injection Ea as <-. auto.
Qed.
Lemma refers_ok : forall lim r used k d, refers secure lim r used k (Ok d) -> r k <> None -> exists b, r k = Some b /\ d = mkRef k b.
Proof.
  intros lim r used k x F Hn. remember (Ok x) as a eqn:Ea. destruct F as [b Eb|De|y Eb _|_ Eb _|y b _ Eb _ _|Hl]; try discriminate; try congruence.
  injection Ea as <-. eauto.
Qed.

Lemma get_sound : forall l e g k lim a, ginv l e g -> In k K -> empt_get lim e k = a -> reads secure lim g k a.
Proof.
  intros l e g k lim a (I & Ed & Hn & Hv & Hr) Hk E. unfold empt_get in E. rewrite Ed in E.
  destruct (dget (ev_vals g) k) as [v|] eqn:Eg.
  - pose proof (dget_In _ _ _ Eg) as Hin. destruct (Hv _ _ Hin) as (Hs & _ & HT & Hnone).
    assert (Hink : In k (map fst (ev_vals g))) by (apply in_map_iff; exists (k, v); auto).
    destruct (storable_ref k v Hs) as [_ Ex]. rewrite Ex in E.
    pose proof (ref_sound _ _ _ _ _ lim _ I Hk eq_refl) as F. unfold trie_reference in F.
    destruct (mpt_get lim (e_trie e) k) as [rb|x] eqn:Em; cbn [bind] in E, F.
    + destruct (ref_decode rb) as [r|x] eqn:Er; cbn [bind] in E, F.
      * destruct (refers_ok _ _ _ _ _ F Hnone) as (b & Eb & ->).
        unfold ref_of in E. destruct (ref_eq (mkRef k b) (mkRef k (val_bytes v))) eqn:Eq.
        -- apply ref_eq_text in Eq; [|apply Hr; auto|auto]. subst b a. apply reads_same; auto.
        -- subst a. apply (reads_other secure lim g k v b); auto. intros ->.
           assert (ref_eq (mkRef k (val_bytes v)) (mkRef k (val_bytes v)) = true); [|congruence]. apply ref_eq_text; auto.
      * subst a. destruct (refers_err _ _ _ _ _ F Hnone) as [-> Hl]. apply reads_deep; auto.
    + subst a. destruct (refers_err _ _ _ _ _ F Hnone) as [-> Hl]. apply reads_deep; auto.
  - subst a. apply reads_none. apply dget_None_key in Eg. exact Eg.
Qed.

Lemma entered_dset : forall l k v, NoDup (map fst l) -> entered l k v (dset l k v).
Proof.
  intros l k v Hn. destruct (in_dec bytes_eq_dec k (map fst l)) as [Hin|Hin].
  - apply in_fst in Hin. destruct Hin as [w Hin]. apply in_split in Hin. destruct Hin as (l1 & l2 & ->).
    replace (dset (l1 ++ (k, w) :: l2) k v) with (l1 ++ (k, v) :: l2); [constructor|].
    rewrite map_app in Hn. cbn [map fst] in Hn. apply NoDup_remove_2 in Hn.
    assert (Hk : ~ In k (map fst l1)) by (intros F; apply Hn; apply in_or_app; auto). clear Hn.
    induction l1 as [|[k' v'] l1 IH]; cbn [app dset].
    + rewrite bytes_eqb_refl. reflexivity.
    + destruct (bytes_eqb_spec k k') as [->|]; [exfalso; apply Hk; left; reflexivity|]. f_equal. apply IH.
      intros F. apply Hk. right. exact F.
  - rewrite dset_fresh by exact Hin. constructor. exact Hin.
Qed.
Lemma entered_fun : forall l k v l1 l2, NoDup (map fst l) -> entered l k v l1 -> entered l k v l2 -> l1 = l2.
Proof.
  intros l k v l1 l2 Hn E1 E2. destruct E1 as [l k v Hk|a b k v w]; inversion E2 as [? ? ? Hk' E|a' b' ? ? w' E]; subst; auto.
  - exfalso. apply Hk. rewrite map_app. apply in_or_app. right. left. reflexivity.
  - exfalso. apply Hk'. rewrite map_app. apply in_or_app. right. left. reflexivity.
  - assert (Hs : a' = a /\ b' = b); [|destruct Hs as [-> ->]; reflexivity].
    rewrite map_app in Hn. cbn [map fst] in Hn. apply NoDup_remove_2 in Hn. clear E2.
    revert a' E Hn. induction a as [|[x y] a IH]; intros a' E Hn.
    + destruct a' as [|[x' y'] a']; cbn [app] in E; [injection E as _ ->; auto|]. injection E as <- _ E. exfalso. apply Hn.
      cbn [map app]. rewrite <- E, map_app. apply in_or_app. right. left. reflexivity.
    + destruct a' as [|[x' y'] a']; cbn [app] in E.
      * injection E as -> _ _. exfalso. apply Hn. left. reflexivity.
      * injection E as -> -> E. destruct (IH a' E) as [-> ->]; auto. intros F. apply Hn. right. exact F.
Qed.
Lemma removed_fun : forall l k v w l1 l2, NoDup (map fst l) -> removed l k v l1 -> removed l k w l2 -> v = w /\ l1 = l2.
Proof.
  intros l k v w l1 l2 Hn E1 E2.
  assert (Hs : forall x, In x l <-> In x l); [tauto|].
  destruct E1 as [a b k v]. inversion E2 as [a' b' ? ? E]; subst.
  assert (Hvw : v = w).
  { apply (unique_val (a ++ (k, v) :: b) k); auto; [|rewrite <- E]; apply in_or_app; right; left; reflexivity. }
  subst w. split; auto.
  assert (G1 : entered (a ++ (k, v) :: b) k v (a ++ (k, v) :: b)) by constructor. clear G1 Hs E2.
  rewrite map_app in Hn. cbn [map fst] in Hn. apply NoDup_remove_2 in Hn. rewrite <- map_app in Hn.
  assert (Hab : a' = a /\ b' = b); [|destruct Hab as [-> ->]; reflexivity].
  rewrite map_app in Hn. revert a' E Hn. induction a as [|[x y] a IH]; intros a' E Hn.
  - destruct a' as [|[x' y'] a']; cbn [app] in E; [injection E as ->; auto|]. injection E as <- _ E. exfalso. apply Hn.
    cbn [map app]. rewrite <- E, map_app. apply in_or_app. right. left. reflexivity.
  - destruct a' as [|[x' y'] a']; cbn [app] in E.
    + injection E as -> _ _. exfalso. apply Hn. left. reflexivity.
    + injection E as -> -> E. destruct (IH a' E) as [-> ->]; auto. intros F. apply Hn. right. exact F.
Qed.
Lemma removed_ddel : forall l k v, NoDup (map fst l) -> In (k, v) l -> removed l k v (ddel l k).
Proof.
  intros l k v Hn Hin. apply in_split in Hin. destruct Hin as (l1 & l2 & ->).
  replace (ddel (l1 ++ (k, v) :: l2) k) with (l1 ++ l2); [constructor|].
  rewrite map_app in Hn. cbn [map fst] in Hn. apply NoDup_remove_2 in Hn.
  assert (Hk : ~ In k (map fst l1)) by (intros F; apply Hn; apply in_or_app; auto). clear Hn.
  induction l1 as [|[k' v'] l1 IH]; cbn [app ddel].
  - rewrite bytes_eqb_refl. reflexivity.
  - destruct (bytes_eqb_spec k k') as [->|]; [exfalso; apply Hk; left; reflexivity|]. f_equal. apply IH.
    intros F. apply Hk. right. exact F.
Qed.
Lemma entered_In : forall l k v l' x w, entered l k v l' -> In (x, w) l' -> (x = k /\ w = v) \/ In (x, w) l.
Proof.
  intros l k v l' x w E Hi. destruct E; apply in_app_or in Hi; destruct Hi as [Hi|[Hi|Hi]].
  - auto.
  - injection Hi as -> ->. auto.
  - destruct Hi.
  - right. apply in_or_app. auto.
  - injection Hi as -> ->. auto.
  - right. apply in_or_app. right. right. exact Hi.
Qed.
Lemma removed_In : forall l k v l' x w, NoDup (map fst l) -> removed l k v l' -> In (x, w) l' -> In (x, w) l /\ x <> k.
Proof.
  intros l k v l' x w Hn E Hi. destruct E as [l1 l2 k v].
  rewrite map_app in Hn. cbn [map fst] in Hn. apply NoDup_remove_2 in Hn. rewrite <- map_app in Hn. split.
  - apply in_app_or in Hi. apply in_or_app. destruct Hi; [left|right; right]; auto.
  - intros ->. apply Hn. apply in_map_iff. exists (k, w). auto.
Qed.
Lemma removed_NoDup : forall l k v l', NoDup (map fst l) -> removed l k v l' -> NoDup (map fst l').
Proof. intros l k v l' Hn E. destruct E. rewrite map_app in *. cbn [map fst] in Hn. apply NoDup_remove_1 in Hn. exact Hn. Qed.

Lemma unfit_update : forall k v x, update_ref k v = Err x -> unfit v x.
Proof. intros k [b|b|[] [] b] x E; cbn in E; try discriminate; injection E as <-; constructor; reflexivity. Qed.
Lemma unfit_not : forall v x, unfit v x -> storable v = false.
Proof. intros v x [[] [] b E|b]; try discriminate; reflexivity. Qed.
Lemma unfit_fun : forall v x y, unfit v x -> unfit v y -> x = y.
Proof. intros v x y U1 U2. inversion U1; subst; inversion U2; subst; auto. Qed.

Lemma put_sound : forall l e g k v lim fl df r e', ginv l e g -> In k K -> (blen (val_bytes v) < 2 ^ 57)%N -> In (k ++ val_bytes v) T ->
  empt_update lim fl df e k v = (r, e') -> no_collision (m_log (e_trie e')) ->
  exists l' g', stores secure lim fl df g k v r g' /\ ginv l' e' g'.
Proof.
  intros l e g k v lim fl df r e' (I & Ed & Hn & Hv & Hr) Hk Hb HT E Hnc.
  destruct (storable v) eqn:Es.
  2:{ destruct (unstorable_ref k v Es) as [x Ex]. unfold empt_update in E. rewrite Ex in E. cbn [bind] in E. injection E as <- <-.
      exists l, g. split; [apply stores_unfit; eapply unfit_update; eauto|]. repeat (split; auto). }
  destruct (storable_ref k v Es) as [Eu _].
  destruct (ref_encode_total keccak_len (ref_of k v) (K_small _ Hk) Hb) as (rb & Erb & _ & _). rewrite (update_eq _ _ _ _ _ _ _ _ Eu Erb) in E.
  destruct (mpt_update lim fl (e_trie e) k rb) as [r1 t] eqn:Em.
  assert (Et : e_trie e' = t) by (destruct r1; [destruct df|]; injection E as <- <-; reflexivity).
  pose proof (put_inv _ _ _ _ _ _ _ _ _ _ _ I Hk Hb Erb Em ltac:(rewrite <- Et; exact Hnc)) as P.
  assert (Hr' : forall x b, set_ref (ev_refs g) k (val_bytes v) x = Some b -> In (x ++ b) T).
  { intros x b Eb. unfold set_ref in Eb. destruct (bytes_eqb_spec x k) as [->|]; [injection Eb as <-; exact HT|auto]. }
  destruct r1 as [u|x].
  - destruct P as [l' P]. exists l'. destruct df; injection E as <- <-.
    + exists (EView (ev_vals g) (set_ref (ev_refs g) k (val_bytes v)) true). split; [apply stores_half; auto|].
      split; [exact P|]. split; [exact Ed|]. split; [exact Hn|]. split; [|exact Hr']. cbn [ev_vals ev_refs].
      intros x w Hi. destruct (Hv _ _ Hi) as (A & B & C & D). repeat (split; auto). unfold set_ref. destruct (bytes_eqb x k); [discriminate|auto].
    + exists (EView (dset (ev_vals g) k v) (set_ref (ev_refs g) k (val_bytes v)) true).
      pose proof (entered_dset (ev_vals g) k v Hn) as En. split; [apply stores_both; auto|].
      split; [exact P|]. split; [cbn [e_data ev_vals]; congruence|]. split; [apply NoDup_dset; exact Hn|]. split; [|exact Hr']. cbn [ev_vals ev_refs].
      intros x w Hi. destruct (entered_In _ _ _ _ _ _ En Hi) as [[-> ->]|Hi'].
      * repeat (split; auto). unfold set_ref. rewrite bytes_eqb_refl. discriminate.
      * destruct (Hv _ _ Hi') as (A & B & C & D). repeat (split; auto). unfold set_ref. destruct (bytes_eqb x k); [discriminate|auto].
  - injection E as <- <-. destruct P as [F P]. exists l, g. split; [apply stores_not; auto|]. split; [exact P|]. auto.
Qed.

Lemma del_sound : forall l e g k lim cf df fl r e', ginv l e g -> In k K ->
  empt_delete lim cf df fl e k = (r, e') -> no_collision (m_log (e_trie e')) ->
  exists l' g', removes secure lim cf df fl g k r g' /\ ginv l' e' g'.
Proof.
  intros l e g k lim cf df fl r e' G Hk E Hnc. assert (G0 := G). destruct G as (I & Ed & Hn & Hv & Hr).
  unfold empt_delete in E. destruct cf; [injection E as <- <-; exists l, g; split; auto; apply removes_ask; auto|].
  pose proof (in_sound _ _ _ _ _ lim _ I Hk eq_refl) as A. destruct (mpt_contains lim (e_trie e) k) as [[]|x].
  2:{ injection E as <- <-. exists l, g. split; auto. inversion A. apply removes_none; auto. }
  2:{ injection E as <- <-. exists l, g. split; auto. inversion A. apply removes_deep; auto. }
  assert (Hh : held secure (ev_refs g) k) by (inversion A; auto).
  destruct df; [injection E as <- <-; exists l, g; split; auto; apply removes_fault; auto|].
  rewrite Ed in E. destruct (dget (ev_vals g) k) as [v|] eqn:Eg.
  2:{ injection E as <- <-. exists l, g. split; auto. apply removes_missing; auto. apply dget_None_key in Eg. exact Eg. }
  destruct (mpt_delete lim fl (e_trie e) k) as [r1 t] eqn:Em. injection E as <- <-. cbn [e_trie] in Hnc.
  pose proof (dget_In _ _ _ Eg) as Hin. destruct (Hv _ _ Hin) as (_ & _ & _ & Hnone).
  pose proof (removed_ddel _ _ _ Hn Hin) as Rm.
  pose proof (del_inv _ _ _ _ _ _ _ _ _ I Hk Em Hnc) as P. destruct r1 as [[]|x].
  - destruct P as [_ [l' P]]. exists l', (EView (ddel (ev_vals g) k) (drop_ref (ev_refs g) k) (ev_used g)).
    split; [eapply removes_both; eauto|]. split; [exact P|]. split; [reflexivity|]. split; [eapply removed_NoDup; eauto|].
    cbn [ev_vals ev_refs]. split.
    + intros x w Hi. destruct (removed_In _ _ _ _ _ _ Hn Rm Hi) as [Hi' Hx]. destruct (Hv _ _ Hi') as (B & C & D & F).
      repeat (split; auto). unfold drop_ref. destruct (bytes_eqb_spec x k); [congruence|auto].
    + intros x b Eb. unfold drop_ref in Eb. destruct (bytes_eqb x k); [discriminate|auto].
  - destruct P as [[F|F] P]; [|congruence]. exists l, (EView (ddel (ev_vals g) k) (ev_refs g) (ev_used g)).
    split; [eapply removes_half; eauto|]. split; [exact P|]. split; [reflexivity|]. split; [eapply removed_NoDup; eauto|].
    cbn [ev_vals ev_refs]. split; [|exact Hr]. intros y w Hi. destruct (removed_In _ _ _ _ _ _ Hn Rm Hi) as [Hi' Hx]. auto.
Qed.

Definition dgood (e : empt) : Prop := dinv (m_map (e_trie e)) (m_log (e_trie e)).

(** *** Growth of the storage *)
Definition grown (e e' : empt) : Prop := dgood e' /\ grows (e_trie e) (e_trie e').
Lemma grown_refl : forall e, dgood e -> grown e e.
Proof. intros e D. split; auto. apply grows_refl. Qed.
Lemma grown_trans : forall a b c, grown a b -> grown b c -> grown a c.
Proof. intros a b c [_ G1] [D2 G2]. split; auto. eapply grows_trans; eauto. Qed.
Lemma grown_nc : forall e e', grown e e' -> no_collision (m_log (e_trie e')) -> no_collision (m_log (e_trie e)).
Proof. intros e e' [_ G] Hn. eapply grows_nocoll; eauto. Qed.
Lemma update_grown : forall e k v lim fl df r e', dgood e -> empt_update lim fl df e k v = (r, e') -> grown e e'.
Proof. intros e k v lim fl df r e' D E. exact (e_call_grows keccak_len e (ECall (EPut k v) lim false df fl) r e' D E). Qed.
Lemma delete_grown : forall e k lim cf df fl r e', dgood e -> empt_delete lim cf df fl e k = (r, e') -> grown e e'.
Proof. intros e k lim cf df fl r e' D E. exact (e_call_grows keccak_len e (ECall (EDel k) lim cf df fl) r e' D E). Qed.
Lemma popitem_grown : forall lim e r e', dgood e -> empt_popitem lim e = (r, e') -> grown e e'.
Proof.
  intros lim e r e' D E. unfold empt_popitem in E. destruct (empt_keys e) as [|k ks]; [injection E as _ <-; apply grown_refl; auto|].
  destruct (empt_get lim e k); [|injection E as _ <-; apply grown_refl; auto].
  destruct (empt_delete lim false false [] e k) as [r2 e2] eqn:Ed.
  assert (e2 = e') by (destruct r2; injection E as _ <-; reflexivity). subst e2. eapply delete_grown; eauto.
Qed.
Lemma do_grown : forall lim e c o e', dgood e -> empt_do lim e c = (o, e') -> grown e e'.
Proof.
  intros lim e c o e' D E. destruct c as [k|k|k|k v fl df|k cf df fl|k d| | |k v| | | |]; cbn [empt_do] in E;
    try (injection E as _ <-; apply grown_refl; exact D).
  - unfold empt_update_py in E.
    assert (P : forall r e1, with_key' e k (fun b => empt_update lim fl df e b v) = (r, e1) -> grown e e1).
    { intros r e1 Ek. destruct k as [k|]; cbn [with_key'] in Ek; [eapply update_grown; eauto|injection Ek as _ <-; apply grown_refl; exact D]. }
    destruct v as [b|b|[] [] b]; try (injection E as _ <-; apply grown_refl; exact D);
      destruct (with_key' e k _) as [r e1] eqn:Ek; injection E as _ <-; eapply P; eauto.
  - destruct k as [k|]; cbn [with_key'] in E; [|injection E as _ <-; apply grown_refl; exact D].
    destruct (empt_delete lim cf df fl e k) as [r e1] eqn:Ed. injection E as _ <-. eapply delete_grown; eauto.
  - destruct k as [k|]; cbn [with_key'] in E; [|injection E as _ <-; apply grown_refl; exact D].
    destruct (empt_pop lim e k d) as [r e1] eqn:Ep. injection E as _ <-. unfold empt_pop in Ep.
    destruct (empt_get lim e k) as [w|x]; [|destruct x; injection Ep as _ <-; apply grown_refl; exact D].
    destruct (empt_delete lim false false [] e k) as [r2 e2] eqn:Ed.
    assert (e2 = e1) by (destruct r2; injection Ep as _ <-; reflexivity). subst e2. eapply delete_grown; eauto.
  - destruct (empt_popitem lim e) as [r e1] eqn:Ep. injection E as _ <-. eapply popitem_grown; eauto.
  - destruct (empt_clear lim e) as [r e1] eqn:Ep. injection E as _ <-. unfold empt_clear in Ep. eapply clear_grows in Ep; eauto. 
  - destruct k as [k|]; cbn [with_key'] in E; [|injection E as _ <-; apply grown_refl; exact D].
    destruct (empt_setdefault lim e k v) as [r e1] eqn:Ep. injection E as _ <-. unfold empt_setdefault in Ep.
    destruct (empt_get lim e k) as [w|x]; [injection Ep as _ <-; apply grown_refl; exact D|].
    destruct x; try (injection Ep as _ <-; apply grown_refl; exact D).
    destruct (empt_update lim [] false e k v) as [r2 e2] eqn:Ed.
    assert (e2 = e1) by (destruct r2; injection Ep as _ <-; reflexivity). subst e2. eapply update_grown; eauto.
Qed.

(** *** The other calls *)
Lemma reads_key : forall lim g k x, reads secure lim g k (Err x) -> (x = KeyError <-> ~ In k (map fst (ev_vals g))).
Proof.
  intros lim g k x F. remember (Err x) as a eqn:Ea. destruct F as [Hn|v Hi Er|v b Hi Er Hb|Hi Hl]; try discriminate; injection Ea as <-.
  - tauto.
  - split; [discriminate|]. intros F. exfalso. apply F. apply in_map_iff. exists (k, v). auto.
  - split; [discriminate|]. tauto.
Qed.
Lemma reads_in : forall lim g k v, reads secure lim g k (Ok v) -> In (k, v) (ev_vals g) /\ ev_refs g k = Some (val_bytes v).
Proof. intros lim g k v F. remember (Ok v) as a eqn:Ea. destruct F as [Hn|w Hi Er|w b Hi Er Hb|Hi Hl]; try discriminate. injection Ea as ->. auto. Qed.

Lemma pop_sound : forall l e g k lim r e', ginv l e g -> In k K -> empt_pop lim e k None = (r, e') -> no_collision (m_log (e_trie e')) ->
  exists l' g', takes secure lim g k r g' /\ ginv l' e' g'.
Proof.
  intros l e g k lim r e' G Hk E Hnc. unfold empt_pop in E. pose proof (get_sound _ _ _ _ lim _ G Hk eq_refl) as R.
  destruct (empt_get lim e k) as [v|x].
  - destruct (empt_delete lim false false [] e k) as [r2 e2] eqn:Ed.
    assert (e2 = e') by (destruct r2; injection E as _ <-; reflexivity). subst e2.
    destruct (del_sound _ _ _ _ _ _ _ _ _ _ G Hk Ed Hnc) as (l' & g' & Rm & G'). exists l', g'. split; auto.
    destruct r2 as [[]|x]; injection E as <-; [eapply takes_ok|eapply takes_fail]; eauto.
  - exists l, g. assert (E' : (Err x, e) = (r, e')) by (destruct x; exact E). injection E' as <- <-. split; auto. apply takes_not; auto.
Qed.
Lemma takes_key : forall lim g k x g', takes secure lim g k (Err x) g' -> In k (map fst (ev_vals g)) -> x <> KeyError.
Proof.
  intros lim g k x g' F Hi. remember (Err x) as a eqn:Ea. destruct F as [y R|v g1 R Rm|v y g1 R Rm]; try discriminate; injection Ea as <-.
  - intros ->. apply reads_key in R. tauto.
  - remember (Err y) as b eqn:Eb. destruct Rm; try discriminate; injection Eb as <-; try discriminate; try congruence.
    match goal with U : gives_up _ _ _ _ _ |- _ => destruct U as [[-> _]|[-> _]] end; discriminate.
Qed.
Lemma takes_len : forall lim g k v g', takes secure lim g k (Ok v) g' -> length (ev_vals g) = Datatypes.S (length (ev_vals g')).
Proof.
  intros lim g k v g' F. remember (Ok v) as a eqn:Ea. destruct F as [y R|w g1 R Rm|w y g1 R Rm]; try discriminate.
  remember (Ok tt) as b eqn:Eb. destruct Rm as [ | | | | |w' l Hc Hd Rm| ]; try discriminate. destruct Rm. cbn [ev_vals].
  rewrite !app_length. cbn [length]. lia.
Qed.
Lemma popitem_pop : forall lim e k ks, empt_keys e = k :: ks ->
  empt_popitem lim e = (let (r, e') := empt_pop lim e k None in (match r with Ok v => Ok (k, v) | Err x => Err x end, e')).
Proof.
  intros lim e k ks Ek. unfold empt_popitem, empt_pop. rewrite Ek. destruct (empt_get lim e k) as [v|x].
  - destruct (empt_delete lim false false [] e k) as [[[]|x] e2]; reflexivity.
  - destruct x; reflexivity.
Qed.
Lemma ginv_key : forall l e g k v vs, ginv l e g -> ev_vals g = (k, v) :: vs -> In k K /\ empt_keys e = k :: map fst vs.
Proof.
  intros l e g k v vs (I & Ed & Hn & Hv & Hr) E. split.
  - destruct (Hv k v) as (_ & Hk & _); auto. rewrite E. left. reflexivity.
  - unfold empt_keys. rewrite Ed, E. reflexivity.
Qed.
Lemma ginv_nokeys : forall l e g, ginv l e g -> ev_vals g = [] -> empt_keys e = [].
Proof. intros l e g (I & Ed & Hn & Hv & Hr) E. unfold empt_keys. rewrite Ed, E. reflexivity. Qed.

Lemma clear_sound : forall n l e g lim r e', ginv l e g -> dgood e -> length (ev_vals g) < n -> clear_loop n lim e = (r, e') ->
  no_collision (m_log (e_trie e')) -> exists l' g', clears secure lim g r g' /\ ginv l' e' g'.
Proof.
  induction n as [|n IH]; intros l e g lim r e' G D Hl E Hnc; [lia|]. cbn [clear_loop] in E.
  destruct (ev_vals g) as [|[k v] vs] eqn:Ev.
  - unfold empt_popitem in E. rewrite (ginv_nokeys _ _ _ G Ev) in E. injection E as <- <-. exists l, g. split; auto. apply clears_end; auto.
  - destruct (ginv_key _ _ _ _ _ _ G Ev) as [Hk Ek]. pose proof (popitem_grown lim e) as Pg. rewrite (popitem_pop _ _ _ _ Ek) in E, Pg.
    destruct (empt_pop lim e k None) as [r1 e1] eqn:Ep. specialize (Pg _ _ D eq_refl). destruct r1 as [w|x].
    + assert (Hn1 : no_collision (m_log (e_trie e1))).
      { destruct (clear_grows keccak_len _ _ _ _ _ (proj1 Pg) E) as [_ G2]. eapply grows_nocoll; [exact G2|exact Hnc]. }
      destruct (pop_sound _ _ _ _ _ _ _ G Hk Ep Hn1) as (l1 & g1 & Tk & G1).
      pose proof (takes_len _ _ _ _ _ Tk) as Len. rewrite Ev in Len. cbn [length] in Len, Hl.
      destruct (IH _ _ _ _ _ _ G1 (proj1 Pg) ltac:(lia) E Hnc) as (l2 & g2 & Cl & G2).
      exists l2, g2. split; auto. eapply clears_next; eauto.
    + assert (Ee : e1 = e') by (destruct x; injection E as _ <-; reflexivity). subst e1.
      destruct (pop_sound _ _ _ _ _ _ _ G Hk Ep Hnc) as (l1 & g1 & Tk & G1).
      assert (Hx : x <> KeyError) by (eapply takes_key; [exact Tk|rewrite Ev; left; reflexivity]).
      exists l1, g1. split; auto. assert (Er : r = Err x) by (destruct x; injection E as <-; congruence). subst r. eapply clears_stop; eauto.
Qed.

Lemma lists_sound : forall l e g lim r, ginv l e g -> empt_items lim e = r -> lists secure lim g r.
Proof.
  intros l e g lim r G E. assert (G0 := G). destruct G as (I & Ed & Hn & Hv & Hr). unfold empt_items, empt_keys in E. rewrite Ed in E.
  assert (P : forall l2 l1, ev_vals g = l1 ++ l2 -> Forall (fun kv => reads secure lim g (fst kv) (Ok (snd kv))) l1 ->
    match mapM (fun k => bind (empt_get lim e k) (fun v => Ok (k, v))) (dkeys l2) with
    | Ok ys => ys = l2 /\ Forall (fun kv => reads secure lim g (fst kv) (Ok (snd kv))) l2
    | Err x => lists secure lim g (Err x)
    end).
  { induction l2 as [|[k v] l2 IH]; intros l1 El F1; cbn [dkeys map fst mapM]; [auto|].
    assert (Hin : In (k, v) (ev_vals g)) by (rewrite El; apply in_or_app; right; left; reflexivity).
    destruct (Hv _ _ Hin) as (_ & Hk & _). pose proof (get_sound _ _ _ _ lim _ G0 Hk eq_refl) as R.
    destruct (empt_get lim e k) as [w|x]; cbn [bind].
    - destruct (reads_in _ _ _ _ R) as [Hw _]. assert (w = v) by (eapply unique_val; eauto). subst w.
      specialize (IH (l1 ++ [(k, v)])). rewrite <- app_assoc in IH. specialize (IH El).
      assert (F2 : Forall (fun kv => reads secure lim g (fst kv) (Ok (snd kv))) (l1 ++ [(k, v)])) by (apply Forall_app; split; auto).
      specialize (IH F2). unfold dkeys in IH. destruct (mapM _ (map fst l2)) as [ys|x]; [destruct IH as [-> IH]; split; auto|exact IH].
    - eapply lists_stop; eauto. }
  specialize (P (ev_vals g) [] eq_refl (Forall_nil _)). rewrite E in P. destruct r as [ys|x]; [|exact P]. destruct P as [-> P]. apply lists_all. exact P.
Qed.
Lemma values_items : forall lim e, empt_values lim e = seconds (empt_items lim e).
Proof.
  intros lim e. unfold empt_values, empt_items. induction (empt_keys e) as [|k ks IH]; cbn [mapM seconds]; [reflexivity|].
  destruct (empt_get lim e k) as [v|x]; cbn [bind]; [|reflexivity]. rewrite IH.
  destruct (mapM (fun k0 => bind (empt_get lim e k0) (fun v0 => Ok (k0, v0))) ks) as [ys|x]; reflexivity.
Qed.

Lemma update_py_bytes : forall lim fl df e k v, empt_update_py lim fl df e (KBytes k) v = empt_update lim fl df e k v.
Proof.
  intros lim fl df e k v. unfold empt_update_py, with_key'. destruct v as [b|b|[] [] b]; unfold empt_update; cbn [update_ref bind]; reflexivity.
Qed.
Lemma do_sound : forall l e g lim c o e', ginv l e g -> dgood e -> incl (ekeys1 c) K ->
  (forall k b, In (k, b) (etexts1 c) -> In (k ++ b) T /\ (blen b < 2 ^ 57)%N) ->
  empt_do lim e c = (o, e') -> no_collision (m_log (e_trie e')) ->
  exists l' g', edoes secure lim g c o g' /\ ginv l' e' g'.
Proof.
  intros l e g lim c o e' G D HK HT E Hnc.
  destruct c as [k|k|k|k v fl df|k cf df fl|k d| | |k v| | | |]; cbn [empt_do] in E.
  - injection E as <- <-. exists l, g. split; auto. destruct k as [k|]; cbn [with_key]; [|apply edoes_get_other].
    apply edoes_get. eapply get_sound; eauto. apply HK. left. reflexivity.
  - injection E as <- <-. exists l, g. split; auto. destruct k as [k|]; cbn [with_key]; [|apply edoes_ref_other].
    apply edoes_ref. eapply ref_sound; [apply G| |reflexivity]. apply HK. left. reflexivity.
  - injection E as <- <-. exists l, g. split; auto. destruct k as [k|]; cbn [with_key]; [|apply edoes_in_other].
    apply edoes_in. eapply in_sound; [apply G| |reflexivity]. apply HK. left. reflexivity.
  - assert (P : forall r e1, empt_update_py lim fl df e k v = (r, e1) -> no_collision (m_log (e_trie e1)) ->
      exists l' g', edoes secure lim g (QPut k v fl df) (ANone r) g' /\ ginv l' e1 g').
    { intros r e1 Eu Hn1. destruct k as [k|].
      - assert (Eu' : empt_update lim fl df e k v = (r, e1)) by (rewrite <- update_py_bytes; exact Eu).
        destruct (HT k (val_bytes v)) as [Ht Hb]; [left; reflexivity|].
        destruct (put_sound _ _ _ _ _ _ _ _ _ _ G (HK k (or_introl eq_refl)) Hb Ht Eu' Hn1) as (l' & g' & S & G').
        exists l', g'. split; auto. apply edoes_put. exact S.
      - exists l, g. unfold empt_update_py in Eu.
        destruct v as [b|b|[] [] b]; cbn [with_key'] in Eu; injection Eu as <- <-; (split; [|exact G]);
          try (apply edoes_put_other; reflexivity); apply edoes_put_unfit; constructor; reflexivity. }
    destruct (empt_update_py lim fl df e k v) as [r e1] eqn:Eu. injection E as <- <-. eapply P; eauto.
  - destruct k as [k|]; cbn [with_key'] in E; [|injection E as <- <-; exists l, g; split; auto; apply edoes_del_other].
    destruct (empt_delete lim cf df fl e k) as [r e1] eqn:Ed. injection E as <- <-.
    destruct (del_sound _ _ _ _ _ _ _ _ _ _ G (HK k (or_introl eq_refl)) Ed Hnc) as (l' & g' & S & G'). exists l', g'. split; auto. apply edoes_del; auto.
  - destruct k as [k|]; cbn [with_key'] in E; [|injection E as <- <-; exists l, g; split; auto; apply edoes_pop_other].
    pose proof (HK k (or_introl eq_refl)) as Hk.
    destruct (in_dec bytes_eq_dec k (map fst (ev_vals g))) as [Hi|Hi].
    + assert (Ep : empt_pop lim e k d = empt_pop lim e k None).
      { unfold empt_pop. pose proof (get_sound _ _ _ _ lim _ G Hk eq_refl) as R. destruct (empt_get lim e k) as [w|x]; auto.
        assert (x <> KeyError) by (intros ->; apply reads_key in R; tauto). destruct x; auto. congruence. }
      rewrite Ep in E. destruct (empt_pop lim e k None) as [r e1] eqn:Ed. injection E as <- <-.
      destruct (pop_sound _ _ _ _ _ _ _ G Hk Ed Hnc) as (l' & g' & Tk & G'). exists l', g'. split; auto. apply edoes_pop; auto.
      intros ->. eapply takes_key in Tk; eauto.
    + pose proof (get_sound _ _ _ _ lim _ G Hk eq_refl) as R. unfold empt_pop in E. exists l, g. destruct (empt_get lim e k) as [w|x].
      * exfalso. apply Hi. apply reads_in in R. apply in_map_iff. exists (k, w). tauto.
      * assert (x = KeyError) by (eapply reads_key; eauto). subst x. injection E as <- <-. split; auto. apply edoes_pop_none; auto.
  - destruct (ev_vals g) as [|[k v] vs] eqn:Ev.
    + unfold empt_popitem in E. rewrite (ginv_nokeys _ _ _ G Ev) in E. injection E as <- <-. exists l, g. split; auto. apply edoes_popitem_none; auto.
    + destruct (ginv_key _ _ _ _ _ _ G Ev) as [Hk Ek]. rewrite (popitem_pop _ _ _ _ Ek) in E.
      destruct (empt_pop lim e k None) as [r e1] eqn:Ed. injection E as <- <-.
      destruct (pop_sound _ _ _ _ _ _ _ G Hk Ed Hnc) as (l' & g' & Tk & G'). exists l', g'. split; auto.
      destruct r; [eapply edoes_popitem|eapply edoes_popitem_fail]; eauto.
  - destruct (empt_clear lim e) as [r e1] eqn:Ed. injection E as <- <-. unfold empt_clear in Ed.
    assert (Hlen : length (ev_vals g) < Datatypes.S (empt_len e)) by (unfold empt_len; destruct G as (_ & -> & _); lia).
    destruct (clear_sound _ _ _ _ _ _ _ G D Hlen Ed Hnc) as (l' & g' & Cl & G'). exists l', g'. split; auto. apply edoes_clear; auto.
  - destruct k as [k|]; cbn [with_key'] in E; [|injection E as <- <-; exists l, g; split; auto; apply edoes_default_other].
    pose proof (HK k (or_introl eq_refl)) as Hk. pose proof (get_sound _ _ _ _ lim _ G Hk eq_refl) as R. unfold empt_setdefault in E.
    destruct (in_dec bytes_eq_dec k (map fst (ev_vals g))) as [Hi|Hi].
    + exists l, g. assert (Ee : o = AVal (empt_get lim e k) /\ e' = e).
      { destruct (empt_get lim e k) as [w|x]; [injection E as <- <-; auto|].
        assert (x <> KeyError) by (intros ->; apply reads_key in R; tauto). destruct x; try (injection E as <- <-; auto); congruence. }
      destruct Ee as [-> ->]. split; auto. apply edoes_default_old; auto.
    + destruct (empt_get lim e k) as [w|x]; [exfalso; apply Hi; apply reads_in in R; apply in_map_iff; exists (k, w); tauto|].
      assert (x = KeyError) by (eapply reads_key; eauto). subst x.
      destruct (empt_update lim [] false e k v) as [r2 e2] eqn:Ed.
      assert (e2 = e') by (destruct r2; injection E as _ <-; reflexivity). subst e2.
      destruct (HT k (val_bytes v)) as [Ht Hb]; [left; reflexivity|].
      destruct (put_sound _ _ _ _ _ _ _ _ _ _ G Hk Hb Ht Ed Hnc) as (l' & g' & S & G'). exists l', g'. split; auto.
      destruct r2 as [[]|x]; injection E as <-; [apply edoes_default_new|apply edoes_default_fail]; auto.
  - injection E as <- <-. exists l, g. split; auto. apply edoes_items. eapply lists_sound; eauto.
  - injection E as <- <-. exists l, g. split; auto. rewrite values_items. apply edoes_values. eapply lists_sound; eauto.
  - injection E as <- <-. exists l, g. split; auto. assert (Ek : empt_keys e = map fst (ev_vals g)) by (unfold empt_keys; destruct G as (_ & -> & _); reflexivity).
    rewrite Ek. apply edoes_keys.
  - injection E as <- <-. exists l, g. split; auto. assert (Ek : empt_len e = length (ev_vals g)) by (unfold empt_len; destruct G as (_ & -> & _); reflexivity).
    rewrite Ek. apply edoes_len.
Qed.

Lemma session_grown : forall h e outs e', dgood e -> empt_session e h = (outs, e') -> grown e e'.
Proof.
  induction h as [|[lim c] h IH]; intros e outs e' D E; cbn [empt_session] in E.
  - injection E as _ <-. apply grown_refl; auto.
  - destruct (empt_do lim e c) as [o e1] eqn:Eo. destruct (empt_session e1 h) as [os e2] eqn:Es. injection E as _ <-.
    pose proof (do_grown _ _ _ _ _ D Eo) as G1. eapply grown_trans; eauto. eapply IH; eauto. apply G1.
Qed.
Lemma session_sound : forall h l e g outs e', ginv l e g -> dgood e -> incl (ekeys h) K ->
  (forall k b, In (k, b) (etexts h) -> In (k ++ b) T /\ (blen b < 2 ^ 57)%N) ->
  empt_session e h = (outs, e') -> no_collision (m_log (e_trie e')) ->
  exists l' g', efollows secure g h outs g' /\ ginv l' e' g'.
Proof.
  induction h as [|[lim c] h IH]; intros l e g outs e' G D HK HT E Hnc; cbn [empt_session] in E.
  - injection E as <- <-. exists l, g. split; auto. constructor.
  - destruct (empt_do lim e c) as [o e1] eqn:Eo. destruct (empt_session e1 h) as [os e2] eqn:Es. injection E as <- <-.
    pose proof (do_grown _ _ _ _ _ D Eo) as G1. pose proof (session_grown _ _ _ _ (proj1 G1) Es) as G2.
    assert (HK1 : incl (ekeys1 c) K) by (intros k Hk; apply HK; apply in_or_app; auto).
    assert (HK2 : incl (ekeys h) K) by (intros k Hk; apply HK; apply in_or_app; auto).
    assert (HT1 : forall k b, In (k, b) (etexts1 c) -> In (k ++ b) T /\ (blen b < 2 ^ 57)%N) by (intros k b Hk; apply HT; apply in_or_app; auto).
    assert (HT2 : forall k b, In (k, b) (etexts h) -> In (k ++ b) T /\ (blen b < 2 ^ 57)%N) by (intros k b Hk; apply HT; apply in_or_app; auto).
    destruct (do_sound _ _ _ _ _ _ _ G D HK1 HT1 Eo (grown_nc _ _ G2 Hnc)) as (l1 & g1 & Do & I1).
    destruct (IH _ _ _ _ _ I1 (proj1 G1) HK2 HT2 Es Hnc) as (l2 & g2 & Fo & I2).
    exists l2, g2. split; auto. econstructor; eauto.
Qed.

(** *** Only one answer *)
Definition deep_enough (lim : nat) : Prop := forall k, In k K -> frames secure k < lim.
Definition gwf (g : eview) : Prop := NoDup (map fst (ev_vals g)) /\ forall k, In k (map fst (ev_vals g)) -> In k K.
Lemma ginv_gwf : forall l e g, ginv l e g -> gwf g.
Proof. intros l e g (I & Ed & Hn & Hv & Hr). split; auto. intros k Hk. apply in_fst in Hk. destruct Hk as [v Hk]. apply (Hv _ _ Hk). Qed.
Lemma reads_det : forall lim g k a b, gwf g -> deep_enough lim -> reads secure lim g k a -> reads secure lim g k b -> a = b.
Proof.
  intros lim g k a b [Hn Hk] Hd Ra Rb.
  assert (Hin : forall v, In (k, v) (ev_vals g) -> In k (map fst (ev_vals g))) by (intros v Hi; apply in_map_iff; exists (k, v); auto).
  assert (Hu : forall v w, In (k, v) (ev_vals g) -> In (k, w) (ev_vals g) -> v = w) by (intros; eapply unique_val; eauto).
  destruct Ra as [Ha|v Hi Er|v c Hi Er Hc|Hi Hl]; destruct Rb as [Ha'|v' Hi' Er'|v' c' Hi' Er' Hc'|Hi' Hl']; auto;
    try (exfalso; eauto; fail); try (exfalso; specialize (Hd k); specialize (Hk k); eauto; intuition lia).
  - f_equal. eauto.
  - exfalso. assert (v = v') by eauto. congruence.
  - exfalso. assert (v = v') by eauto. congruence.
Qed.
Lemma asks_det : forall lim r k a b, In k K -> deep_enough lim -> asks secure lim r k a -> asks secure lim r k b -> a = b.
Proof. intros lim r k a b Hk Hd Ra Rb. specialize (Hd k Hk). destruct Ra, Rb; auto; try tauto; lia. Qed.
Lemma quiet_up : forall lim k x, In k K -> deep_enough lim -> ~ gives_up secure lim [] k x.
Proof. intros lim k x Hk Hd [[_ F]|[_ F]]; [congruence|specialize (Hd k Hk); lia]. Qed.
Lemma stores_det : forall lim g k v a b ga gb, gwf g -> In k K -> deep_enough lim ->
  stores secure lim [] false g k v a ga -> stores secure lim [] false g k v b gb -> a = b /\ ga = gb.
Proof.
  intros lim g k v a b ga gb [Hn _] Hk Hd Ra Rb.
  destruct Ra as [x U|l Es _ En|Es F|x Es U]; try discriminate; try (exfalso; eapply quiet_up; eauto; fail);
    destruct Rb as [x' U'|l' Es' _ En'|Es' F'|x' Es' U']; try discriminate; try (exfalso; eapply quiet_up; eauto; fail).
  - assert (x = x') by (eapply unfit_fun; eauto). subst. auto.
  - apply unfit_not in U. congruence.
  - apply unfit_not in U'. congruence.
  - assert (l = l') by (eapply entered_fun; eauto). subst. auto.
Qed.
Lemma removed_key : forall l k v l', removed l k v l' -> In k (map fst l).
Proof. intros l k v l' [l1 l2 k0 v0]. rewrite map_app. apply in_or_app. right. left. reflexivity. Qed.
Lemma removes_det : forall lim g k a b ga gb, gwf g -> (forall x, In x (map fst (ev_vals g)) -> ev_refs g x <> None) -> In k K -> deep_enough lim ->
  removes secure lim false false [] g k a ga -> removes secure lim false false [] g k b gb -> a = b /\ ga = gb.
Proof.
  intros lim g k a b ga gb [Hn _] Hr Hk Hd Ra Rb. pose proof (Hd k Hk) as Hl.
  assert (Hh : forall v l, removed (ev_vals g) k v l -> held secure (ev_refs g) k).
  { intros v l Rm. left. apply Hr. eapply removed_key; eauto. }
  destruct Ra as [F|_ F|_ F|_ F1 F|_ F1 _ F|v l _ _ Rm|v l x _ _ Rm U]; try discriminate; try lia; try (exfalso; eapply quiet_up; eauto; fail);
    destruct Rb as [F'|_ F'|_ F'|_ F1' F'|_ F1' _ F'|v' l' _ _ Rm'|v' l' x' _ _ Rm' U']; try discriminate; try lia; try (exfalso; eapply quiet_up; eauto; fail);
    auto; try tauto; try (exfalso; eauto; fail); try (exfalso; eapply removed_key in Rm; tauto); try (exfalso; eapply removed_key in Rm'; tauto).
  destruct (removed_fun _ _ _ _ _ _ Hn Rm Rm') as [<- <-]. auto.
Qed.
Definition gfull (g : eview) : Prop := gwf g /\ forall x, In x (map fst (ev_vals g)) -> ev_refs g x <> None.
Lemma ginv_gfull : forall l e g, ginv l e g -> gfull g.
Proof.
  intros l e g G. split; [eapply ginv_gwf; eauto|]. destruct G as (I & Ed & Hn & Hv & Hr). intros x Hx. apply in_fst in Hx. destruct Hx as [v Hx].
  apply (Hv _ _ Hx).
Qed.
Lemma takes_det : forall lim g k a b ga gb, gfull g -> In k K -> deep_enough lim ->
  takes secure lim g k a ga -> takes secure lim g k b gb -> a = b /\ ga = gb.
Proof.
  intros lim g k a b ga gb [Gw Gr] Hk Hd Ra Rb.
  destruct Ra as [x R|v g1 R Rm|v x g1 R Rm]; destruct Rb as [x' R'|v' g1' R' Rm'|v' x' g1' R' Rm'];
    pose proof (reads_det _ _ _ _ _ Gw Hd R R') as Er; try discriminate Er; injection Er as ->; auto;
    destruct (removes_det _ _ _ _ _ _ _ Gw Gr Hk Hd Rm Rm') as [Er ->]; try discriminate Er; auto; injection Er as ->; auto.
Qed.
Lemma takes_gfull : forall lim g k r g', gfull g -> takes secure lim g k r g' -> gfull g'.
Proof.
  intros lim g k r g' Gf Tk. assert (P : forall a g1, removes secure lim false false [] g k a g1 -> gfull g1).
  { intros a g1 Rm. destruct Gf as [[Hn Hk] Hr].
    assert (Q : forall v l (rr : kvmap) u, removed (ev_vals g) k v l -> (forall x, x <> k -> ev_refs g x <> None -> rr x <> None) -> gfull (EView l rr u)).
    { intros v l rr u Rd Hrr. split; [split|]; cbn [ev_vals ev_refs].
      - eapply removed_NoDup; eauto.
      - intros x Hx. apply in_fst in Hx. destruct Hx as [w Hx]. destruct (removed_In _ _ _ _ _ _ Hn Rd Hx) as [Hx' _]. apply Hk.
        apply in_map_iff. exists (x, w). auto.
      - intros x Hx. apply in_fst in Hx. destruct Hx as [w Hx]. destruct (removed_In _ _ _ _ _ _ Hn Rd Hx) as [Hx' Hne]. apply Hrr; auto. apply Hr.
        apply in_map_iff. exists (x, w). auto. }
    destruct Rm as [ | | | | |v l _ _ Rm|v l x _ _ Rm U]; try (split; [split|]; auto; fail).
    - eapply Q; eauto. intros x Hx Hx'. unfold drop_ref. destruct (bytes_eqb_spec x k); [congruence|auto].
    - eapply Q; eauto. }
  destruct Tk; eauto.
Qed.
Lemma clears_det : forall lim g a ga, clears secure lim g a ga -> deep_enough lim -> gfull g -> forall b gb, clears secure lim g b gb -> a = b /\ ga = gb.
Proof.
  intros lim g a ga Ca. induction Ca as [g E|g k v w l g1 r g2 E Tk Ca IH|g k v l x g1 E Tk]; intros Hd Gf b gb Cb.
  - destruct Cb as [g E'|g k' v' w' l' g1' r' g2' E' Tk' Cb|g k' v' l' x' g1' E' Tk']; [auto|congruence|congruence].
  - assert (Hk : In k K) by (apply Gf; rewrite E; left; reflexivity). assert (Gf' := takes_gfull _ _ _ _ _ Gf Tk). destruct Cb as [g E'|g k' v' w' l' g1' r' g2' E' Tk' Cb|g k' v' l' x' g1' E' Tk'].
    + congruence.
    + rewrite E in E'. injection E' as <- <- <-. destruct (takes_det _ _ _ _ _ _ _ Gf Hk Hd Tk Tk') as [_ <-]. exact (IH Hd Gf' _ _ Cb).
    + rewrite E in E'. injection E' as <- <- <-. destruct (takes_det _ _ _ _ _ _ _ Gf Hk Hd Tk Tk') as [F _]. discriminate.
  - assert (Hk : In k K) by (apply Gf; rewrite E; left; reflexivity). destruct Cb as [g E'|g k' v' w' l' g1' r' g2' E' Tk' Cb|g k' v' l' x' g1' E' Tk'].
    + congruence.
    + rewrite E in E'. injection E' as <- <- <-. destruct (takes_det _ _ _ _ _ _ _ Gf Hk Hd Tk Tk') as [F _]. discriminate.
    + rewrite E in E'. injection E' as <- <- <-. destruct (takes_det _ _ _ _ _ _ _ Gf Hk Hd Tk Tk') as [F <-]. split; [congruence|reflexivity].
Qed.
Lemma lists_det : forall lim g a b, gwf g -> deep_enough lim -> lists secure lim g a -> lists secure lim g b -> a = b.
Proof.
  intros lim g a b Gw Hd La Lb.
  assert (P : forall l1 k v l2 x, ev_vals g = l1 ++ (k, v) :: l2 -> reads secure lim g k (Err x) -> Forall (fun kv => reads secure lim g (fst kv) (Ok (snd kv))) (ev_vals g) -> False).
  { intros l1 k v l2 x E R F. rewrite E in F. apply Forall_app in F. destruct F as [_ F]. inversion_clear F as [|? ? F1 _]. cbn [fst snd] in F1.
    pose proof (reads_det _ _ _ _ _ Gw Hd R F1). discriminate. }
  destruct La as [F|l1 k v l2 x E F R]; destruct Lb as [F'|l1' k' v' l2' x' E' F' R']; auto; try (exfalso; eauto; fail).
  assert (Q : forall (a b c d : list (bytes * value)) kv kv', a ++ kv :: b = c ++ kv' :: d ->
    Forall (fun kv => reads secure lim g (fst kv) (Ok (snd kv))) a -> Forall (fun kv => reads secure lim g (fst kv) (Ok (snd kv))) c ->
    reads secure lim g (fst kv) (Err x) -> reads secure lim g (fst kv') (Err x') -> kv = kv').
  { induction a as [|p a IH]; intros b [|q c] d kv kv' Eq Fa Fc Ra Rc; cbn [app] in Eq; injection Eq as E1 E2; auto.
    - inversion_clear Fc as [|? ? F1 _]. subst q. pose proof (reads_det _ _ _ _ _ Gw Hd F1 Ra). discriminate.
    - inversion_clear Fa as [|? ? F1 _]. subst p. pose proof (reads_det _ _ _ _ _ Gw Hd F1 Rc). discriminate.
    - inversion_clear Fa. inversion_clear Fc. eauto. }
  rewrite E in E'. pose proof (Q _ _ _ _ _ _ E' F F' R R') as Eq. injection Eq as <- <-. pose proof (reads_det _ _ _ _ _ Gw Hd R R'). congruence.
Qed.

Lemma edoes_det : forall l e g lim c a b ga gb, ginv l e g -> incl (ekeys1 c) K -> equiet1 c -> deep_enough lim ->
  edoes secure lim g c a ga -> edoes secure lim g c b gb -> a = b /\ ga = gb.
Proof.
  intros l e g lim c a b ga gb G HK Hq Hd Da Db. pose proof (ginv_gfull _ _ _ G) as Gf. pose proof (proj1 Gf) as Gw.
  destruct Da as [k r R| |k r R| |k r R| |k v fl df r g' S|v fl df x U|v fl df Es|k cf df fl r g' Rm| |k d r g' Tk Hr|k d Hi| |Ev|k v w l0 g' Ev Tk|k v l0 x g' Ev Tk|r g' Cl|
      k v r Hi R|k v g' Hi S|k v x g' Hi S| |r L|r L| | ]; cbn [ekeys1] in HK; cbn [equiet1] in Hq.
  - inversion Db as [k' r' R'| | | | | | | | | | | | | | | | | | | | | | | | | ]; subst. rewrite (reads_det _ _ _ _ _ Gw Hd R R'). auto.
  - inversion Db; subst; auto.
  - inversion Db as [ | |k' r' R'| | | | | | | | | | | | | | | | | | | | | | | ]; subst.
    assert (Hk : In k K) by (apply HK; left; reflexivity). destruct G as (I & _). apply (ref_exact _ _ _ _ _ _ _ I Hk (Hd k Hk)) in R. apply (ref_exact _ _ _ _ _ _ _ I Hk (Hd k Hk)) in R'.
    split; congruence.
  - inversion Db; subst; auto.
  - inversion Db as [ | | | |k' r' R'| | | | | | | | | | | | | | | | | | | | | ]; subst. assert (Hk : In k K) by (apply HK; left; reflexivity). rewrite (asks_det _ _ _ _ _ Hk Hd R R'). auto.
  - inversion Db; subst; auto.
  - destruct Hq as [-> ->]. inversion Db as [ | | | | | |k' v' fl' df' r' g1 S'| | | | | | | | | | | | | | | | | | | ]; subst.
    assert (Hk : In k K) by (apply HK; left; reflexivity). destruct (stores_det _ _ _ _ _ _ _ _ Gw Hk Hd S S') as [-> ->]. auto.
  - inversion Db as [ | | | | | | |v' fl' df' x' U'|v' fl' df' Es'| | | | | | | | | | | | | | | | | ]; subst.
    + rewrite (unfit_fun _ _ _ U U'). auto.
    + apply unfit_not in U. congruence.
  - inversion Db as [ | | | | | | |v' fl' df' x' U'|v' fl' df' Es'| | | | | | | | | | | | | | | | | ]; subst; auto. apply unfit_not in U'. congruence.
  - destruct Hq as (-> & -> & ->). inversion Db as [ | | | | | | | | |k' cf' df' fl' r' g1 Rm'| | | | | | | | | | | | | | | | ]; subst.
    assert (Hk : In k K) by (apply HK; left; reflexivity). destruct (removes_det _ _ _ _ _ _ _ Gw (proj2 Gf) Hk Hd Rm Rm') as [-> ->]. auto.
  - inversion Db; subst; auto.
  - assert (Hk : In k K) by (apply HK; left; reflexivity).
    assert (Hin : In k (map fst (ev_vals g))).
    { destruct (in_dec bytes_eq_dec k (map fst (ev_vals g))) as [|Hi]; auto. exfalso. destruct Tk as [x R|v g1 R _|v x g1 R _].
      - apply Hr. f_equal. eapply reads_key; eauto.
      - apply reads_in in R. apply Hi. apply in_map_iff. exists (k, v). tauto.
      - apply reads_in in R. apply Hi. apply in_map_iff. exists (k, v). tauto. }
    inversion Db as [ | | | | | | | | | | |k' d' r' g1 Tk' Hr'|k' d' Hi'| | | | | | | | | | | | | ]; subst; [|tauto].
    destruct (takes_det _ _ _ _ _ _ _ Gf Hk Hd Tk Tk') as [-> ->]. auto.
  - inversion Db as [ | | | | | | | | | | |k' d' r' g1 Tk' Hr'|k' d' Hi'| | | | | | | | | | | | | ]; subst; auto.
    exfalso. destruct Tk' as [x R|v g1 R _|v x g1 R _].
    + apply Hr'. f_equal. eapply reads_key; eauto.
    + apply reads_in in R. apply Hi. apply in_map_iff. exists (k, v). tauto.
    + apply reads_in in R. apply Hi. apply in_map_iff. exists (k, v). tauto.
  - inversion Db; subst; auto.
  - inversion Db; subst; auto; congruence.
  - assert (Hk : In k K) by (apply Gw; rewrite Ev; left; reflexivity).
    inversion Db as [ | | | | | | | | | | | | | |Ev'|k' v' w' l' g1 Ev' Tk'|k' v' l' x' g1 Ev' Tk'| | | | | | | | | ]; subst; [congruence|..];
      rewrite Ev in Ev'; injection Ev' as <- <- <-; destruct (takes_det _ _ _ _ _ _ _ Gf Hk Hd Tk Tk') as [F <-]; try discriminate. injection F as <-. auto.
  - assert (Hk : In k K) by (apply Gw; rewrite Ev; left; reflexivity).
    inversion Db as [ | | | | | | | | | | | | | |Ev'|k' v' w' l' g1 Ev' Tk'|k' v' l' x' g1 Ev' Tk'| | | | | | | | | ]; subst; [congruence|..];
      rewrite Ev in Ev'; injection Ev' as <- <- <-; destruct (takes_det _ _ _ _ _ _ _ Gf Hk Hd Tk Tk') as [F <-]; try discriminate. injection F as <-. auto.
  - inversion Db as [ | | | | | | | | | | | | | | | | |r' g1 Cl'| | | | | | | | ]; subst. destruct (clears_det _ _ _ _ Cl Hd Gf _ _ Cl') as [-> ->]. auto.
  - inversion Db as [ | | | | | | | | | | | | | | | | | |k' v' r' Hi' R'|k' v' g1 Hi' S'|k' v' x' g1 Hi' S'| | | | | ]; subst; try tauto.
    rewrite (reads_det _ _ _ _ _ Gw Hd R R'). auto.
  - assert (Hk : In k K) by (apply HK; left; reflexivity).
    inversion Db as [ | | | | | | | | | | | | | | | | | |k' v' r' Hi' R'|k' v' g1 Hi' S'|k' v' x' g1 Hi' S'| | | | | ]; subst; try tauto;
      destruct (stores_det _ _ _ _ _ _ _ _ Gw Hk Hd S S') as [F <-]; [auto|discriminate].
  - assert (Hk : In k K) by (apply HK; left; reflexivity).
    inversion Db as [ | | | | | | | | | | | | | | | | | |k' v' r' Hi' R'|k' v' g1 Hi' S'|k' v' x' g1 Hi' S'| | | | | ]; subst; try tauto;
      destruct (stores_det _ _ _ _ _ _ _ _ Gw Hk Hd S S') as [F <-]; [discriminate|injection F as <-; auto].
  - inversion Db; subst; auto.
  - inversion Db as [ | | | | | | | | | | | | | | | | | | | | | |r' L'| | | ]; subst. rewrite (lists_det _ _ _ _ Gw Hd L L'). auto.
  - inversion Db as [ | | | | | | | | | | | | | | | | | | | | | | |r' L'| | ]; subst. rewrite (lists_det _ _ _ _ Gw Hd L L'). auto.
  - inversion Db; subst; auto.
  - inversion Db; subst; auto.
Qed.
Lemma session_only : forall h l e g outs e' outs' g', ginv l e g -> dgood e -> incl (ekeys h) K ->
  (forall k b, In (k, b) (etexts h) -> In (k ++ b) T /\ (blen b < 2 ^ 57)%N) ->
  (forall lim c, In (lim, c) h -> equiet1 c /\ deep_enough lim) ->
  empt_session e h = (outs, e') -> no_collision (m_log (e_trie e')) ->
  efollows secure g h outs' g' -> outs' = outs /\ exists l', ginv l' e' g'.
Proof.
  induction h as [|[lim c] h IH]; intros l e g outs e' outs' g' G D HK HT Hq E Hnc Fo; cbn [empt_session] in E.
  - injection E as <- <-. inversion Fo; subst. eauto.
  - destruct (empt_do lim e c) as [o e1] eqn:Eo. destruct (empt_session e1 h) as [os e2] eqn:Es. injection E as <- <-.
    pose proof (do_grown _ _ _ _ _ D Eo) as G1. pose proof (session_grown _ _ _ _ (proj1 G1) Es) as G2.
    assert (HK1 : incl (ekeys1 c) K) by (intros k Hk; apply HK; apply in_or_app; auto).
    assert (HK2 : incl (ekeys h) K) by (intros k Hk; apply HK; apply in_or_app; auto).
    assert (HT1 : forall k b, In (k, b) (etexts1 c) -> In (k ++ b) T /\ (blen b < 2 ^ 57)%N) by (intros k b Hk; apply HT; apply in_or_app; auto).
    assert (HT2 : forall k b, In (k, b) (etexts h) -> In (k ++ b) T /\ (blen b < 2 ^ 57)%N) by (intros k b Hk; apply HT; apply in_or_app; auto).
    destruct (do_sound _ _ _ _ _ _ _ G D HK1 HT1 Eo (grown_nc _ _ G2 Hnc)) as (l1 & g1 & Do & I1).
    inversion Fo as [|? ? ? o' g1' ? outs2 ? Do' Fo']; subst.
    destruct (Hq lim c (or_introl eq_refl)) as [Hq1 Hd].
    destruct (edoes_det _ _ _ _ _ _ _ _ _ G HK1 Hq1 Hd Do Do') as [<- <-].
    assert (Hq2 : forall lim' c', In (lim', c') h -> equiet1 c' /\ deep_enough lim') by (intros lim' c' Hi; apply Hq; right; exact Hi).
    destruct (IH _ _ _ _ _ _ _ I1 (proj1 G1) HK2 HT2 Hq2 Es Hnc Fo') as (-> & I2). auto.
Qed.
End Mode.
End Every.
