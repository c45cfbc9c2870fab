(** Proofs about SpecMptEvery.v. *)
From Coq Require Import List Bool Arith NArith ZArith Lia.
From Verif Require Import Base BaseProofs Rlp RlpProofs RlpExact NibblePath NibbleProofs Node ProofObj Mpt Tree TreeEnc
  StoreProofs UpdateProofs DeleteProofs ReadProofs Spec SpecCodec SpecRlp SpecProof MptRefine MptProofs PoiProofs PoeProofs
  MptCodecProofs Empt SpecEmpt EmptProofs EmptProofs2 SpecGet MptGetExact SpecWalk WalkProofs PoeExact SpecYp YpProofs SpecVerdict VerdictProofs
  EmptPy SpecEvery EveryProofs DepthProofs MptPy SpecMptEvery.
Import ListNotations.

Section Every.
Context {H : Hash}.
Hypothesis keccak_len : forall b, length (keccak b) = 32.

(** ** Verification looks at the root only *)
Lemma poi_root : forall lim t p, mpt_verify_poi lim t p = mpt_verify_poi lim (mkMpt [] [] (m_root t) (m_secure t)) p.
Proof. reflexivity. Qed.
Lemma poe_root : forall lim t p, mpt_verify_poe lim t p = mpt_verify_poe lim (mkMpt [] [] (m_root t) (m_secure t)) p.
Proof. reflexivity. Qed.

(** ** The walk of a proof of inclusion is that of a proof of exclusion *)
Lemma poi_as_poe : forall f m r p acc l, get_poi_ f m r p acc = Ok l ->
  exists n p', get_poe_ f m r p acc = Ok (n, l, p') /\ (np_len p' = 0 \/ exists lp d, n = Leaf lp d /\ np_eq lp p' = true).
Proof.
  induction f as [|f IH]; intros m r p acc l E; cbn [get_poi_] in E; [discriminate|]. cbn [get_poe_].
  destruct (get_node m r) as [n|]; cbn [bind] in *; [|discriminate].
  destruct (np_len p =? 0) eqn:Ez.
  - apply Nat.eqb_eq in Ez. destruct (node_encode n) as [e|]; cbn [bind] in *; [|discriminate]. injection E as <-. exists n, p. auto.
  - destruct n as [lp d|ep nr|bs d].
    + destruct (np_eq lp p) eqn:Eq; [|discriminate]. destruct (node_encode _) as [e|]; cbn [bind] in *; [|discriminate]. injection E as <-.
      exists (Leaf lp d), p. split; [reflexivity|]. right. eauto.
    + destruct (np_starts_with p ep); [|discriminate]. destruct (node_encode _) as [e|]; cbn [bind] in *; [|discriminate]. apply IH. exact E.
    + cbv zeta in *. destruct (0 <? _); [|discriminate]. destruct (node_encode _) as [e|]; cbn [bind] in *; [|discriminate]. apply IH. exact E.
Qed.

Section Mode.
Variables (secure : bool) (K : list bytes).
Hypothesis K_ok : keys_ok secure K.
Hypothesis K_small : forall k, In k K -> (blen k < 2 ^ 59)%N.
Notation way k := (nibbles (trie_key secure k)).
Notation pairs d := (pairs_of secure d).

Definition inv (l : list op) (t : mpt) (d : kvmap) (used : bool) : Prop :=
  reachable secure l t /\ d = dict_after l /\ (used = true <-> l <> []) /\ incl (map op_key l) K.
Lemma kk : forall l k, incl (map op_key l) K -> In k K -> keys_ok secure (k :: map op_key l).
Proof. intros l k Hi Hk. eapply keys_ok_incl; [|exact K_ok]. intros x [<-|Hx]; auto. Qed.
Lemma kl : forall l, incl (map op_key l) K -> keys_ok secure (map op_key l).
Proof. intros l Hi. eapply keys_ok_incl; [exact Hi|exact K_ok]. Qed.

Lemma hollow_dec : forall l, hollow (dict_after l) \/ exists k v, dict_after l k = Some v.
Proof. intros l. destruct (dict_dec l); auto. Qed.
Lemma full_not : forall d k (v : bytes), d k = Some v -> ~ hollow d.
Proof. intros d k v E N. rewrite N in E. discriminate. Qed.
Lemma raises_full : forall d q x, get_raises (present_keys secure d) q x -> exists k v, d k = Some v.
Proof. intros d q x (p & s & (_ & (y & k & v & E & _) & _) & _). eauto. Qed.
Lemma poi_raises_full : forall d q x, poi_raises (present_keys secure d) q x -> exists k v, d k = Some v.
Proof. intros d q x (p & s & (_ & (y & k & v & E & _) & _) & _). eauto. Qed.
Lemma delete_raises_full : forall d q x, delete_raises (present_keys secure d) q x -> exists k v, d k = Some v.
Proof. intros d q x (p & s & (_ & (y & k & v & E & _) & _) & _). eauto. Qed.

(** ** The root *)
Lemma some_key : forall l, incl (map op_key l) K -> exists k, keys_ok secure (k :: map op_key l).
Proof.
  intros [|o l] Hi.
  - exists []. intros _ a b [<-|[]] [<-|[]] _. reflexivity.
  - exists (op_key o). apply kk; auto. apply Hi. left. reflexivity.
Qed.
Lemma empty_root : forall l t d used, inv l t d used -> hollow d -> m_root t = if used then None else Some (keccak [x80]).
Proof.
  intros l t d used (R & -> & U & Hi) Hd. destruct (some_key l Hi) as [k Hk].
  pose proof (reach_empty keccak_len _ _ _ _ R Hk Hd) as Rt. destruct (repr_empty_root t Rt) as [_ Er].
  destruct (empty_trie_calls keccak_len secure l t k 1 R Hk Hd Nat.lt_0_1) as (_ & F & _).
  assert (L : length EMPTY_HASH = 32) by (unfold EMPTY_HASH; apply keccak_len).
  unfold root_falsy in F. destruct used.
  - destruct Er as [Er|Er]; auto. rewrite Er in F. destruct EMPTY_HASH; [discriminate L|]. assert (X : false = true) by (apply F, U; reflexivity). discriminate.
  - destruct Er as [Er|Er]; auto. rewrite Er in F. assert (l <> []) by (apply F; reflexivity). apply U in H0. discriminate.
Qed.
Lemma full_root : forall l t d used, inv l t d used -> (exists k v, d k = Some v) ->
  exists b, yp_text (pairs d) b /\ m_root t = Some (if length b <? 32 then b else keccak b) /\ root_is_empty t = false /\ root_falsy t = false.
Proof.
  intros l t d used (R & -> & U & Hi) (k0 & v0 & E0). destruct (reach_held keccak_len _ _ _ R (kl l Hi)) as (_ & tr & Rt & Hj).
  assert (Hn : tr <> TEmpty) by (intros ->; assert (X : lookup TEmpty (way k0) = Some v0) by (apply Hj; exists k0; auto); discriminate).
  assert (T : yp_text (pairs (dict_after l)) (tenc tr)) by (apply held_text; auto; apply Rt).
  exists (tenc tr). split; [exact T|]. destruct (repr_nonempty keccak_len t tr Rt Hn) as (E1 & E2 & _ & _).
  split; [eapply root_reference_is_yp; eauto; apply kl; auto|]. auto.
Qed.
Lemma text_full : forall d b, yp_text (pairs d) b -> exists k v, d k = Some v.
Proof.
  intros d b (c & C & _). remember (pairs d) as J0 eqn:EJ. destruct C as [J k v h [J1 _] _|J p h r ((a & v & _ & _ & J1 & _) & _) _ _ _|J rs v ((a & w & _ & _ & J1 & _) & _) _ _ _];
    subst J; destruct J1 as (k0 & E & _); eauto.
Qed.
Lemma root_sound : forall l t d used r, inv l t d used -> (rooted secure d used r <-> m_root t = r).
Proof.
  intros l t d used r I. split.
  - intros Q. destruct Q as [Hd|Hd|used b T] eqn:EQ; [apply (empty_root _ _ _ false I Hd)|apply (empty_root _ _ _ true I Hd)|]. clear EQ.
    destruct I as (R & -> & U & Hi). eapply root_reference_is_yp; eauto. apply kl; auto.
  - intros <-. destruct (hollow_dec l) as [Hd|Hd].
    + assert (d = dict_after l) as Ed by apply I. rewrite <- Ed in Hd. rewrite (empty_root _ _ _ _ I Hd). destruct used; constructor; auto.
    + assert (d = dict_after l) as Ed by apply I. rewrite <- Ed in Hd. destruct (full_root _ _ _ _ I Hd) as (b & T & -> & _). constructor. exact T.
Qed.
Lemma rooted_ref : forall l t d used r, inv l t d used -> rooted secure d used (Some r) <-> m_root t = Some r.
Proof. intros. eapply root_sound; eauto. Qed.

(** ** get *)
Lemma get_exact' : forall l t d used k lim a, inv l t d used -> In k K -> frames secure k < lim ->
  mpt_get lim t k = a <-> gets secure lim d used k a.
Proof.
  intros l t d used k lim a I HkK Hl. assert (I0 := I). destruct I as (R & -> & U & Hi). pose proof (kk _ _ Hi HkK) as Hk. split.
  - intros E. destruct (hollow_dec l) as [Hd|Hd].
    + destruct (empty_trie_calls keccak_len secure l t k lim R Hk Hd ltac:(lia)) as (Eg & F & _). rewrite Eg in E. subst a.
      replace (root_falsy t) with used by (apply eq_true_iff_eq; rewrite F, U; reflexivity). apply gets_empty; auto. right. lia.
    + destruct a as [v|x].
      * apply (get_exact keccak_len _ _ _ _ _ _ R Hk Hl) in E. destruct E as [E|[E1 E2]]; [apply gets_own|apply gets_stray]; auto.
      * destruct (dict_after l k) as [v|] eqn:Ek; [rewrite (proj2 (get_exact keccak_len _ _ _ _ _ v R Hk Hl)) in E; [discriminate|auto]|].
        apply gets_lost; auto. apply (get_Err_raises keccak_len _ _ _ _ _ _ R Hk Ek Hd Hl). exact E.
  - intros [v E|v E F|Hd _|x E F|_ F].
    + apply (get_exact keccak_len _ _ _ _ _ _ R Hk Hl). auto.
    + apply (get_exact keccak_len _ _ _ _ _ _ R Hk Hl). auto.
    + destruct (empty_trie_calls keccak_len secure l t k lim R Hk Hd ltac:(lia)) as (Eg & F & _). rewrite Eg.
      replace (root_falsy t) with used by (apply eq_true_iff_eq; rewrite F, U; reflexivity). reflexivity.
    + apply (get_Err_raises keccak_len _ _ _ _ _ _ R Hk E (raises_full _ _ _ F) Hl). exact F.
    + lia.
Qed.
Lemma get_sound : forall l t d used k lim a, inv l t d used -> In k K -> mpt_get lim t k = a -> gets secure lim d used k a.
Proof.
  intros l t d used k lim a I Hk E. destruct (le_lt_dec lim (frames secure k)) as [Hl|Hl]; [|eapply get_exact'; eauto].
  destruct (DepthProofs.mpt_get_more lim (S (frames secure k)) t k ltac:(lia)) as [Eg|Eg].
  - rewrite Eg in E. subst a. destruct lim as [|lim].
    + assert (Hn : ~ (hollow d /\ used = true)).
      { intros [Hd ->]. unfold mpt_get, root_falsy in Eg. rewrite (empty_root _ _ _ _ I Hd) in Eg. discriminate. }
      apply gets_deep; auto.
    + assert (Hn : ~ (hollow d /\ used = true)).
      { intros [Hd ->]. unfold mpt_get, root_falsy in Eg. rewrite (empty_root _ _ _ _ I Hd) in Eg. discriminate. }
      apply gets_deep; auto.
  - assert (E' : mpt_get (S (frames secure k)) t k = a) by congruence.
    assert (Hz : forall x, hollow d -> used = false -> lim = 0 -> a <> x \/ x = Err RecursionError).
    { intros x Hd -> ->. rewrite <- E. unfold mpt_get, root_falsy. rewrite (empty_root _ _ _ _ I Hd).
      assert (L : length (keccak [x80]) = 32) by apply keccak_len. destruct (keccak [x80]); [discriminate L|]. cbn [get_].
      destruct x as [?|[]]; try (right; reflexivity); left; discriminate. }
    apply (get_exact' _ _ _ _ _ _ _ I Hk (Nat.lt_succ_diag_r _)) in E'.
    destruct E' as [v F|v F G|Hd F|x F G|F G]; [apply gets_own|apply gets_stray|apply gets_empty|apply gets_lost|apply gets_deep]; auto.
    destruct used; auto. right. destruct lim; [|lia]. destruct (Hz (Err KeyError) Hd eq_refl eq_refl) as [X|X]; [contradiction|discriminate].
Qed.

(** ** contains *)
Lemma in_sound' : forall l t d used k lim a, inv l t d used -> In k K -> mpt_contains lim t k = a -> asks secure lim d k a.
Proof.
  intros l t d used k lim a (R & -> & U & Hi) HkK E. pose proof (kk _ _ Hi HkK) as Hk.
  pose proof (contains_exact_nf keccak_len secure l t k (Datatypes.S (frames secure k)) R Hk (Nat.lt_succ_diag_r _)) as (b & Eb & Hb).
  destruct (reach_lookup keccak_len _ _ _ _ R Hk) as (tr & Rt & _ & Es & El).
  pose proof (repr_contains keccak_len t tr lim k Rt) as C. rewrite E in C.
  pose proof (repr_contains keccak_len t tr (Datatypes.S (frames secure k)) k Rt) as C2. rewrite Eb in C2.
  destruct a as [c|e].
  - assert (c = b) as -> by (apply eq_true_iff_eq; exact (iff_trans C (iff_sym C2))). destruct b; constructor.
    + apply Hb. auto.
    + intros F. apply Hb in F. discriminate.
  - destruct C as [-> Hl]. rewrite eff_key_eff, Es, (eff_frames keccak_len) in Hl. constructor. exact Hl.
Qed.
Lemma asks_det : forall lim d k a b, frames secure k < lim -> asks secure lim d k a -> asks secure lim d k b -> a = b.
Proof. intros lim d k a b Hl [A|A|A] [B|B|B]; auto; try contradiction; lia. Qed.

(** ** update and delete *)
Lemma dict_snoc : forall l o, dict_after (l ++ [o]) = apply_op (dict_after l) o.
Proof. intros l o. unfold dict_after, apply_ops. rewrite fold_left_app. reflexivity. Qed.
Lemma keys_snoc' : forall l o, incl (map op_key l) K -> In (op_key o) K -> incl (map op_key (l ++ [o])) K.
Proof. intros l o Hi Ho x Hx. rewrite map_app, in_app_iff in Hx. destruct Hx as [Hx|[<-|[]]]; auto. Qed.
Lemma put_sound : forall l t d used k v lim fl res t', inv l t d used -> In k K -> (secure = false -> v <> []) -> (blen v < 2 ^ 59)%N ->
  mpt_update lim fl t k v = (res, t') -> no_collision (m_log t') ->
  match res with
  | Ok _ => exists l', inv l' t' (set_ref d k v) true
  | Err x => gives_up secure lim fl k x /\ inv l t' d used
  end.
Proof.
  intros l t d used k v lim fl res t' (R & -> & U & Hi) Hk Hne Hsz E Hn. pose proof (K_small _ Hk) as Hks.
  assert (Hop : ok_op secure (Put k v)) by (split; cbn [op_key]; auto).
  pose proof (reachable_call secure l t (Call (Put k v) lim fl) res t' R Hop E Hn) as R'. cbn [c_op] in R'.
  destruct res as [u|x].
  - exists (l ++ [Put k v]). split; [exact R'|]. split; [rewrite dict_snoc; reflexivity|].
    split; [split; auto; intros _; destruct l; discriminate|]. apply keys_snoc'; auto.
  - destruct (reachable_repr keccak_len _ _ _ R) as (Es & tr & Rt & Hh).
    destruct (repr_update keccak_len lim fl t tr k v (Err x) t') as (tr' & R2 & _ & _ & F); auto.
    { rewrite Es. exact Hne. }
    { split; [apply eff_small; auto; lia|unfold SZ; lia]. }
    split; [|split; [exact R'|auto]].
    unfold fails in F. rewrite eff_key_eff, Es, (eff_frames keccak_len) in F. exact F.
Qed.
Lemma lost_any' : forall l t d used k lim fl x t', inv l t d used -> In k K -> d k = None -> (exists k0 v0, d k0 = Some v0) ->
  mpt_delete lim fl t k = (Err x, t') ->
  gives_up secure lim fl k x \/ delete_raises (present_keys secure d) (way k) x.
Proof.
  intros l t d used k lim fl x t' (R & -> & U & Hi) HkK Er Dn E. pose proof (kk _ _ Hi HkK) as Hk.
  destruct (reach_halt keccak_len _ _ _ _ R Hk Er Dn) as (tr & u & q & Rt & Hne & Es & Eh & El & HK & Eq).
  destruct (repr_nonempty keccak_len t tr Rt Hne) as (E1 & E2 & E3 & E4). destruct Rt as (Hw & Hs & St & _).
  assert (El' : lookup tr (nibs (np_of (eff_key t k))) = None) by (rewrite nibs_np_of; exact El).
  assert (Eh' : halt tr (nibs (np_of (eff_key t k))) = (u, q)) by (rewrite nibs_np_of; exact Eh).
  pose proof (delete_any keccak_len [] (fun k F => match F with end) (Datatypes.S (frames secure k)) (m_map t) (m_log t) [] tr (np_of (eff_key t k)) u q Hne Hw Hs St Eh' El') as (x1 & fl1 & D1 & C1).
  destruct (delete_any keccak_len [] (fun k F => match F with end) lim (m_map t) (m_log t) fl tr (np_of (eff_key t k)) u q Hne Hw Hs St Eh' El') as (x2 & fl2 & D2 & C2).
  unfold mpt_delete, run_op in E. rewrite E2, E3, D2 in E. cbn in E. injection E as <- _.
  assert (Fr : length (nibs (np_of (eff_key t k))) = frames secure k).
  { rewrite nibs_np_of, nibs_of_length, eff_key_eff, Es, (eff_frames keccak_len). reflexivity. }
  rewrite Fr in C1, C2. destruct C2 as [C2|[C2|C2]]; [left; left; exact C2|left; right; exact C2|right].
  destruct C1 as [[_ C1]|[[_ C1]|C1]]; [congruence|lia|].
  apply (delete_Err_raises keccak_len _ _ _ _ (Datatypes.S (frames secure k)) _ R Hk Er Dn (Nat.lt_succ_diag_r _)).
  unfold mpt_delete, run_op. rewrite E2, E3, (delete_halt keccak_len (Datatypes.S (frames secure k)) (m_map t) (m_log t) tr (np_of (eff_key t k)) u q Hne Hw Hs St); auto.
  - cbn. subst x2. destruct t; reflexivity.
  - rewrite Fr. lia.
Qed.
Lemma del_sound : forall l t d used k lim fl res t', inv l t d used -> In k K ->
  mpt_delete lim fl t k = (res, t') -> no_collision (m_log t') ->
  exists d' l', drops secure lim fl d k res d' /\ inv l' t' d' used.
Proof.
  intros l t d used k lim fl res t' I HkK E Hn. assert (I0 := I). destruct I as (R & Ed & U & Hi). pose proof (K_small _ HkK) as Hks.
  pose proof (kk _ _ Hi HkK) as Hk.
  assert (Hop : ok_op secure (Del k)) by (split; cbn [op_key]; [lia|exact Logic.I]).
  pose proof (reachable_call secure l t (Call (Del k) lim fl) res t' R Hop E Hn) as R'. cbn [c_op] in R'.
  destruct (reach_lookup keccak_len _ _ _ _ R Hk) as (tr & Rt & _ & Es & El).
  destruct (repr_delete keccak_len lim fl t tr k res t' Rt E Hn) as (tr' & R2 & F).
  destruct res as [u|x].
  - destruct F as [F _]. rewrite El in F. destruct u. rewrite <- Ed in F.
    exists (drop_ref d k), (l ++ [Del k]). split; [apply drops_own; auto|]. split; [exact R'|]. split; [rewrite dict_snoc, Ed; reflexivity|].
    split; [|apply keys_snoc'; auto].
    rewrite U. assert (l <> []) by (intros ->; apply F; rewrite Ed; reflexivity). split; auto. intros _. destruct l; discriminate.
  - destruct F as (_ & _ & F). exists d, l. split; [|split; [exact R'|auto]].
    destruct (hollow_dec l) as [Hd|Hd]; rewrite <- Ed in Hd.
    + unfold mpt_delete, root_is_empty in E. rewrite (empty_root _ _ _ _ I0 Hd) in E.
      assert (x = ValueError) as ->.
      { destruct used; [injection E as <- _; reflexivity|]. rewrite bytes_eqb_refl in E. injection E as <- _. reflexivity. }
      apply drops_empty. exact Hd.
    + assert (Hh : ~ hollow d) by (destruct Hd as (k0 & v0 & Hd); eapply full_not; eauto).
      destruct F as [F|F].
      * apply drops_not; auto. unfold fails in F. rewrite eff_key_eff, Es, (eff_frames keccak_len) in F. exact F.
      * rewrite El, <- Ed in F. destruct (lost_any' _ _ _ _ _ _ _ _ _ I0 HkK F Hd E) as [G|G]; [apply drops_not|apply drops_lost]; auto.
Qed.
Lemma drops_det : forall l t d used k lim a b da db, inv l t d used -> In k K -> frames secure k < lim ->
  drops secure lim [] d k a da -> drops secure lim [] d k b db -> a = b /\ da = db.
Proof.
  intros l t d used k lim a b da db (R & -> & U & Hi) HkK Hl A B. pose proof (kk _ _ Hi HkK) as Hk.
  assert (N : forall x, gives_up secure lim [] k x -> False) by (intros x [[_ G]|[_ G]]; [congruence|lia]).
  assert (X : forall x y, dict_after l k = None -> delete_raises (present_keys secure (dict_after l)) (way k) x ->
     delete_raises (present_keys secure (dict_after l)) (way k) y -> x = y).
  { intros x y E F G. pose proof (delete_raises_full _ _ _ F) as Dn.
    apply (delete_Err_raises keccak_len _ _ _ _ _ _ R Hk E Dn Hl) in F. apply (delete_Err_raises keccak_len _ _ _ _ _ _ R Hk E Dn Hl) in G. congruence. }
  destruct A as [A|A|x A A'|x A A']; destruct B as [B|B|y B B'|y B B']; auto; try contradiction; try (exfalso; eauto; fail);
    try (rewrite A in B; contradiction); try (rewrite B in A; contradiction);
    try (destruct (delete_raises_full _ _ _ A') as (k0 & v0 & E0); rewrite B in E0; discriminate);
    try (destruct (delete_raises_full _ _ _ B') as (k0 & v0 & E0); rewrite A in E0; discriminate).
  rewrite (X _ _ A A' B'). auto.
Qed.

(** ** Proofs of inclusion *)
Lemma reach_both : forall l t d used k, inv l t d used -> In k K -> exists tr, repr t tr /\ YpProofs.held (pairs d) tr /\
  m_secure t = secure /\ eff_key t k = trie_key secure k /\ lookup tr (way k) = d k.
Proof.
  intros l t d used k (R & -> & U & Hi) HkK. pose proof (kk _ _ Hi HkK) as Hk.
  destruct (reach_held keccak_len _ _ _ R (kl l Hi)) as (Es & tr & Rt & Hj). exists tr. split; auto. split; auto. split; auto.
  split; [unfold eff_key, trie_key; rewrite Es; reflexivity|].
  destruct (dict_after l k) as [v|] eqn:Ek; [apply Hj; exists k; auto|].
  destruct (lookup tr (way k)) as [v|] eqn:El; auto. exfalso. apply Hj in El. destruct El as (k' & Ek' & En).
  assert (E : trie_key secure k = trie_key secure k') by (apply nibs_of_inj; exact En).
  assert (k = k') as ->.
  { unfold trie_key in E. pose proof (dict_after_keys _ _ _ Ek') as Hin. revert E. generalize (eq_refl secure). pattern secure at 2 3 4.
    destruct secure; intros S E; auto. apply (Hk S); auto; [left; reflexivity|right; exact Hin]. }
  congruence.
Qed.
Lemma poi_shape : forall lim tm t k p, mpt_get_poi lim tm t k = Ok p ->
  root_is_empty t = false /\ p = mkProof MPT_POI tm (eff_key t k) (root_ref t) (pf_proof p) /\
  exists L, get_poi_ lim (m_map t) (root_ref t) (np_of (eff_key t k)) [] = Ok L /\ pf_proof p = map PB L.
Proof.
  intros lim tm t k p E. unfold mpt_get_poi in E. destruct (root_is_empty t); [discriminate|]. split; auto.
  destruct (get_poi_ _ _ _ _ _) as [L|]; cbn [bind] in E; [|discriminate]. unfold new_proof in E. cbn in E. injection E as <-.
  split; auto. exists L. auto.
Qed.
Lemma root_ref_some : forall t, root_is_empty t = false -> m_root t = Some (root_ref t).
Proof. intros t. unfold root_is_empty, root_ref. destruct (m_root t); [auto|discriminate]. Qed.

Lemma stray_trail : forall l t d used k lim tm p, inv l t d used -> In k K -> frames secure k < lim -> d k = None ->
  mpt_get_poi lim tm t k = Ok p -> exists L, pf_proof p = map PB L /\ forall L', yp_trail (pairs d) (way k) [] L' <-> L' = L.
Proof.
  intros l t d used k lim tm p I HkK Hl Ek E. destruct (poi_shape _ _ _ _ _ E) as (Er & _ & L & G & Ep).
  destruct (reach_both _ _ _ _ _ I HkK) as (tr & Rt & Hj & Es & Eq & El). rewrite Ek in El.
  assert (Hn : tr <> TEmpty) by (intros ->; destruct (repr_empty_root t Rt); congruence).
  destruct (repr_nonempty keccak_len t tr Rt Hn) as (_ & _ & E3 & _). destruct Rt as (Hw & Hs & St & _).
  destruct (halt tr (way k)) as [u r] eqn:Eh.
  assert (Enq : nibs (np_of (eff_key t k)) = way k) by (rewrite nibs_np_of, Eq; reflexivity).
  destruct (poe_halt keccak_len lim (m_map t) tr (np_of (eff_key t k)) [] u r Hn Hw Hs St) as (n & path' & Hm & Hp & Eg).
  { rewrite nibs_np_of, nibs_of_length, eff_key_eff, Es, (eff_frames keccak_len). exact Hl. }
  { rewrite Enq. exact Eh. }
  rewrite E3 in G. destruct (poi_as_poe _ _ _ _ _ _ G) as (n' & p' & Eg' & C). rewrite Eg' in Eg. injection Eg as -> -> ->. rewrite Enq in *. cbn [app].
  assert (r = []) as ->.
  { destruct C as [C|(lp & dd & -> & C)]; [rewrite np_len_spec, Hp in C; destruct r; [auto|discriminate]|].
    destruct (halt_class _ _ _ _ Hn Hw Eh El) as (p0 & s0 & _ & D). apply np_eq_spec in C.
    destruct u as [|lp' w|ep c|cs w]; cbn [nmatch] in Hm; try contradiction. destruct Hm as [<- _]. destruct D as (_ & D & _). congruence. }
  exists (map tenc (trail tr (way k))). split; auto. intros L'. split.
  - intros Y. destruct (trail_unique keccak_len _ _ _ _ Y tr Hj Hw Hs) as (_ & _ & ->). reflexivity.
  - intros ->. eapply held_trail; eauto.
Qed.

Lemma poi_exact : forall l t d used k lim tm a, inv l t d used -> In k K -> frames secure k < lim ->
  mpt_get_poi lim tm t k = a <-> includes secure lim tm d used k a.
Proof.
  intros l t d used k lim tm a I HkK Hl. assert (I0 := I). destruct I as (R & Ed & U & Hi). pose proof (kk _ _ Hi HkK) as Hk.
  assert (Ee : eff_key t k = trie_key secure k) by (destruct (reach_both _ _ _ _ _ I0 HkK) as (tr & _ & _ & _ & Eq & _); exact Eq).
  assert (Own : d k <> None -> exists p L, mpt_get_poi lim tm t k = Ok p /\ p = mkProof MPT_POI tm (trie_key secure k) (root_ref t) (map PB L) /\
    m_root t = Some (root_ref t) /\ forall L', yp_way (pairs d) (way k) L' <-> L' = L).
  { intros N. destruct (d k) as [v|] eqn:Ek; [|congruence]. rewrite Ed in Ek.
    destruct (poi_is_way keccak_len _ _ _ _ _ lim tm R (kl l Hi) Ek Hl) as (p & L & E & Ep & W & _). rewrite <- Ed in W. exists p, L.
    destruct (poi_shape _ _ _ _ _ E) as (Er & Es & _). rewrite Ep, Ee in Es. split; auto. split; auto. split; [apply root_ref_some; auto|exact W]. }
  assert (Lost : d k = None -> (exists k0 v0, d k0 = Some v0) ->
    (forall e, mpt_get_poi lim tm t k = Err e <-> poi_raises (present_keys secure d) (way k) e) /\
    ((exists p, mpt_get_poi lim tm t k = Ok p) <-> below (present_keys secure d) (way k) /\
      (edge (present_keys secure d) (way k) \/ forked (present_keys secure d) (way k)))).
  { rewrite Ed. intros N Dn. apply (poi_Err_raises keccak_len _ _ _ _ _ _ R Hk N Dn Hl). }
  split.
  - intros E. destruct (hollow_dec l) as [Hd|Hd]; rewrite <- Ed in Hd.
    + unfold mpt_get_poi, root_is_empty in E. rewrite (empty_root _ _ _ _ I0 Hd) in E.
      assert (a = Err ValueError) as ->; [|apply includes_empty; auto]. destruct used; [congruence|]. rewrite bytes_eqb_refl in E. congruence.
    + destruct (d k) as [v|] eqn:Ek.
      * destruct Own as (p & L & E' & -> & Er & W); [congruence|]. rewrite E' in E. subst a. apply includes_own; [congruence|eapply root_sound; eauto|apply W; auto].
      * destruct (Lost eq_refl Hd) as [Lo St]. destruct a as [p|x]; [|apply includes_lost; auto; apply Lo; auto].
        destruct (stray_trail _ _ _ _ _ _ _ _ I0 HkK Hl Ek E) as (L & Ep & W). destruct (poi_shape _ _ _ _ _ E) as (Er & Es & _).
        rewrite Ep, Ee in Es. subst p. destruct (proj1 St (ex_intro _ _ E)) as [B1 B2].
        apply includes_stray; auto; [eapply root_sound; eauto; apply root_ref_some; auto|apply W; auto].
  - intros C. destruct C as [r L N Q W|r L N Q B1 B2 W|Hd|x N F|Hd F].
    + destruct (Own N) as (p & L' & E' & -> & Er & W'). apply W' in W. subst L'. rewrite E'. apply (root_sound _ _ _ _ _ I0) in Q. do 2 f_equal. congruence.
    + assert (Dn : exists k0 v0, d k0 = Some v0) by (destruct B1 as (y & k0 & v0 & E & _); eauto).
      destruct (Lost N Dn) as [_ St]. destruct (proj2 St (conj B1 B2)) as [p E].
      destruct (stray_trail _ _ _ _ _ _ _ _ I0 HkK Hl N E) as (L' & Ep & W'). destruct (poi_shape _ _ _ _ _ E) as (Er & Es & _).
      apply W' in W. subst L'. rewrite E, Es, Ee, Ep. apply (root_sound _ _ _ _ _ I0) in Q. apply root_ref_some in Er. do 2 f_equal. congruence.
    + unfold mpt_get_poi, root_is_empty. rewrite (empty_root _ _ _ _ I0 Hd). destruct used; auto. unfold EMPTY_HASH. rewrite bytes_eqb_refl. reflexivity.
    + destruct (Lost N (poi_raises_full _ _ _ F)) as [Lo _]. apply Lo. exact F.
    + lia.
Qed.
Lemma poi_sound : forall l t d used k lim tm a, inv l t d used -> In k K -> mpt_get_poi lim tm t k = a -> includes secure lim tm d used k a.
Proof.
  intros l t d used k lim tm a I Hk E. destruct (le_lt_dec lim (frames secure k)) as [Hl|Hl]; [|eapply poi_exact; eauto].
  destruct (mpt_poi_more lim (S (frames secure k)) tm t k ltac:(lia)) as [Eg|Eg].
  - rewrite Eg in E. subst a. apply includes_deep; auto. intros Hd. unfold mpt_get_poi, root_is_empty in Eg. rewrite (empty_root _ _ _ _ I Hd) in Eg.
    destruct used; [discriminate|]. unfold EMPTY_HASH in Eg. rewrite bytes_eqb_refl in Eg. discriminate.
  - assert (E' : mpt_get_poi (S (frames secure k)) tm t k = a) by congruence.
    apply (poi_exact _ _ _ _ _ _ _ _ I Hk (Nat.lt_succ_diag_r _)) in E'.
    destruct E' as [r L N Q W|r L N Q B1 B2 W|Hd|x N F|Hd F];
      [apply includes_own|apply includes_stray|apply includes_empty|apply includes_lost|apply includes_deep]; auto.
Qed.

(** ** Proofs of exclusion *)
Lemma poe_shape : forall lim tm t k p, mpt_get_poe lim tm t k = Ok p ->
  root_is_empty t = false /\ mpt_contains lim t k = Ok false /\ p = mkProof MPT_POE tm (eff_key t k) (root_hash t) (pf_proof p).
Proof.
  intros lim tm t k p E. unfold mpt_get_poe in E. destruct (root_is_empty t); [discriminate|]. split; auto.
  destruct (mpt_contains lim t k) as [[|]|]; cbn [bind] in E; try discriminate. split; auto.
  destruct (get_poe_ _ _ _ _ _) as [[[n L] path]|]; cbn [bind] in E; [|discriminate].
  destruct (node_encode _) as [e|]; cbn [bind] in E; [|discriminate]. cbv zeta in E.
  destruct n as [lp d|ep nr|bs d]; [destruct (np_eq lp path); [discriminate|]| |destruct (bytes_eqb d []); [|discriminate]];
    unfold new_proof in E; cbn in E; injection E as <-; reflexivity.
Qed.
Lemma poe_exact' : forall l t d used k lim tm a, inv l t d used -> In k K -> frames secure k < lim ->
  mpt_get_poe lim tm t k = a <-> excludes secure lim tm d k a.
Proof.
  intros l t d used k lim tm a I HkK Hl. assert (I0 := I). destruct I as (R & Ed & U & Hi). pose proof (kk _ _ Hi HkK) as Hk.
  assert (Ee : eff_key t k = trie_key secure k) by (destruct (reach_both _ _ _ _ _ I0 HkK) as (tr & _ & _ & _ & Eq & _); exact Eq).
  destruct (poe_refused keccak_len secure l t k lim tm R Hk Hl) as [Re Rp]. rewrite <- Ed in Re.
  assert (Rc : forall b, mpt_contains lim t k = Ok b -> (b = true <-> held secure d k)).
  { intros b Eb. pose proof (in_sound' _ _ _ _ _ _ _ I0 HkK Eb) as A. remember (Ok b) as x eqn:Ex.
    destruct A as [A|A|A]; [injection Ex as <-; tauto|injection Ex as <-; split; [discriminate|contradiction]|lia]. }
  destruct (contains_exact_nf keccak_len secure l t k lim R Hk Hl) as (b & Eb & _). specialize (Rc _ Eb).
  assert (Abs : ~ held secure d k -> ~ hollow d -> exists L e h q, mpt_get_poe lim tm t k = Ok (mkProof MPT_POE tm (trie_key secure k) (root_hash t) (map PB (L ++ [e]))) /\
    (forall q' L', yp_trail (pairs d) (way k) q' L' <-> q' = q /\ L' = L) /\ hex_prefix h q true /\ rlp_form e (IList [IBytes h; IBytes null_bytes])).
  { intros Nh Nd. assert (Ek : d k = None) by (destruct (d k) eqn:Ek; auto; exfalso; apply Nh; left; congruence). rewrite Ed in Ek.
    assert (Dn : exists k0 v0, dict_after l k0 = Some v0) by (destruct (hollow_dec l) as [X|X]; auto; rewrite <- Ed in X; contradiction).
    assert (Ec : mpt_contains lim t k = Ok false) by (destruct b; auto; exfalso; tauto).
    destruct (poe_exact keccak_len secure l t k lim lim tm t R Hk Ek Dn (K_small _ HkK) Hl Hl eq_refl Ec) as (p & Ep & _).
    destruct (poe_is_trail keccak_len _ _ _ _ _ _ _ R Hk Hl Ep) as (q & L & e & h & Epf & Tr & _ & Hh & Hf). rewrite <- Ed in Tr.
    exists L, e, h, q. destruct (poe_shape _ _ _ _ _ Ep) as (_ & _ & Es). rewrite Ee, Epf in Es. split; [congruence|]. split; auto. }
  split.
  - intros E. destruct (hollow_dec l) as [Hd|Hd]; rewrite <- Ed in Hd; [rewrite (Re Hd) in E; subst a; apply excludes_empty; auto|].
    assert (Nd : ~ hollow d) by (destruct Hd as (k0 & v0 & Hd); eapply full_not; eauto).
    destruct b; [rewrite (Rp Eb) in E; subst a; apply excludes_present; tauto|].
    assert (Nh : ~ held secure d k) by (intros X; apply Rc in X; discriminate).
    destruct (Abs Nh Nd) as (L & e & h & q & Ep & Tr & Hh & Hf). rewrite Ep in E. subst a.
    apply (excludes_absent _ _ _ _ _ (root_hash t) L q h e); auto; [|apply Tr; auto]. rewrite Ed. apply (root_is_yp keccak_len _ _ _ R (kl l Hi)). reflexivity.
  - intros C. destruct C as [r L q h e Nd Nh Hr Tr Hh Hf|Hh|Hd|Nd F].
    + destruct (Abs Nh Nd) as (L' & e' & h' & q' & Ep & Tr' & Hh' & Hf'). apply Tr' in Tr. destruct Tr as [-> ->].
      apply hex_prefix_hp in Hh, Hh'. subst h h'. rewrite (form_unique_text _ _ _ Hf Hf'), Ep.
      rewrite Ed in Hr. apply (root_is_yp keccak_len _ _ _ R (kl l Hi)) in Hr. rewrite Hr. reflexivity.
    + apply Rp. rewrite Eb. f_equal. apply Rc. exact Hh.
    + apply Re. exact Hd.
    + lia.
Qed.
Lemma poe_sound : forall l t d used k lim tm a, inv l t d used -> In k K -> mpt_get_poe lim tm t k = a -> excludes secure lim tm d k a.
Proof.
  intros l t d used k lim tm a I Hk E. destruct (le_lt_dec lim (frames secure k)) as [Hl|Hl]; [|eapply poe_exact'; eauto].
  destruct (mpt_poe_more lim (S (frames secure k)) tm t k ltac:(lia)) as [Eg|Eg].
  - rewrite Eg in E. subst a. apply excludes_deep; auto. intros Hd. unfold mpt_get_poe, root_is_empty in Eg. rewrite (empty_root _ _ _ _ I Hd) in Eg.
    destruct used; [discriminate|]. unfold EMPTY_HASH in Eg. rewrite bytes_eqb_refl in Eg. discriminate.
  - assert (E' : mpt_get_poe (S (frames secure k)) tm t k = a) by congruence.
    apply (poe_exact' _ _ _ _ _ _ _ _ I Hk (Nat.lt_succ_diag_r _)) in E'.
    destruct E' as [r L q h e Nd Nh Hr Tr Hh Hf|Hh|Hd|Nd F];
      [eapply excludes_absent; eauto|apply excludes_present|apply excludes_empty|apply excludes_deep]; auto.
Qed.

(** ** Sessions *)
Lemma do_sound : forall l t d used lim c o t', inv l t d used -> incl (gkeys1 c) K -> gfits1 secure c ->
  mpt_do lim t c = (o, t') -> no_collision (m_log t') ->
  exists l' d' used', gdoes secure lim d used c o d' used' /\ inv l' t' d' used'.
Proof.
  intros l t d used lim c o t' I HK Hf E Hn. destruct c as [k|k|k v fl|k fl|tm k|tm k|p|p| |]; cbn [mpt_do] in E; cbn [gkeys1] in HK;
    try assert (Hk : In k K) by (apply HK; left; reflexivity).
  - injection E as <- <-. exists l, d, used. split; auto. constructor. eapply get_sound; eauto.
  - injection E as <- <-. exists l, d, used. split; auto. constructor. eapply in_sound'; eauto.
  - destruct (mpt_update lim fl t k v) as [r t1] eqn:Eu. injection E as <- <-. destruct Hf as [Hv Hs].
    pose proof (put_sound _ _ _ _ _ _ _ _ _ _ I Hk Hv Hs Eu Hn) as P. destruct r as [[]|x].
    + destruct P as [l' P]. exists l', (set_ref d k v), true. split; auto. constructor.
    + destruct P as [P1 P2]. exists l, d, used. split; auto. apply gdoes_put_not. auto.
  - destruct (mpt_delete lim fl t k) as [r t1] eqn:Eu. injection E as <- <-.
    destruct (del_sound _ _ _ _ _ _ _ _ _ I Hk Eu Hn) as (d' & l' & D & I'). exists l', d', used. split; auto. constructor. exact D.
  - injection E as <- <-. exists l, d, used. split; auto. constructor. eapply poi_sound; eauto.
  - injection E as <- <-. exists l, d, used. split; auto. constructor. eapply poe_sound; eauto.
  - injection E as <- <-. exists l, d, used. split; auto. eapply gdoes_check_poi; [eapply root_sound; eauto|]. apply inclusion_exact.
    rewrite (poi_root lim t p). destruct I as (R & _ & _ & Hi). destruct (reach_held keccak_len _ _ _ R (kl l Hi)) as [-> _]. reflexivity.
  - injection E as <- <-. exists l, d, used. split; auto. eapply gdoes_check_poe; [eapply root_sound; eauto|]. apply exclusion_exact.
    rewrite (poe_root lim t p). destruct I as (R & _ & _ & Hi). destruct (reach_held keccak_len _ _ _ R (kl l Hi)) as [-> _]. reflexivity.
  - injection E as <- <-. exists l, d, used. split; auto. constructor. eapply root_sound; eauto.
  - injection E as <- <-. exists l, d, used. split; auto. constructor. destruct I as (R & -> & _ & Hi). apply (root_is_yp keccak_len _ _ _ R (kl l Hi)). reflexivity.
Qed.
Lemma gdoes_det : forall l t d used lim c a b da ua db ub, inv l t d used -> incl (gkeys1 c) K -> gquiet1 c ->
  (forall k, In k K -> frames secure k < lim) ->
  gdoes secure lim d used c a da ua -> gdoes secure lim d used c b db ub -> a = b /\ da = db /\ ua = ub.
Proof.
  intros l t d used lim c a b da ua db ub I HK Hq Hd A B.
  assert (Rt : forall r r', rooted secure d used r -> rooted secure d used r' -> r = r').
  { intros r r' F G. apply (root_sound _ _ _ _ _ I) in F, G. congruence. }
  assert (N : forall k x, In k K -> gives_up secure lim [] k x -> False).
  { intros k x Hk [[_ G]|[_ G]]; [congruence|]. specialize (Hd _ Hk). lia. }
  destruct A as [k r A|k r A|k v fl|k v fl x A|k fl r d1 A|tm k r A|tm k r A|p r v A1 A2|p r v A1 A2|r A|r A];
    cbn [gkeys1] in HK; cbn [gquiet1] in Hq; try assert (Hk : In k K) by (apply HK; left; reflexivity);
    inversion B as [? r2 B1|? r2 B1| |? ? ? x2 B1|? ? r2 d2 B1|? ? r2 B1|? ? r2 B1|? r2 v2 B1 B2|? r2 v2 B1 B2|r2 B1|r2 B1]; subst;
    try (exfalso; eapply N; eauto; fail); auto.
  - apply (get_exact' _ _ _ _ _ _ _ I Hk (Hd _ Hk)) in A, B1. subst. auto.
  - rewrite (asks_det _ _ _ _ _ (Hd _ Hk) A B1). auto.
  - destruct (drops_det _ _ _ _ _ _ _ _ _ _ I Hk (Hd _ Hk) A B1) as [-> ->]. auto.
  - apply (poi_exact _ _ _ _ _ _ _ _ I Hk (Hd _ Hk)) in A, B1. subst. auto.
  - apply (poe_exact' _ _ _ _ _ _ _ _ I Hk (Hd _ Hk)) in A, B1. subst. auto.
  - rewrite (Rt _ _ A1 B1) in A2. apply inclusion_exact in A2, B2. subst. auto.
  - rewrite (Rt _ _ A1 B1) in A2. apply exclusion_exact in A2, B2. subst. auto.
  - rewrite (Rt _ _ A B1). auto.
  - destruct I as (R & -> & _ & Hi). apply (root_is_yp keccak_len _ _ _ R (kl l Hi)) in A, B1. subst. auto.
Qed.
Lemma do_grown : forall lim t c o t', tgood t -> mpt_do lim t c = (o, t') -> tgrown t t'.
Proof.
  intros lim t c o t' D E. destruct c as [k|k|k v fl|k fl|tm k|tm k|p|p| |]; cbn [mpt_do] in E; try (injection E as _ <-; apply tgrown_refl; exact D).
  - destruct (mpt_update lim fl t k v) as [r t1] eqn:Eu. injection E as _ <-. exact (call_keeps keccak_len t (Call (Put k v) lim fl) r t1 D Eu).
  - destruct (mpt_delete lim fl t k) as [r t1] eqn:Eu. injection E as _ <-. exact (call_keeps keccak_len t (Call (Del k) lim fl) r t1 D Eu).
Qed.
Lemma session_grown : forall h t outs t', tgood t -> mpt_session t h = (outs, t') -> tgrown t t'.
Proof.
  induction h as [|[lim c] h IH]; intros t outs t' D E; cbn [mpt_session] in E.
  - injection E as _ <-. apply tgrown_refl; auto.
  - destruct (mpt_do lim t c) as [o t1] eqn:Eo. destruct (mpt_session t1 h) as [os t2] eqn:Es. injection E as _ <-.
    destruct (do_grown _ _ _ _ _ D Eo) as [D1 G1]. destruct (IH _ _ _ D1 Es) as [D2 G2]. split; auto. eapply grows_trans; eauto.
Qed.
Lemma session_sound : forall h l t d used outs t', inv l t d used -> tgood t -> incl (gkeys h) K ->
  (forall lim c, In (lim, c) h -> gfits1 secure c) -> mpt_session t h = (outs, t') -> no_collision (m_log t') ->
  (exists l' d' used', gfollows secure d used h outs d' used' /\ inv l' t' d' used') /\
  ((forall lim c, In (lim, c) h -> gquiet1 c /\ forall k, In k K -> frames secure k < lim) ->
   forall outs' d' used', gfollows secure d used h outs' d' used' -> outs' = outs).
Proof.
  induction h as [|[lim c] h IH]; intros l t d used outs t' I D HK Hf E Hnc; cbn [mpt_session] in E.
  - injection E as <- <-. split.
    + exists l, d, used. split; auto. constructor.
    + intros _ outs' d' used' F. inversion F; subst. reflexivity.
  - destruct (mpt_do lim t c) as [o t1] eqn:Eo. destruct (mpt_session t1 h) as [os t2] eqn:Es. injection E as <- <-.
    destruct (do_grown _ _ _ _ _ D Eo) as [D1 G1]. destruct (session_grown _ _ _ _ D1 Es) as [_ G2].
    assert (HK1 : incl (gkeys1 c) K) by (intros k Hk; apply HK; apply in_or_app; auto).
    assert (HK2 : incl (gkeys h) K) by (intros k Hk; apply HK; apply in_or_app; auto).
    assert (Hf2 : forall lim' c', In (lim', c') h -> gfits1 secure c') by (intros lim' c' Hi; eapply Hf; right; exact Hi).
    destruct (do_sound _ _ _ _ _ _ _ _ I HK1 (Hf lim c (or_introl eq_refl)) Eo (grows_nocoll _ _ G2 Hnc)) as (l1 & d1 & u1 & Do & I1).
    destruct (IH _ _ _ _ _ _ I1 D1 HK2 Hf2 Es Hnc) as [(l2 & d2 & u2 & Fo & I2) Only]. split.
    + exists l2, d2, u2. split; auto. econstructor; eauto.
    + intros Hq outs' d' used' F. inversion F as [|? ? ? ? o' d1' u1' ? outs2 ? ? Do' Fo']; subst.
      destruct (Hq lim c (or_introl eq_refl)) as [Hq1 Hd].
      destruct (gdoes_det _ _ _ _ _ _ _ _ _ _ _ _ I HK1 Hq1 Hd Do Do') as (<- & <- & <-). f_equal. eapply Only; [|exact Fo'].
      intros lim' c' Hi. apply Hq. right. exact Hi.
Qed.
End Mode.

Theorem mpt_every_call : forall secure h outs t, mpt_session (mpt_new secure) h = (outs, t) -> gfits secure h -> keys_ok secure (gkeys h) ->
  no_collision (m_log t) ->
  (exists d used, gfollows secure no_refs false h outs d used) /\
  (gquiet secure h -> forall outs' d used, gfollows secure no_refs false h outs' d used -> outs' = outs).
Proof.
  intros secure h outs t E [Hf1 Hf2] Hk Hn.
  assert (D0 : tgood (mpt_new secure)) by (exact (new_dinv secure)).
  assert (I0 : inv secure (gkeys h) [] (mpt_new secure) no_refs false).
  { split; [|split; [reflexivity|split; [split; [discriminate|congruence]|intros x []]]].
    exists []. split; [reflexivity|]. split; [constructor|]. destruct (session_grown _ _ _ _ D0 E) as [_ G]. eapply grows_nocoll; eauto. }
  destruct (session_sound secure (gkeys h) Hk Hf1 h [] (mpt_new secure) no_refs false outs t I0 D0 (incl_refl _) Hf2 E Hn) as [(l & d & u & F & _) O].
  split; [eauto|]. intros Hq. exact (O Hq).
Qed.
End Every.
