(** The statements about MPT in terms of the specification (Spec.v). *)
From Coq Require Import List Bool Arith NArith ZArith Lia Permutation.
From Verif Require Import Base BaseProofs Rlp RlpProofs NibblePath NibbleProofs Node ProofObj Mpt Tree TreeEnc
  StoreProofs UpdateProofs DeleteProofs ReadProofs Spec MptRefine.
Import ListNotations.

Lemma nibs_of_app_inv : forall p k z, nibs_of k = nibs_of p ++ z -> exists r, k = p ++ r /\ z = nibs_of r.
Proof.
  induction p as [|b p IH]; intros k z E; [exists k; auto|].
  destruct k as [|c k]; rewrite ?nibs_of_cons in E; cbn [app] in E; [discriminate|].
  injection E as E1 E2 E3. destruct (IH _ _ E3) as (r & -> & ->). exists r. split; auto. cbn [app]. f_equal.
  rewrite <- (mkb_hi_lo c), <- (mkb_hi_lo b), E1, E2. reflexivity.
Qed.

Lemma nibs_of_eq_nil : forall b, nibs_of b = [] -> b = [].
Proof. intros b E. destruct b; auto. rewrite nibs_of_cons in E. discriminate. Qed.

Lemma In_dget : forall (d : dict bytes) k v, NoDup (dkeys d) -> In (k, v) d -> dget d k = Some v.
Proof.
  induction d as [|[k0 v0] d IH]; intros k v Hnd Hi; [contradiction|]. inversion Hnd as [|? ? Hni Hnd']; subst.
  cbn [dget]. destruct (bytes_eqb_spec k k0) as [->|Hk].
  - destruct Hi as [E|Hi]; [injection E as <-; reflexivity|]. exfalso. apply Hni.
    apply in_map_iff. exists (k0, v). auto.
  - destruct Hi as [E|Hi]; [injection E as -> ->; congruence|]. apply IH; auto.
Qed.

Section P.
Context {H : Hash}.
Hypothesis keccak_len : forall b, length (keccak b) = 32.

Lemma nocoll_eq : forall l, no_collision l = nocoll l.
Proof. reflexivity. Qed.

(** ** Prefix conditions on trees and on dictionaries *)
Lemma holds_extended : forall tr d k, holds tr d -> extended tr (nibs_of k) <-> extended_in d k.
Proof.
  intros tr d k [H1 H2]. split.
  - intros (r & w & Hr & E). destruct (H2 _ _ E) as (k' & Ek). symmetry in Ek.
    destruct (nibs_of_app_inv _ _ _ Ek) as (s & -> & ->). exists (k ++ s), w. split.
    + exists s. split; auto. intros ->. apply Hr. reflexivity.
    + rewrite <- H1, Ek. exact E.
  - intros (k' & v & (r & Hr & ->) & E). exists (nibs_of r), v. split.
    + intros E'. apply nibs_of_eq_nil in E'. auto.
    + rewrite <- nibs_of_app, H1. exact E.
Qed.

Lemma holds_false_hit : forall tr d k, holds tr d -> false_hit tr (nibs_of k) <-> false_positive d k.
Proof.
  intros tr d k Hh. assert (Hh0 := Hh). destruct Hh as [H1 H2]. split.
  - intros (pre & x & r & w & Eq & E & Ex & Hn). destruct (H2 _ _ E) as (p & ->).
    destruct (nibs_of_app_inv _ _ _ Eq) as (s & -> & Es).
    destruct s as [|b s]; [discriminate|]. rewrite nibs_of_cons in Es. injection Es as -> ->.
    exists p, b, s, w. split; auto. split; [rewrite <- H1; auto|]. split; [apply (holds_extended tr); auto|].
    intros b' r' Eb. rewrite <- H1, nibs_of_app, nibs_of_cons, Eb. apply Hn.
  - intros (p & b & r & v & -> & E & Ex & Hn). exists (nibs_of p), (hi b), (lo b :: nibs_of r), v.
    rewrite nibs_of_app, nibs_of_cons, H1. split; auto. split; auto.
    split; [apply (holds_extended tr d); auto|]. intros r'.
    destruct (lookup tr (nibs_of p ++ hi b :: r')) as [w|] eqn:El; auto. exfalso.
    destruct (H2 _ _ El) as (k' & Ek). symmetry in Ek. destruct (nibs_of_app_inv _ _ _ Ek) as (s & -> & Es).
    destruct s as [|b' s]; [discriminate|]. rewrite nibs_of_cons in Es. injection Es as Eb Er.
    rewrite Eb, Er in El. rewrite <- nibs_of_cons, <- nibs_of_app, H1 in El.
    rewrite Hn in El; [discriminate|auto].
Qed.

(** ** Reachable tries *)
Lemma reachable_repr : forall secure l t, reachable secure l t ->
  m_secure t = secure /\ exists tr, repr t tr /\ holds tr (dict_after (map (eff_op secure) l)).
Proof. intros secure l t (h & E & Hok & Hn). eapply reach_repr; eauto. Qed.

Lemma eff_key_eff : forall t k, eff_key t k = eff (m_secure t) k.
Proof. reflexivity. Qed.

Lemma eff_frames : forall secure k, 2 * length (eff secure k) = frames secure k.
Proof. intros. unfold eff, frames. destruct secure; [rewrite keccak_len|]; reflexivity. Qed.

Lemma keys_ok_incl : forall secure l l', incl l l' -> keys_ok secure l' -> keys_ok secure l.
Proof. intros secure l l' Hi Hk Hs a b Ha Hb. apply (Hk Hs); auto. Qed.

Lemma dict_eff : forall secure l k, keys_ok secure (k :: map op_key l) ->
  dict_after (map (eff_op secure) l) (eff secure k) = dict_after l k.
Proof. intros secure l k Hk. apply (dict_after_eff secure l [k]); auto. left. auto. Qed.

(** Tools to read a reachable trie. *)
Lemma reach_lookup : forall secure l t k, reachable secure l t -> keys_ok secure (k :: map op_key l) ->
  exists tr, repr t tr /\ holds tr (dict_after (map (eff_op secure) l)) /\ m_secure t = secure /\
    lookup tr (nibs_of (eff_key t k)) = dict_after l k.
Proof.
  intros secure l t k R Hk. destruct (reachable_repr _ _ _ R) as (Es & tr & Rt & Hh). exists tr.
  split; auto. split; auto. split; auto. rewrite eff_key_eff, Es.
  destruct Hh as [Hh _]. rewrite Hh. apply dict_eff. exact Hk.
Qed.

(** In secure mode no hashed key extends another one. *)
Lemma secure_no_extension : forall l k, ~ extended_in (dict_after (map (eff_op true) l)) (keccak k).
Proof.
  intros l k (k' & v & (r & Hr & ->) & E). apply dict_after_keys in E. rewrite map_map in E.
  apply in_map_iff in E. destruct E as (o & Eo & _).
  assert (El : length (op_key (eff_op true o)) = 32) by (destruct o; cbn; apply keccak_len).
  rewrite Eo, app_length, keccak_len in El. destruct r; [congruence|]. cbn in El. lia.
Qed.

Lemma eff_extended : forall secure l k, keys_ok secure (map op_key l) ->
  extended_in (dict_after (map (eff_op secure) l)) (eff secure k) -> secure = false /\ extended_in (dict_after l) k.
Proof.
  intros secure l k Hk Hx. destruct secure; [exfalso; eapply secure_no_extension; eauto|]. split; auto.
  destruct Hx as (k' & v & Hp & E). destruct (dict_after_eff_inv false l k' v Hk E) as (k2 & -> & E2).
  exists k2, v. auto.
Qed.

(** C01 *)
Theorem get_present_ok : forall secure l t k v lim, reachable secure l t ->
  keys_ok secure (k :: map op_key l) -> dict_after l k = Some v -> frames secure k < lim ->
  mpt_get lim t k = Ok v.
Proof.
  intros secure l t k v lim R Hk E Hl. destruct (reach_lookup _ _ _ _ R Hk) as (tr & Rt & Hh & Es & El).
  eapply repr_get_present; eauto.
  - rewrite El. exact E.
  - rewrite eff_key_eff, Es, eff_frames. exact Hl.
Qed.

Theorem update_succeeds : forall secure l t k v lim res t', reachable secure l t -> ok_op secure (Put k v) ->
  mpt_update lim [] t k v = (res, t') -> no_collision (m_log t') -> frames secure k < lim -> res = Ok tt.
Proof.
  intros secure l t k v lim res t' R [Hk [Hv Hvs]] E Hn Hl. destruct (reachable_repr _ _ _ R) as (Es & tr & Rt & Hh).
  destruct (repr_update keccak_len lim [] t tr k v res t') as (tr' & R' & Hres); auto.
  { rewrite Es. exact Hv. }
  { split; [apply eff_small; auto|unfold SZ; lia]. }
  destruct res as [[]|e]; auto. destruct Hres as (_ & _ & [[_ Hf]|[_ Hf]]); [congruence|].
  rewrite eff_key_eff, Es, eff_frames in Hf. lia.
Qed.

(** C02 / C54 *)
Theorem contains_exact_nf : forall secure l t k lim, reachable secure l t ->
  keys_ok secure (k :: map op_key l) -> frames secure k < lim ->
  exists b, mpt_contains lim t k = Ok b /\
    (b = true <-> dict_after l k <> None \/ (secure = false /\ false_positive (dict_after l) k)).
Proof.
  intros secure l t k lim R Hk Hl. destruct (reach_lookup _ _ _ _ R Hk) as (tr & Rt & Hh & Es & El).
  pose proof (repr_contains keccak_len t tr lim k Rt) as C. destruct (mpt_contains lim t k) as [b|e].
  - exists b. split; auto. rewrite C, El. apply or_iff_compat_l.
    rewrite eff_key_eff, Es, (holds_false_hit tr _ _ Hh). split.
    + intros F. assert (secure = false) as ->.
      { destruct secure; auto. exfalso. destruct F as (p & b' & r & v & Ep & E & Ex & _).
        apply dict_after_eff_inv in E; [|eapply keys_ok_incl; [|exact Hk]; intros x Hx; right; auto].
        destruct E as (k1 & -> & _). eapply (secure_no_extension l k1). exact Ex. }
      split; auto. clear -F. destruct F as (p & b' & r & v & Ep & E & (k' & w & Hp & E') & Hn).
      assert (Hs : forall x, dict_after (map (eff_op false) l) x = dict_after l x).
      { intros x. apply (dict_eff false l x). intros ?. discriminate. }
      exists p, b', r, v. split; auto. split; [rewrite <- Hs; auto|]. split.
      * exists k', w. split; auto. rewrite <- Hs. auto.
      * intros. rewrite <- Hs. auto.
    + intros [-> (p & b' & r & v & Ep & E & (k' & w & Hp & E') & Hn)].
      assert (Hs : forall x, dict_after (map (eff_op false) l) x = dict_after l x).
      { intros x. apply (dict_eff false l x). intros ?. discriminate. }
      exists p, b', r, v. split; auto. split; [rewrite Hs; auto|]. split.
      * exists k', w. split; auto. rewrite Hs. auto.
      * intros. rewrite Hs. auto.
  - destruct C as [_ C]. rewrite eff_key_eff, Es, eff_frames in C. lia.
Qed.

Lemma false_positive_prefixed : forall d k, false_positive d k -> prefixed_in d k.
Proof.
  intros d k (p & b & r & v & -> & E & _). exists p, v. split; auto. exists (b :: r). split; [discriminate|auto].
Qed.

Theorem contains_exact : forall secure l t k lim, reachable secure l t ->
  keys_ok secure (k :: map op_key l) -> frames secure k < lim ->
  secure = true \/ ~ prefixed_in (dict_after l) k ->
  mpt_contains lim t k = Ok (match dict_after l k with Some _ => true | None => false end).
Proof.
  intros secure l t k lim R Hk Hl Hp. destruct (contains_exact_nf _ _ _ _ _ R Hk Hl) as (b & -> & Hb). f_equal.
  destruct (dict_after l k) as [v|]; [apply Hb; left; discriminate|].
  destruct b; auto. exfalso. destruct (proj1 Hb eq_refl) as [E|[Es F]]; [congruence|].
  destruct Hp as [->|Hp]; [discriminate|]. apply Hp. apply false_positive_prefixed. exact F.
Qed.

(** C05 *)
Theorem get_absent_raises : forall secure l t k lim, reachable secure l t ->
  keys_ok secure (k :: map op_key l) -> dict_after l k = None ->
  secure = true \/ ~ extended_in (dict_after l) k ->
  exists e, mpt_get lim t k = Err e.
Proof.
  intros secure l t k lim R Hk E Hx. destruct (reach_lookup _ _ _ _ R Hk) as (tr & Rt & Hh & Es & El).
  destruct (mpt_get lim t k) as [v|e] eqn:Eg; [|eauto]. exfalso.
  destruct (repr_get_Ok keccak_len t tr lim k v Rt Eg) as [E1|E1]; [congruence|].
  rewrite eff_key_eff, Es in E1. apply (holds_extended tr _ _ Hh) in E1.
  apply eff_extended in E1; [|eapply keys_ok_incl; [|exact Hk]; intros x Hx'; right; auto].
  destruct E1 as [-> E1]. destruct Hx; [discriminate|auto].
Qed.

(** ** One more call *)
Lemma reachable_call : forall secure l t c res t', reachable secure l t -> ok_op secure (c_op c) ->
  mpt_call t c = (res, t') -> no_collision (m_log t') ->
  reachable secure (match res with Ok _ => l ++ [c_op c] | Err _ => l end) t'.
Proof.
  intros secure l t c res t' (h & E & Hok & Hn) Hc Ec Hn'. exists (h ++ [c]). split; [|split; auto].
  - clear Hn Hok Hn' Hc. revert l t E Ec. generalize (mpt_new secure) as t0. induction h as [|c0 h IH]; intros t0 l t E Ec.
    + injection E as <- <-. cbn [app mpt_run]. rewrite Ec. destruct res; reflexivity.
    + cbn [app mpt_run] in *. destruct (mpt_call t0 c0) as [r1 t1]. destruct (mpt_run t1 h) as [l2 t2] eqn:Er.
      injection E as <- <-. rewrite (IH _ _ _ Er Ec). destruct r1, res; reflexivity.
  - apply Forall_app. split; auto.
Qed.

Lemma run_app : forall h1 h2 t0 l1 t1 l2 t2, mpt_run t0 h1 = (l1, t1) -> mpt_run t1 h2 = (l2, t2) ->
  mpt_run t0 (h1 ++ h2) = (l1 ++ l2, t2).
Proof.
  induction h1 as [|c h1 IH]; intros h2 t0 l1 t1 l2 t2 E1 E2.
  - injection E1 as <- <-. exact E2.
  - cbn [app mpt_run] in *. destruct (mpt_call t0 c) as [r ta]. destruct (mpt_run ta h1) as [la tb] eqn:Er.
    injection E1 as <- <-. rewrite (IH h2 _ _ _ _ _ Er E2). destruct r; reflexivity.
Qed.

Lemma reachable_run : forall secure l t h l2 t2, reachable secure l t -> ok_history secure h ->
  mpt_run t h = (l2, t2) -> no_collision (m_log t2) -> reachable secure (l ++ l2) t2.
Proof.
  intros secure l t h l2 t2 (h1 & E & Hok & _) Hh E2 Hn. exists (h1 ++ h). split; [|split; auto].
  - eapply run_app; eauto.
  - apply Forall_app. auto.
Qed.

Lemma apply_ops_app : forall l1 l2 d, apply_ops d (l1 ++ l2) = apply_ops (apply_ops d l1) l2.
Proof. intros. unfold apply_ops. apply fold_left_app. Qed.
Lemma dict_after_snoc : forall l o k, dict_after (l ++ [o]) k = apply_op (dict_after l) o k.
Proof. intros. unfold dict_after. rewrite apply_ops_app. reflexivity. Qed.
Lemma apply_op_other : forall d o k, k <> op_key o -> apply_op d o k = d k.
Proof.
  intros d o k Hk. destruct o as [k' v|k']; cbn [apply_op op_key] in *;
  destruct (bytes_eqb_spec k k'); congruence.
Qed.

(** C03 *)
Theorem frame_dict : forall l c (res : result unit) k, k <> op_key (c_op c) ->
  dict_after (match res with Ok _ => l ++ [c_op c] | Err _ => l end) k = dict_after l k.
Proof. intros l c res k Hk. destruct res; auto. rewrite dict_after_snoc, apply_op_other; auto. Qed.

Theorem frame_present : forall secure l t c res t' k v lim, reachable secure l t -> ok_op secure (c_op c) ->
  mpt_call t c = (res, t') -> no_collision (m_log t') ->
  keys_ok secure (k :: op_key (c_op c) :: map op_key l) ->
  k <> op_key (c_op c) -> frames secure k < lim ->
  dict_after l k = Some v -> mpt_get lim t' k = Ok v /\ mpt_contains lim t' k = Ok true.
Proof.
  intros secure l t c res t' k v lim R Hc Ec Hn Hks Hk Hl E.
  pose proof (reachable_call _ _ _ _ _ _ R Hc Ec Hn) as R'.
  pose proof (frame_dict l c res k Hk) as Ed. rewrite E in Ed.
  assert (Hks' : keys_ok secure (k :: map op_key (match res with Ok _ => l ++ [c_op c] | Err _ => l end))).
  { eapply keys_ok_incl; [|exact Hks]. intros x. destruct res; cbn; rewrite ?map_app, ?in_app_iff; cbn; tauto. }
  split; [eapply get_present_ok; eauto|].
  destruct (contains_exact_nf _ _ _ _ _ R' Hks' Hl) as (b & -> & Hb). f_equal. apply Hb. left. rewrite Ed. discriminate.
Qed.

Theorem frame_absent : forall secure l t c res t' k lim, reachable secure l t -> ok_op secure (c_op c) ->
  mpt_call t c = (res, t') -> no_collision (m_log t') ->
  keys_ok secure (k :: op_key (c_op c) :: map op_key l) ->
  k <> op_key (c_op c) -> frames secure k < lim -> dict_after l k = None ->
  (secure = true \/ (~ prefixed_in (dict_after l) k /\ ~ proper_prefix (op_key (c_op c)) k) ->
     mpt_contains lim t' k = Ok false) /\
  (secure = true \/ (~ extended_in (dict_after l) k /\ ~ proper_prefix k (op_key (c_op c))) ->
     exists e, mpt_get lim t' k = Err e).
Proof.
  intros secure l t c res t' k lim R Hc Ec Hn Hks Hk Hl E.
  pose proof (reachable_call _ _ _ _ _ _ R Hc Ec Hn) as R'.
  pose proof (frame_dict l c res k Hk) as Ed. rewrite E in Ed.
  set (l' := match res with Ok _ => l ++ [c_op c] | Err _ => l end) in *.
  assert (Hks' : keys_ok secure (k :: map op_key l')).
  { eapply keys_ok_incl; [|exact Hks]. intros x. unfold l'. destruct res; cbn; rewrite ?map_app, ?in_app_iff; cbn; tauto. }
  assert (Hd : forall x v, dict_after l' x = Some v -> x = op_key (c_op c) \/ dict_after l x = Some v).
  { intros x v Ex. destruct (bytes_eqb_spec x (op_key (c_op c))) as [|Hx]; auto. right.
    rewrite <- Ex. symmetry. apply frame_dict. auto. }
  split.
  - intros Hp. erewrite contains_exact; eauto; [rewrite Ed; reflexivity|].
    destruct Hp as [|[Hp1 Hp2]]; auto. right. intros (k' & v & Hpp & Ek). destruct (Hd _ _ Ek) as [->|Ek']; auto.
    apply Hp1. exists k', v. auto.
  - intros Hp. eapply get_absent_raises; eauto. destruct Hp as [|[Hp1 Hp2]]; auto. right.
    intros (k' & v & Hpp & Ek). destruct (Hd _ _ Ek) as [->|Ek']; auto. apply Hp1. exists k', v. auto.
Qed.

(** C06 *)
Theorem delete_present : forall secure l t k v lim res t', reachable secure l t ->
  (blen k < 2 ^ 59)%N -> keys_ok secure (k :: map op_key l) ->
  mpt_delete lim [] t k = (res, t') -> no_collision (m_log t') -> frames secure k < lim ->
  dict_after l k = Some v ->
  res = Ok tt /\ reachable secure (l ++ [Del k]) t' /\ dict_after (l ++ [Del k]) k = None.
Proof.
  intros secure l t k v lim res t' R Hs Hk E Hn Hl Ed.
  destruct (reach_lookup _ _ _ _ R Hk) as (tr & Rt & Hh & Es & El).
  destruct (repr_delete keccak_len lim [] t tr k res t' Rt E Hn) as (tr' & R' & Hres).
  assert (res = Ok tt) as ->.
  { destruct res as [[]|e]; auto. exfalso. destruct Hres as (_ & _ & [[[_ Hf]|[_ Hf]]|Hf]); [congruence| |].
    - rewrite eff_key_eff, Es, eff_frames in Hf. lia.
    - rewrite El, Ed in Hf. discriminate. }
  split; auto. split.
  - apply (reachable_call secure l t (Call (Del k) lim []) (Ok tt) t'); auto. split; cbn; auto.
  - rewrite dict_after_snoc. cbn. rewrite bytes_eqb_refl. reflexivity.
Qed.

Theorem delete_absent : forall secure l t k lim fl res t', reachable secure l t ->
  keys_ok secure (k :: map op_key l) ->
  mpt_delete lim fl t k = (res, t') -> no_collision (m_log t') -> dict_after l k = None ->
  exists e, res = Err e.
Proof.
  intros secure l t k lim fl res t' R Hk E Hn Ed.
  destruct (reach_lookup _ _ _ _ R Hk) as (tr & Rt & Hh & Es & El).
  destruct (repr_delete keccak_len lim fl t tr k res t' Rt E Hn) as (tr' & R' & Hres).
  destruct res as [u|e]; [|eauto]. destruct Hres as [Hres _]. congruence.
Qed.

(** ** Same reads *)
Lemma reads_alike_repr : forall t t' tr, repr t tr -> repr t' tr -> m_secure t' = m_secure t ->
  m_root t' = m_root t -> reads_alike t t'.
Proof.
  intros t t' tr R R' Es Er lim k time.
  assert (Ek : forall x, eff_key t' x = eff_key t x) by (intros; rewrite !eff_key_eff, Es; reflexivity).
  assert (E1 : root_falsy t' = root_falsy t) by (unfold root_falsy; rewrite Er; reflexivity).
  assert (E2 : root_is_empty t' = root_is_empty t) by (unfold root_is_empty; rewrite Er; reflexivity).
  assert (E3 : root_ref t' = root_ref t) by (unfold root_ref; rewrite Er; reflexivity).
  assert (E4 : root_hash t' = root_hash t) by (unfold root_hash; rewrite E1, E3; reflexivity).
  assert (Hv : forall p, mpt_verify_poi lim t' p = mpt_verify_poi lim t p /\
                         mpt_verify_poe lim t' p = mpt_verify_poe lim t p).
  { intros p. unfold mpt_verify_poi, mpt_verify_poe. rewrite E2, E3, E4. auto. }
  destruct (tree_empty_dec tr) as [->|Hne].
  - destruct (repr_empty_root t R) as [Ee _].
    assert (Hc : mpt_contains lim t' k = mpt_contains lim t k).
    { unfold mpt_contains. rewrite E1, E2, Ee. destruct (root_falsy t); reflexivity. }
    split; [|split; [exact Hc|split; [|split; auto]]].
    + unfold mpt_get. rewrite E1, E3, Ek. destruct (root_falsy t) eqn:Ef; auto.
      destruct (repr_empty_root t R) as [_ [Em|Em]]; [unfold root_falsy in Ef; rewrite Em in Ef; discriminate|].
      unfold root_ref. rewrite Em. destruct lim as [|f]; cbn [get_]; auto. unfold get_node.
      rewrite (dget_empty_hash (m_map t) (m_log t)), (dget_empty_hash (m_map t') (m_log t')); eauto using repr_dinv, repr_nocoll.
      destruct (length EMPTY_HASH =? 32) eqn:El; auto.
      unfold EMPTY_HASH in El. rewrite keccak_len in El. discriminate.
    + unfold mpt_get_poi. rewrite E2, Ee. reflexivity.
    + unfold mpt_get_poe. rewrite E2, Ee. reflexivity.
  - destruct (repr_nonempty keccak_len t tr R Hne) as (F1 & F2 & F3 & F4).
    destruct R as (Hw & Hs & St & _), R' as (_ & _ & St' & _).
    assert (Hc : mpt_contains lim t' k = mpt_contains lim t k).
    { unfold mpt_contains. rewrite E1, E2, E3, Ek, F3.
      rewrite (contains_same keccak_len (m_map t') (m_map t)) by auto. reflexivity. }
    split; [|split; [exact Hc|split; [|split; auto]]].
    + unfold mpt_get. rewrite E1, E3, Ek, F3. rewrite (get_same keccak_len (m_map t') (m_map t)) by auto. reflexivity.
    + unfold mpt_get_poi. rewrite E2, E3, Ek, F3. rewrite (get_poi_same keccak_len (m_map t') (m_map t)) by auto. reflexivity.
    + unfold mpt_get_poe. rewrite E2, E3, E4, Ek, F3, Hc.
      rewrite (get_poe_same keccak_len (m_map t') (m_map t)) by auto. reflexivity.
Qed.

(** C14 *)
Theorem empty_value_secure : forall l t k lim, reachable true l t -> keys_ok true (k :: map op_key l) -> dict_after l k = Some [] -> frames true k < lim ->
  mpt_get lim t k = Ok [] /\ mpt_contains lim t k = Ok true.
Proof.
  intros l t k lim R Hk Hd Hl. split; [eapply get_present_ok; eauto|].
  rewrite (contains_exact true l t k lim R Hk Hl (or_introl eq_refl)), Hd. reflexivity.
Qed.

(** C11 *)
Theorem failed_call : forall secure l t c e t', reachable secure l t -> ok_op secure (c_op c) ->
  mpt_call t c = (Err e, t') -> no_collision (m_log t') ->
  m_root t' = m_root t /\ root_hash t' = root_hash t /\ reads_alike t t'.
Proof.
  intros secure l t c e t' R Hc Ec Hn. destruct (reachable_repr _ _ _ R) as (Es & tr & Rt & Hh).
  destruct (call_keeps keccak_len _ _ _ _ (repr_dinv _ _ Rt) Ec) as [D' G].
  rewrite <- Es in Hc. destruct (call_repr keccak_len t tr _ c (Err e) t' Rt Hh Hc Ec Hn) as (tr' & R' & -> & Er).
  split; auto. split.
  - unfold root_hash, root_falsy, root_ref. rewrite Er. reflexivity.
  - eapply reads_alike_repr; eauto. apply G.
Qed.

(** C10 *)
Theorem old_root_readable : forall secure l1 t1 h l2 t2, reachable secure l1 t1 -> ok_history secure h ->
  mpt_run t1 h = (l2, t2) -> no_collision (m_log t2) ->
  let old := mpt_init (m_map t2) (m_root t1) secure in
  (m_root t1 <> None -> reads_alike t1 old) /\
  forall lim k, mpt_contains lim old k = mpt_contains lim t1 k /\
    (m_root t1 = None -> exists e1 e2, mpt_get lim old k = Err e1 /\ mpt_get lim t1 k = Err e2).
Proof.
  intros secure l1 t1 h l2 t2 R Hok E Hn old. destruct (reachable_repr _ _ _ R) as (Es & tr & Rt & Hh).
  destruct (run_keeps keccak_len _ _ _ _ (repr_dinv _ _ Rt) E) as [D2 G].
  assert (Hlog : In [x80] (m_log t2)) by apply D2.
  assert (Hv : forall x, In x (dvals (m_map t2)) -> In x (m_log t2)).
  { intros x Hx. destruct D2 as (_ & Hnd & D2). apply in_map_iff in Hx. destruct Hx as ([k e] & <- & Hi).
    apply (D2 k e). apply In_dget; auto. }
  assert (Hno : nocoll (m_log old)).
  { eapply nocoll_incl; [|exact Hn]. intros x [<-|Hx]; auto. }
  assert (Do : dinv (m_map old) (m_log old)).
  { destruct D2 as (_ & Hnd & D2). split; [left; reflexivity|]. split; auto.
    intros k e Ee. destruct (D2 k e Ee) as (H1 & H2 & H3). split; auto. split; auto. right.
    apply in_map_iff. exists (k, e). split; auto. apply dget_In. exact Ee. }
  assert (Ro : repr old tr).
  { assert (St2 : stored (m_map t2) tr).
    { apply (stored_grows t1 t2 tr (repr_dinv _ _ Rt) D2 G Hn). apply Rt. }
    destruct Rt as (Hw & Hs & _ & _ & _ & Hr & Hkp). unfold repr.
    split; auto. split; auto. split; auto. split; auto. split; auto.
    split; [|unfold old; cbn [mpt_init m_secure]; rewrite <- Es; exact Hkp].
    destruct Hr as [[-> [Hr|Hr]]|[Hne Hr]]; [left|left|right]; (split; auto); unfold old; rewrite Hr; cbn; auto. }
  assert (Eso : m_secure old = m_secure t1) by (rewrite Es; reflexivity).
  split.
  - intros Hr. eapply reads_alike_repr; eauto. unfold old. destruct (m_root t1); [reflexivity|congruence].
  - intros lim k. destruct (m_root t1) as [r|] eqn:Er.
    + split; [|discriminate]. assert (Hra : reads_alike t1 old).
      { eapply reads_alike_repr; eauto. }
      destruct (Hra lim k []) as (_ & Hc & _). exact Hc.
    + destruct (tree_empty_dec tr) as [->|Hne].
      2:{ destruct (repr_nonempty keccak_len t1 tr Rt Hne) as (_ & _ & _ & F). congruence. }
      split.
      * destruct (repr_empty_root old Ro) as [F _]. unfold mpt_contains. rewrite F.
        unfold root_falsy, root_is_empty at 1. rewrite Er. destruct (m_root old) as [[|]|]; reflexivity.
      * intros _. destruct (repr_get_empty keccak_len old lim k Ro) as [e1 E1].
        destruct (repr_get_empty keccak_len t1 lim k Rt) as [e2 E2]. eauto.
Qed.

(** C12, for all histories *)
Theorem storage_content_addressed : forall secure h l t, mpt_run (mpt_new secure) h = (l, t) ->
  forall k e, dget (m_map t) k = Some e -> k = keccak e /\ 32 <= length e.
Proof.
  intros secure h l t E k e Ee. destruct (run_keeps keccak_len _ _ _ _ (new_dinv secure) E) as [(_ & _ & D) _].
  destruct (D k e Ee) as (H1 & _ & H3). auto.
Qed.

Theorem storage_append_only : forall secure h1 l1 t1 h2 l2 t2,
  mpt_run (mpt_new secure) h1 = (l1, t1) -> mpt_run t1 h2 = (l2, t2) ->
  (exists new, dkeys (m_map t2) = dkeys (m_map t1) ++ new) /\
  (no_collision (m_log t2) -> forall k e, dget (m_map t1) k = Some e -> dget (m_map t2) k = Some e).
Proof.
  intros secure h1 l1 t1 h2 l2 t2 E1 E2. destruct (run_keeps keccak_len _ _ _ _ (new_dinv secure) E1) as [D1 _].
  destruct (run_keeps keccak_len _ _ _ _ D1 E2) as [D2 [_ G]]. split; [apply G|].
  intros Hn. eapply dext_dget; eauto.
Qed.

(** C13 *)
Lemma run_op_plain : forall A t fl (m : M A) nr, run_op (as_plain t) fl m nr =
  (fst (run_op t fl m nr), as_plain (snd (run_op t fl m nr))).
Proof. intros. unfold run_op. cbn [m_map m_log as_plain]. destruct (m _) as [[a|e] s]; reflexivity. Qed.

Lemma call_plain : forall t c, m_secure t = true ->
  mpt_call (as_plain t) (hash_call c) = (fst (mpt_call t c), as_plain (snd (mpt_call t c))).
Proof.
  intros t [o lim fl] Hs. unfold mpt_call, hash_call. cbn [c_op c_lim c_faults hash_op].
  destruct o as [k v|k]; cbn [eff_op eff].
  - unfold mpt_update. replace (eff_key t k) with (keccak k) by (unfold eff_key; rewrite Hs; reflexivity).
    apply (run_op_plain _ t).
  - unfold mpt_delete. replace (eff_key t k) with (keccak k) by (unfold eff_key; rewrite Hs; reflexivity).
    change (root_is_empty (as_plain t)) with (root_is_empty t). destruct (root_is_empty t); [reflexivity|].
    apply (run_op_plain _ t).
Qed.

Lemma call_secure : forall t c, m_secure (snd (mpt_call t c)) = m_secure t.
Proof.
  intros t [o lim fl]. unfold mpt_call. cbn [c_op c_lim c_faults]. destruct o as [k v|k].
  - unfold mpt_update, run_op. destruct (update_ _ _ _ _ _) as [[a|e] s]; reflexivity.
  - unfold mpt_delete. destruct (root_is_empty t); [reflexivity|]. unfold run_op.
    destruct (delete_ _ _ _ _) as [[a|e] s]; reflexivity.
Qed.

Theorem secure_is_plain_on_hashes : forall h t, m_secure t = true ->
  mpt_run (as_plain t) (map hash_call h) =
    (map hash_op (fst (mpt_run t h)), as_plain (snd (mpt_run t h))).
Proof.
  induction h as [|c h IH]; intros t Hs; [reflexivity|]. cbn [map mpt_run].
  rewrite call_plain by auto. pose proof (call_secure t c) as Hs1. destruct (mpt_call t c) as [r t1]. cbn [fst snd] in *.
  rewrite IH by congruence. destruct (mpt_run t1 h) as [l t2]. cbn [fst snd].
  destruct r; reflexivity.
Qed.

Theorem secure_reads : forall t lim k time, m_secure t = true ->
  mpt_get lim t k = mpt_get lim (as_plain t) (keccak k) /\
  mpt_contains lim t k = mpt_contains lim (as_plain t) (keccak k) /\
  mpt_get_poi lim time t k = mpt_get_poi lim time (as_plain t) (keccak k) /\
  mpt_get_poe lim time t k = mpt_get_poe lim time (as_plain t) (keccak k).
Proof.
  intros t lim k time Hs.
  assert (Ec : mpt_contains lim t k = mpt_contains lim (as_plain t) (keccak k))
    by (unfold mpt_contains, eff_key; rewrite Hs; reflexivity).
  split; [unfold mpt_get, eff_key; rewrite Hs; reflexivity|]. split; [exact Ec|].
  split; [unfold mpt_get_poi, eff_key; rewrite Hs; reflexivity|].
  unfold mpt_get_poe. rewrite Ec. unfold eff_key; rewrite Hs; reflexivity.
Qed.

(** ** Root hashes *)
Lemma root_hash_tenc : forall t tr, repr t tr -> root_hash t = keccak (tenc tr).
Proof.
  intros t tr R. destruct (tree_empty_dec tr) as [->|Hne].
  - destruct (repr_empty_root t R) as [_ [E|E]]; unfold root_hash, root_falsy, root_ref; rewrite E; [reflexivity|].
    unfold EMPTY_HASH. assert (El := keccak_len [x80]).
    destruct (keccak [x80]) as [|x r] eqn:Ek; [discriminate|]. rewrite El. cbn [Nat.eqb]. rewrite <- Ek. reflexivity.
  - destruct (repr_nonempty keccak_len t tr R Hne) as (F1 & F2 & F3 & F4). unfold root_hash. rewrite F1, F3.
    rewrite tref_32 by auto. rewrite tref_eq by auto. destruct (length (tenc tr) <? 32); reflexivity.
Qed.

Definition all_encs (t : tree) : list bytes := tenc t :: encs t.

Lemma all_encs_log : forall t tr, repr t tr -> forall e, In e (all_encs tr) -> In e (hashed_by t).
Proof.
  intros t tr R e He. assert (He' : In e (encs tr) -> In e (hashed_by t)).
  { intros Hi. right. destruct R as (_ & _ & St & (_ & _ & D) & _).
    apply (D (keccak e) e). eapply encs_stored; eauto. }
  destruct He as [<-|He]; auto.
  destruct (tree_empty_dec tr) as [->|Hne]; [right; apply R|].
  destruct (Nat.ltb_spec (length (tenc tr)) 32) as [Hl|Hl].
  - left. destruct (repr_nonempty keccak_len t tr R Hne) as (_ & _ & F3 & _). rewrite F3, tref_eq by auto.
    destruct (Nat.ltb_spec (length (tenc tr)) 32); [reflexivity|lia].
  - apply He'. apply encs_here; auto.
Qed.

Lemma cap_inj : forall t1 t2, wf t1 -> wf t2 -> small t1 -> small t2 -> nocoll (encs t1 ++ encs t2) ->
  cap (titem t1) = cap (titem t2) -> titem t1 = titem t2.
Proof.
  intros t1 t2 W1 W2 S1 S2 Hn E. unfold cap in E. fold (tenc t1) in E. fold (tenc t2) in E.
  assert (Hl : forall t b, length (tenc t) < 32 -> titem t = IBytes (keccak b) -> False).
  { intros t b _ Et. destruct (tree_empty_dec t) as [->|Hne].
    - cbn in Et. injection Et as Et. pose proof (keccak_len b) as Hk. rewrite <- Et in Hk. discriminate.
    - destruct (titem_list t Hne) as [l El]. congruence. }
  destruct (Nat.ltb_spec (length (tenc t1)) 32) as [L1|L1], (Nat.ltb_spec (length (tenc t2)) 32) as [L2|L2]; auto.
  - exfalso. eapply Hl; eauto.
  - exfalso. eapply Hl; [exact L2|]. symmetry. exact E.
  - injection E as E.
    assert (N1 : t1 <> TEmpty) by (intros ->; cbn in L1; lia).
    assert (N2 : t2 <> TEmpty) by (intros ->; cbn in L2; lia).
    apply Hn in E; [|apply in_or_app; left; apply encs_here; auto|apply in_or_app; right; apply encs_here; auto].
    unfold tenc in E. apply renc_inj in E; auto using payload_small.
Qed.

Lemma titem_inj : forall t1 t2, wf t1 -> wf t2 -> small t1 -> small t2 -> nocoll (encs t1 ++ encs t2) ->
  titem t1 = titem t2 -> t1 = t2.
Proof.
  induction t1 as [|p v|p c IH|cs v IH] using tree_ind2; intros t2 W1 W2 S1 S2 Hn E;
    destruct t2 as [|q w|q c2|cs2 w]; auto; try discriminate.
  - cbn [titem] in E. injection E as E1 E2. apply hp_inj in E1; [|apply W1|apply W2].
    destruct E1 as [-> _]. f_equal. exact E2.
  - cbn [titem] in E. injection E as E1 _. apply hp_inj in E1; [|apply W1|apply W2]. destruct E1; discriminate.
  - exfalso. cbn [titem] in E. injection E as E. apply (f_equal (@length item)) in E.
    apply wf_branch in W2. rewrite app_length, map_length in E. cbn in E. lia.
  - cbn [titem] in E. injection E as E1 _. apply hp_inj in E1; [|apply W1|apply W2]. destruct E1; discriminate.
  - cbn [titem] in E. injection E as E1 E2. apply hp_inj in E1; [|apply W1|apply W2].
    destruct E1 as [-> _]. f_equal. destruct W1 as (_ & _ & _ & W1), W2 as (_ & _ & _ & W2).
    apply small_ext in S1; auto. apply small_ext in S2; auto.
    assert (Hn' : nocoll (encs c ++ encs c2)).
    { eapply nocoll_incl; [|exact Hn]. intros x Hx. apply in_app_or in Hx. apply in_or_app.
      destruct Hx; [left|right]; apply encs_ext; auto. }
    apply IH; auto. apply cap_inj; auto.
  - exfalso. cbn [titem] in E. injection E as E. apply (f_equal (@length item)) in E.
    apply wf_branch in W2. rewrite app_length, map_length in E. cbn in E. lia.
  - exfalso. cbn [titem] in E. injection E as E. apply (f_equal (@length item)) in E.
    apply wf_branch in W1. rewrite app_length, map_length in E. cbn in E. lia.
  - exfalso. cbn [titem] in E. injection E as E. apply (f_equal (@length item)) in E.
    apply wf_branch in W1. rewrite app_length, map_length in E. cbn in E. lia.
  - cbn [titem] in E. injection E as E. apply app_inj_tail in E. destruct E as [E Ev]. injection Ev as <-.
    f_equal. apply wf_branch in W1, W2. destruct W1 as (L1 & _ & W1), W2 as (L2 & _ & W2).
    apply (nth_ext cs cs2 TEmpty TEmpty); [congruence|]. intros i Hi.
    assert (Hi2 : i < length cs2) by lia.
    assert (Ei : cap (titem (nth i cs TEmpty)) = cap (titem (nth i cs2 TEmpty))).
    { apply (f_equal (fun l => nth i l (cap (titem TEmpty)))) in E.
      rewrite !(map_nth (fun c => cap (titem c))) in E. exact E. }
    assert (Hn' : nocoll (encs (nth i cs TEmpty) ++ encs (nth i cs2 TEmpty))).
    { eapply nocoll_incl; [|exact Hn]. intros x Hx. apply in_app_or in Hx. apply in_or_app.
      destruct Hx; [left|right]; eapply encs_child; eauto; apply nth_In; auto. }
    rewrite Forall_forall in IH. assert (Hc := nth_In cs TEmpty Hi).
    assert (Wa := wf_nth cs i W1). assert (Wb := wf_nth cs2 i W2).
    apply (small_nth keccak_len _ _ i) in S1. apply (small_nth keccak_len _ _ i) in S2.
    apply IH; auto. apply cap_inj; auto.
Qed.

Lemma tenc_inj : forall t1 t2, wf t1 -> wf t2 -> small t1 -> small t2 -> nocoll (encs t1 ++ encs t2) ->
  tenc t1 = tenc t2 -> t1 = t2.
Proof.
  intros t1 t2 W1 W2 S1 S2 Hn E. apply titem_inj; auto. unfold tenc in E. apply renc_inj in E; auto using payload_small.
Qed.

(** C07 *)
Lemma same_dict_same_tree : forall secure l1 l2 tr1 tr2, wf tr1 -> wf tr2 ->
  holds tr1 (dict_after (map (eff_op secure) l1)) -> holds tr2 (dict_after (map (eff_op secure) l2)) ->
  keys_ok secure (map op_key l1 ++ map op_key l2) ->
  (forall k, dict_after l1 k = dict_after l2 k) -> tr1 = tr2.
Proof.
  assert (Half : forall secure l1 l2 tr1 tr2, 
    holds tr1 (dict_after (map (eff_op secure) l1)) -> holds tr2 (dict_after (map (eff_op secure) l2)) ->
    keys_ok secure (map op_key l1 ++ map op_key l2) ->
    (forall k, dict_after l1 k = dict_after l2 k) -> forall q v, lookup tr1 q = Some v -> lookup tr2 q = Some v).
  { intros secure l1 l2 tr1 tr2 [A1 B1] [A2 B2] Hk Hd q v E. destruct (B1 _ _ E) as (x & ->).
    rewrite A1 in E. rewrite A2.
    destruct (dict_after_eff_inv secure l1 x v) as (k & -> & Ek); auto.
    { eapply keys_ok_incl; [|exact Hk]. intros y Hy. apply in_or_app. auto. }
    rewrite Hd in Ek. pose proof (dict_after_keys _ _ _ Ek) as Hi.
    rewrite dict_eff; auto. eapply keys_ok_incl; [|exact Hk].
    intros y [<-|Hy]; apply in_or_app; auto. }
  intros secure l1 l2 tr1 tr2 W1 W2 H1 H2 Hk Hd. apply wf_unique; auto. intros q.
  destruct (lookup tr1 q) as [v|] eqn:E1.
  - symmetry. eapply (Half secure l1 l2 tr1 tr2); eauto.
  - destruct (lookup tr2 q) as [v|] eqn:E2; auto. 
    rewrite <- E1. symmetry. symmetry. eapply Half; [exact H2|exact H1| |intros; symmetry; auto|exact E2].
    eapply keys_ok_incl; [|exact Hk]. intros y Hy. apply in_app_or in Hy. apply in_or_app. tauto.
Qed.

Theorem root_history_independent : forall secure l1 t1 l2 t2,
  reachable secure l1 t1 -> reachable secure l2 t2 -> keys_ok secure (map op_key l1 ++ map op_key l2) ->
  (forall k, dict_after l1 k = dict_after l2 k) ->
  root_hash t1 = root_hash t2 /\ ((exists k v, dict_after l1 k = Some v) -> m_root t1 = m_root t2).
Proof.
  intros secure l1 t1 l2 t2 R1 R2 Hk Hd.
  destruct (reachable_repr _ _ _ R1) as (Es1 & tr1 & Q1 & H1). destruct (reachable_repr _ _ _ R2) as (Es2 & tr2 & Q2 & H2).
  assert (tr2 = tr1) as ->.
  { symmetry. eapply same_dict_same_tree; eauto; [apply Q1|apply Q2]. }
  split; [rewrite (root_hash_tenc t1 tr1), (root_hash_tenc t2 tr1); auto|].
  intros (k & v & E).
  assert (Hne : tr1 <> TEmpty).
  { intros ->. destruct H1 as [H1 _]. rewrite <- (dict_eff secure) in E.
    - rewrite <- H1 in E. discriminate.
    - eapply keys_ok_incl; [|exact Hk]. apply dict_after_keys in E. intros y [<-|Hy]; apply in_or_app; auto. }
  destruct (repr_nonempty keccak_len t1 tr1 Q1 Hne) as (_ & _ & _ & ->).
  destruct (repr_nonempty keccak_len t2 tr1 Q2 Hne) as (_ & _ & _ & ->). reflexivity.
Qed.

(** C08 *)
Theorem root_binding : forall secure l1 t1 l2 t2,
  reachable secure l1 t1 -> reachable secure l2 t2 ->
  no_collision (hashed_by t1 ++ hashed_by t2) -> keys_ok secure (map op_key l1 ++ map op_key l2) ->
  root_hash t1 = root_hash t2 -> forall k, dict_after l1 k = dict_after l2 k.
Proof.
  intros secure l1 t1 l2 t2 R1 R2 Hn Hk E.
  destruct (reachable_repr _ _ _ R1) as (Es1 & tr1 & Q1 & H1). destruct (reachable_repr _ _ _ R2) as (Es2 & tr2 & Q2 & H2).
  rewrite (root_hash_tenc t1 tr1), (root_hash_tenc t2 tr2) in E by auto.
  apply Hn in E.
  2:{ apply in_or_app. left. apply (all_encs_log t1 tr1); auto. left. auto. }
  2:{ apply in_or_app. right. apply (all_encs_log t2 tr2); auto. left. auto. }
  apply tenc_inj in E; try (apply Q1 || apply Q2).
  2:{ eapply nocoll_incl; [|exact Hn]. intros x Hx. apply in_app_or in Hx. apply in_or_app.
      destruct Hx; [left; eapply all_encs_log|right; eapply all_encs_log]; eauto; right; auto. }
  subst tr2. 
  assert (Half : forall la lb, keys_ok secure (map op_key la ++ map op_key lb) ->
    holds tr1 (dict_after (map (eff_op secure) la)) -> holds tr1 (dict_after (map (eff_op secure) lb)) ->
    forall k v, dict_after la k = Some v -> dict_after lb k = Some v).
  { intros la lb Hks [A _] [B _] k v Ek. pose proof (dict_after_keys _ _ _ Ek) as Hi.
    rewrite <- (dict_eff secure lb k).
    - rewrite <- B, A, dict_eff; auto. eapply keys_ok_incl; [|exact Hks]. intros y [<-|Hy]; apply in_or_app; auto.
    - eapply keys_ok_incl; [|exact Hks]. intros y [<-|Hy]; apply in_or_app; auto. }
  intros k. destruct (dict_after l1 k) as [v|] eqn:E1.
  - symmetry. eapply Half; eauto.
  - destruct (dict_after l2 k) as [v|] eqn:E2; auto. rewrite <- E1. eapply Half; [|exact H2|exact H1|exact E2].
    eapply keys_ok_incl; [|exact Hk]. intros y Hy. apply in_app_or in Hy. apply in_or_app. tauto.
Qed.

(** C09 *)
Theorem empty_root : forall secure l t, reachable secure l t -> keys_ok secure (map op_key l) ->
  (forall k, dict_after l k = None) -> root_hash t = EMPTY_HASH.
Proof.
  intros secure l t R Hk Hd. destruct (reachable_repr _ _ _ R) as (Es & tr & Q & Hh).
  assert (tr = TEmpty) as ->.
  { destruct (tree_empty_dec tr) as [|Hne]; auto. exfalso.
    destruct (wf_has_key tr) as (q & v & E); [apply Q|auto|]. destruct Hh as [A B]. destruct (B _ _ E) as (x & ->).
    rewrite A in E. apply dict_after_eff_inv in E; auto. destruct E as (k & _ & E). rewrite Hd in E. discriminate. }
  rewrite (root_hash_tenc _ _ Q). reflexivity.
Qed.

(** Calls without faults and with enough frames all succeed. *)
Lemma puts_succeed : forall secure lim kvs l t l2 t2, reachable secure l t ->
  Forall (fun kv => ok_op secure (Put (fst kv) (snd kv)) /\ frames secure (fst kv) < lim) kvs ->
  mpt_run t (map (put_call lim) kvs) = (l2, t2) -> no_collision (m_log t2) ->
  l2 = map (fun kv => Put (fst kv) (snd kv)) kvs.
Proof.
  intros secure lim. induction kvs as [|kv kvs IH]; intros l t l2 t2 R Hf E Hn; cbn [map mpt_run] in *.
  - injection E as <- <-. reflexivity.
  - destruct (mpt_call t (put_call lim kv)) as [r t1] eqn:Ec. destruct (mpt_run t1 _) as [l3 t3] eqn:Er.
    injection E as <- <-. inversion Hf as [|? ? [Ho Hl] Hf']; subst.
    assert (D : dinv (m_map t) (m_log t)).
    { destruct (reachable_repr _ _ _ R) as (_ & tr & Q & _). eapply repr_dinv; eauto. }
    destruct (call_keeps keccak_len _ _ _ _ D Ec) as [D1 G1]. destruct (run_keeps keccak_len _ _ _ _ D1 Er) as [D2 G2].
    assert (N1 := grows_nocoll _ _ G2 Hn).
    assert (r = Ok tt) as ->.
    { eapply (update_succeeds secure l t (fst kv) (snd kv) lim r t1); eauto. }
    f_equal. apply (IH (l ++ [c_op (put_call lim kv)]) t1 l3 t3); auto.
    apply (reachable_call secure l t (put_call lim kv) (Ok tt) t1); auto.
Qed.

Lemma dels_succeed : forall secure lim ks l t l2 t2, reachable secure l t ->
  Forall (fun k => (blen k < 2 ^ 59)%N /\ frames secure k < lim /\ exists v, dict_after l k = Some v) ks -> NoDup ks ->
  keys_ok secure (map op_key l) ->
  mpt_run t (map (del_call lim) ks) = (l2, t2) -> no_collision (m_log t2) ->
  l2 = map Del ks.
Proof.
  intros secure lim. induction ks as [|k ks IH]; intros l t l2 t2 R Hf Hnd Hk E Hn; cbn [map mpt_run] in *.
  - injection E as <- <-. reflexivity.
  - destruct (mpt_call t (del_call lim k)) as [r t1] eqn:Ec. destruct (mpt_run t1 _) as [l3 t3] eqn:Er.
    injection E as <- <-. inversion Hf as [|? ? (Ho & Hl & v & Ev) Hf']; subst. inversion Hnd as [|? ? Hni Hnd']; subst.
    assert (D : dinv (m_map t) (m_log t)).
    { destruct (reachable_repr _ _ _ R) as (_ & tr & Q & _). eapply repr_dinv; eauto. }
    destruct (call_keeps keccak_len _ _ _ _ D Ec) as [D1 G1]. destruct (run_keeps keccak_len _ _ _ _ D1 Er) as [D2 G2].
    assert (N1 := grows_nocoll _ _ G2 Hn).
    assert (Hi := dict_after_keys _ _ _ Ev).
    assert (Hk1 : keys_ok secure (k :: map op_key l)).
    { eapply keys_ok_incl; [|exact Hk]. intros y [<-|Hy]; auto. }
    destruct (delete_present secure l t k v lim r t1 R Ho Hk1 Ec N1 Hl Ev) as (-> & R1 & _).
    f_equal. eapply (IH (l ++ [Del k])); eauto.
    + rewrite Forall_forall in *. intros x Hx. destruct (Hf' x Hx) as (A & B & w & C). split; auto. split; auto.
      exists w. rewrite dict_after_snoc, apply_op_other; auto. cbn. intros ->. contradiction.
    + eapply keys_ok_incl; [|exact Hk]. intros y Hy. rewrite map_app in Hy. apply in_app_or in Hy.
      destruct Hy as [Hy|[<-|[]]]; auto.
Qed.

Lemma apply_puts : forall kvs d k, ~ In k (map fst kvs) ->
  apply_ops d (map (fun kv => Put (fst kv) (snd kv)) kvs) k = d k.
Proof.
  induction kvs as [|kv kvs IH]; intros d k Hk; [reflexivity|]. cbn [map apply_ops fold_left] in *.
  change (apply_ops (apply_op d (Put (fst kv) (snd kv))) (map (fun kv => Put (fst kv) (snd kv)) kvs) k = d k).
  rewrite IH by (intros Hi; apply Hk; right; exact Hi).
  apply apply_op_other. cbn. intros ->. apply Hk. left. reflexivity.
Qed.
Lemma apply_puts_in : forall kvs d k, In k (map fst kvs) ->
  exists v, apply_ops d (map (fun kv => Put (fst kv) (snd kv)) kvs) k = Some v.
Proof.
  induction kvs as [|kv kvs IH]; intros d k Hk; [contradiction|]. cbn [map apply_ops fold_left] in *.
  change (exists v, apply_ops (apply_op d (Put (fst kv) (snd kv))) (map (fun kv => Put (fst kv) (snd kv)) kvs) k = Some v).
  destruct (in_dec bytes_eq_dec k (map fst kvs)) as [Hi|Hi]; [apply IH; auto|].
  destruct Hk as [<-|Hk]; [|contradiction]. rewrite apply_puts by auto. cbn. rewrite bytes_eqb_refl. eauto.
Qed.
Lemma apply_dels : forall ks d k, apply_ops d (map Del ks) k = if in_dec bytes_eq_dec k ks then None else d k.
Proof.
  induction ks as [|x ks IH]; intros d k; [reflexivity|]. cbn [map apply_ops fold_left].
  change (apply_ops (apply_op d (Del x)) (map Del ks) k = if in_dec bytes_eq_dec k (x :: ks) then None else d k).
  rewrite IH. destruct (in_dec _ k ks) as [Hi|Hi], (in_dec _ k (x :: ks)) as [Hj|Hj]; auto.
  - exfalso. apply Hj. right. auto.
  - destruct Hj as [<-|Hj]; [|contradiction]. cbn. rewrite bytes_eqb_refl. reflexivity.
  - apply apply_op_other. cbn. intros ->. apply Hj. left. reflexivity.
Qed.

Theorem add_then_delete : forall secure l t kvs ks lim l2 t2, reachable secure l t ->
  (exists k v, dict_after l k = Some v) ->
  NoDup (map fst kvs) -> Permutation ks (map fst kvs) ->
  Forall (fun kv => ok_op secure (Put (fst kv) (snd kv)) /\ frames secure (fst kv) < lim /\ dict_after l (fst kv) = None) kvs ->
  keys_ok secure (map fst kvs ++ map op_key l) ->
  mpt_run t (map (put_call lim) kvs ++ map (del_call lim) ks) = (l2, t2) -> no_collision (m_log t2) ->
  m_root t2 = m_root t.
Proof.
  intros secure l t kvs ks lim l2 t2 R Hne Hnd Hp Hf Hk E Hn.
  destruct (mpt_run t (map (put_call lim) kvs)) as [la ta] eqn:Ea.
  destruct (mpt_run ta (map (del_call lim) ks)) as [lb tb] eqn:Eb.
  rewrite (run_app _ _ _ _ _ _ _ Ea Eb) in E. injection E as <- <-.
  assert (D : dinv (m_map t) (m_log t)).
  { destruct (reachable_repr _ _ _ R) as (_ & tr & Q & _). eapply repr_dinv; eauto. }
  destruct (run_keeps keccak_len _ _ _ _ D Ea) as [Da Ga]. destruct (run_keeps keccak_len _ _ _ _ Da Eb) as [Db Gb].
  assert (Na := grows_nocoll _ _ Gb Hn).
  assert (Ela : la = map (fun kv => Put (fst kv) (snd kv)) kvs).
  { eapply puts_succeed; eauto. eapply Forall_impl; [|exact Hf]. cbv beta. tauto. }
  assert (Ra : reachable secure (l ++ la) ta).
  { eapply reachable_run; eauto. unfold ok_history. rewrite Forall_map. eapply Forall_impl; [|exact Hf].
    cbv beta. cbn. tauto. }
  assert (Hka : keys_ok secure (map op_key (l ++ la))).
  { eapply keys_ok_incl; [|exact Hk]. intros y. rewrite map_app, Ela, map_map, !in_app_iff. cbn. tauto. }
  assert (Hka_d : forall k, dict_after (l ++ la) k = apply_ops (dict_after l) la k).
  { intros k. unfold dict_after. rewrite apply_ops_app. reflexivity. }
  assert (Hin : forall k, In k ks <-> In k (map fst kvs)).
  { intros k. split; apply Permutation_in; [|apply Permutation_sym]; auto. }
  assert (Hprop : forall k, In k ks -> (blen k < 2 ^ 59)%N /\ frames secure k < lim /\ dict_after l k = None).
  { intros k Hi. apply Hin in Hi. apply in_map_iff in Hi. destruct Hi as (kv & <- & Hi).
    rewrite Forall_forall in Hf. destruct (Hf kv Hi) as ((A & _) & B & C). auto. }
  assert (Elb : lb = map Del ks).
  { eapply dels_succeed; eauto.
    - apply Forall_forall. intros k Hi. destruct (Hprop k Hi) as (A & B & C). split; auto. split; auto.
      rewrite Hka_d, Ela. apply apply_puts_in. apply Hin. auto.
    - eapply Permutation_NoDup; [apply Permutation_sym; eauto|auto]. }
  assert (Rb : reachable secure ((l ++ la) ++ lb) tb).
  { eapply reachable_run; eauto. unfold ok_history. rewrite Forall_map. apply Forall_forall. intros k Hi.
    destruct (Hprop k Hi) as (A & _). split; cbn; auto. }
  symmetry. eapply (root_history_independent secure l t ((l ++ la) ++ lb) tb); eauto.
  - eapply keys_ok_incl; [|exact Hk]. intros y.
    rewrite !map_app, Ela, Elb, !map_map, !in_app_iff. cbn [op_key]. rewrite map_id.
    intros [|[[|]|Hy]]; auto. apply Hin in Hy. auto.
  - intros k. unfold dict_after at 2. rewrite apply_ops_app. change (apply_ops (fun _ => None) (l ++ la)) with (dict_after (l ++ la)).
    rewrite Elb, apply_dels. destruct (in_dec _ k ks) as [Hi|Hi].
    + destruct (Hprop k Hi) as (_ & _ & C). exact C.
    + rewrite Hka_d, Ela. symmetry. apply apply_puts. intros Hj. apply Hi. apply Hin. exact Hj.
Qed.

End P.

Section Q.
Context {H : Hash}.

Lemma secure_run : forall h, mpt_run (mpt_new false) (map hash_call h) =
    (map hash_op (fst (mpt_run (mpt_new true) h)), as_plain (snd (mpt_run (mpt_new true) h))).
Proof. intros h. apply (secure_is_plain_on_hashes h (mpt_new true)). reflexivity. Qed.

Hypothesis keccak_len : forall b, length (keccak b) = 32.

Lemma secure_absent : forall l t k lim, reachable true l t -> keys_ok true (k :: map op_key l) ->
  dict_after l k = None -> exists e, mpt_get lim t k = Err e.
Proof. intros. eapply (get_absent_raises keccak_len true); eauto. Qed.

Lemma delete_absent_full : forall secure l t k lim fl res t', reachable secure l t -> (blen k < 2 ^ 59)%N ->
  keys_ok secure (k :: map op_key l) -> mpt_delete lim fl t k = (res, t') -> no_collision (m_log t') ->
  dict_after l k = None ->
  (exists e, res = Err e) /\ m_root t' = m_root t /\ root_hash t' = root_hash t /\ reads_alike t t'.
Proof.
  intros secure l t k lim fl res t' R Hs Hk E Hn Ed.
  destruct (delete_absent keccak_len _ _ _ _ _ _ _ _ R Hk E Hn Ed) as (e & ->). split; [eauto|].
  apply (failed_call keccak_len secure l t (Call (Del k) lim fl) e t'); auto. split; cbn; auto.
Qed.

Lemma update_succeeds_full : forall secure l t k v lim res t', reachable secure l t -> ok_op secure (Put k v) ->
  mpt_update lim [] t k v = (res, t') -> no_collision (m_log t') -> frames secure k < lim ->
  res = Ok tt /\ reachable secure (l ++ [Put k v]) t'.
Proof.
  intros secure l t k v lim res t' R Hok E Hn Hl.
  assert (res = Ok tt) as -> by (eapply (update_succeeds keccak_len); eauto). split; auto.
  apply (reachable_call secure l t (Call (Put k v) lim []) (Ok tt) t'); auto.
Qed.
End Q.
