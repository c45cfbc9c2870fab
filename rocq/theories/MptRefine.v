(** The trie object represents a tree, and calls act on it like on a dictionary. *)
From Coq Require Import List Bool Arith NArith ZArith Lia.
From Verif Require Import Base BaseProofs NibblePath NibbleProofs Node Mpt Tree TreeEnc StoreProofs
  UpdateProofs DeleteProofs ReadProofs Spec.
Import ListNotations.

Lemma nibs_np_of' : forall k, nibs (np_of k) = nibs_of k.
Proof. exact nibs_np_of. Qed.

Section Refine.
Context {H : Hash}.
Hypothesis keccak_len : forall b, length (keccak b) = 32.

(** In secure mode all keys are equally long; otherwise there are no empty values. *)
Definition kept (secure : bool) (tr : tree) : Prop :=
  forall q v, lookup tr q = Some v -> if secure then length q = 64 else v <> [].
Definition repr (t : mpt) (tr : tree) : Prop :=
  wf tr /\ small tr /\ stored (m_map t) tr /\ dinv (m_map t) (m_log t) /\ nocoll (m_log t) /\
  ((tr = TEmpty /\ (m_root t = None \/ m_root t = Some EMPTY_HASH)) \/
   (tr <> TEmpty /\ m_root t = Some (tref tr))) /\ kept (m_secure t) tr.

Lemma kept_fitting : forall t tr k v, kept (m_secure t) tr -> (m_secure t = false -> v <> []) -> fitting tr (nibs_of (eff_key t k)) v.
Proof.
  intros t tr k v Hk Hv. unfold kept, eff_key in *. destruct (m_secure t).
  - right. intros q w E. rewrite (Hk _ _ E), nibs_of_length, keccak_len. reflexivity.
  - left. split; auto. intros q E. exact (Hk _ _ E eq_refl).
Qed.
Lemma kept_put : forall t tr k v tr', kept (m_secure t) tr -> (m_secure t = false -> v <> []) -> upd_of tr (nibs_of (eff_key t k)) v tr' ->
  kept (m_secure t) tr'.
Proof.
  intros t tr k v tr' Hk Hv (_ & U & _) q w E. rewrite U in E. destruct (path_dec q (nibs_of (eff_key t k))) as [->|_]; [|eapply Hk; eauto].
  injection E as <-. unfold eff_key. destruct (m_secure t); auto. rewrite nibs_of_length, keccak_len. reflexivity.
Qed.
Lemma kept_del : forall s tr q0 tr', kept s tr -> (forall q, lookup tr' q = without (lookup tr) q0 q) -> kept s tr'.
Proof. intros s tr q0 tr' Hk U q w E. rewrite U in E. unfold without in E. destruct (path_dec q q0); [discriminate|]. eapply Hk; eauto. Qed.

Lemma repr_nocoll : forall t tr, repr t tr -> nocoll (m_log t).
Proof. unfold repr. tauto. Qed.
Lemma repr_dinv : forall t tr, repr t tr -> dinv (m_map t) (m_log t).
Proof. unfold repr. tauto. Qed.

Lemma new_dinv : forall secure, dinv (m_map (mpt_new secure)) (m_log (mpt_new secure)).
Proof. intros. split; [left; reflexivity|]. split; [constructor|discriminate]. Qed.

Lemma mpt_new_repr : forall secure, nocoll (m_log (mpt_new secure)) -> repr (mpt_new secure) TEmpty.
Proof.
  intros secure Hn. unfold repr. split; [exact I|]. split; [intros q v E; discriminate|].
  split; [apply stored_empty|]. split; [|split; auto; split; [left; auto|]].
  - apply new_dinv.
  - intros q v E. discriminate.
Qed.

Lemma tref_not_empty_hash : forall t tr, repr t tr -> tr <> TEmpty -> tref tr <> [] /\ tref tr <> EMPTY_HASH.
Proof.
  intros t tr (Hw & Hs & St & Hd & Hn & _) Hne. split.
  - intros E. apply Hne. apply (tref_nil keccak_len). exact E.
  - intros E. apply Hne. apply (ref_empty_tref keccak_len (mkStore (m_map t) (m_log t) []) tr); auto.
    rewrite E. unfold ref_is_empty. rewrite bytes_eqb_refl. destruct EMPTY_HASH; reflexivity.
Qed.

(** Root tests. *)
Lemma repr_nonempty : forall t tr, repr t tr -> tr <> TEmpty ->
  root_falsy t = false /\ root_is_empty t = false /\ root_ref t = tref tr /\ m_root t = Some (tref tr).
Proof.
  intros t tr R Hne. destruct (tref_not_empty_hash t tr R Hne) as [H1 H2].
  destruct R as (_ & _ & _ & _ & _ & [[E _]|[_ Er]] & _); [congruence|].
  unfold root_falsy, root_is_empty, root_ref. rewrite Er. repeat split.
  - destruct (tref tr) as [|? ?]; [exfalso; apply H1; reflexivity|reflexivity].
  - apply bytes_eqb_neq. exact H2.
Qed.

Lemma repr_empty_root : forall t, repr t TEmpty ->
  root_is_empty t = true /\ (m_root t = None \/ m_root t = Some EMPTY_HASH).
Proof.
  intros t (_ & _ & _ & _ & _ & [[_ Er]|[E _]] & _); [|congruence].
  split; auto. unfold root_is_empty. destruct Er as [-> | ->]; auto. apply bytes_eqb_refl.
Qed.

Lemma dget_empty_hash : forall m log, dinv m log -> nocoll log -> dget m EMPTY_HASH = None.
Proof.
  intros m log (H1 & _ & H3) Hn. destruct (dget m EMPTY_HASH) as [e|] eqn:E; auto.
  destruct (H3 _ _ E) as (Ek & Hi & Hl). apply Hn in Ek; auto. subst e. cbn in Hl. lia.
Qed.

(** ** Reads *)
Lemma repr_get_empty : forall t lim k, repr t TEmpty -> exists e, mpt_get lim t k = Err e.
Proof.
  intros t lim k R. destruct (repr_empty_root t R) as [_ [E|E]].
  - exists ValueError. unfold mpt_get, root_falsy. rewrite E. reflexivity.
  - unfold mpt_get. destruct (root_falsy t); [eauto|]. unfold root_ref. rewrite E.
    destruct lim as [|f]; cbn [get_]; [eauto|]. unfold get_node.
    replace (length EMPTY_HASH =? 32) with true by (unfold EMPTY_HASH; rewrite keccak_len; reflexivity).
    destruct R as (_ & _ & _ & Hd & Hn & _). rewrite (dget_empty_hash _ _ Hd Hn). eauto.
Qed.

Lemma repr_get_present : forall t tr lim k v, repr t tr ->
  lookup tr (nibs_of (eff_key t k)) = Some v -> 2 * length (eff_key t k) < lim -> mpt_get lim t k = Ok v.
Proof.
  intros t tr lim k v R El Hl. assert (Hne : tr <> TEmpty) by (intros ->; discriminate).
  destruct (repr_nonempty t tr R Hne) as (E1 & E2 & E3 & E4). unfold mpt_get. rewrite E1, E3.
  destruct R as (Hw & Hs & St & _).
  destruct (get_present keccak_len lim (m_map t) tr (np_of (eff_key t k)) v) as (n & -> & En); auto.
  - rewrite nibs_np_of, nibs_of_length. exact Hl.
Qed.

Lemma repr_get_Ok : forall t tr lim k v, repr t tr -> mpt_get lim t k = Ok v ->
  lookup tr (nibs_of (eff_key t k)) = Some v \/ extended tr (nibs_of (eff_key t k)).
Proof.
  intros t tr lim k v R E. destruct (tree_empty_dec tr) as [->|Hne].
  - destruct (repr_get_empty t lim k R) as [e E']. congruence.
  - destruct (repr_nonempty t tr R Hne) as (E1 & E2 & E3 & E4). unfold mpt_get in E. rewrite E1, E3 in E.
    destruct R as (Hw & Hs & St & _).
    destruct (get_ _ _ _ _) as [n|] eqn:Eg; [|discriminate].
    rewrite <- (nibs_np_of (eff_key t k)).
    eapply get_Ok_inv; eauto using stored_agree.
Qed.

Lemma repr_contains : forall t tr lim k, repr t tr ->
  match mpt_contains lim t k with
  | Ok b => b = true <-> lookup tr (nibs_of (eff_key t k)) <> None \/ false_hit tr (nibs_of (eff_key t k))
  | Err e => e = RecursionError /\ lim <= 2 * length (eff_key t k)
  end.
Proof.
  intros t tr lim k R. destruct (tree_empty_dec tr) as [->|Hne].
  - destruct (repr_empty_root t R) as [E1 _]. unfold mpt_contains. rewrite E1.
    replace (if root_falsy t then Ok false else Ok false) with (@Ok bool false) by (destruct (root_falsy t); reflexivity).
    cbn. split; [discriminate|]. intros [E|(p & x & r & w & _ & E & _)]; [congruence|discriminate].
  - destruct (repr_nonempty t tr R Hne) as (E1 & E2 & E3 & E4). unfold mpt_contains. rewrite E1, E2, E3.
    destruct R as (Hw & Hs & St & _).
    pose proof (contains_stored keccak_len lim (m_map t) tr (np_of (eff_key t k)) Hne Hw Hs St) as C.
    rewrite nibs_np_of, nibs_of_length in C.
    destruct (contains_ _ _ _ _) as [[n p]|e]; auto. destruct n as [lp d|ep nr|bs d]; exact C.
Qed.

(** ** Writes *)
Definition grows (t t' : mpt) : Prop :=
  m_secure t' = m_secure t /\ dext (m_map t) (m_log t) (m_map t') (m_log t').

Lemma grows_refl : forall t, grows t t.
Proof. intros. split; auto. apply dext_refl. Qed.
Lemma grows_trans : forall a b c, grows a b -> grows b c -> grows a c.
Proof. intros a b c [H1 H2] [H3 H4]. split; [congruence|eapply dext_trans; eauto]. Qed.
Lemma grows_nocoll : forall t t', grows t t' -> nocoll (m_log t') -> nocoll (m_log t).
Proof. intros t t' [_ Hd] Hn. eapply nocoll_incl; [|exact Hn]. intros x. eapply dext_log; eauto. Qed.

Lemma run_op_keeps : forall A (t : mpt) fl (m : M A) nr res t', keeps m -> dinv (m_map t) (m_log t) ->
  run_op t fl m nr = (res, t') -> dinv (m_map t') (m_log t') /\ grows t t'.
Proof.
  intros A t fl m nr res t' K Hd. unfold run_op.
  destruct (K (mkStore (m_map t) (m_log t) fl) Hd) as [K1 [K2 _]].
  destruct (m _) as [[a|e] s]; cbn [snd] in *; intros E; injection E as <- <-; unfold grows; cbn; auto.
Qed.

Lemma call_keeps : forall t c res t', dinv (m_map t) (m_log t) -> mpt_call t c = (res, t') ->
  dinv (m_map t') (m_log t') /\ grows t t'.
Proof.
  intros t [o lim fl] res t' Hd. unfold mpt_call. cbn [c_op c_lim c_faults]. destruct o as [k v|k].
  - apply run_op_keeps; auto. apply keeps_update; auto.
  - unfold mpt_delete. destruct (root_is_empty t).
    + intros E. injection E as <- <-. auto using grows_refl.
    + apply run_op_keeps; auto. apply keeps_delete; auto.
Qed.

Lemma run_keeps : forall h t l t', dinv (m_map t) (m_log t) -> mpt_run t h = (l, t') ->
  dinv (m_map t') (m_log t') /\ grows t t'.
Proof.
  induction h as [|c h IH]; intros t l t' Hd; cbn [mpt_run].
  - intros E. injection E as <- <-. auto using grows_refl.
  - destruct (mpt_call t c) as [r t1] eqn:Ec. destruct (mpt_run t1 h) as [l2 t2] eqn:Er.
    destruct (call_keeps _ _ _ _ Hd Ec) as [D1 G1]. destruct (IH _ _ _ D1 Er) as [D2 G2].
    intros E. injection E as <- <-. eauto using grows_trans.
Qed.

Lemma stored_grows : forall t t' tr, dinv (m_map t) (m_log t) -> dinv (m_map t') (m_log t') ->
  grows t t' -> nocoll (m_log t') -> stored (m_map t) tr -> stored (m_map t') tr.
Proof.
  intros t t' tr D D' [_ G] Hn. apply stored_mono. intros k e. eapply dext_dget; eauto.
Qed.

(** A call that does not change the root keeps the tree. *)
Lemma repr_grows : forall t t' tr, repr t tr -> dinv (m_map t') (m_log t') -> grows t t' ->
  nocoll (m_log t') -> m_root t' = m_root t -> repr t' tr.
Proof.
  intros t t' tr (Hw & Hs & St & Hd & Hn & Hr & Hk) D' G N' Er. unfold repr. rewrite Er, (proj1 G).
  split; auto. split; auto. split; [exact (stored_grows t t' tr Hd D' G N' St)|]. auto.
Qed.

Definition fails (lim : nat) (fl : list bool) (n : nat) (e : exn) : Prop :=
  (e = StorageFault /\ fl <> []) \/ (e = RecursionError /\ lim <= n).

Lemma repr_update : forall lim fl t tr k v res t', repr t tr ->
  mpt_update lim fl t k v = (res, t') -> (m_secure t = false -> v <> []) -> small_kv (nibs_of (eff_key t k)) v ->
  nocoll (m_log t') ->
  exists tr', repr t' tr' /\
    match res with
    | Ok _ => upd_of tr (nibs_of (eff_key t k)) v tr'
    | Err e => tr' = tr /\ m_root t' = m_root t /\ fails lim fl (2 * length (eff_key t k)) e
    end.
Proof.
  intros lim fl t tr k v res t' R E Hv Hk Hn'.
  destruct (call_keeps t (Call (Put k v) lim fl) res t' (repr_dinv _ _ R) E) as [D' G].
  assert (R0 := R). destruct R as (Hw & Hs & St & Hd & Hn & Hr & Hkp).
  unfold mpt_update, run_op in E.
  assert (Hroot : root_ref t = tref tr \/ (tr = TEmpty /\ root_ref t = EMPTY_HASH)).
  { unfold root_ref. destruct Hr as [[-> [->| ->]]|[_ ->]]; auto. }
  pose proof (update_spec keccak_len lim tr (root_ref t) (np_of (eff_key t k)) v
               (mkStore (m_map t) (m_log t) fl) Hd Hn Hw Hs St Hroot) as S.
  rewrite nibs_np_of in S. specialize (S (kept_fitting _ _ _ _ Hkp Hv) Hk). unfold spec in S.
  destruct (update_ lim (root_ref t) (np_of (eff_key t k)) v _) as [[r|e] s] eqn:Eu; cbn [snd] in S;
    injection E as <- <-; cbn [m_log m_map m_root] in *; specialize (S Hn').
  - destruct S as (tr' & -> & U & St'). exists tr'. split; auto.
    unfold repr. cbn [m_log m_map m_root m_secure]. split; [apply U|]. split; [eapply upd_small; eauto|].
    split; auto. split; auto. split; auto. split; [|eapply kept_put; eauto]. right. split; auto.
    intros ->. destruct U as (_ & U & _). specialize (U (nibs_of (eff_key t k))).
    destruct (path_dec _ _); [discriminate|congruence].
  - exists tr. split; [eapply repr_grows; eauto|]. split; auto. split; auto.
    rewrite nibs_of_length in S. exact S.
Qed.

Lemma repr_delete : forall lim fl t tr k res t', repr t tr ->
  mpt_delete lim fl t k = (res, t') -> nocoll (m_log t') ->
  exists tr', repr t' tr' /\
    match res with
    | Ok _ => lookup tr (nibs_of (eff_key t k)) <> None /\
              forall q, lookup tr' q = without (lookup tr) (nibs_of (eff_key t k)) q
    | Err e => tr' = tr /\ m_root t' = m_root t /\
               (fails lim fl (2 * length (eff_key t k)) e \/ lookup tr (nibs_of (eff_key t k)) = None)
    end.
Proof.
  intros lim fl t tr k res t' R E Hn'.
  destruct (call_keeps t (Call (Del k) lim fl) res t' (repr_dinv _ _ R) E) as [D' G].
  destruct (tree_empty_dec tr) as [->|Hne].
  { destruct (repr_empty_root t R) as [E1 _]. unfold mpt_delete in E. rewrite E1 in E. injection E as <- <-.
    exists TEmpty. split; auto. }
  destruct (repr_nonempty t tr R Hne) as (E1 & E2 & E3 & E4). unfold mpt_delete in E. rewrite E2, E3 in E.
  assert (R0 := R). destruct R as (Hw & Hs & St & Hd & Hn & _ & Hkp).
  unfold run_op in E.
  pose proof (delete_spec keccak_len lim tr (np_of (eff_key t k))
               (mkStore (m_map t) (m_log t) fl) Hd Hn Hne Hw Hs St) as S.
  rewrite nibs_np_of in S. unfold spec in S.
  destruct (delete_ lim (tref tr) (np_of (eff_key t k)) _) as [[a|e] s] eqn:Eu; cbn [snd] in S;
    injection E as <- <-; cbn [m_log m_map m_root] in *; specialize (S Hn').
  - destruct S as (Hl & O).
    assert (Hsm : forall tr', (forall q, lookup tr' q = without (lookup tr) (nibs_of (eff_key t k)) q) -> small tr').
    { intros tr' El q v Eq. rewrite El in Eq. unfold without in Eq. destruct (path_dec _ _); [discriminate|eauto]. }
    destruct a as [|r|p r]; cbn [outcome] in O.
    + destruct O as [_ O]. exists TEmpty. split; [|split; auto].
      unfold repr. cbn [m_log m_map m_root m_secure]. split; [exact I|]. split; [intros q v Eq; discriminate|].
      split; [apply stored_empty|]. split; auto. split; auto. split; auto. intros q v Eq. discriminate.
    + destruct O as (t1 & -> & Hw1 & Hne1 & El & St1 & _). exists t1. split; [|split; auto].
      unfold repr. cbn [m_log m_map m_root m_secure]. repeat (split; [auto|]). eapply kept_del; eauto.
    + destruct O as (t1 & -> & Hw1 & El & St1 & _ & Hf). exists t1. split; [|split; auto].
      unfold repr. cbn [m_log m_map m_root m_secure]. do 5 (split; [auto|]). split; [right; split; auto|eapply kept_del; eauto].
      destruct Hf as [[? ->]|[? ->]]; discriminate.
  - exists tr. split; [eapply repr_grows; eauto|]. split; auto. split; auto.
    unfold badD, bad in S. rewrite nibs_of_length in S. exact S.
Qed.

(** ** Histories *)
Definition holds (tr : tree) (d : kvmap) : Prop :=
  (forall k, lookup tr (nibs_of k) = d k) /\ (forall q v, lookup tr q = Some v -> exists k, q = nibs_of k).

Definition eff (secure : bool) (k : bytes) : bytes := if secure then keccak k else k.
Definition eff_op (secure : bool) (o : op) : op :=
  match o with Put k v => Put (eff secure k) v | Del k => Del (eff secure k) end.

Lemma eff_small : forall secure k, (blen k < 2 ^ 59)%N -> (N.of_nat (length (nibs_of (eff secure k))) < SZ)%N.
Proof.
  intros secure k Hk. rewrite nibs_of_length. unfold SZ, eff, blen in *. destruct secure; [rewrite keccak_len|]; lia.
Qed.

Lemma holds_put : forall tr tr' d k v, holds tr d -> upd_of tr (nibs_of k) v tr' -> holds tr' (apply_op d (Put k v)).
Proof.
  intros tr tr' d k v [H1 H2] (_ & U & _). split.
  - intros x. rewrite U. cbn [apply_op]. destruct (path_dec (nibs_of x) (nibs_of k)) as [E|E].
    + apply nibs_of_inj in E. subst. rewrite bytes_eqb_refl. reflexivity.
    + destruct (bytes_eqb_spec x k) as [->|_]; [congruence|]. apply H1.
  - intros q w. rewrite U. destruct (path_dec q (nibs_of k)) as [->|_]; eauto.
Qed.

Lemma holds_del : forall tr tr' d k, holds tr d ->
  (forall q, lookup tr' q = without (lookup tr) (nibs_of k) q) -> holds tr' (apply_op d (Del k)).
Proof.
  intros tr tr' d k [H1 H2] U. split.
  - intros x. rewrite U. unfold without. cbn [apply_op]. destruct (path_dec (nibs_of x) (nibs_of k)) as [E|E].
    + apply nibs_of_inj in E. subst. rewrite bytes_eqb_refl. reflexivity.
    + destruct (bytes_eqb_spec x k) as [->|_]; [congruence|]. apply H1.
  - intros q w. rewrite U. unfold without. destruct (path_dec q (nibs_of k)) as [->|_]; [discriminate|eauto].
Qed.

Lemma call_repr : forall t tr d c res t', repr t tr -> holds tr d -> ok_op (m_secure t) (c_op c) ->
  mpt_call t c = (res, t') -> nocoll (m_log t') ->
  exists tr', repr t' tr' /\
    match res with
    | Ok _ => holds tr' (apply_op d (eff_op (m_secure t) (c_op c)))
    | Err _ => tr' = tr /\ m_root t' = m_root t
    end.
Proof.
  intros t tr d [o lim fl] res t' R Hh [Hk Ho] E Hn. unfold mpt_call in E. cbn [c_op c_lim c_faults] in *.
  destruct o as [k v|k]; cbn [op_key] in Hk.
  - destruct Ho as [Hv Hvs]. destruct (repr_update lim fl t tr k v res t') as (tr' & R' & Hres); auto.
    { split; [apply eff_small; auto|unfold SZ; lia]. }
    exists tr'. split; auto. destruct res as [u|e].
    + eapply holds_put; eauto.
    + tauto.
  - destruct (repr_delete lim fl t tr k res t') as (tr' & R' & Hres); auto.
    exists tr'. split; auto. destruct res as [u|e].
    + eapply holds_del; [eauto|]. apply Hres.
    + tauto.
Qed.

Theorem run_repr : forall h t tr d l t', repr t tr -> holds tr d -> ok_history (m_secure t) h ->
  mpt_run t h = (l, t') -> nocoll (m_log t') ->
  exists tr', repr t' tr' /\ holds tr' (apply_ops d (map (eff_op (m_secure t)) l)).
Proof.
  induction h as [|c h IH]; intros t tr d l t' R Hh Hok; cbn [mpt_run].
  - intros E Hn. injection E as <- <-. exists tr. auto.
  - destruct (mpt_call t c) as [r t1] eqn:Ec. destruct (mpt_run t1 h) as [l2 t2] eqn:Er.
    intros E Hn. injection E as <- <-.
    destruct (call_keeps _ _ _ _ (repr_dinv _ _ R) Ec) as [D1 G1].
    destruct (run_keeps _ _ _ _ D1 Er) as [D2 G2].
    inversion Hok as [|? ? Hc Hok']; subst.
    assert (Hok1 : ok_history (m_secure t1) h) by (rewrite (proj1 G1); exact Hok').
    destruct (call_repr t tr d c r t1 R Hh Hc Ec (grows_nocoll _ _ G2 Hn)) as (tr1 & R1 & H1).
    destruct G1 as [Gs _]. destruct r as [u|e].
    + destruct (IH t1 tr1 _ l2 t2 R1 H1 Hok1 Er Hn) as (tr2 & R2 & H2). rewrite Gs in H2.
      exists tr2. auto.
    + destruct H1 as [-> Hr]. destruct (IH t1 tr d l2 t2 R1 Hh Hok1 Er Hn) as (tr2 & R2 & H2).
      rewrite Gs in H2. exists tr2. auto.
Qed.

Lemma run_secure : forall h t l t', dinv (m_map t) (m_log t) -> mpt_run t h = (l, t') -> m_secure t' = m_secure t.
Proof. intros h t l t' Hd E. destruct (run_keeps _ _ _ _ Hd E) as [_ [G _]]. exact G. Qed.


(** Reachable tries. *)
Theorem reach_repr : forall secure h l t, mpt_run (mpt_new secure) h = (l, t) -> ok_history secure h ->
  nocoll (m_log t) ->
  m_secure t = secure /\ exists tr, repr t tr /\ holds tr (dict_after (map (eff_op secure) l)).
Proof.
  intros secure h l t E Hok Hn.
  destruct (run_keeps _ _ _ _ (new_dinv secure) E) as [_ G].
  split; [apply G|].
  apply (run_repr h (mpt_new secure) TEmpty (fun _ => None) l t); auto.
  - apply mpt_new_repr. eapply grows_nocoll; eauto.
  - split; [reflexivity|discriminate].
Qed.

(** ** Hashed and plain keys *)
Lemma apply_ops_eff : forall secure l d d' ks k, keys_ok secure ks -> In k ks ->
  (forall o, In o l -> In (op_key o) ks) ->
  (forall x, In x ks -> d' (eff secure x) = d x) ->
  apply_ops d' (map (eff_op secure) l) (eff secure k) = apply_ops d l k.
Proof.
  intros secure. induction l as [|o l IH]; intros d d' ks k Hks Hk Hl Hd; [cbn; auto|].
  cbn [map apply_ops fold_left]. apply (IH _ _ ks); auto.
  - intros o' Ho. apply Hl. right. auto.
  - intros x Hx. assert (Ho : In (op_key o) ks) by (apply Hl; left; auto).
    assert (Hinj : bytes_eqb (eff secure x) (eff secure (op_key o)) = bytes_eqb x (op_key o)).
    { destruct (bytes_eqb_spec x (op_key o)) as [->|Hne]; [apply bytes_eqb_refl|].
      apply bytes_eqb_neq. intros E. apply Hne. unfold eff, keys_ok in *. destruct secure; auto.
      apply (Hks eq_refl); auto. }
    destruct o as [k' v|k']; cbn [eff_op apply_op op_key] in *; rewrite Hinj, Hd by auto; reflexivity.
Qed.

Lemma dict_after_eff : forall secure l ks k, keys_ok secure (ks ++ map op_key l) -> In k ks ->
  dict_after (map (eff_op secure) l) (eff secure k) = dict_after l k.
Proof.
  intros secure l ks k Hks Hk. apply (apply_ops_eff secure l _ _ (ks ++ map op_key l)); auto.
  - apply in_or_app. auto.
  - intros o Ho. apply in_or_app. right. apply in_map. exact Ho.
Qed.

(** Every key of the dictionary was put. *)
Lemma apply_ops_keys : forall l d k v, apply_ops d l k = Some v -> In k (map op_key l) \/ d k = Some v.
Proof.
  induction l as [|o l IH]; intros d k v E; [right; exact E|].
  cbn [apply_ops fold_left] in E. destruct (IH _ _ _ E) as [Hi|Hd]; [left; right; auto|].
  destruct o as [k' w|k']; cbn [apply_op] in Hd; destruct (bytes_eqb_spec k k') as [->|]; auto;
    left; left; reflexivity.
Qed.
Lemma dict_after_keys : forall l k v, dict_after l k = Some v -> In k (map op_key l).
Proof. intros l k v E. destruct (apply_ops_keys _ _ _ _ E) as [|E']; auto. discriminate. Qed.

(** Every hashed key of the dictionary is the hash of a key of the plain one. *)
Lemma dict_after_eff_inv : forall secure l x v, keys_ok secure (map op_key l) ->
  dict_after (map (eff_op secure) l) x = Some v -> exists k, x = eff secure k /\ dict_after l k = Some v.
Proof.
  intros secure l x v Hks E. pose proof (dict_after_keys _ _ _ E) as Hi.
  rewrite map_map in Hi. apply in_map_iff in Hi. destruct Hi as (o & Eo & Ho).
  assert (Ex : x = eff secure (op_key o)) by (destruct o; cbn in *; auto).
  exists (op_key o). split; auto. subst x.
  rewrite Ex in E. rewrite <- E. symmetry.
  apply (apply_ops_eff secure l _ _ (map op_key l)); auto; apply in_map; auto.
Qed.

End Refine.
