(** Plain tries with empty values: the trie represents a loose tree, and calls act on its contents by the rule of
    SpecLoose.v. *)
From Coq Require Import List Bool Arith NArith ZArith Lia.
From Verif Require Import Base BaseProofs NibblePath NibbleProofs Node Mpt Tree TreeEnc StoreProofs UpdateProofs DeleteProofs
  ReadProofs Spec MptRefine MptProofs SpecLoose LooseProofs.
Import ListNotations.

Section Thms.
Context {H : Hash}.
Hypothesis keccak_len : forall b, length (keccak b) = 32.

Definition lrepr (t : mpt) (tr : tree) : Prop :=
  lwf tr /\ small tr /\ stored (m_map t) tr /\ dinv (m_map t) (m_log t) /\ nocoll (m_log t) /\
  ((tr = TEmpty /\ (m_root t = None \/ m_root t = Some EMPTY_HASH)) \/
   (tr <> TEmpty /\ m_root t = Some (tref tr))) /\ m_secure t = false.

Lemma lrepr_dinv : forall t tr, lrepr t tr -> dinv (m_map t) (m_log t).
Proof. unfold lrepr. tauto. Qed.

Lemma lnew_repr : nocoll (m_log (mpt_new false)) -> lrepr (mpt_new false) TEmpty.
Proof.
  intros Hn. unfold lrepr. split; [exact I|]. split; [intros q v E; discriminate|].
  split; [apply stored_empty|]. split; [apply new_dinv|]. split; auto.
Qed.

Lemma ltref_not_empty_hash : forall t tr, lrepr t tr -> tr <> TEmpty -> tref tr <> [] /\ tref tr <> EMPTY_HASH.
Proof.
  intros t tr (Hw & Hs & St & Hd & Hn & _) Hne. split.
  - intros E. apply Hne. apply (tref_nil keccak_len). exact E.
  - intros E. apply Hne. apply (ref_empty_tref keccak_len (mkStore (m_map t) (m_log t) []) tr); auto.
    rewrite E. unfold ref_is_empty. rewrite bytes_eqb_refl. destruct EMPTY_HASH; reflexivity.
Qed.

Lemma lrepr_nonempty : forall t tr, lrepr t tr -> tr <> TEmpty ->
  root_falsy t = false /\ root_is_empty t = false /\ root_ref t = tref tr /\ m_root t = Some (tref tr).
Proof.
  intros t tr R Hne. destruct (ltref_not_empty_hash t tr R Hne) as [H1 H2].
  destruct R as (_ & _ & _ & _ & _ & [[E _]|[_ Er]] & _); [congruence|].
  unfold root_falsy, root_is_empty, root_ref. rewrite Er. repeat split.
  - destruct (tref tr) as [|? ?]; [exfalso; apply H1; reflexivity|reflexivity].
  - apply bytes_eqb_neq. exact H2.
Qed.

Lemma lrepr_empty_root : forall t, lrepr t TEmpty ->
  root_is_empty t = true /\ (m_root t = None \/ m_root t = Some EMPTY_HASH).
Proof.
  intros t (_ & _ & _ & _ & _ & [[_ Er]|[E _]] & _); [|congruence].
  split; auto. unfold root_is_empty. destruct Er as [-> | ->]; auto. apply bytes_eqb_refl.
Qed.

Lemma leff : forall t tr k, lrepr t tr -> eff_key t k = k.
Proof. intros t tr k (_ & _ & _ & _ & _ & _ & E). unfold eff_key. rewrite E. reflexivity. Qed.

(** ** Reads *)
Lemma lget_empty : forall t lim k, lrepr t TEmpty -> exists e, mpt_get lim t k = Err e.
Proof.
  intros t lim k R. destruct (lrepr_empty_root t R) as [_ [E|E]].
  - exists ValueError. unfold mpt_get, root_falsy. rewrite E. reflexivity.
  - unfold mpt_get. destruct (root_falsy t); [eauto|]. unfold root_ref. rewrite E.
    destruct lim as [|f]; cbn [get_]; [eauto|]. unfold get_node.
    replace (length EMPTY_HASH =? 32) with true by (unfold EMPTY_HASH; rewrite keccak_len; reflexivity).
    destruct R as (_ & _ & _ & Hd & Hn & _). rewrite (dget_empty_hash _ _ Hd Hn). eauto.
Qed.

Lemma lrepr_get_present : forall t tr lim k v, lrepr t tr ->
  lookup tr (nibs_of k) = Some v -> 2 * length k < lim -> mpt_get lim t k = Ok v.
Proof.
  intros t tr lim k v R El Hl. assert (Hne : tr <> TEmpty) by (intros ->; discriminate).
  destruct (lrepr_nonempty t tr R Hne) as (E1 & E2 & E3 & E4). unfold mpt_get. rewrite E1, E3, (leff _ _ k R).
  destruct R as (Hw & Hs & St & _).
  destruct (lget_present keccak_len lim (m_map t) tr (np_of k) v) as (n & -> & En); auto.
  - rewrite nibs_np_of, nibs_of_length. exact Hl.
Qed.

Lemma lrepr_get_Ok : forall t tr lim k v, lrepr t tr -> mpt_get lim t k = Ok v ->
  lookup tr (nibs_of k) = Some v \/
  (lookup tr (nibs_of k) = None /\ exists x r w, lookup tr (nibs_of k ++ x :: r) = Some w /\ (v = [] \/ v = w)).
Proof.
  intros t tr lim k v R E. destruct (tree_empty_dec tr) as [->|Hne].
  - destruct (lget_empty t lim k R) as [e E']. congruence.
  - destruct (lrepr_nonempty t tr R Hne) as (E1 & E2 & E3 & E4). unfold mpt_get in E. rewrite E1, E3, (leff _ _ k R) in E.
    destruct R as (Hw & Hs & St & _).
    destruct (get_ _ _ _ _) as [n|] eqn:Eg; [|discriminate].
    rewrite <- (nibs_np_of k). eapply (lget_Ok_inv keccak_len); eauto.
Qed.

Lemma lrepr_contains : forall t tr lim k, lrepr t tr ->
  match mpt_contains lim t k with
  | Ok b => b = true <-> lookup tr (nibs_of k) <> None \/ false_hit tr (nibs_of k)
  | Err e => e = RecursionError /\ lim <= 2 * length k
  end.
Proof.
  intros t tr lim k R. destruct (tree_empty_dec tr) as [->|Hne].
  - destruct (lrepr_empty_root t R) as [E1 _]. unfold mpt_contains. rewrite E1.
    replace (if root_falsy t then Ok false else Ok false) with (@Ok bool false) by (destruct (root_falsy t); reflexivity).
    cbn. split; [discriminate|]. intros [E|(p & x & r & w & _ & E & _)]; [congruence|discriminate].
  - destruct (lrepr_nonempty t tr R Hne) as (E1 & E2 & E3 & E4). unfold mpt_contains. rewrite E1, E2, E3, (leff _ _ k R).
    destruct R as (Hw & Hs & St & _).
    pose proof (lcontains_stored keccak_len lim (m_map t) tr (np_of k) Hne Hw Hs St) as C.
    rewrite nibs_np_of, nibs_of_length in C.
    destruct (contains_ _ _ _ _) as [[n p]|e]; auto. destruct n as [lp d|ep nr|bs d]; exact C.
Qed.

Lemma lrepr_answers : forall t tr d, lrepr t tr -> holds tr d -> answers t d.
Proof.
  intros t tr d R Hh lim k. assert (Hh0 := Hh). destruct Hh as [H1 H2]. split; [|split].
  - intros v E Hl. eapply lrepr_get_present; eauto. rewrite H1. exact E.
  - intros v E. destruct (lrepr_get_Ok t tr lim k v R E) as [E'|(E' & x & r & w & E2 & Hv)]; rewrite H1 in E'; auto.
    right. split; auto. destruct (H2 _ _ E2) as (k' & Ek). symmetry in Ek. destruct (nibs_of_app_inv _ _ _ Ek) as (s & -> & Es).
    destruct s as [|b s]; [discriminate|]. exists b, s, w. split; auto. rewrite <- H1, Ek. exact E2.
  - pose proof (lrepr_contains t tr lim k R) as C. destruct (mpt_contains lim t k); auto.
    rewrite H1, (holds_false_hit _ _ _ Hh0) in C. exact C.
Qed.

(** ** Writes *)
Lemma lrepr_grows : forall t t' tr, lrepr t tr -> dinv (m_map t') (m_log t') -> grows t t' ->
  nocoll (m_log t') -> m_root t' = m_root t -> lrepr t' tr.
Proof.
  intros t t' tr (Hw & Hs & St & Hd & Hn & Hr & Hk) D' G N' Er. unfold lrepr. rewrite Er, (proj1 G).
  split; auto. split; auto. split; [exact (stored_grows keccak_len t t' tr Hd D' G N' St) || exact (stored_grows t t' tr Hd D' G N' St)|]. auto.
Qed.

Lemma lrepr_update : forall lim fl t tr k v res t', lrepr t tr ->
  mpt_update lim fl t k v = (res, t') -> small_kv (nibs_of k) v -> nocoll (m_log t') ->
  exists tr', lrepr t' tr' /\
    match res with
    | Ok _ => takes (lookup tr) (nibs_of k) v (lookup tr')
    | Err e => tr' = tr /\ fails lim fl (2 * length k) e
    end.
Proof.
  intros lim fl t tr k v res t' R E Hk Hn'.
  destruct (call_keeps keccak_len t (Call (Put k v) lim fl) res t' (lrepr_dinv _ _ R) E) as [D' G].
  assert (R0 := R). pose proof (leff _ _ k R) as Ek. destruct R as (Hw & Hs & St & Hd & Hn & Hr & Hsec).
  unfold mpt_update, run_op in E. rewrite Ek in E.
  assert (Hroot : root_ref t = tref tr \/ (tr = TEmpty /\ root_ref t = EMPTY_HASH)).
  { unfold root_ref. destruct Hr as [[-> [->| ->]]|[_ ->]]; auto. }
  pose proof (lupdate_spec keccak_len lim tr (root_ref t) (np_of k) v
               (mkStore (m_map t) (m_log t) fl) Hd Hn Hw Hs St Hroot) as S.
  rewrite nibs_np_of in S. specialize (S Hk). unfold spec in S.
  destruct (update_ lim (root_ref t) (np_of k) v _) as [[r|e] s] eqn:Eu; cbn [snd] in S;
    injection E as <- <-; cbn [m_log m_map m_root] in *; specialize (S Hn').
  - destruct S as (tr' & -> & U & St'). exists tr'. split; [|apply U].
    unfold lrepr. cbn [m_log m_map m_root m_secure]. split; [apply U|]. split; [eapply (lupd_small); eauto|].
    split; auto. split; auto. split; auto. split; [|exact Hsec]. right. split; auto. apply U.
  - exists tr. split; [eapply lrepr_grows; eauto|]. split; auto.
    rewrite nibs_of_length in S. exact S.
Qed.

Lemma lrepr_delete : forall lim fl t tr k res t', lrepr t tr ->
  mpt_delete lim fl t k = (res, t') -> nocoll (m_log t') ->
  exists tr', lrepr t' tr' /\
    match res with
    | Ok _ => lookup tr (nibs_of k) <> None /\ forall q, lookup tr' q = without (lookup tr) (nibs_of k) q
    | Err e => tr' = tr /\ (fails lim fl (2 * length k) e \/ lookup tr (nibs_of k) = None)
    end.
Proof.
  intros lim fl t tr k res t' R E Hn'.
  destruct (call_keeps keccak_len t (Call (Del k) lim fl) res t' (lrepr_dinv _ _ R) E) as [D' G].
  destruct (tree_empty_dec tr) as [->|Hne].
  { destruct (lrepr_empty_root t R) as [E1 _]. unfold mpt_delete in E. rewrite E1 in E. injection E as <- <-.
    exists TEmpty. split; auto. }
  destruct (lrepr_nonempty t tr R Hne) as (E1 & E2 & E3 & E4). unfold mpt_delete in E. rewrite E2, E3, (leff _ _ k R) in E.
  assert (R0 := R). destruct R as (Hw & Hs & St & Hd & Hn & _ & Hsec).
  unfold run_op in E.
  pose proof (ldelete_spec keccak_len lim tr (np_of k) (mkStore (m_map t) (m_log t) fl) Hd Hn Hne Hw Hs St) as S.
  rewrite nibs_np_of in S. unfold spec in S.
  destruct (delete_ lim (tref tr) (np_of k) _) as [[a|e] s] eqn:Eu; cbn [snd] in S;
    injection E as <- <-; cbn [m_log m_map m_root] in *; specialize (S Hn').
  - destruct S as (Hl & O).
    assert (Hsm : forall tr', (forall q, lookup tr' q = without (lookup tr) (nibs_of k) q) -> small tr').
    { intros tr' El q v Eq. rewrite El in Eq. unfold without in Eq. destruct (path_dec _ _); [discriminate|eauto]. }
    destruct a as [|r|p r]; cbn [loutcome] in O.
    + exists TEmpty. split; [|split; auto].
      unfold lrepr. cbn [m_log m_map m_root m_secure]. split; [exact I|]. split; [intros q v Eq; discriminate|].
      split; [apply stored_empty|]. do 2 (split; auto).
    + destruct O as (t1 & -> & Hw1 & Hne1 & El & St1 & _). exists t1. split; [|split; auto].
      unfold lrepr. cbn [m_log m_map m_root m_secure]. do 5 (split; [auto|]). auto.
    + destruct O as (t1 & -> & Hw1 & El & St1 & _ & Hf). exists t1. split; [|split; auto].
      unfold lrepr. cbn [m_log m_map m_root m_secure]. do 5 (split; [auto|]). split; auto. right. split; auto.
      destruct Hf as [[? ->]|[? ->]]; discriminate.
  - exists tr. split; [eapply lrepr_grows; eauto|]. split; auto.
    unfold badD, bad in S. rewrite nibs_of_length in S. exact S.
Qed.

(** ** From nibbles to bytes *)
Lemma below_nibs : forall q k, below (nibs_of q) (nibs_of k) <-> below q k.
Proof.
  intros q k. split.
  - intros (x & r & E). destruct (nibs_of_app_inv _ _ _ E) as (s & -> & Es). destruct s as [|b s]; [discriminate|]. exists b, s. reflexivity.
  - intros (x & r & ->). rewrite nibs_of_app, nibs_of_cons. exists (hi x), (lo x :: nibs_of r). reflexivity.
Qed.

Lemma holds_takes : forall tr tr' d k v, holds tr d -> takes (lookup tr) (nibs_of k) v (lookup tr') ->
  exists d', takes d k v d' /\ holds tr' d'.
Proof.
  intros tr tr' d k v [H1 H2] T. exists (fun x => lookup tr' (nibs_of x)). split; [|split; auto].
  - assert (T0 := T). destruct T as (T1 & T2 & T3). split; [|split].
    + intros q Hq Hn. rewrite T1, H1; auto.
      * intros E. apply nibs_of_inj in E. congruence.
      * rewrite H1, below_nibs. exact Hn.
    + intros q E B. apply T2; [rewrite H1; auto|apply below_nibs; auto].
    + destruct T3 as [[A B]|(A & B & q & w & C & D)]; [left|right].
      * split; auto. intros Hv q w E Bq. apply (B Hv (nibs_of q) w); [rewrite H1; auto|apply below_nibs; auto].
      * split; auto. split; auto. destruct (H2 _ _ C) as (q' & ->). exists q', w. rewrite <- H1. split; auto. apply below_nibs; auto.
  - intros q w E. destruct (takes_inv _ _ _ _ _ _ T E) as [[-> _]|E']; eauto.
Qed.

Theorem loose_run : forall h t tr d rs t', lrepr t tr -> holds tr d -> sized h ->
  outcomes t h = (rs, t') -> nocoll (m_log t') ->
  exists tr' d', lrepr t' tr' /\ holds tr' d' /\ plain_run d h rs d'.
Proof.
  induction h as [|c h IH]; intros t tr d rs t' R Hh Hok; cbn [outcomes].
  - intros E Hn. injection E as <- <-. exists tr, d. split; auto. split; auto. constructor.
  - destruct (mpt_call t c) as [r t1] eqn:Ec. destruct (outcomes t1 h) as [rs2 t2] eqn:Er.
    intros E Hn. injection E as <- <-. inversion Hok as [|? ? [Hk Hv] Hok']; subst.
    destruct (call_keeps keccak_len _ _ _ _ (lrepr_dinv _ _ R) Ec) as [D1 G1].
    assert (G2 : grows t1 t2).
    { clear - D1 Er keccak_len. revert t1 rs2 D1 Er. induction h as [|c h IH]; intros t1 rs2 D1 Er; cbn [outcomes] in Er.
      - injection Er as <- <-. apply grows_refl.
      - destruct (mpt_call t1 c) as [r t3] eqn:Ec. destruct (outcomes t3 h) as [rs3 t4] eqn:Eo. injection Er as <- <-.
        destruct (call_keeps keccak_len _ _ _ _ D1 Ec) as [D3 G3]. eapply grows_trans; [exact G3|]. eapply IH; eauto. }
    assert (N1 := grows_nocoll _ _ G2 Hn).
    destruct c as [o lim fl]. unfold mpt_call in Ec. cbn [c_op c_lim c_faults] in *. destruct o as [k v|k]; cbn [op_key] in Hk.
    + destruct (lrepr_update lim fl t tr k v r t1 R Ec) as (tr1 & R1 & Hr); auto.
      { split; [rewrite nibs_of_length|]; unfold SZ, blen in *; lia. }
      destruct r as [[]|e].
      * destruct (holds_takes _ _ _ _ _ Hh Hr) as (d1 & T & Hh1).
        destruct (IH _ _ _ _ _ R1 Hh1 Hok' Er Hn) as (tr' & d' & R' & Hh' & P). exists tr', d'. split; auto. split; auto.
        econstructor; eauto.
      * destruct Hr as [-> Hf]. destruct (IH _ _ _ _ _ R1 Hh Hok' Er Hn) as (tr' & d' & R' & Hh' & P). exists tr', d'.
        split; auto. split; auto. constructor; auto.
    + destruct (lrepr_delete lim fl t tr k r t1 R Ec) as (tr1 & R1 & Hr); auto.
      destruct r as [[]|e].
      * destruct Hr as [Hp Hl]. rewrite (proj1 Hh) in Hp.
        destruct (IH _ _ _ _ _ R1 (holds_del _ _ _ _ Hh Hl) Hok' Er Hn) as (tr' & d' & R' & Hh' & P). exists tr', d'.
        split; auto. split; auto. eapply pr_del; [exact Hp| |exact P]. reflexivity.
      * destruct Hr as [-> Hf]. destruct (IH _ _ _ _ _ R1 Hh Hok' Er Hn) as (tr' & d' & R' & Hh' & P). exists tr', d'.
        split; auto. split; auto. constructor; auto. rewrite (proj1 Hh) in Hf. exact Hf.
Qed.

Theorem plain_every : forall h rs t, outcomes (mpt_new false) h = (rs, t) -> sized h -> no_collision (m_log t) ->
  exists d, plain_run (fun _ => None) h rs d /\ answers t d.
Proof.
  intros h rs t E Hs Hn.
  assert (G : nocoll (m_log (mpt_new false))).
  { clear Hs. assert (D := new_dinv false). revert E D. generalize (mpt_new false). revert rs.
    induction h as [|c h IH]; intros rs t0 E D; cbn [outcomes] in E.
    - injection E as <- <-. exact Hn.
    - destruct (mpt_call t0 c) as [r t1] eqn:Ec. destruct (outcomes t1 h) as [rs1 t2] eqn:Eo. injection E as <- <-.
      destruct (call_keeps keccak_len _ _ _ _ D Ec) as [D1 G1]. eapply grows_nocoll; [exact G1|]. eapply IH; eauto. }
  destruct (loose_run h (mpt_new false) TEmpty (fun _ => None) rs t (lnew_repr G)) as (tr & d & R & Hh & P); auto.
  - split; [reflexivity|discriminate].
  - exists d. split; auto. eapply lrepr_answers; eauto.
Qed.
End Thms.

(** ** The rule leaves no choice *)
Lemma below_dec : forall q k : bytes, {below q k} + {~ below q k}.
Proof.
  induction q as [|a q IH]; intros [|b k].
  - right. intros (x & r & E). discriminate.
  - left. exists b, k. reflexivity.
  - right. intros (x & r & E). discriminate.
  - destruct (Byte.byte_eq_dec a b) as [<-|Hn].
    + destruct (IH k) as [B|B]; [left|right].
      * destruct B as (x & r & ->). exists x, r. reflexivity.
      * intros (x & r & E). injection E as E. apply B. exists x, r. exact E.
    + right. intros (x & r & E). injection E as E _. congruence.
Qed.

Lemma takes_same : forall (g1 g2 : kvmap) k v g1' g2', (forall q, g1 q = g2 q) -> takes g1 k v g1' -> takes g2 k v g2' -> forall q, g1' q = g2' q.
Proof.
  intros g1 g2 k v g1' g2' E (A1 & A2 & A3) (B1 & B2 & B3) q. destruct (bytes_eqb_spec q k) as [->|Hq].
  - destruct A3 as [[C1 D1]|(C1 & D1 & q1 & w1 & E1 & F1)], B3 as [[C2 D2]|(C2 & D2 & q2 & w2 & E2 & F2)]; try congruence; exfalso.
    + rewrite <- E in E2. exact (D1 D2 _ _ E2 F2).
    + rewrite E in E1. exact (D2 D1 _ _ E1 F1).
  - destruct (below_dec q k) as [B|B].
    + destruct (g1 q) as [[|b w]|] eqn:Eg.
      * rewrite (A2 q Eg B). rewrite (B2 q); auto. rewrite <- E. exact Eg.
      * rewrite A1, B1, E; auto; [rewrite <- E|]; rewrite Eg; intros [F _]; discriminate.
      * rewrite A1, B1, E; auto; [rewrite <- E|]; rewrite Eg; intros [F _]; discriminate.
    + rewrite A1, B1, E; auto; tauto.
Qed.

Lemma plain_inv : forall d c h rs e, plain_run d (c :: h) rs e -> exists r rs', rs = r :: rs' /\
  match r with
  | Ok _ => match c_op c with
            | Put k v => exists d1, takes d k v d1 /\ plain_run d1 h rs' e
            | Del k => d k <> None /\ exists d1, (forall x, d1 x = apply_op d (Del k) x) /\ plain_run d1 h rs' e
            end
  | Err x => (gives_in c x \/ missing d (c_op c)) /\ plain_run d h rs' e
  end.
Proof. intros d c h rs e P. inversion P; subst; eexists; eexists; (split; [reflexivity|]); cbn [c_op]; eauto. Qed.

Lemma plain_unique_gen : forall h d1 d2 rs1 rs2 e1 e2, calm h -> (forall q, d1 q = d2 q) -> plain_run d1 h rs1 e1 -> plain_run d2 h rs2 e2 ->
  map raised rs1 = map raised rs2 /\ (forall q, e1 q = e2 q).
Proof.
  induction h as [|c h IH]; intros d1 d2 rs1 rs2 e1 e2 Hc E P1 P2.
  - inversion P1; inversion P2; subst. auto.
  - inversion Hc as [|? ? [Hf Hl] Hc']; subst.
    assert (Hg : forall e, ~ gives_in c e).
    { intros e [[_ F]|[_ F]]; [congruence|lia]. }
    apply plain_inv in P1, P2. destruct P1 as (r1 & l1 & -> & Q1), P2 as (r2 & l2 & -> & Q2). cbn [map].
    destruct r1 as [u1|x1], r2 as [u2|x2]; cbn [raised].
    + destruct (c_op c) as [k v|k].
      * destruct Q1 as (f1 & T1 & Q1), Q2 as (f2 & T2 & Q2).
        destruct (IH f1 f2 l1 l2 e1 e2) as [A B]; auto; [eapply takes_same; eauto|]. rewrite A. auto.
      * destruct Q1 as (_ & f1 & T1 & Q1), Q2 as (_ & f2 & T2 & Q2).
        destruct (IH f1 f2 l1 l2 e1 e2) as [A B]; auto; [|rewrite A; auto].
        intros q. rewrite T1, T2. cbn. destruct (bytes_eqb q k); auto.
    + exfalso. destruct Q2 as [[F|F] _]; [exact (Hg _ F)|]. destruct (c_op c) as [k v|k]; [exact F|]. cbn in F.
      apply (proj1 Q1). rewrite E. exact F.
    + exfalso. destruct Q1 as [[F|F] _]; [exact (Hg _ F)|]. destruct (c_op c) as [k v|k]; [exact F|]. cbn in F.
      apply (proj1 Q2). rewrite <- E. exact F.
    + destruct Q1 as [_ Q1], Q2 as [_ Q2]. destruct (IH d1 d2 l1 l2 e1 e2) as [A B]; auto. rewrite A. auto.
Qed.

Theorem plain_unique : forall h d rs1 rs2 e1 e2, calm h -> plain_run d h rs1 e1 -> plain_run d h rs2 e2 ->
  map raised rs1 = map raised rs2 /\ (forall q, e1 q = e2 q).
Proof. intros h d rs1 rs2 e1 e2 Hc. apply plain_unique_gen; auto. Qed.

(** ** Where the rule is that of a dictionary *)
Lemma takes_plain : forall (d : kvmap) k v d', takes d k v d' ->
  (v <> [] /\ forall q, d q <> Some []) \/ (forall q w, d q = Some w -> ~ below q k /\ ~ below k q) ->
  forall x, d' x = apply_op d (Put k v) x.
Proof.
  intros d k v d' (T1 & T2 & T3) Hc x. cbn. destruct (bytes_eqb_spec x k) as [->|Hx].
  - destruct T3 as [[A _]|(_ & A & q & w & B & C)]; auto. exfalso. destruct Hc as [[F _]|F]; [auto|]. apply (proj2 (F q w B)). exact C.
  - apply T1; auto. intros [A B]. destruct Hc as [[_ F]|F]; [exact (F x A)|]. apply (proj1 (F x _ A)). exact B.
Qed.
