(** build_trie over storages that fail. *)
From Coq Require Import String List Bool Arith NArith Lia.
From Verif Require Import Base BaseProofs Keccak Rlp NibblePath Mpt StoreProofs Spec SpecCodec SpecProof MptRefine MptProofs Empt SpecEmpt EmptProofs EmptProofs2 EmptFault SpecFault.
Import ListNotations.

Lemma NoDup_app_l : forall {A} (a b : list A), NoDup (a ++ b) -> NoDup a.
Proof.
  induction a as [|x a IH]; intros b Hn; [constructor|]. cbn [app] in Hn. inversion_clear Hn as [|? ? Hi Hn']. constructor; [|eapply IH; eauto].
  intros Hx. apply Hi. apply in_or_app. auto.
Qed.
Lemma NoDup_app_not : forall {A} (a b : list A) x, NoDup (a ++ b) -> In x a -> In x b -> False.
Proof.
  induction a as [|y a IH]; intros b x Hn Ha Hb; [destruct Ha|]. cbn [app] in Hn. inversion_clear Hn as [|? ? Hi Hn']. destruct Ha as [->|Ha]; [|eapply IH; eauto].
  apply Hi. apply in_or_app. auto.
Qed.
Lemma In_dget : forall (d : dict value) k v, NoDup (dkeys d) -> In (k, v) d -> dget d k = Some v.
Proof.
  induction d as [|[k0 v0] d IH]; intros k v Hn Hi; [destruct Hi|]. cbn [dkeys map fst] in Hn. inversion_clear Hn as [|? ? Hx Hn']. cbn [dget].
  destruct Hi as [E|Hi]; [injection E as -> ->; rewrite bytes_eqb_refl; reflexivity|]. destruct (bytes_eqb_spec k k0) as [->|]; [|apply IH; auto].
  elim Hx. apply (in_map fst) in Hi. exact Hi.
Qed.
Lemma dset_same : forall (d : dict value) k v, dget d k = Some v -> dset d k v = d.
Proof.
  induction d as [|[k0 v0] d IH]; intros k v E; [discriminate|]. cbn [dget dset] in *. destruct (bytes_eqb_spec k k0) as [->|]; [injection E as ->; reflexivity|].
  rewrite IH by exact E. reflexivity.
Qed.

Section WithHash.
Context {H : Hash}.

Lemma build_f_none : forall lim e, empt_build_f lim false [] e = empt_build lim e.
Proof.
  intros lim e. unfold empt_build_f, empt_build. destruct (m_map (e_trie e)); [|reflexivity].
  enough (forall l t, build_loop_f lim [] t l = build_loop lim t l) as -> by reflexivity.
  induction l as [|[k v] l IH]; intros t; cbn [build_loop_f build_loop hd tl]; [reflexivity|].
  destruct (bind (new_ref k v) (fun r => ref_encode r)); [|reflexivity]. destruct (mpt_update lim [] t k a) as [[[]|] t1]; auto.
Qed.

(** A failing read stops the build after the keys before it. *)
Lemma build_f_read : forall lim i ds fl fs secure e1, i < length ds -> empt_build lim (mkEmpt (firstn i ds) (mpt_new secure)) = (Ok tt, e1) ->
  empt_build_f lim false (repeat (false, []) i ++ (true, fl) :: fs) (mkEmpt ds (mpt_new secure)) = (Err StorageFault, mkEmpt ds (e_trie e1)).
Proof.
  intros lim i ds fl fs secure e1 Hi E. unfold empt_build_f, empt_build in *. cbn [mpt_new m_map e_trie e_data] in *.
  destruct (build_loop lim (mpt_new secure) (firstn i ds)) as [r t1] eqn:Eb. injection E as -> <-. cbn [e_trie].
  enough (build_loop_f lim (repeat (false, []) i ++ (true, fl) :: fs) (mpt_new secure) ds = (Err StorageFault, t1)) as -> by reflexivity.
  revert i Hi Eb. generalize (mpt_new secure) as t. induction ds as [|[k v] ds IH]; intros t i Hi Eb; [cbn in Hi; lia|]. destruct i as [|i].
  - injection Eb as <-. reflexivity.
  - cbn [repeat app build_loop_f hd tl firstn build_loop] in *. destruct (bind (new_ref k v) (fun r => ref_encode r)); [|discriminate].
    destruct (mpt_update lim [] t k a) as [[[]|x] t2]; [|discriminate]. apply IH; [cbn in Hi; lia|exact Eb].
Qed.

Hypothesis keccak_len : forall b, length (keccak b) = 32.

Lemma reads_alike_refl : forall t, reads_alike t t.
Proof. intros t lim k time. repeat split. Qed.

Lemma build_loop_f_grows : forall lim l fs t r t', dinv (m_map t) (m_log t) -> build_loop_f lim fs t l = (r, t') ->
  dinv (m_map t') (m_log t') /\ grows t t'.
Proof.
  intros lim. induction l as [|[k v] l IH]; intros fs t r t' Hd E; cbn [build_loop_f] in E.
  - injection E as <- <-. split; auto. apply grows_refl.
  - destruct (hd (false, []) fs) as [rf fl]. destruct rf; [injection E as <- <-; split; auto; apply grows_refl|].
    destruct (bind (new_ref k v) (fun r => ref_encode r)) as [rb|x]; [|injection E as <- <-; split; auto; apply grows_refl].
    destruct (mpt_update lim fl t k rb) as [r1 t1] eqn:Eu.
    destruct (call_keeps keccak_len t (Call (Put k rb) lim fl) r1 t1 Hd Eu) as [D1 G1].
    destruct r1; [|injection E as <- <-; auto]. destruct (IH _ _ _ _ D1 E) as [D2 G2]. eauto using grows_trans.
Qed.

Lemma build_f_puts : forall secure lim l fs outs e r t', ereachable secure outs e -> NoDup (dkeys (e_data e ++ l)) -> Forall plain_pair l ->
  build_loop_f lim fs (e_trie e) l = (r, t') -> no_collision (m_log t') ->
  exists done rest t0 tail, l = done ++ rest /\ (r = Ok tt <-> rest = []) /\
    ereachable secure (outs ++ map put_out done) (mkEmpt (e_data e ++ done) t0) /\ m_root t' = m_root t0 /\ reads_alike t0 t' /\
    (tail = [] \/ exists kv, In kv rest /\ tail = [(EPut (fst kv) (snd kv), false)]) /\
    ereachable secure (outs ++ map put_out done ++ tail) (mkEmpt (e_data e ++ done) t').
Proof.
  intros secure lim. induction l as [|[k v] l IH]; intros fs outs e r t' R Hn Hf E Hc; cbn [build_loop_f] in E.
  - injection E as <- <-. exists [], [], (e_trie e), []. cbn [map app]. rewrite !app_nil_r. split; auto. split; [tauto|]. destruct e. split; [exact R|].
    split; [reflexivity|]. split; [apply reads_alike_refl|]. split; auto.
  - inversion Hf as [|? ? (Ho & b & Hb) Hf']; subst. cbn [fst snd] in *. subst v.
    assert (Ho' := Ho). destruct Ho' as [Hk Hv]. cbn [eop_key val_bytes] in Hk, Hv.
    destruct (ref_encode_total keccak_len (mkRef k b) Hk Hv) as (rb & Erb & Hne & Hsz). cbn [new_ref] in E.
    assert (Eb : bind (Ok (mkRef k b)) (fun r => ref_encode r) = ref_encode (mkRef k b)) by reflexivity.
    rewrite Eb, Erb in E. destruct (hd (false, []) fs) as [rf fl]. destruct rf.
    { injection E as <- <-. exists [], ((k, VBytes b) :: l), (e_trie e), []. cbn [map app]. rewrite !app_nil_r. split; auto. split; [split; discriminate|].
      destruct e. split; [exact R|]. split; [reflexivity|]. split; [apply reads_alike_refl|]. split; auto. }
    destruct (mpt_update lim fl (e_trie e) k rb) as [r1 t1] eqn:Eu.
    pose proof (ereach_dinv keccak_len _ _ _ R) as D0.
    destruct (call_keeps keccak_len (e_trie e) (Call (Put k rb) lim fl) r1 t1 D0 Eu) as [D1 G1].
    assert (Hc1 : no_collision (m_log t1)).
    { destruct r1; [|injection E as <- <-; exact Hc]. destruct (build_loop_f_grows _ _ _ _ _ _ D1 E) as [_ G2]. eapply grows_nocoll; eauto. }
    assert (Ep : empt_call e (ECall (EPut k (VBytes b)) lim false false fl) =
                 match r1 with Ok _ => (Ok tt, mkEmpt (dset (e_data e) k (VBytes b)) t1) | Err x => (Err x, mkEmpt (e_data e) t1) end).
    { unfold empt_call. cbn [ec_op ec_lim ec_cfault ec_dfault ec_faults]. rewrite (update_eq lim fl false e k (VBytes b) (mkRef k b) rb eq_refl Erb), Eu. destruct r1; reflexivity. }
    assert (Hfresh : ~ In k (dkeys (e_data e))).
    { unfold dkeys in Hn. rewrite map_app in Hn. cbn [map fst] in Hn. apply NoDup_remove_2 in Hn. intros Hi. apply Hn. apply in_or_app. left. exact Hi. }
    destruct r1 as [[]|x].
    + pose proof (ereach_call secure outs e (ECall (EPut k (VBytes b)) lim false false fl) _ _ R Ho Ep Hc1) as R1. cbn [ec_op is_ok] in R1. rewrite dset_fresh in R1 by exact Hfresh.
      destruct (IH (tl fs) (outs ++ [(EPut k (VBytes b), true)]) (mkEmpt (e_data e ++ [(k, VBytes b)]) t1) r t' R1) as (dn & rest & t0 & tail & -> & Hr & R2 & Er & Ra & Ht & R3); auto.
      * cbn [e_data]. rewrite <- app_assoc. exact Hn.
      * exists ((k, VBytes b) :: dn), rest, t0, tail. cbn [e_data] in *. rewrite <- !app_assoc in R2, R3. cbn [app map] in *. repeat (split; auto).
    + injection E as <- <-. destruct (ereach_inv keccak_len _ _ _ R) as (l0 & (Rl & _) & _).
      assert (Hop : ok_op secure (Put k rb)) by (split; cbn [op_key]; [lia|split; auto]).
      destruct (failed_call keccak_len secure l0 (e_trie e) (Call (Put k rb) lim fl) x t1 Rl Hop Eu Hc1) as (Er & _ & Ra).
      exists [], ((k, VBytes b) :: l), (e_trie e), [(EPut k (VBytes b), false)]. cbn [map app]. rewrite !app_nil_r. split; auto. split; [split; discriminate|].
      pose proof (ereach_call secure outs e (ECall (EPut k (VBytes b)) lim false false fl) _ _ R Ho Ep Hc1) as R1. cbn [ec_op is_ok] in R1.
      split; [destruct e; exact R|]. split; [exact Er|]. split; [exact Ra|]. split; [right; exists (k, VBytes b); cbn; auto|exact R1].
Qed.

Lemma build_f_state : forall secure lim kf fs ds r e', NoDup (dkeys ds) -> Forall plain_pair ds ->
  empt_build_f lim kf fs (mkEmpt ds (mpt_new secure)) = (r, e') -> no_collision (m_log (e_trie e')) ->
  exists done rest t0 tail, ds = done ++ rest /\ e_data e' = ds /\ (r = Ok tt -> rest = []) /\
    ereachable secure (map put_out done) (mkEmpt done t0) /\ m_root (e_trie e') = m_root t0 /\ reads_alike t0 (e_trie e') /\
    (tail = [] \/ exists kv, In kv rest /\ tail = [(EPut (fst kv) (snd kv), false)]) /\
    ereachable secure (map put_out done ++ tail) (mkEmpt done (e_trie e')).
Proof.
  intros secure lim kf fs ds r e' Hn Hf E Hc. unfold empt_build_f in E.
  assert (R0 : no_collision (m_log (mpt_new secure)) -> ereachable secure [] (empt_new secure)).
  { intros N. exists []. split; [reflexivity|]. split; [constructor|exact N]. }
  destruct kf.
  - injection E as <- <-. cbn [e_trie] in Hc. exists [], ds, (mpt_new secure), []. cbn [map app e_data e_trie]. split; auto. split; auto. split; [discriminate|].
    specialize (R0 Hc). split; [exact R0|]. split; [reflexivity|]. split; [apply reads_alike_refl|]. split; auto.
  - cbn [e_trie e_data mpt_new m_map] in E. destruct (build_loop_f lim fs (mpt_new secure) ds) as [r1 t1] eqn:Eb. injection E as <- <-. cbn [e_trie] in Hc.
    assert (N : no_collision (m_log (mpt_new secure))).
    { destruct (build_loop_f_grows _ _ _ _ _ _ (new_dinv secure) Eb) as [_ G]. eapply grows_nocoll; [exact G|exact Hc]. }
    destruct (build_f_puts secure lim ds fs [] (empt_new secure) r1 t1 (R0 N) Hn Hf Eb Hc) as (dn & rest & t0 & tail & -> & Hr & R2 & Er & Ra & Ht & R3).
    cbn [app e_data empt_new e_trie] in *. exists dn, rest, t0, tail. split; auto. split; auto. split; [apply Hr|]. auto.
Qed.

Lemma get_over : forall lim d ds t k v, empt_get lim (mkEmpt d t) k = Ok v -> dget ds k = Some v -> empt_get lim (mkEmpt ds t) k = Ok v.
Proof.
  intros lim d ds t k v E Ed. unfold empt_get in *. cbn [e_data e_trie] in *. rewrite Ed. destruct (dget d k) as [w|]; [|discriminate].
  destruct (mpt_get lim t k) as [rb|]; [|discriminate]. cbn [bind] in *. destruct (ref_decode rb) as [rr|]; [|discriminate]. cbn [bind] in *.
  destruct (expected_ref k w) as [x|] eqn:Ex; [|discriminate]. cbn [bind] in E. destruct (ref_eq rr x) eqn:Eq; [|discriminate]. injection E as ->.
  rewrite Ex. cbn [bind]. rewrite Eq. reflexivity.
Qed.
Lemma get_alike : forall lim d t t' k, reads_alike t t' -> empt_get lim (mkEmpt d t') k = empt_get lim (mkEmpt d t) k.
Proof. intros lim d t t' k Ra. unfold empt_get. cbn [e_data e_trie]. destruct (dget d k); [|reflexivity]. destruct (Ra lim k []) as (-> & _). reflexivity. Qed.

(** What an interrupted build leaves. *)
Lemma build_f_reads : forall secure lim kf fs ds r e', NoDup (dkeys ds) -> Forall plain_pair ds ->
  empt_build_f lim kf fs (mkEmpt ds (mpt_new secure)) = (r, e') -> no_collision (m_log (e_trie e')) ->
  exists done rest t0, ds = done ++ rest /\ e_data e' = ds /\ (r = Ok tt -> rest = []) /\
    ereachable secure (map put_out done) (mkEmpt done t0) /\ m_root (e_trie e') = m_root t0 /\ reads_alike t0 (e_trie e') /\
    (keys_ok secure (dkeys ds) -> forall n k v, frames secure k < n ->
      (In (k, v) done -> empt_get n e' k = Ok v /\ empt_contains n e' k = Ok true) /\
      (In (k, v) rest -> secure = true \/ (forall k', In k' (dkeys done) -> ~ proper_prefix k' k) -> empt_contains n e' k = Ok false)).
Proof.
  intros secure lim kf fs ds r e' Hn Hf E Hc. destruct (build_f_state _ _ _ _ _ _ _ Hn Hf E Hc) as (dn & rest & t0 & tail & -> & Ed & Hr & R0 & Er & Ra & _ & _).
  exists dn, rest, t0. split; auto. split; auto. split; auto. split; auto. split; auto. split; auto.
  intros Hk n k v Hl. destruct e' as [d' t']. cbn [e_data e_trie] in *. subst d'.
  assert (Hnd : NoDup (dkeys dn)). { unfold dkeys in *. rewrite map_app in Hn. revert Hn. apply NoDup_app_l. }
  assert (Hka : forall x, In x (dkeys (dn ++ rest)) -> keys_ok secure (x :: okeys (map put_out dn))).
  { intros x Hx. rewrite okeys_puts. eapply keys_ok_incl; [|exact Hk]. intros y [<-|Hy]; auto. unfold dkeys in *. rewrite map_app. apply in_or_app. auto. }
  split.
  - intros Hin. assert (Ein : In (k, v) (dn ++ rest)) by (apply in_or_app; auto).
    destruct (present_get keccak_len secure (map put_out dn) (mkEmpt dn t0) k v n R0) as [G C]; auto.
    + apply Hka. apply (in_map fst) in Ein. exact Ein.
    + apply puts_status; auto. apply In_dget; auto.
    + split.
      * rewrite (get_alike _ _ _ _ _ Ra). apply (get_over n dn); [exact G|]. apply In_dget; auto.
      * unfold empt_contains in *. cbn [e_trie] in *. destruct (Ra n k []) as (_ & -> & _). exact C.
  - intros Hin Hx. assert (Ein : In (k, v) (dn ++ rest)) by (apply in_or_app; auto). apply (in_map fst) in Ein. cbn [fst] in Ein.
    assert (Hni : ~ In k (dkeys dn)).
    { intros Hi. unfold dkeys in *. rewrite map_app in Hn. apply (in_map fst) in Hin. cbn [fst] in Hin. eapply NoDup_app_not; eauto. }
    unfold empt_contains. cbn [e_trie]. destruct (Ra n k []) as (_ & -> & _). apply (absent_contains keccak_len secure (map put_out dn) (mkEmpt dn t0) k n R0); auto.
    + unfold status_after. rewrite fold_status_other; [reflexivity|]. rewrite okeys_puts. exact Hni.
    + destruct Hx as [Hs|Hx]; [left; exact Hs|right]. intros (k' & Hp & Hst). apply (Hx k'); [|exact Hp].
      destruct (in_dec (list_eq_dec Byte.byte_eq_dec) k' (dkeys dn)) as [Hi|Hi]; [exact Hi|]. elim Hst. unfold status_after.
      rewrite fold_status_other; [reflexivity|]. rewrite okeys_puts. exact Hi.
Qed.

(** Putting pairs into an object whose data storage already has them. *)
Definition put_call (lim : nat) (k b : bytes) : ecall := ECall (EPut k (VBytes b)) lim false false [].
Lemma put_call_update : forall lim e k b, empt_call e (put_call lim k b) = empt_update lim [] false e k (VBytes b).
Proof. reflexivity. Qed.
Lemma put_call_eq : forall lim d t k b rb r1 t1, ref_encode (mkRef k b) = Ok rb -> mpt_update lim [] t k rb = (r1, t1) ->
  empt_call (mkEmpt d t) (put_call lim k b) = match r1 with Ok _ => (Ok tt, mkEmpt (dset d k (VBytes b)) t1) | Err x => (Err x, mkEmpt d t1) end.
Proof.
  intros lim d t k b rb r1 t1 Erb Eu. rewrite put_call_update.
  rewrite (update_eq lim [] false (mkEmpt d t) k (VBytes b) (mkRef k b) rb eq_refl Erb). cbn [e_trie e_data]. rewrite Eu. destruct r1; reflexivity.
Qed.
Lemma put_call_ok : forall secure outs e lim k b r e', ereachable secure outs e -> eok_op (EPut k (VBytes b)) -> frames secure k < lim ->
  empt_call e (put_call lim k b) = (r, e') -> no_collision (m_log (e_trie e')) -> r = Ok tt /\ ereachable secure (outs ++ [(EPut k (VBytes b), true)]) e'.
Proof. intros secure outs e lim k b r e' R Ho Hl E Hc. rewrite put_call_update in E. exact (put_succeeds keccak_len secure outs e k (VBytes b) lim r e' R Ho eq_refl Hl E Hc). Qed.
Lemma puts_cons : forall lim k b l e, empt_run e (puts lim ((k, VBytes b) :: l)) =
  let (r, e1) := empt_call e (put_call lim k b) in let (o, e2) := empt_run e1 (puts lim l) in ((EPut k (VBytes b), is_ok r) :: o, e2).
Proof. reflexivity. Qed.

Lemma puts_run : forall secure lim l ds outs d0 t outs2 e2, ereachable secure outs (mkEmpt d0 t) -> Forall plain_pair l ->
  (forall k v, In (k, v) l -> dget ds k = Some v /\ frames secure k < lim) ->
  empt_run (mkEmpt ds t) (puts lim l) = (outs2, e2) -> no_collision (m_log (e_trie e2)) ->
  outs2 = map put_out l /\ e_data e2 = ds /\ exists d, ereachable secure (outs ++ map put_out l) (mkEmpt d (e_trie e2)).
Proof.
  intros secure lim. induction l as [|[k v] l IH]; intros ds outs d0 t outs2 e2 R Hf Hd E Hc.
  - injection E as <- <-. cbn [e_data e_trie map]. split; auto. split; auto. exists d0. rewrite app_nil_r. exact R.
  - inversion Hf as [|? ? (Ho & b & Hb) Hf']; subst. cbn [fst snd] in *. subst v. destruct (Hd k (VBytes b) (or_introl eq_refl)) as [Edk Hl].
    rewrite puts_cons in E. assert (Ho' := Ho). destruct Ho' as [Hk Hv]. cbn [eop_key val_bytes] in Hk, Hv.
    destruct (ref_encode_total keccak_len (mkRef k b) Hk Hv) as (rb & Erb & Hne & Hsz).
    destruct (mpt_update lim [] t k rb) as [r1 t1] eqn:Eu.
    pose proof (put_call_eq lim ds t k b rb r1 t1 Erb Eu) as Es. pose proof (put_call_eq lim d0 t k b rb r1 t1 Erb Eu) as Ee.
    rewrite (dset_same _ _ _ Edk) in Es. pose proof (fun r e' => put_call_ok secure outs (mkEmpt d0 t) lim k b r e' R Ho Hl) as Pok. set (c := put_call lim k b) in *. clearbody c.
    pose proof (ereach_dinv keccak_len _ _ _ R) as D0. cbn [e_trie] in D0.
    destruct (empt_call (mkEmpt ds t) c) as [ra ea] eqn:Ea.
    assert (Et : e_trie ea = t1) by (destruct r1; injection Es as -> ->; reflexivity).
    destruct (empt_run ea (puts lim l)) as [l2 e3] eqn:Er. injection E as <- <-.
    assert (Hc1 : no_collision (m_log t1)).
    { destruct (e_call_grows keccak_len (mkEmpt ds t) c ra ea D0 Ea) as [D1 _]. destruct (e_run_grows keccak_len _ _ _ _ D1 Er) as [_ G].
      rewrite <- Et. eapply grows_nocoll; [exact G|exact Hc]. }
    destruct r1 as [[]|x].
    + destruct (Pok (Ok tt) _ Ee Hc1) as [_ R1]. injection Es as -> ->.
      destruct (IH ds _ _ _ _ _ R1 Hf' ltac:(intros; apply Hd; right; auto) Er Hc) as (-> & Ed & d & R2). split; [reflexivity|]. split; [exact Ed|].
      exists d. rewrite <- app_assoc in R2. exact R2.
    + destruct (Pok (Err x) _ Ee Hc1) as [? _]. discriminate.
Qed.

(** Updating every key with the data the storage has for it completes an interrupted build. *)
Lemma build_f_finish : forall secure lim kf fs ds r e' n outs e2, NoDup (dkeys ds) -> Forall plain_pair ds ->
  empt_build_f lim kf fs (mkEmpt ds (mpt_new secure)) = (r, e') ->
  empt_run e' (puts n ds) = (outs, e2) -> no_collision (m_log (e_trie e2)) -> (forall k, In k (dkeys ds) -> frames secure k < n) -> keys_ok secure (dkeys ds) ->
  outs = map put_out ds /\ e_data e2 = ds /\ (forall k v, In (k, v) ds -> empt_get n e2 k = Ok v /\ empt_contains n e2 k = Ok true) /\
  (forall e3, empt_build n (mkEmpt ds (mpt_new secure)) = (Ok tt, e3) -> no_collision (m_log (e_trie e3)) -> empt_root_hash e2 = empt_root_hash e3).
Proof.
  intros secure lim kf fs ds r e' n outs e2 Hn Hf E Er Hc Hl Hk.
  assert (De' : dinv (m_map (e_trie e')) (m_log (e_trie e'))).
  { unfold empt_build_f in E. destruct kf; [injection E as <- <-; apply new_dinv|]. cbn [e_trie e_data mpt_new m_map] in E.
    destruct (build_loop_f lim fs (mpt_new secure) ds) as [r1 t1] eqn:Eb. injection E as <- <-. apply (build_loop_f_grows _ _ _ _ _ _ (new_dinv secure) Eb). }
  assert (Hc' : no_collision (m_log (e_trie e'))).
  { destruct (e_run_grows keccak_len _ _ _ _ De' Er) as [_ G]. eapply grows_nocoll; [exact G|exact Hc]. }
  destruct (build_f_state _ _ _ _ _ _ _ Hn Hf E Hc') as (dn & rest & t0 & tail & Eds & Ed & _ & _ & _ & _ & Ht & R).
  destruct e' as [d' t']. cbn [e_data e_trie] in *. subst d'.
  destruct (puts_run secure n ds ds _ dn t' outs e2 R Hf) as (-> & Ed2 & d & R2); auto.
  { intros k v Hi. split; [apply In_dget; auto|]. apply Hl. apply (in_map fst) in Hi. exact Hi. }
  split; [reflexivity|]. split; [exact Ed2|].
  set (o := (map put_out dn ++ tail) ++ map put_out ds) in *.
  assert (Hin : incl (okeys o) (dkeys ds)).
  { intros x Hx. unfold o, okeys in Hx. rewrite !map_app in Hx. fold (okeys (map put_out dn)) (okeys tail) (okeys (map put_out ds)) in Hx. rewrite !okeys_puts in Hx.
    apply in_app_or in Hx. destruct Hx as [Hx|Hx]; [|exact Hx]. subst ds. unfold dkeys in *. rewrite map_app. apply in_or_app. apply in_app_or in Hx. destruct Hx as [Hx|Hx]; [auto|right].
    destruct Ht as [->|(kv & Hkv & ->)]; [destruct Hx|]. cbn in Hx. destruct Hx as [<-|[]]. apply in_map. exact Hkv. }
  assert (St : forall k, status_after o k = match dget ds k with Some v => Present v | None => Absent end).
  { intros k. unfold o, status_after. rewrite fold_left_app. destruct (dget ds k) as [v|] eqn:Ek; [apply puts_status; auto|].
    assert (Hni : ~ In k (dkeys ds)).
    { intros Hi. apply in_map_iff in Hi. destruct Hi as ([k0 v0] & <- & Hi). cbn [fst] in Ek. rewrite (In_dget _ _ _ Hn Hi) in Ek. discriminate. }
    rewrite <- fold_left_app. fold o. apply fold_status_other. intros Hi. apply Hni. apply Hin. exact Hi. }
  split.
  - intros k v Hi. assert (Hik : In k (dkeys ds)) by (apply (in_map fst) in Hi; exact Hi).
    destruct (present_get keccak_len secure o (mkEmpt d (e_trie e2)) k v n R2) as [G C].
    + eapply keys_ok_incl; [|exact Hk]. intros x [<-|Hx]; auto.
    + rewrite St, (In_dget _ _ _ Hn Hi). reflexivity.
    + auto.
    + split; [|exact C]. destruct e2 as [d2 t2]. cbn [e_data e_trie] in *. subst d2. apply (get_over n d); [exact G|]. apply In_dget; auto.
  - intros e3 E3 Hc3.
    destruct (build_trie_ok keccak_len secure n ds (Ok tt) e3 Hn) as (_ & _ & R3 & _); auto.
    { apply Forall_forall. intros kv Hkv. rewrite Forall_forall in Hf. destruct (Hf kv Hkv) as [A B]. split; [exact A|]. split; [|exact B]. apply Hl. apply in_map. exact Hkv. }
    transitivity (empt_root_hash (mkEmpt d (e_trie e2))); [reflexivity|].
    apply (empt_root_content keccak_len secure o _ (map put_out ds) _ R2 R3).
    + eapply keys_ok_incl; [|exact Hk]. intros x Hx. apply in_app_or in Hx. destruct Hx as [Hx|Hx]; [auto|]. rewrite okeys_puts in Hx. exact Hx.
    + intros k. rewrite St. unfold status_after. destruct (dget ds k) as [v|] eqn:Ek; [rewrite (puts_status _ _ _ _ Hn Ek); reflexivity|].
      rewrite fold_status_other; [exact I|]. rewrite okeys_puts. intros Hi. apply in_map_iff in Hi. destruct Hi as ([k0 v0] & <- & Hi). cbn [fst] in Ek.
      rewrite (In_dget _ _ _ Hn Hi) in Ek. discriminate.
Qed.
End WithHash.

(** After a failure, build_trie cannot be called again: it raises, and what was readable is lost. *)
Section Retry.
#[local] Instance KH : Hash := keccak256.
Definition retry_data : dict value := [(bs "dog", VBytes (bs "puppy")); (bs "horse", VBytes (bs "stallion"))].
Lemma retry_refuted : let H : Hash := keccak256 in exists ds fs e' e2, NoDup (dkeys ds) /\ Forall plain_pair ds /\
  empt_build_f 100 false fs (mkEmpt ds (mpt_new false)) = (Err StorageFault, e') /\ empt_get 100 e' (bs "dog") = Ok (VBytes (bs "puppy")) /\
  empt_build_f 100 false [] e' = (Err RuntimeError, e2) /\ empt_get 100 e2 (bs "dog") = Err KeyError /\
  empt_build_f 100 false [] e2 = (Err KeyError, e2).
Proof.
  intros H. exists retry_data, [(false, []); (true, [])].
  eexists (snd (empt_build_f 100 false [(false, []); (true, [])] (mkEmpt retry_data (mpt_new false)))).
  eexists (snd (empt_build_f 100 false [] (snd (empt_build_f 100 false [(false, []); (true, [])] (mkEmpt retry_data (mpt_new false)))))).
  split; [repeat constructor; cbn; intuition discriminate|].
  split; [repeat (constructor; [split; [split; vm_compute; reflexivity|eexists; reflexivity]|]); constructor|].
  split; [vm_compute; reflexivity|]. split; [vm_compute; reflexivity|]. split; [vm_compute; reflexivity|]. split; vm_compute; reflexivity.
Qed.
End Retry.
