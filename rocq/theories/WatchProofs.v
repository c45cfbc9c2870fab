(** Proofs about SpecWatch.v. *)
From Coq Require Import List Bool Arith NArith ZArith Lia.
From Verif Require Import Base BaseProofs Rlp RlpProofs NibblePath NibbleProofs Node ProofObj Mpt Tree TreeEnc StoreProofs ReadProofs Spec SpecCodec SpecProof
  MptRefine MptProofs PoiProofs PoeProofs SpecShared SimProofs SharedProofs SpecEmpt EmptFaultProofs SpecWalk SpecGet SpecEvery MptPy SpecMptEvery MptEveryProofs
  Threads SpecThreads ThreadsSeq ThreadsProofs ThreadsPool Watch SpecWatch.
Import ListNotations.

(** ** A call that looks *)
Definition watch {A} (p : prog A) (l : list shared) : prog A := fold_left (fun p s => look s p) l p.
Lemma watch_ret : forall A (r : result A) l, watch (PRet r) l = PRet r.
Proof. intros A r l. induction l as [|s l IH]; [reflexivity|exact IH]. Qed.
Lemma watch_set : forall A h e (k : prog A) l, watch (PSet h e k) l = PSet h e k.
Proof. intros A h e k l. induction l as [|s l IH]; [reflexivity|exact IH]. Qed.
Lemma watch_assign : forall A r (k : prog A) l, watch (PAssign r k) l = PAssign r k.
Proof. intros A r k l. induction l as [|s l IH]; [reflexivity|exact IH]. Qed.
Lemma watch_app : forall A (p : prog A) l1 l2, watch p (l1 ++ l2) = watch (watch p l1) l2.
Proof. intros. apply fold_left_app. Qed.
Lemma watch_bind : forall A B (f : A -> prog B) l (p : prog A) r, watch (pbind p f) l = PRet r ->
  (exists l1 l2 a, l = l1 ++ l2 /\ watch p l1 = PRet (Ok a) /\ watch (f a) l2 = PRet r) \/ (exists l1 l2 e, l = l1 ++ l2 /\ watch p l1 = PRet (Err e) /\ r = Err e).
Proof.
  intros A B f. induction l as [|s l IH]; intros p r E.
  - destruct p as [[a|e]|h k|h e k|k|x k]; cbn [pbind watch fold_left] in E; try discriminate.
    + left. exists [], [], a. auto.
    + injection E as <-. right. exists [], [], e. auto.
  - destruct p as [[a|e]|h k|h e k|k|x k].
    + left. exists [], (s :: l), a. auto.
    + right. cbn [pbind] in E. rewrite watch_ret in E. injection E as <-. exists [], (s :: l), e. auto.
    + destruct (IH (k (dget (h_map s) h)) r E) as [(l1 & l2 & a & -> & E1 & E2)|(l1 & l2 & e & -> & E1 & E2)];
        [left; exists (s :: l1), l2, a|right; exists (s :: l1), l2, e]; auto.
    + cbn [pbind] in E. rewrite watch_set in E. discriminate.
    + destruct (IH (k (h_root s)) r E) as [(l1 & l2 & a & -> & E1 & E2)|(l1 & l2 & e & -> & E1 & E2)];
        [left; exists (s :: l1), l2, a|right; exists (s :: l1), l2, e]; auto.
    + cbn [pbind] in E. rewrite watch_assign in E. discriminate.
Qed.
Lemma watch_root : forall A (k : option bytes -> prog A) l r, watch (PRoot k) l = PRet r -> exists s l', l = s :: l' /\ watch (k (h_root s)) l' = PRet r.
Proof. intros A k [|s l] r E; [discriminate|]. exists s, l. auto. Qed.
Lemma watch_ends : forall A (f : result A -> wout) l (p : prog A), watch (ends f p) l = ends f (watch p l).
Proof.
  intros A f. induction l as [|s l IH]; intros p; [reflexivity|]. destruct p as [r|h k|h e k|k|x k]; cbn [watch fold_left ends look] in *.
  - apply (IH (PRet r)).
  - apply IH.
  - apply (IH (PSet h e k)).
  - apply IH.
  - apply (IH (PAssign x k)).
Qed.
Lemma ends_answer : forall A (f : result A -> wout) (p : prog A) o, wanswer (ends f p) = Some o -> exists r, p = PRet r /\ o = f r.
Proof. intros A f [r|h k|h e k|k|x k] o E; try discriminate. injection E as <-. eauto. Qed.

Section W.
Context {H : Hash}.
(** Reads of a storage that grows. *)
Definition grows (s s' : shared) : Prop := part_of (h_map s) (h_map s') /\ (h_root s <> Some EMPTY_HASH -> h_root s' <> Some EMPTY_HASH).
Lemma grows_refl : forall s, grows s s.
Proof. intros s. split; [apply part_refl|auto]. Qed.
Lemma grows_trans : forall a b c, grows a b -> grows b c -> grows a c.
Proof. intros a b c [P1 Q1] [P2 Q2]. split; [eapply part_trans; eauto|auto]. Qed.
Lemma watch_tame : forall A (p : prog A), tame p -> forall m log l r, (forall s, In s l -> part_of m (h_map s)) -> watch p l = PRet r ->
  fst (seq p (mkStore m log [])) <> Err KeyError -> fst (seq p (mkStore m log [])) = r.
Proof.
  intros A p T. induction T as [r0|h k Ek T IH|e k L T IH]; intros m log l r Hl E N.
  - rewrite watch_ret in E. injection E as <-. reflexivity.
  - destruct l as [|s l]; [discriminate|]. cbn [watch fold_left look] in E. cbn [seq s_map] in *.
    destruct (dget m h) as [x|] eqn:Ex.
    + rewrite (Hl s (or_introl eq_refl) _ _ Ex) in E. apply (IH (Some x) m log l r); auto. intros s' Hs. apply Hl. right. exact Hs.
    + rewrite Ek in N. cbn [seq fst] in N. congruence.
  - rewrite watch_set in E. discriminate.
Qed.
Lemma tame_poe : forall f r p acc, tame (p_poe f r p acc).
Proof.
  induction f as [|f IH]; intros r p acc; cbn [p_poe]; [apply tame_ret|]. apply tame_bind; [apply tame_node|]. intros n. destruct (np_len p =? 0).
  { apply tame_bind; [apply tame_ret|]. intros. apply tame_ret. }
  destruct n as [lp d|ep nr|bs d].
  - apply tame_bind; [apply tame_ret|]. intros. apply tame_ret.
  - destruct (np_starts_with p ep); [|apply tame_ret]. apply tame_bind; [apply tame_ret|]. intros. apply IH.
  - cbv zeta. apply tame_bind; [apply tame_ret|]. intros. destruct (0 <? _); [apply IH|apply tame_ret].
Qed.
Lemma seq_poe : forall f r p acc s, seq (p_poe f (Some r) p acc) s = (get_poe_ f (s_map s) r p acc, s).
Proof.
  induction f as [|f IH]; intros r p acc s; cbn [p_poe get_poe_]; [reflexivity|]. rewrite seq_bind. unfold mbind. rewrite seq_node.
  destruct (get_node (s_map s) r) as [n|e]; cbn [bind]; [|reflexivity]. destruct (np_len p =? 0).
  { destruct (node_encode n); reflexivity. }
  destruct n as [lp d|ep nr|bs d].
  - destruct (node_encode (Leaf lp d)); reflexivity.
  - destruct (np_starts_with p ep); [|reflexivity]. destruct (node_encode (Extension ep nr)); cbn [bind pbind]; [apply IH|reflexivity].
  - cbv zeta. destruct (node_encode (Branch bs d)); cbn [bind pbind]; [|reflexivity]. destruct (0 <? _); [apply IH|reflexivity].
Qed.

Hypothesis keccak_len : forall b, length (keccak b) = 32.
(** ** The walk for a proof of exclusion is that of [contains] *)
Lemma poe_contains : forall f m t path acc, t <> TEmpty -> wf t -> small t -> stored m t ->
  match contains_ f m (tref t) path with
  | Ok (n, p') => exists L, get_poe_ f m (tref t) path acc = Ok (n, acc ++ L, p') /\ length (nibs p') <= length (nibs path)
  | Err e => get_poe_ f m (tref t) path acc = Err e
  end.
Proof.
  induction f as [|f IH]; intros m t path acc Hn Hw Hs St; cbn [contains_ get_poe_]; [reflexivity|].
  destruct (get_node_stored keccak_len m t Hn Hw Hs (here_of_stored _ _ St)) as (n & En & Hm). rewrite En. cbn [bind].
  pose proof (node_encode_match keccak_len n t Hm Hw Hs) as Ee. rewrite ?Ee. cbn [bind]. destruct (np_len path =? 0) eqn:Ez.
  { exists [tenc t]. auto. }
  destruct n as [lp d|ep nr|bs d]; destruct t as [|p w|p c|cs w]; cbn [nmatch] in Hm; try contradiction.
  - exists [tenc (TLeaf p w)]. auto.
  - destruct Hm as [E1 ->]. destruct (np_starts_with path ep) eqn:Es; [|exists []; rewrite app_nil_r; auto].
    destruct (child_ext keccak_len m m p c Hw Hs St St) as (Hc & Hwc & Hsc & St1 & _).
    specialize (IH m c (np_consume path (np_len ep)) (acc ++ [tenc (TExt p c)]) Hc Hwc Hsc St1).
    destruct (contains_ f m (tref c) _) as [[n p']|e]; [|exact IH]. destruct IH as (L & E & Hl). exists (tenc (TExt p c) :: L).
    rewrite E, <- app_assoc. split; [reflexivity|]. rewrite nibs_consume, skipn_length in Hl. lia.
  - destruct Hm as [-> ->]. cbv zeta. rewrite nth_map_tref. destruct (0 <? _) eqn:Ep; [|exists [tenc (TBranch cs w)]; auto].
    destruct (child_nth keccak_len m m cs w _ Hw Hs St St Ep) as (Hc & Hwc & Hsc & St1 & _).
    specialize (IH m (nth (np_at path 0) cs TEmpty) (np_consume path 1) (acc ++ [tenc (TBranch cs w)]) Hc Hwc Hsc St1).
    destruct (contains_ f m _ _) as [[n p']|e]; [|exact IH]. destruct IH as (L & E & Hl). exists (tenc (TBranch cs w) :: L).
    rewrite E, <- app_assoc. split; [reflexivity|]. rewrite nibs_consume, skipn_length in Hl. lia.
Qed.

Variables (secure : bool) (K : list bytes).
Hypothesis K_ok : keys_ok secure K.
Hypothesis K_small : forall k, In k K -> (blen k < 2 ^ 59)%N.
Notation way k := (np_of (t_key secure k)).
Notation view s := (obj secure s).
Definition sound (s : shared) : Prop := exists d u, binv secure K (view s) d u /\ tfine (view s).
Definition seen (l : list shared) (t : mpt) : Prop := exists s, In s l /\ view s = t.
Lemma seen_in : forall l s, In s l -> seen l (view s).
Proof. intros l s Hs. exists s. auto. Qed.
Lemma seen_l : forall l1 l2 t, seen l1 t -> seen (l1 ++ l2) t.
Proof. intros l1 l2 t (s & Hs & E). exists s. split; [apply in_or_app; auto|exact E]. Qed.
Lemma seen_r : forall l1 l2 t, seen l2 t -> seen (l1 ++ l2) t.
Proof. intros l1 l2 t (s & Hs & E). exists s. split; [apply in_or_app; auto|exact E]. Qed.
Lemma seen_s : forall s l t, seen l t -> seen (s :: l) t.
Proof. intros s l t (s' & Hs & E). exists s'. split; [right; auto|exact E]. Qed.
(** What an object can be that is not new. *)
Lemma used_cases : forall s, sound s -> h_root s <> Some EMPTY_HASH ->
  m_root (view s) = None \/ exists r, m_root (view s) = Some r /\ r <> [] /\ bytes_eqb r EMPTY_HASH = false /\
    exists tr, repr (view s) tr /\ tr <> TEmpty /\ r = tref tr.
Proof.
  intros s (d & u & B & F) N. destruct (b_cases keccak_len secure K K_ok _ _ _ B) as [[_ Er]|[[_ Er]|(Hh & _ & r & Er & Hn & Ee)]]; [left; exact Er|contradiction|].
  right. exists r. split; [exact Er|]. split; [exact Hn|]. split; [exact Ee|].
  destruct (b_alike keccak_len secure K _ _ _ B F) as (l & t0 & (R & _) & T & _). destruct (reachable_repr keccak_len _ _ _ R) as (_ & tr & Rt & _).
  destruct F as [D NC]. pose proof (trel_repr _ _ _ T Rt D NC) as Rt'. exists tr. split; [exact Rt'|].
  destruct (tree_empty_dec tr) as [->|Hne].
  - destruct (repr_empty_root _ Rt') as [E _]. unfold root_is_empty in E. rewrite Er in E. congruence.
  - split; [exact Hne|]. destruct (repr_nonempty keccak_len _ _ Rt' Hne) as (_ & _ & _ & E). congruence.
Qed.

(** ** root_hash *)
Lemma hash_watch : forall lim l r, (forall s, In s l -> h_root s <> Some []) -> watch call_hash l = PRet r -> stems (seen l) lim THash (AOpt r).
Proof.
  intros lim l r Nn E. unfold call_hash in E. cbn [proot pbind] in E. apply watch_root in E. destruct E as (s & l' & -> & E). cbn [stems].
  assert (Ps : seen (s :: l') (view s)) by (apply seen_in; left; reflexivity). assert (Ns := Nn s (or_introl eq_refl)).
  destruct (h_root s) as [[|x b]|] eqn:Er; [contradiction Ns; reflexivity| |].
  2: { cbn [is_falsy] in E. unfold pret in E. rewrite watch_ret in E. injection E as <-. left. exists (view s). split; [exact Ps|]. unfold root_hash, root_falsy. cbn [obj m_root]. rewrite Er. reflexivity. }
  cbn [is_falsy] in E. apply watch_root in E. destruct E as (s1 & l1 & -> & E).
  assert (Ps1 : seen (s :: s1 :: l1) (view s1)) by (apply seen_in; right; left; reflexivity).
  destruct (h_root s1) as [b1|] eqn:Er1.
  2: { cbn [pbind] in E. unfold praise in E. rewrite watch_ret in E. injection E as <-. right. left. split; [reflexivity|]. exists (view s1), (view s). cbn [obj m_root]. rewrite Er. intuition discriminate. }
  assert (Nb : b1 <> []) by (intros ->; apply (Nn s1); [right; left; reflexivity|exact Er1]).
  cbn [pbind] in E. right. destruct (length b1 =? 32) eqn:El; cbn [pbind] in E.
  - apply Nat.eqb_eq in El. apply watch_root in E. destruct E as (s2 & l2 & -> & E). rewrite watch_ret in E. injection E as <-. right.
    exists (view s1), (view s2), b1. split; [exact Ps1|]. split; [apply seen_in; right; right; left; reflexivity|]. split; [exact Er1|]. split; [exact Nb|]. left. auto.
  - apply Nat.eqb_neq in El. apply watch_root in E. destruct E as (s2 & l2 & -> & E).
    assert (Ps2 : seen (s :: s1 :: s2 :: l2) (view s2)) by (apply seen_in; right; right; left; reflexivity).
    destruct (h_root s2) as [c|] eqn:Er2; cbn [pbind] in E; unfold pret, praise in E; rewrite watch_ret in E; injection E as <-.
    + right. exists (view s1), (view s2), b1. split; [exact Ps1|]. split; [exact Ps2|]. split; [exact Er1|]. split; [exact Nb|]. right. split; [exact El|].
      exists c. split; [exact Er2|reflexivity].
    + left. split; [reflexivity|]. exists (view s2), (view s). cbn [obj m_root]. rewrite Er. intuition discriminate.
Qed.

(** ** contains *)
Lemma contains_watch : forall f m r p l x, (forall s, In s l -> part_of m (h_map s) /\ h_root s <> Some EMPTY_HASH) -> contains_ f m r p <> Err KeyError ->
  watch (p_contains f (Some r) p) l = PRet x ->
  x = match contains_ f m r p with Ok y => Ok (Some y) | Err e => Err e end \/ (x = Ok None /\ exists s, In s l /\ h_root s = None).
Proof.
  induction f as [|f IH]; intros m r p l x Hl N E.
  { cbn [p_contains] in E. unfold praise in E. rewrite watch_ret in E. injection E as <-. left. reflexivity. }
  cbn [p_contains proot pbind] in E. apply watch_root in E. destruct E as (s & l1 & -> & E).
  destruct (h_root s) as [b|] eqn:Er.
  2: { cbn [pbind] in E. unfold pret in E. rewrite watch_ret in E. injection E as <-. right. split; [reflexivity|]. exists s. split; [left; reflexivity|exact Er]. }
  cbn [pbind] in E. apply watch_root in E. destruct E as (s2 & l2 & -> & E). 
  assert (Ne : match h_root s2 with Some x0 => bytes_eqb x0 EMPTY_HASH | None => false end = false).
  { destruct (h_root s2) as [b2|] eqn:Er2; [|reflexivity]. destruct (bytes_eqb_spec b2 EMPTY_HASH) as [->|]; [|reflexivity].
    exfalso. apply (proj2 (Hl s2 (or_intror (or_introl eq_refl)))). exact Er2. }
  cbn [pbind] in E. rewrite Ne in E. apply watch_bind in E.
  assert (Hl2 : forall s', In s' l2 -> part_of m (h_map s') /\ h_root s' <> Some EMPTY_HASH) by (intros s' Hs; apply Hl; right; right; exact Hs).
  cbn [contains_] in *.
  assert (NK : fst (seq (p_node (Some r)) (mkStore m [] [])) <> Err KeyError).
  { rewrite seq_node. cbn [fst s_map]. intros C. rewrite C in N. apply N. reflexivity. }
  destruct E as [(l3 & l4 & n & -> & E1 & E2)|(l3 & l4 & e & -> & E1 & ->)].
  - apply (watch_tame _ _ (tame_node (Some r)) m []) in E1; [|intros s' Hs; apply Hl2; apply in_or_app; auto|exact NK].
    rewrite seq_node in E1. cbn [fst s_map] in E1. rewrite E1 in *.
    assert (Hl4 : forall s', In s' l4 -> part_of m (h_map s') /\ h_root s' <> Some EMPTY_HASH) by (intros s' Hs; apply Hl2; apply in_or_app; auto).
    destruct (np_len p =? 0). { unfold pret in E2. rewrite watch_ret in E2. injection E2 as <-. left. reflexivity. }
    destruct n as [lp d|ep nr|bs d].
    + unfold pret in E2. rewrite watch_ret in E2. injection E2 as <-. left. reflexivity.
    + destruct (np_starts_with p ep).
      * destruct (IH _ _ _ _ _ Hl4 N E2) as [X|(X & s' & Hs & Es)]; [left; exact X|right; split; [exact X|]]. exists s'. split; [right; right; apply in_or_app; auto|exact Es].
      * unfold pret in E2. rewrite watch_ret in E2. injection E2 as <-. left. reflexivity.
    + cbv zeta in *. destruct (0 <? _).
      * destruct (IH _ _ _ _ _ Hl4 N E2) as [X|(X & s' & Hs & Es)]; [left; exact X|right; split; [exact X|]]. exists s'. split; [right; right; apply in_or_app; auto|exact Es].
      * unfold pret in E2. rewrite watch_ret in E2. injection E2 as <-. left. reflexivity.
  - apply (watch_tame _ _ (tame_node (Some r)) m []) in E1; [|intros s' Hs; apply Hl2; apply in_or_app; auto|exact NK].
    rewrite seq_node in E1. cbn [fst s_map] in E1. rewrite E1. left. reflexivity.
Qed.
(** The objects a call sees one after the other. *)
Inductive chain : list shared -> Prop :=
| chain_nil : chain []
| chain_cons : forall s l, sound s -> (forall s', In s' l -> grows s s') -> chain l -> chain (s :: l).
Lemma chain_in : forall l s, chain l -> In s l -> sound s.
Proof. intros l s C Hs. induction C as [|s0 l S0 G C IH]; [contradiction|]. destruct Hs as [<-|Hs]; auto. Qed.
Lemma chain_r : forall l1 l2, chain (l1 ++ l2) -> chain l2.
Proof. induction l1 as [|s l1 IH]; intros l2 C; [exact C|]. inversion C; subst. apply IH. assumption. Qed.
Lemma chain_l : forall l1 l2, chain (l1 ++ l2) -> chain l1.
Proof.
  induction l1 as [|s l1 IH]; intros l2 C; [constructor|]. inversion C as [|? ? S G C']; subst. constructor; [exact S| |eapply IH; exact C'].
  intros s' Hs. apply G. apply in_or_app. auto.
Qed.
Lemma chain_snoc : forall l s, chain l -> (forall s', In s' l -> grows s' s) -> sound s -> chain (l ++ [s]).
Proof.
  intros l s C G Ss. induction C as [|s0 l S0 G0 C IH]; cbn [app].
  - constructor; [exact Ss|intros s' []|constructor].
  - constructor; [exact S0| |apply IH; intros s' Hs; apply G; right; exact Hs]. intros s' Hs. apply in_app_or in Hs. destruct Hs as [Hs|[<-|[]]]; [apply G0; exact Hs|apply G; left; reflexivity].
Qed.
Lemma sound_nonnil : forall s, sound s -> h_root s <> Some [].
Proof.
  intros s S E. assert (N : h_root s <> Some EMPTY_HASH) by (rewrite E; intros X; injection X as X; pose proof (keccak_len [x80]) as L; change EMPTY_HASH with (keccak [x80]) in X; rewrite <- X in L; discriminate).
  destruct (used_cases s S N) as [X|(r & X & Hn & _)]; cbn [obj m_root] in X; congruence.
Qed.
Lemma in_watch : forall lim k l r, In k K -> chain l -> (forall s, In s l -> h_root s <> Some EMPTY_HASH) -> watch (call_contains secure lim k) l = PRet r ->
  (exists t, seen l t /\ mpt_contains lim t k = r) \/ ((r = Err TypeError \/ (lim = 0 /\ r = Err RecursionError)) /\ emptied (seen l)).
Proof.
  intros lim k l r Hk C N E. unfold call_contains in E. cbn [proot pbind] in E. apply watch_root in E. destruct E as (s & l1 & -> & E).
  assert (Ps : seen (s :: l1) (view s)) by (apply seen_in; left; reflexivity). assert (Ss := chain_in _ _ C (or_introl eq_refl)).
  assert (Nn := sound_nonnil _ Ss). destruct (h_root s) as [[|x b]|] eqn:Er; [contradiction Nn; reflexivity| |].
  2: { cbn [is_falsy] in E. unfold pret in E. rewrite watch_ret in E. injection E as <-. left. exists (view s). split; [exact Ps|]. unfold mpt_contains, root_falsy. cbn [obj m_root]. rewrite Er. reflexivity. }
  cbn [is_falsy] in E. apply watch_root in E. destruct E as (s1 & l2 & -> & E). apply chain_r with (l1 := [s]) in C.
  assert (Ps1 : seen (s :: s1 :: l2) (view s1)) by (apply seen_in; right; left; reflexivity). assert (Ss1 := chain_in _ _ C (or_introl eq_refl)).
  destruct (used_cases s1 Ss1 (N s1 (or_intror (or_introl eq_refl)))) as [Er1|(r1 & Er1 & Hn1 & Ee1 & tr & Rt & Hne & ->)].
  - cbn [obj m_root] in Er1. rewrite Er1 in E. cbn [pbind] in E.
    assert (Em : emptied (seen (s :: s1 :: l2))).
    { exists (view s1), (view s). split; [exact Ps1|]. split; [exact Er1|]. split; [exact Ps|]. cbn [obj m_root]. rewrite Er. discriminate. }
    destruct lim as [|f].
    { cbn [p_contains pbind] in E. unfold praise in E. cbn [pbind] in E. rewrite watch_ret in E. injection E as <-. auto. }
    cbn [p_contains proot pbind] in E. apply watch_root in E. destruct E as (s2 & l3 & -> & E).
    destruct (h_root s2) as [b2|] eqn:Er2; cbn [pbind] in E.
    2: { unfold pret in E. cbn [pbind] in E. rewrite watch_ret in E. injection E as <-. left. exists (view s2). split; [apply seen_in; right; right; left; reflexivity|].
      unfold mpt_contains, root_falsy. cbn [obj m_root]. rewrite Er2. reflexivity. }
    apply watch_root in E. destruct E as (s3 & l4 & -> & E).
    assert (Ne : match h_root s3 with Some x0 => bytes_eqb x0 EMPTY_HASH | None => false end = false).
    { destruct (h_root s3) as [b3|] eqn:Er3; [|reflexivity]. destruct (bytes_eqb_spec b3 EMPTY_HASH) as [->|]; [|reflexivity].
      exfalso. apply (N s3); [right; right; right; left; reflexivity|exact Er3]. }
    rewrite Ne in E. cbn [p_node pbind] in E. unfold praise in E. cbn [pbind] in E. rewrite watch_ret in E. injection E as <-. auto.
  - cbn [obj m_root] in Er1. rewrite Er1 in E. apply watch_bind in E. destruct Ss1 as (d & u & B & F).
    assert (Hh : ~ hollow d).
    { destruct (b_cases keccak_len secure K K_ok _ _ _ B) as [[_ X]|[[_ X]|(Hh & _)]]; [cbn [obj m_root] in X; congruence| |exact Hh].
      exfalso. apply (N s1); [right; left; reflexivity|exact X]. }
    pose proof (in_result keccak_len secure K K_ok lim _ _ _ k _ B Hh Er1) as Q.
    assert (NK : contains_ lim (m_map (view s1)) (tref tr) (way k) <> Err KeyError).
    { intros X. rewrite X in Q. pose proof (b_in keccak_len secure K K_ok _ _ _ k lim B F Hk) as Y. rewrite Q in Y. exact (no_key_in secure _ _ _ Y). }
    assert (Hl : forall s', In s' l2 -> part_of (m_map (view s1)) (h_map s') /\ h_root s' <> Some EMPTY_HASH).
    { intros s' Hs. split; [|apply N; right; right; exact Hs]. inversion C as [|? ? S0 G C']; subst. apply (G s' Hs). }
    destruct E as [(l3 & l4 & x0 & -> & E1 & E2)|(l3 & l4 & e & -> & E1 & ->)];
      (apply (contains_watch _ (m_map (view s1))) in E1; [|intros s' Hs; apply Hl; apply in_or_app; auto|exact NK]).
    + unfold pret in E2. rewrite watch_ret in E2. injection E2 as <-. destruct E1 as [E1|(E1 & s' & Hs & Es)].
      * left. exists (view s1). split; [exact Ps1|]. rewrite Q. destruct (contains_ _ _ _ _) as [y|]; [|discriminate]. injection E1 as ->. destruct y as [[] ?]; reflexivity.
      * injection E1 as ->. left. exists (view s'). split; [apply seen_in; right; right; apply in_or_app; auto|].
        unfold mpt_contains, root_falsy. cbn [obj m_root]. rewrite Es. reflexivity.
    + destruct E1 as [E1|(E1 & _)]; [|discriminate]. left. exists (view s1). split; [exact Ps1|]. rewrite Q. destruct (contains_ _ _ _ _); congruence.
Qed.

(** ** get_proof_of_exclusion *)
Lemma way_short : forall k, In k K -> (N.of_nat (length (nibs (way k))) < SZ)%N.
Proof.
  intros k Hk. pose proof (K_small k Hk) as Hs. rewrite nibs_np_of, nibs_of_length. unfold t_key, SZ, blen in *. destruct secure; [rewrite keccak_len|]; lia.
Qed.
Lemma poe_at : forall lim tm s k r, In k K -> sound s -> h_root s = Some r -> r <> EMPTY_HASH ->
  get_poe_ lim (h_map s) r (way k) [] <> Err KeyError /\
  match get_poe_ lim (h_map s) r (way k) [] with
  | Err e => mpt_get_poe lim tm (view s) k = Err e
  | Ok (n, l, p) => exists e, node_encode (Leaf p null_bytes) = Ok e /\ mpt_get_poe lim tm (view s) k =
      (if verdict (Some (n, p)) then Err PoeError else Ok (mkProof MPT_POE tm (t_key secure k) (root_hash (view s)) (map PB (l ++ [e]))))
  end.
Proof.
  intros lim tm s k r Hk Ss Er Nr.
  assert (N : h_root s <> Some EMPTY_HASH) by congruence.
  destruct (used_cases s Ss N) as [X|(r1 & X & Hn & Ee & tr & Rt & Hne & Et)]; cbn [obj m_root] in X; [congruence|]. assert (Ex : r1 = r) by congruence. rewrite Ex in *. clear X Ex r1.
  destruct Ss as (d & u & B & F).
  assert (Hh : ~ hollow d).
  { destruct (b_cases keccak_len secure K K_ok _ _ _ B) as [[_ X]|[[_ X]|(Hh & _)]]; [cbn [obj m_root] in X; congruence|cbn [obj m_root] in X; congruence|exact Hh]. }
  pose proof (in_result keccak_len secure K K_ok lim _ _ _ k _ B Hh Er) as Q. pose proof (b_in keccak_len secure K K_ok _ _ _ k lim B F Hk) as Y.
  pose proof Rt as (Hw & Hsm & St & _). pose proof (poe_contains lim _ _ (way k) [] Hne Hw Hsm St) as PC. rewrite <- Et in PC. cbn [obj m_map] in Q, PC.
  assert (Es : eff_key (view s) k = t_key secure k) by reflexivity.
  assert (U : mpt_get_poe lim tm (view s) k = bind (mpt_contains lim (view s) k) (fun c => if (c : bool) then Err PoeError else
      bind (get_poe_ lim (h_map s) r (way k) []) (fun '(n, l, path) => bind (node_encode (Leaf path null_bytes)) (fun e =>
      let mk := new_proof tm (t_key secure k) (root_hash (view s)) (map PB (l ++ [e])) MPT_POE in
      match n with Branch _ v => if bytes_eqb v [] then mk else Err PoeError | Leaf lp _ => if np_eq lp path then Err PoeError else mk | Extension _ _ => mk end)))).
  { unfold mpt_get_poe, root_is_empty, root_ref. cbn [obj m_root]. rewrite Er, Ee, Es. reflexivity. }
  destruct (contains_ lim (h_map s) r (way k)) as [[n p']|e] eqn:Ec.
  - destruct PC as (L & EG & Len). cbn [app] in EG. rewrite EG in *. split; [discriminate|].
    destruct (null_leaf keccak_len p') as (e & ln & Ene & _). { pose proof (way_short k Hk). lia. }
    exists e. split; [exact Ene|]. rewrite U, Q. cbn [bind]. rewrite Ene. cbn [bind].
    destruct (verdict (Some (n, p'))) eqn:Ev; [reflexivity|]. destruct n as [lp v|ep nr|bs v]; cbn [verdict] in Ev; [rewrite Ev; reflexivity|reflexivity|].
    destruct (bytes_eqb v []); [reflexivity|discriminate].
  - rewrite PC. split.
    + intros E. injection E as ->. rewrite Q in Y. exact (no_key_in secure _ _ _ Y).
    + rewrite U, Q. reflexivity.
Qed.
Lemma rooted_some : forall (P : mpt -> Prop) t t', P t -> m_root t = None -> P t' -> m_root t' <> None -> emptied P.
Proof. intros P t t' Pt Et Pt' Et'. exists t, t'. auto. Qed.
Lemma hash_none : forall lim (P : mpt -> Prop), stems P lim THash (AOpt (Ok None)) -> exists t, P t /\ m_root t = None.
Proof.
  intros lim P [(t & _ & E)|[(E & _)|(t & t' & r & _ & Pt' & _ & _ & [(_ & E)|(_ & r' & _ & E)])]]; try discriminate. injection E as E. exists t'. auto.
Qed.
Lemma hash_err : forall lim (P : mpt -> Prop) e, stems P lim THash (AOpt (Err e)) -> e = TypeError /\ emptied P.
Proof.
  intros lim P e [(t & _ & E)|[(E & Em)|(t & t' & r & _ & Pt' & _ & _ & [(_ & E)|(_ & r' & _ & E)])]]; try discriminate. injection E as ->. auto.
Qed.
Lemma poe_watch : forall lim tm k l r, In k K -> chain l -> watch (call_poe secure lim tm k) l = PRet r -> poe_stems (seen l) lim tm k r.
Proof.
  intros lim tm k l r Hk C E. unfold call_poe, unless_empty in E. cbn [proot pbind] in E. apply watch_root in E. destruct E as (s0 & l0 & -> & E).
  assert (P0 : seen (s0 :: l0) (view s0)) by (apply seen_in; left; reflexivity).
  destruct (h_root s0) as [r0|] eqn:Er0.
  2: { cbn [pbind] in E. unfold praise in E. rewrite watch_ret in E. injection E as <-. cbn [poe_stems]. left. exists (view s0). split; [exact P0|].
    unfold mpt_get_poe, root_is_empty. cbn [obj m_root]. rewrite Er0. reflexivity. }
  cbn [pbind] in E. apply watch_root in E. destruct E as (s1 & l1 & -> & E).
  assert (P1 : seen (s0 :: s1 :: l1) (view s1)) by (apply seen_in; right; left; reflexivity).
  destruct (is_empty_hash (h_root s1)) eqn:Ee1.
  { unfold praise in E. rewrite watch_ret in E. injection E as <-. left. exists (view s1). split; [exact P1|].
    unfold mpt_get_poe, root_is_empty. cbn [obj m_root]. unfold is_empty_hash in Ee1. destruct (h_root s1) as [b|]; [|reflexivity]. rewrite Ee1. reflexivity. }
  assert (N1 : h_root s1 <> Some EMPTY_HASH).
  { intros X. rewrite X in Ee1. cbn [is_empty_hash] in Ee1. unfold EMPTY_HASH in Ee1. rewrite bytes_eqb_refl in Ee1. discriminate. }
  pose proof (chain_r [s0; s1] l1 C) as C1.
  assert (N : forall s, In s l1 -> h_root s <> Some EMPTY_HASH).
  { intros s Hs. inversion C as [|? ? _ _ C']; subst. inversion C' as [|? ? _ G _]; subst. apply (G s Hs). exact N1. }
  assert (Some0 : forall t, seen (s0 :: s1 :: l1) t -> m_root t = None -> emptied (seen (s0 :: s1 :: l1))).
  { intros t Pt Et. apply (rooted_some _ t (view s0) Pt Et P0). cbn [obj m_root]. rewrite Er0. discriminate. }
  assert (Up : forall t, seen l1 t -> seen (s0 :: s1 :: l1) t) by (intros; do 2 apply seen_s; assumption).
  apply watch_bind in E. destruct E as [(la & lb & c & -> & E1 & E2)|(la & lb & e & -> & E1 & ->)].
  2: { apply (in_watch lim k) in E1; [|exact Hk|eapply chain_l; exact C1|intros s Hs; apply N; apply in_or_app; auto]. cbn [poe_stems].
    destruct E1 as [(t & Pt & Et)|(E1 & (t & t' & Pt & Et & _))].
    - left. exists t. split; [apply Up, seen_l; exact Pt|]. unfold mpt_get_poe. rewrite Et. destruct (root_is_empty t) eqn:Ei; [|reflexivity]. exfalso.
      unfold root_is_empty in Ei. unfold mpt_contains, root_falsy in Et. destruct Pt as (s & Hs & <-). cbn [obj m_root] in *. destruct (h_root s) as [b|] eqn:Eb; [|discriminate].
      destruct (bytes_eqb_spec b EMPTY_HASH) as [->|]; [|discriminate]. apply (N s); [apply in_or_app; auto|exact Eb].
    - right. split; [|apply (Some0 t); [apply Up, seen_l; exact Pt|exact Et]]. destruct E1 as [E1|[El E1]]; injection E1 as ->; auto. }
  apply (in_watch lim k) in E1; [|exact Hk|eapply chain_l; exact C1|intros s Hs; apply N; apply in_or_app; auto].
  destruct E1 as [(t & Pt & Et)|([E1|[_ E1]] & _)]; [|discriminate|discriminate]. destruct c.
  { unfold praise in E2. rewrite watch_ret in E2. injection E2 as <-. left. exists t. split; [apply Up, seen_l; exact Pt|]. unfold mpt_get_poe. rewrite Et.
    replace (root_is_empty t) with false; [reflexivity|]. symmetry. destruct Pt as (s & Hs & <-). unfold mpt_contains, root_falsy in Et. unfold root_is_empty. cbn [obj m_root] in *.
    destruct (h_root s) as [b|] eqn:Eb; [|discriminate]. destruct (bytes_eqb_spec b EMPTY_HASH) as [->|]; [|reflexivity].
    exfalso. apply (N s); [apply in_or_app; auto|exact Eb]. }
  clear t Pt Et. apply watch_root in E2. destruct E2 as (s2 & l2 & -> & E). cbn [pbind] in E.
  pose proof (chain_r la (s2 :: l2) C1) as C2. assert (S2 := chain_in _ _ C2 (or_introl eq_refl)). assert (N2 : h_root s2 <> Some EMPTY_HASH) by (apply N, in_or_app; right; left; reflexivity).
  assert (P2 : seen (s0 :: s1 :: la ++ s2 :: l2) (view s2)) by (apply Up, seen_r, seen_in; left; reflexivity).
  destruct (h_root s2) as [r2|] eqn:Er2.
  2: { destruct lim as [|f]; cbn [p_poe p_node pbind praise] in E; unfold praise in E; cbn [pbind] in E; rewrite watch_ret in E; injection E as <-; cbn [poe_stems];
    (right; split; [auto|apply (Some0 (view s2) P2); exact Er2]). }
  destruct (poe_at lim tm s2 k r2 Hk S2 Er2 ltac:(congruence)) as [NK PA].
  apply watch_bind in E.
  assert (T : forall la' lb' x, l2 = la' ++ lb' -> watch (p_poe lim (Some r2) (way k) []) la' = PRet x -> get_poe_ lim (h_map s2) r2 (way k) [] = x).
  { intros la' lb' x -> X. apply (watch_tame _ _ (tame_poe _ _ _ _) (h_map s2) []) in X; [rewrite seq_poe in X; exact X| |rewrite seq_poe; exact NK].
    intros s Hs. inversion C2 as [|? ? _ G _]; subst. apply (G s). apply in_or_app. auto. }
  destruct E as [(lc & ld & [[n L] p'] & -> & E1 & E2)|(lc & ld & e & -> & E1 & ->)]; rewrite (T _ _ _ eq_refl E1) in PA; clear T.
  2: { left. exists (view s2). auto. }
  destruct PA as (e & Ee & PA). rewrite Ee in E2. cbn [pbind] in E2.
  assert (M : forall l' x, (forall t, seen l' t -> seen (s0 :: s1 :: la ++ s2 :: lc ++ ld) t) -> (forall s, In s l' -> h_root s <> Some []) -> verdict (Some (n, p')) = false ->
    watch (pbind call_hash (fun h => match h with None => praise TypeError | Some h => PRet (new_proof tm (t_key secure k) h (map PB (L ++ [e])) MPT_POE) end)) l' = PRet x ->
    poe_stems (seen (s0 :: s1 :: la ++ s2 :: lc ++ ld)) lim tm k x).
  { intros l' x Hl Nl Ev X. apply watch_bind in X. destruct X as [(le & lf & h & -> & X1 & X2)|(le & lf & ex & -> & X1 & ->)];
      apply (hash_watch lim) in X1; try (intros s Hs; apply Nl, in_or_app; auto).
    - apply (stems_more (seen le) (seen (s0 :: s1 :: la ++ s2 :: lc ++ ld))) in X1; [|intros t Ht; apply Hl, seen_l; exact Ht].
      destruct h as [h|].
      + rewrite watch_ret in X2. injection X2 as <-. rewrite Ev in PA. cbn [poe_stems]. eexists (view s2), _, h. split; [exact P2|]. split; [exact PA|]. split; [exact X1|reflexivity].
      + unfold praise in X2. rewrite watch_ret in X2. injection X2 as <-. right. split; [auto|]. destruct (hash_none _ _ X1) as (t & Pt & Et). apply (Some0 t Pt Et).
    - apply hash_err in X1. destruct X1 as [-> Em]. right. split; [auto|]. eapply emptied_more; [|exact Em]. intros t Ht. apply Hl, seen_l. exact Ht. }
  assert (Hl : forall t, seen ld t -> seen (s0 :: s1 :: la ++ s2 :: lc ++ ld) t) by (intros t Ht; apply Up, seen_r, seen_s, seen_r; exact Ht).
  assert (Nl : forall s, In s ld -> h_root s <> Some []).
  { intros s Hs. apply sound_nonnil. eapply chain_in; [exact C2|]. right. apply in_or_app. auto. }
  destruct (verdict (Some (n, p'))) eqn:Ev.
  - assert (r = Err PoeError) as ->.
    { destruct n as [lp v|ep nr|bs v]; cbn [verdict] in Ev; [rewrite Ev in E2|discriminate|destruct (bytes_eqb v []); [discriminate|]]; unfold praise in E2; rewrite watch_ret in E2; congruence. }
    left. exists (view s2). auto.
  - apply (M ld r Hl Nl eq_refl). destruct n as [lp v|ep nr|bs v]; cbn [verdict] in Ev; [rewrite Ev in E2; exact E2|exact E2|]. destruct (bytes_eqb v []); [exact E2|discriminate].
Qed.

Lemma poe_steady : forall (P : mpt -> Prop) lim tm k r, (forall t, P t -> m_root t <> Some []) -> poe_stems P lim tm k r -> steady P -> exists t, P t /\ mpt_get_poe lim tm t k = r.
Proof.
  intros P lim tm k r Nn S St. destruct r as [p|x]; cbn [poe_stems] in S.
  - destruct S as (t & p' & h & Pt & E & Sh & ->). exists t. split; [exact Pt|]. rewrite E. f_equal.
    assert (Ep : pf_root p' = root_hash t).
    { unfold mpt_get_poe in E. destruct (root_is_empty t); [discriminate|]. destruct (mpt_contains lim t k) as [[]|]; [discriminate| |discriminate]. cbn [bind] in E.
      destruct (get_poe_ _ _ _ _ _) as [[[n l] q]|]; [|discriminate]. cbn [bind] in E. destruct (node_encode _) as [e|]; [|discriminate]. cbn [bind] in E.
      assert (M : new_proof tm (eff_key t k) (root_hash t) (map PB (l ++ [e])) MPT_POE = Ok p') by (destruct n as [lp v|ep nr|bs v]; [destruct (np_eq lp q); [discriminate|exact E]|exact E|destruct (bytes_eqb v []); [exact E|discriminate]]).
      injection M as <-. reflexivity. }
    assert (Eh : h = root_hash t).
    { cbn [stems] in Sh. destruct Sh as [(t1 & P1 & E1)|[(E1 & _)|(t1 & t2 & r1 & P1 & P2 & E1 & N1 & [(L1 & E2)|(L1 & r2 & E2 & E3)])]]; [|discriminate| |].
      - injection E1 as ->. unfold root_hash, root_falsy, root_ref. rewrite (St t1 t P1 Pt). reflexivity.
      - injection E2 as E2. rewrite (St t2 t P2 Pt) in E2. rewrite (St t1 t P1 Pt) in E1. unfold root_hash, root_falsy, root_ref. rewrite E1 in *. injection E2 as ->.
        destruct r1 as [|x r1]; [contradiction N1; reflexivity|]. rewrite (proj2 (Nat.eqb_eq _ _) L1). reflexivity.
      - injection E3 as ->. rewrite (St t2 t P2 Pt) in E2. rewrite (St t1 t P1 Pt) in E1. assert (r2 = r1) by congruence. subst r2. unfold root_hash, root_falsy, root_ref. rewrite E1.
        destruct r1 as [|x r1]; [contradiction N1; reflexivity|]. rewrite (proj2 (Nat.eqb_neq _ _) L1). reflexivity. }
    destruct p' as [ty ti ke ro pr]. cbn [pf_root] in Ep. unfold with_root. cbn [pf_type pf_time pf_key pf_proof]. congruence.
  - destruct S as [(t & Pt & E)|(_ & (t & t' & Pt & Et & Pt' & Et'))]; [exists t; auto|]. exfalso. rewrite (St t t' Pt Pt') in Et. contradiction.
Qed.

(** ** Checking proofs *)
Lemma hash_const : forall t l x, m_root t <> Some [] -> (forall s, In s l -> h_root s = m_root t) -> watch call_hash l = PRet x -> x = Ok (Some (root_hash t)).
Proof.
  intros t l x Nn Hl E. unfold call_hash in E. cbn [proot pbind] in E. apply watch_root in E. destruct E as (s & l' & -> & E). rewrite (Hl s (or_introl eq_refl)) in E.
  unfold root_hash, root_falsy, root_ref. destruct (m_root t) as [[|c b]|] eqn:Er; [contradiction Nn; reflexivity| |].
  2: { cbn [is_falsy] in E. unfold pret in E. rewrite watch_ret in E. injection E as <-. reflexivity. }
  cbn [is_falsy] in E. apply watch_root in E. destruct E as (s1 & l1 & -> & E). rewrite (Hl s1 (or_intror (or_introl eq_refl))) in E. cbn [pbind] in E.
  destruct (length (c :: b) =? 32); apply watch_root in E; destruct E as (s2 & l2 & -> & E); rewrite (Hl s2 (or_intror (or_intror (or_introl eq_refl)))) in E; cbn [pbind] in E;
    unfold pret in E; rewrite watch_ret in E; injection E as <-; reflexivity.
Qed.
Lemma unless_const : forall A (p : prog A) t l r, (forall s, In s l -> h_root s = m_root t) -> watch (unless_empty p) l = PRet r ->
  (root_is_empty t = true /\ r = Err ValueError) \/ (root_is_empty t = false /\ m_root t <> None /\ exists l', (forall s, In s l' -> In s l) /\ watch p l' = PRet r).
Proof.
  intros A p t l r Hl E. unfold unless_empty in E. cbn [proot pbind] in E. apply watch_root in E. destruct E as (s & l1 & -> & E). rewrite (Hl s (or_introl eq_refl)) in E.
  unfold root_is_empty. destruct (m_root t) as [b|] eqn:Er; cbn [pbind] in E.
  2: { unfold praise in E. rewrite watch_ret in E. injection E as <-. auto. }
  apply watch_root in E. destruct E as (s1 & l2 & -> & E). rewrite (Hl s1 (or_intror (or_introl eq_refl))) in E. cbn [is_empty_hash] in E.
  destruct (bytes_eqb b EMPTY_HASH).
  - unfold praise in E. rewrite watch_ret in E. injection E as <-. auto.
  - right. split; [reflexivity|]. split; [discriminate|]. exists l2. split; [intros s' Hs; right; right; exact Hs|exact E].
Qed.
Lemma check_poi_steady : forall lim p t l r, m_root t <> Some [] -> (forall s, In s l -> h_root s = m_root t) -> watch (call_check_poi lim p) l = PRet r -> r = mpt_verify_poi lim t p.
Proof.
  intros lim p t l r Nn Hl E. unfold call_check_poi in E. unfold mpt_verify_poi. destruct (negb (bytes_eqb (pf_type p) MPT_POI)).
  { unfold praise in E. rewrite watch_ret in E. congruence. }
  apply (unless_const _ _ t) in E; [|exact Hl]. destruct E as [[-> ->]|(-> & Nr & l1 & H1 & E)]; [reflexivity|].
  assert (Hc : forall l x, (forall s, In s l -> In s l1) -> watch call_hash l = PRet x -> x = Ok (Some (root_hash t))) by (intros l0 x H0; apply hash_const; auto).
  apply watch_bind in E. destruct E as [(la & lb & h & -> & E1 & E)|(la & lb & e & -> & E1 & ->)]; (apply Hc in E1; [|intros s Hs; apply in_or_app; auto]); [|discriminate].
  injection E1 as ->. destruct (hash_first p) as [h0|x] eqn:Eh; cbn [pbind bind] in *; [|rewrite watch_ret in E; congruence].
  cbn [same_hash] in E. destruct (negb (bytes_eqb (root_hash t) h0)); [unfold pret in E; rewrite watch_ret in E; congruence|].
  destruct (poi_storage (pf_proof p) []) as [[ps|]|x]; cbn [pbind bind] in *; [|unfold pret in E; rewrite watch_ret in E; congruence|rewrite watch_ret in E; congruence].
  cbn [proot pbind] in E. apply watch_root in E. destruct E as (s & lc & -> & E). rewrite (Hl s) in E by (apply H1; apply in_or_app; right; left; reflexivity).
  unfold root_ref. destruct (m_root t) as [b|] eqn:Er; [|contradiction Nr; reflexivity]. cbn [from_root] in E.
  destruct (verify_poi_ lim ps b (np_of (pf_key p))) as [v|x]; cbn [pbind bind] in *; [|rewrite watch_ret in E; congruence].
  destruct v; cbn [andb] in *; [|unfold pret in E; rewrite watch_ret in E; congruence].
  apply watch_bind in E. destruct E as [(ld & le & h & -> & E1 & E)|(ld & le & e & -> & E1 & ->)];
    (apply Hc in E1; [|intros s' Hs; apply in_or_app; right; right; apply in_or_app; auto]); [|discriminate].
  injection E1 as ->. unfold pret in E. rewrite watch_ret in E. cbn [same_hash] in E. congruence.
Qed.
Lemma check_poe_steady : forall lim p t l r, m_root t <> Some [] -> (forall s, In s l -> h_root s = m_root t) -> watch (call_check_poe lim p) l = PRet r -> r = mpt_verify_poe lim t p.
Proof.
  intros lim p t l r Nn Hl E. unfold call_check_poe in E. unfold mpt_verify_poe. destruct (negb (bytes_eqb (pf_type p) MPT_POE)).
  { unfold praise in E. rewrite watch_ret in E. congruence. }
  apply (unless_const _ _ t) in E; [|exact Hl]. destruct E as [[-> ->]|(-> & Nr & l1 & H1 & E)]; [reflexivity|].
  assert (Hc : forall l x, (forall s, In s l -> In s l1) -> watch call_hash l = PRet x -> x = Ok (Some (root_hash t))) by (intros l0 x H0; apply hash_const; auto).
  apply watch_bind in E. destruct E as [(la & lb & h & -> & E1 & E)|(la & lb & e & -> & E1 & ->)]; (apply Hc in E1; [|intros s Hs; apply in_or_app; auto]); [|discriminate].
  injection E1 as ->. destruct (hash_first p) as [h0|x] eqn:Eh; cbn [pbind bind] in *; [|rewrite watch_ret in E; congruence].
  cbn [same_hash] in E. destruct (negb (bytes_eqb (root_hash t) h0)); [unfold pret in E; rewrite watch_ret in E; congruence|].
  destruct (decode_last (pf_proof p)) as [ln|x]; cbn [pbind bind] in *; [|rewrite watch_ret in E; congruence].
  destruct (node_data ln) as [d|x]; cbn [pbind bind] in *; [|rewrite watch_ret in E; congruence].
  destruct (negb (bytes_eqb d null_bytes)); [unfold pret in E; rewrite watch_ret in E; congruence|].
  destruct (poe_storage (removelast (pf_proof p)) []) as [ps|x]; cbn [pbind bind] in *; [|rewrite watch_ret in E; congruence].
  cbn [proot pbind] in E. apply watch_root in E. destruct E as (s & lc & -> & E). rewrite (Hl s) in E by (apply H1; apply in_or_app; right; left; reflexivity).
  unfold root_ref. destruct (m_root t) as [b|] eqn:Er; [|contradiction Nr; reflexivity]. cbn [from_root] in E.
  destruct (verify_poe_ lim ps b (np_of (pf_key p))) as [[n rest]|x]; cbn [pbind bind] in *; [|rewrite watch_ret in E; congruence].
  destruct (negb (length rest =? 0)); [unfold pret in E; rewrite watch_ret in E; congruence|].
  destruct n as [[lp v|ep nr|bs v]|]; unfold pret in E; rewrite watch_ret in E; congruence.
Qed.
(** An accepted proof of inclusion. *)
Lemma poi_sound_raw : forall lim t tr p ps, repr t tr -> tr <> TEmpty -> no_collision (proof_hashed (pf_proof p) ++ m_log t) ->
  poi_storage (pf_proof p) [] = Ok (Some ps) -> verify_poi_ lim ps (tref tr) (np_of (pf_key p)) = Ok true -> exists r w, lookup tr (nibs_of (pf_key p) ++ r) = Some w.
Proof.
  intros lim t tr p ps R Hne Hn Eps Ev. destruct R as (Hw & Hs & St & (_ & _ & D) & _).
  rewrite <- nibs_np_of. eapply (verify_poi_sound keccak_len); [|..|exact Ev].
  - split; auto.
  - intros s Hg Hl Hi b n Eb Ed. destruct (poi_storage_inv _ _ _ Eps _ _ Eb) as [C|(n' & e & F1 & F2 & F3 & F4)]; [discriminate|].
    assert (n' = n) by congruence. subst n'. apply (reencode_vmatch keccak_len b); auto. rewrite F2. f_equal.
    destruct (Nat.ltb_spec (length e) 32) as [He|He].
    + exfalso. pose proof (keccak_len (tenc s)) as Hk. rewrite F4 in Hk. lia.
    + symmetry. apply Hn; auto.
      * apply in_or_app. right. apply (D (keccak (tenc s)) (tenc s)). apply (encs_stored (m_map t) tr); auto.
      * apply in_or_app. left. exact F3.
Qed.
Lemma sound_key : forall lim s p ps r, sound s -> h_root s = Some r -> r <> EMPTY_HASH -> no_collision (proof_hashed (pf_proof p) ++ h_log s) ->
  poi_storage (pf_proof p) [] = Ok (Some ps) -> verify_poi_ lim ps r (np_of (pf_key p)) = Ok true -> has_key secure (view s) (pf_key p).
Proof.
  intros lim s p ps r (d & u & B & F) Er Nr NC Eps Ev.
  destruct (b_alike keccak_len secure K _ _ _ B F) as (l & t0 & I & T & A). pose proof I as (R & -> & Hu & Hi).
  destruct (reachable_repr keccak_len _ _ _ R) as (Es & tr & Rt & [H1 H2]).
  pose proof F as [D NC']. pose proof (trel_repr _ _ _ T Rt D NC') as Rt'.
  assert (Hne : tr <> TEmpty).
  { intros ->. destruct (repr_empty_root _ Rt') as [E0 _]. unfold root_is_empty in E0. cbn [obj m_root] in E0. rewrite Er in E0.
    destruct (bytes_eqb_spec r EMPTY_HASH); [contradiction|discriminate]. }
  destruct (repr_nonempty keccak_len _ _ Rt' Hne) as (_ & _ & _ & E4). cbn [obj m_root] in E4. rewrite Er in E4. injection E4 as ->.
  destruct (poi_sound_raw lim (view s) tr p ps Rt' Hne NC Eps Ev) as (q & w & El).
  destruct (H2 _ _ El) as (x & Ex). symmetry in Ex. destruct (nibs_of_app_inv _ _ _ Ex) as (y & -> & _).
  assert (Ed : dict_after (map (eff_op secure) l) (pf_key p ++ y) = Some w) by (rewrite <- H1, Ex; exact El).
  destruct (dict_after_eff_inv secure l _ _ (kl secure K K_ok _ Hi) Ed) as (k & Hkx & Hv).
  exists (dict_after l), u, k, w, y. split; [apply (b_rooted keccak_len secure K K_ok _ _ _ _ B); reflexivity|]. split; [exact Hv|]. split; [symmetry; exact Hkx|].
  destruct (A (S (frames secure k)) k []) as (-> & _). apply (get_present_ok keccak_len secure l); auto.
  apply (kk secure K K_ok); [exact Hi|]. apply Hi. eapply dict_after_keys. exact Hv.
Qed.
Lemma check_poi_true : forall lim p l, chain l -> (forall s, In s l -> no_collision (proof_hashed (pf_proof p) ++ h_log s)) -> watch (call_check_poi lim p) l = PRet (Ok true) ->
  exists s, In s l /\ has_key secure (view s) (pf_key p).
Proof.
  intros lim p l C NC E. unfold call_check_poi in E. destruct (negb (bytes_eqb (pf_type p) MPT_POI)).
  { unfold praise in E. rewrite watch_ret in E. discriminate. }
  unfold unless_empty in E. cbn [proot pbind] in E. apply watch_root in E. destruct E as (s0 & l0 & -> & E).
  destruct (h_root s0) as [r0|] eqn:Er0; cbn [pbind] in E; [|unfold praise in E; rewrite watch_ret in E; discriminate].
  apply watch_root in E. destruct E as (s1 & l1 & -> & E). destruct (is_empty_hash (h_root s1)) eqn:Ee1; [unfold praise in E; rewrite watch_ret in E; discriminate|].
  assert (N1 : h_root s1 <> Some EMPTY_HASH).
  { intros X. rewrite X in Ee1. cbn [is_empty_hash] in Ee1. unfold EMPTY_HASH in Ee1. rewrite bytes_eqb_refl in Ee1. discriminate. }
  assert (N : forall s, In s l1 -> h_root s <> Some EMPTY_HASH).
  { intros s Hs. inversion C as [|? ? _ _ C']; subst. inversion C' as [|? ? _ G _]; subst. apply (G s Hs). exact N1. }
  apply watch_bind in E. destruct E as [(la & lb & h & -> & _ & E)|(la & lb & e & -> & _ & E)]; [|discriminate].
  destruct (hash_first p) as [h0|x]; cbn [pbind] in E; [|rewrite watch_ret in E; discriminate].
  destruct (negb (same_hash h h0)); [unfold pret in E; rewrite watch_ret in E; discriminate|].
  destruct (poi_storage (pf_proof p) []) as [[ps|]|x] eqn:Eps; cbn [pbind] in E; [|unfold pret in E; rewrite watch_ret in E; discriminate|rewrite watch_ret in E; discriminate].
  cbn [proot pbind] in E. apply watch_root in E. destruct E as (s & lc & -> & E).
  assert (Hs : In s (s0 :: s1 :: la ++ s :: lc)) by (right; right; apply in_or_app; right; left; reflexivity).
  destruct (h_root s) as [b|] eqn:Er; cbn [from_root] in E; [|destruct (lim =? 0); cbn [pbind] in E; rewrite watch_ret in E; discriminate].
  destruct (verify_poi_ lim ps b (np_of (pf_key p))) as [v|x] eqn:Ev; cbn [pbind] in E; [|rewrite watch_ret in E; discriminate].
  destruct v; [|unfold pret in E; rewrite watch_ret in E; discriminate].
  exists s. split; [exact Hs|]. apply (sound_key lim s p ps b); auto.
  - eapply chain_in; [exact C|exact Hs].
  - intros ->. apply (N s); [apply in_or_app; right; left; reflexivity|exact Er].
Qed.
End W.
