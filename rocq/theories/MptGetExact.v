(** What [get] answers, exactly. *)
From Coq Require Import List Bool Arith NArith Lia.
From Verif Require Import Base BaseProofs NibblePath NibbleProofs Node Mpt Tree TreeEnc StoreProofs UpdateProofs ReadProofs
  Spec SpecGet MptRefine MptProofs.
Import ListNotations.

Definition forkt (t : tree) (q : list nat) : Prop :=
  exists i r j s v w, i <> j /\ lookup t (q ++ i :: r) = Some v /\ lookup t (q ++ j :: s) = Some w.
Definition alonet (t : tree) (q : list nat) (v : bytes) : Prop :=
  exists r, r <> [] /\ lookup t (q ++ r) = Some v /\ forall r' w, lookup t (q ++ r') = Some w -> r' = r.
Definition edget (t : tree) (q : list nat) : Prop :=
  q = [] \/ exists p i s w, q = p ++ [i] /\ lookup t (p ++ s) = Some w /\ forall s', s <> i :: s'.
Definition reply (t : tree) (q : list nat) (v : bytes) : Prop :=
  lookup t q = Some v \/
  (lookup t q = None /\ ((v = [] /\ forkt t q) \/ (alonet t q v /\ edget t q))).

Lemma reply_ext : forall p c q v, p <> [] -> wf c -> is_branch c ->
  reply (TExt p c) (p ++ q) v <-> reply c q v.
Proof.
  intros p c q v Hp Hw Hb. unfold reply.
  assert (E1 : forkt (TExt p c) (p ++ q) <-> forkt c q).
  { unfold forkt. split; intros (i & r & j & s & x & y & Hij & A & B); exists i, r, j, s, x, y; split; auto;
    rewrite <- !app_assoc, !lookup_ext_app in *; auto. }
  assert (E2 : alonet (TExt p c) (p ++ q) v <-> alonet c q v).
  { unfold alonet. split; intros (r & Hr & A & B); exists r; split; auto; rewrite <- !app_assoc, !lookup_ext_app in *;
    split; auto; intros r' w; specialize (B r' w); rewrite <- !app_assoc, !lookup_ext_app in *; auto. }
  rewrite E1, E2, lookup_ext_app.
  assert (E3 : alonet c q v -> edget (TExt p c) (p ++ q) <-> edget c q).
  { intros Ha. destruct q as [|x q0].
    - exfalso. destruct c as [| | |cs w]; try contradiction.
      destruct (wf_branch_keys cs w Hw) as (q1 & q2 & v1 & v2 & Hne & A & B).
      destruct Ha as (r & Hr & _ & U). cbn [app] in U. apply U in A. apply U in B. congruence.
    - assert (Hq : exists q' i, x :: q0 = q' ++ [i]).
      { destruct (exists_last (l := x :: q0)) as (q' & i & E); [discriminate|]. eauto. }
      destruct Hq as (q' & i & ->). split.
      + intros [E|(p' & j & s & w & E & A & B)]; [destruct p; [congruence|discriminate]|].
        rewrite app_assoc in E. apply app_inj_tail in E. destruct E as [<- <-].
        rewrite <- app_assoc, lookup_ext_app in A. right. exists q', i, s, w. auto.
      + intros [E|(p' & j & s & w & E & A & B)]; [destruct q'; discriminate|].
        apply app_inj_tail in E. destruct E as [<- <-]. right. exists (p ++ q'), i, s, w.
        rewrite <- !app_assoc, lookup_ext_app. auto. }
  tauto.
Qed.

Lemma reply_branch : forall cs d i q v, wf (TBranch cs d) ->
  reply (TBranch cs d) (i :: q) v <-> reply (nth i cs TEmpty) q v.
Proof.
  intros cs d i q v Hw. unfold reply.
  assert (E1 : forkt (TBranch cs d) (i :: q) <-> forkt (nth i cs TEmpty) q).
  { unfold forkt. cbn [app]. split; intros (i' & r & j & s & x & y & Hij & A & B); exists i', r, j, s, x, y; split; auto;
    rewrite !lookup_branch in *; auto. }
  assert (E2 : alonet (TBranch cs d) (i :: q) v <-> alonet (nth i cs TEmpty) q v).
  { unfold alonet. cbn [app]. split; intros (r & Hr & A & B); exists r; split; auto; rewrite !lookup_branch in *;
    split; auto; intros r' w; specialize (B r' w); rewrite !lookup_branch in *; auto. }
  rewrite E1, E2, lookup_branch.
  assert (E3 : edget (TBranch cs d) (i :: q) <-> edget (nth i cs TEmpty) q).
  { destruct q as [|x q0].
    - split; [left; auto|]. intros _. right.
      apply wf_branch in Hw. destruct Hw as (Hlen & Hok & Hf).
      destruct Hok as [(a & b & Hab & Ha & Hb)|(Hd & _)].
      + assert (Hc : exists c, c <> i /\ nth c cs TEmpty <> TEmpty).
        { destruct (Nat.eq_dec a i) as [->|]; [exists b|exists a]; auto. }
        destruct Hc as (c & Hc & Hn). destruct (wf_has_key _ (wf_nth cs c Hf) Hn) as (z & u & Ez).
        exists [], i, (c :: z), u. cbn [app]. rewrite lookup_branch. split; auto. split; auto.
        intros s' E. injection E as E _. auto.
      + exists [], i, [], d. cbn [app]. split; auto. split; [apply lookup_branch_nil; auto|]. intros s' E. discriminate.
    - assert (Hq : exists q' j, x :: q0 = q' ++ [j]).
      { destruct (exists_last (l := x :: q0)) as (q' & j & E); [discriminate|]. eauto. }
      destruct Hq as (q' & j & ->). split.
      + intros [E|(p' & k & s & w & E & A & B)]; [discriminate|].
        change (i :: q' ++ [j]) with ((i :: q') ++ [j]) in E. apply app_inj_tail in E. destruct E as [<- <-].
        cbn [app] in A. rewrite lookup_branch in A. right. exists q', j, s, w. auto.
      + intros [E|(p' & k & s & w & E & A & B)]; [destruct q'; discriminate|].
        apply app_inj_tail in E. destruct E as [<- <-]. right. exists (i :: q'), j, s, w.
        cbn [app]. rewrite lookup_branch. auto. }
  tauto.
Qed.

Lemma reply_empty : forall q v, ~ reply TEmpty q v.
Proof.
  intros q v [E|(_ & [(_ & i & r & j & s & x & y & _ & E & _)|((r & _ & E & _) & _)])]; discriminate.
Qed.

Section P.
Context {H : Hash}.
Hypothesis keccak_len : forall b, length (keccak b) = 32.

Definition got (r : result node) : result bytes := match r with Ok n => node_data n | Err e => Err e end.

Lemma get_reply : forall fuel m t path v, t <> TEmpty -> wf t -> small t -> stored m t -> length (nibs path) < fuel ->
  got (get_ fuel m (tref t) path) = Ok v <-> reply t (nibs path) v.
Proof.
  induction fuel as [|f IH]; intros m t path v Hne Hw Hs St Hf; [lia|].
  destruct (get_node_stored keccak_len m t Hne Hw Hs (here_of_stored _ _ St)) as (n & En & Hm).
  cbn [get_]. rewrite En.
  destruct n as [lp d|ep nr|bs d], t as [|p w|p c|cs w]; cbn [nmatch] in Hm; try contradiction.
  - destruct Hm as [<- <-].
    assert (El : forall q, lookup (TLeaf (nibs lp) d) q = Some d <-> q = nibs lp).
    { intros q. split; [intros E; apply leaf_key_inv in E; tauto|intros ->; apply lookup_leaf_self]. }
    destruct (np_eq lp path) eqn:Eq.
    + apply np_eq_spec in Eq.
      assert (Eg : got (if np_len path =? 0 then Ok (Leaf lp d) else Ok (Leaf lp d)) = Ok d)
        by (destruct (np_len path =? 0); reflexivity).
      rewrite Eg. unfold reply. rewrite (proj2 (El (nibs path)) (eq_sym Eq)). split.
      * intros E. left. congruence.
      * intros [E|[E _]]; congruence.
    + apply np_eq_false in Eq.
      assert (En' : lookup (TLeaf (nibs lp) d) (nibs path) = None).
      { destruct (lookup _ _) as [x|] eqn:E; auto. apply leaf_key_inv in E. destruct E; congruence. }
      destruct (path_cases path) as [[Hz Hn]|(i & q & Hn & Hz & Hi & Hq)]; rewrite Hz; cbn [Nat.eqb].
      * cbn [got node_data]. unfold reply. rewrite En', Hn in *. split.
        -- intros E. injection E as <-. right. split; auto. right. split; [|left; auto].
           exists (nibs lp). split; [auto|]. cbn [app]. split; [apply lookup_leaf_self|].
           intros r' x E. apply leaf_key_inv in E. apply E.
        -- intros [E|(_ & [(_ & i & r & j & s & x & y & Hij & A & B)|((r & _ & A & _) & _)])]; [discriminate| |].
           ++ apply leaf_key_inv in A, B. cbn [app] in A, B. destruct A, B. congruence.
           ++ apply leaf_key_inv in A. destruct A. congruence.
      * cbn [got]. split; [discriminate|].
        intros [E|(_ & [(_ & i' & r & j & s & x & y & Hij & A & B)|((r & Hr & A & _) & [Ee|(p' & i' & s & x & Ee & B & C)])])].
        -- congruence.
        -- exfalso. apply leaf_key_inv in A, B. destruct A as [A _], B as [B _]. rewrite <- B in A. apply app_inv_head in A.
           injection A as A _. auto.
        -- rewrite Hn in Ee. discriminate.
        -- exfalso. apply leaf_key_inv in A, B. destruct A as [A _], B as [B _]. rewrite Ee, <- app_assoc in A.
           rewrite <- B in A. apply app_inv_head in A. cbn [app] in A. apply (C r). auto.
  - destruct Hm as [<- ->]. assert (Hw0 := Hw). destruct Hw as (Hep & Hep0 & Hb & Hwc).
    assert (Hep' : length (nibs ep) <> 0) by (destruct (nibs ep); cbn; congruence).
    assert (Hc : c <> TEmpty) by (intros ->; contradiction).
    apply stored_ext in St. destruct St as [_ St].
    destruct (strip (nibs ep) (nibs path)) as [r|] eqn:Es.
    + rewrite np_starts_with_spec, Es. pose proof (np_starts_with_skip _ _ _ Es) as Er. apply strip_spec in Es.
      assert (Hl := f_equal (@length nat) Es). rewrite app_length in Hl.
      replace (np_len path =? 0) with false by (symmetry; apply Nat.eqb_neq; rewrite np_len_spec; lia).
      rewrite (IH m c (np_consume path (np_len ep)) v Hc Hwc (small_ext keccak_len _ _ Hs) St) by (rewrite Er; lia).
      rewrite Er, Es. symmetry. apply reply_ext; auto.
    + rewrite np_starts_with_spec, Es.
      assert (Eg : forall v, got (if np_len path =? 0 then Ok (Extension ep (tref c)) else Err ExtensionPathError) <> Ok v)
        by (intros v'; destruct (np_len path =? 0); discriminate).
      split; [intros E; destruct (Eg _ E)|].
      assert (Hn := proj1 (strip_None _ _) Es).
      (* all keys begin with ep, and continue in at least two ways *)
      destruct c as [| | |cs w]; try contradiction.
      destruct (wf_branch_keys cs w Hwc) as (q1 & q2 & v1 & v2 & Hne2 & K1 & K2).
      intros [E|(_ & [(_ & i & r & j & s & x & y & Hij & A & B)|((r & Hr & A & U) & Eb)])]; exfalso.
      * apply ext_key_inv in E. destruct E as (r & E & _). eapply Hn; eauto.
      * apply ext_key_inv in A, B. destruct A as (a & A & _), B as (b & B & _).
        destruct (prefixes_comparable _ _ _ _ A) as [(z & E)|(z & E)]; [|eapply Hn; eauto].
        rewrite E in A, B. rewrite <- app_assoc in A, B. apply app_inv_head in A, B.
        destruct z as [|z0 z]; [rewrite app_nil_r in E; apply (Hn []); rewrite app_nil_r; auto|].
        cbn [app] in A, B. injection A as A _. injection B as B _. congruence.
      * assert (L : forall q, lookup (TExt (nibs ep) (TBranch cs w)) (nibs ep ++ q) = lookup (TBranch cs w) q)
          by (intros; apply lookup_ext_app).
        apply ext_key_inv in A. destruct A as (a & A & _).
        destruct (prefixes_comparable _ _ _ _ A) as [(z & E)|(z & E)]; [|eapply Hn; eauto].
        rewrite E in U. apply Hne2.
        assert (U1 := U (z ++ q1) v1). assert (U2 := U (z ++ q2) v2).
        rewrite <- E in U1, U2. rewrite !app_assoc, <- E, L in U1, U2. specialize (U1 K1). specialize (U2 K2).
        rewrite <- U2 in U1. apply app_inv_head in U1. rewrite U1. reflexivity.
  - destruct Hm as [-> <-]. assert (Hw0 := Hw). apply wf_branch in Hw. destruct Hw as (Hlen & Hok & Hwc).
    apply stored_branch in St. destruct St as [_ St].
    destruct (path_cases path) as [[Hz Hn]|(i & q & Hn & Hz & Hi & Hq)]; rewrite Hz; cbn [Nat.eqb].
    + rewrite Hn. cbn [got node_data]. unfold reply. cbn [lookup]. destruct d as [|x d].
      * split.
        -- intros E. injection E as <-. right. split; auto. left. split; auto.
           destruct Hok as [(a & b & Hab & Ha & Hb)|(Hd & _)]; [|congruence].
           destruct (wf_has_key _ (wf_nth cs a Hwc) Ha) as (z & u & Ez).
           destruct (wf_has_key _ (wf_nth cs b Hwc) Hb) as (z' & u' & Ez').
           exists a, z, b, z', u, u'. cbn [app]. rewrite !lookup_branch. auto.
        -- intros [E|(_ & [(-> & _)|((r & _ & _ & U) & _)])]; [discriminate|reflexivity|]. exfalso.
           destruct (wf_branch_keys cs [] Hw0) as (q1 & q2 & v1 & v2 & Hne2 & K1 & K2).
           cbn [app] in U. apply U in K1. apply U in K2. congruence.
      * split; [intros E; injection E as <-; left; auto|]. intros [E|[E _]]; congruence.
    + rewrite Hi, nth_map_tref, Hn, (reply_branch _ _ _ _ _ Hw0).
      destruct (0 <? _) eqn:Ep.
      * apply tref_pos in Ep; auto. rewrite <- Hq.
        apply IH; auto using wf_nth, stored_nth.
        -- eapply small_nth; eauto.
        -- rewrite Hq. rewrite Hn in Hf. cbn [length] in Hf. lia.
      * assert (Hc : nth i cs TEmpty = TEmpty).
        { destruct (tree_empty_dec (nth i cs TEmpty)) as [->|Hc]; [reflexivity|].
          apply (tref_pos keccak_len) in Hc. congruence. }
        rewrite Hc. cbn [got]. split; [discriminate|]. intros E. destruct (reply_empty _ _ E).
Qed.

Lemma holds_reply : forall tr d k v, holds tr d ->
  reply tr (nibs_of k) v <-> d k = Some v \/ stray_value d k v.
Proof.
  intros tr d k v [H1 H2]. unfold reply, stray_value. rewrite H1.
  assert (E1 : forkt tr (nibs_of k) <-> forks_at d k).
  { split.
    - intros (i & r & j & s & x & y & Hij & A & B).
      destruct (H2 _ _ A) as (ka & Ea), (H2 _ _ B) as (kb & Eb). rewrite Ea, H1 in A. rewrite Eb, H1 in B.
      symmetry in Ea, Eb.
      destruct (nibs_of_app_inv _ _ _ Ea) as (sa & -> & Fa), (nibs_of_app_inv _ _ _ Eb) as (sb & -> & Fb).
      destruct sa as [|b1 r1]; [discriminate|]. destruct sb as [|b2 r2]; [discriminate|].
      rewrite nibs_of_cons in Fa, Fb. injection Fa as -> _. injection Fb as -> _.
      exists b1, r1, b2, r2. split; auto. rewrite A, B. split; discriminate.
    - intros (b1 & r1 & b2 & r2 & Hb & A & B).
      destruct (d (k ++ b1 :: r1)) as [x|] eqn:Ex; [|congruence]. destruct (d (k ++ b2 :: r2)) as [y|] eqn:Ey; [|congruence].
      exists (hi b1), (lo b1 :: nibs_of r1), (hi b2), (lo b2 :: nibs_of r2), x, y. split; auto.
      rewrite <- !nibs_of_cons, <- !nibs_of_app, !H1. auto. }
  assert (E2 : alonet tr (nibs_of k) v <->
    exists r, r <> [] /\ d (k ++ r) = Some v /\ forall r', d (k ++ r') <> None -> r' = r).
  { split.
    - intros (r & Hr & A & U). destruct (H2 _ _ A) as (ka & Ea). symmetry in Ea.
      destruct (nibs_of_app_inv _ _ _ Ea) as (s & -> & ->). exists s.
      split; [intros ->; auto|]. rewrite <- nibs_of_app, H1 in A. split; auto.
      intros r' Hr'. destruct (d (k ++ r')) as [w|] eqn:E; [|congruence].
      apply nibs_of_inj. apply (U _ w). rewrite <- nibs_of_app, H1. exact E.
    - intros (r & Hr & A & U). exists (nibs_of r). split; [intros E; apply nibs_of_eq_nil in E; auto|].
      rewrite <- nibs_of_app, H1. split; auto. intros r' w E. destruct (H2 _ _ E) as (kb & Eb).
      rewrite Eb, H1 in E. symmetry in Eb. destruct (nibs_of_app_inv _ _ _ Eb) as (s & -> & ->).
      f_equal. apply U. congruence. }
  assert (E3 : edget tr (nibs_of k) <->
    (k = [] \/ exists p b b' s, k = p ++ [b] /\ hi b' = hi b /\ b' <> b /\ d (p ++ b' :: s) <> None)).
  { split.
    - intros [E|(p & i & s & w & E & A & B)]; [left; apply nibs_of_eq_nil; auto|right].
      destruct (list_eq_dec Byte.byte_eq_dec k []) as [->|Hk]; [destruct p; discriminate|].
      destruct (exists_last Hk) as (p0 & b & ->). rewrite nibs_of_app, nibs_of_cons in E.
      change (nibs_of []) with (@nil nat) in E.
      replace (nibs_of p0 ++ [hi b; lo b]) with ((nibs_of p0 ++ [hi b]) ++ [lo b]) in E by (rewrite <- app_assoc; reflexivity).
      apply app_inj_tail in E. destruct E as [<- <-].
      destruct (H2 _ _ A) as (ka & Ea). rewrite Ea, H1 in A. rewrite <- app_assoc in Ea. symmetry in Ea.
      destruct (nibs_of_app_inv _ _ _ Ea) as (z & -> & Ez).
      destruct z as [|b' z]; [discriminate|]. rewrite nibs_of_cons in Ez. cbn [app] in Ez. injection Ez as Eh Es.
      exists p0, b, b', z. split; auto. split; auto. split; [|congruence].
      intros ->. apply (B (nibs_of z)). exact Es.
    - intros [->|(p & b & b' & s & -> & Hh & Hb & A)]; [left; reflexivity|right].
      destruct (d (p ++ b' :: s)) as [w|] eqn:E; [|congruence].
      exists (nibs_of p ++ [hi b]), (lo b), (lo b' :: nibs_of s), w.
      split; [rewrite nibs_of_app, nibs_of_cons, <- app_assoc; reflexivity|]. split.
      + rewrite <- app_assoc. cbn [app]. rewrite <- Hh, <- nibs_of_cons, <- nibs_of_app, H1. exact E.
      + intros s' Es. injection Es as El _. apply Hb. rewrite <- (mkb_hi_lo b'), <- (mkb_hi_lo b), Hh, El. reflexivity. }
  rewrite E1, E2. unfold sole_extension. rewrite E3. tauto.
Qed.

Lemma stray_ext : forall d d' k v, (forall x, d x = d' x) -> stray_value d k v -> stray_value d' k v.
Proof.
  intros d d' k v E (Hk & C). split; [rewrite <- E; auto|]. destruct C as [(Hv & F)|((r & Hr & A & U) & B)]; [left|right].
  - split; auto. destruct F as (b1 & r1 & b2 & r2 & Hb & A & B). exists b1, r1, b2, r2. rewrite <- !E. auto.
  - split.
    + exists r. split; auto. rewrite <- E. split; auto. intros r' Hr'. apply U. rewrite E. auto.
    + destruct B as [B|(p & b & b' & s & Ek & Hh & Hb & B)]; [left; auto|right]. exists p, b, b', s. rewrite <- E. auto.
Qed.

Lemma stray_extended : forall d k v, stray_value d k v -> extended_in d k.
Proof.
  intros d k v (_ & [(_ & b1 & r1 & _ & _ & _ & A & _)|((r & Hr & A & _) & _)]).
  - destruct (d (k ++ b1 :: r1)) as [w|] eqn:E; [|congruence]. exists (k ++ b1 :: r1), w. split; auto.
    exists (b1 :: r1). split; [discriminate|auto].
  - exists (k ++ r), v. split; auto. exists r. auto.
Qed.

(** C107 *)
Theorem get_exact : forall secure l t k lim v, reachable secure l t ->
  keys_ok secure (k :: map op_key l) -> frames secure k < lim ->
  mpt_get lim t k = Ok v <-> dict_after l k = Some v \/ (secure = false /\ stray_value (dict_after l) k v).
Proof.
  intros secure l t k lim v R Hk Hl. destruct (reach_lookup keccak_len _ _ _ _ R Hk) as (tr & Rt & Hh & Es & El).
  assert (G : mpt_get lim t k = Ok v <-> reply tr (nibs_of (eff_key t k)) v).
  { destruct (tree_empty_dec tr) as [->|Hne].
    - destruct (repr_get_empty keccak_len t lim k Rt) as [e E]. rewrite E. split; [discriminate|]. intros F. destruct (reply_empty _ _ F).
    - destruct (repr_nonempty keccak_len t tr Rt Hne) as (E1 & E2 & E3 & E4). unfold mpt_get. rewrite E1, E3.
      destruct Rt as (Hw & Hs & St & _). rewrite <- (nibs_np_of (eff_key t k)). apply get_reply; auto.
      rewrite nibs_np_of, nibs_of_length, eff_key_eff, Es, (eff_frames keccak_len). exact Hl. }
  rewrite G, (holds_reply _ _ _ _ Hh), eff_key_eff, Es, (dict_eff _ _ _ Hk).
  assert (Hs : secure = false -> forall x, dict_after (map (eff_op secure) l) x = dict_after l x).
  { intros -> x. apply (dict_eff false l x). intros ?. discriminate. }
  split.
  - intros [E|F]; [left; auto|right]. assert (Ef : secure = false).
    { apply stray_extended in F. apply (eff_extended keccak_len) in F; [apply F|]. eapply keys_ok_incl; [|exact Hk]. intros x Hx. right. auto. }
    split; auto. specialize (Hs Ef). clear Es. subst secure. eapply stray_ext; [exact Hs|exact F].
  - intros [E|[-> F]]; [left; auto|right]. eapply stray_ext; [|exact F]. intros x. symmetry. apply (Hs eq_refl).
Qed.
End P.
