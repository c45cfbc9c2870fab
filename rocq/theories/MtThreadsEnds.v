(** One thread makes the tree while others put values: how many steps its calls take. *)
From Coq Require Import List Bool Arith NArith ZArith Lia.
From Verif Require Import Base BaseProofs ProofObj MptEq MerkleTree SpecMt MtProofs ThreadsPool EThreadsRun MtThreads SpecMtThreads MtThreadsRun MtThreadsSerial MtThreadsBuild MtThreadsOne.
Import ListNotations.

Lemma log2_up_half : forall n, 2 <= n -> Nat.log2_up ((n + 1) / 2) + 1 = Nat.log2_up n.
Proof.
  intros n L. set (m := (n + 1) / 2). assert (D : n = 2 * m \/ (n = 2 * m - 1 /\ 1 <= m)).
  { unfold m. pose proof (Nat.div_mod (n + 1) 2). pose proof (Nat.mod_upper_bound (n + 1) 2). lia. }
  assert (M : 1 <= m) by lia. clearbody m. rewrite Nat.add_1_r, <- Nat.log2_up_double by lia. destruct D as [->|[E _]]; [reflexivity|].
  (* 2m - 1 and 2m have the same log2_up *)
  destruct (Nat.eq_dec m 1) as [E1|N1]; [lia|].
  assert (P : 2 ^ Nat.log2_up m >= m) by (destruct (Nat.log2_up_spec m); lia).
  assert (Q : 2 ^ Nat.pred (Nat.log2_up m) < m) by (destruct (Nat.log2_up_spec m); lia).
  assert (Lp : 1 <= Nat.log2_up m) by (apply Nat.log2_up_pos; lia).
  rewrite (Nat.log2_up_double m) by lia. symmetry. rewrite E. apply Nat.log2_up_unique; [lia|].
  cbn [Nat.pred]. split; [|cbn [Nat.pow]; lia].
  replace (Nat.log2_up m) with (S (Nat.pred (Nat.log2_up m))) by lia. cbn [Nat.pow]. lia.
Qed.

Section S.
Context {H : Hash}.
Variable secure : bool.
Variable N : nat.
Notation at_ ms := (mrun (mpool_new secure) ms).
Notation D := (Nat.log2_up N).

Lemma climbs_deep : forall l u, climbs l u -> 2 <= length l -> match u with x :: r => S (length r) + Nat.log2_up (length x) <= Nat.log2_up (length l) | [] => False end.
Proof.
  induction 1 as [|x u Hc IH Lx]; intros L.
  - rewrite next_length. cbn [length]. rewrite <- (log2_up_half (length l)) by exact L. lia.
  - specialize (IH L). rewrite next_length. cbn [length]. rewrite <- (log2_up_half (length x)) in IH by exact Lx. lia.
Qed.
Lemma snapshot_len : forall ls n l, snapshot ls n l -> n <= length ls.
Proof. intros ls n l [[L _]|(_ & j & x & L & E & _)]; [exact L|]. apply nth_lt in E. lia. Qed.
Lemma rest_deep : forall lo t u, rest lo t -> length (t_leaves t) <= N -> t_upper t = Some u -> length u <= D.
Proof.
  intros lo t u R L Eu. assert (W : whole 0 (t_leaves t) u).
  { destruct (rest_done _ _ R) as [[E _]|(u' & E & W)]; [congruence|]. rewrite Eu in E. injection E as <-. exact W. }
  destruct W as (n & _ & _ & [(-> & _)|(l & x & u' & A1 & A2 & A3 & -> & A5 & A6)]); [cbn; lia|].
  pose proof (climbs_deep _ _ A5) as C. rewrite A1 in C. specialize (C A2). apply snapshot_len in A3. pose proof (Nat.log2_up_le_mono n N). cbn [length]. lia.
Qed.

(** The steps that are left, at most. *)
Definition lv (t : mt) : nat := match t_upper t with Some (x :: _) => Nat.log2_up (length x) | _ => D end.
Definition aft (a : after) : nat := match a with None => 0 | Some _ => 4 end.
Definition mid (t : mt) (a : after) (k : nat) : nat := k + 3 + aft a + 12 * (lv t - 1).
Definition left_ (t : mt) (p : mpc) : nat :=
  match p with
  | CDone _ => 0
  | CPut _ | CCount | CLeaf _ => 1
  | CBegin a => 12 * D + 6 + aft a
  | CAny a => 12 * D + 5 + aft a
  | CBase a => 12 * D + 4 + aft a
  | CWhile a => 12 * lv t + 3 + aft a
  | CWhile2 a _ => 12 * lv t + 2 + aft a
  | CLen a => mid t a 10 | CLen2 a _ => mid t a 9
  | CSolo a _ => mid t a 8 | CSolo2 a _ _ => mid t a 7
  | CFst a _ _ => mid t a 6 | CFst2 a _ _ _ => mid t a 5
  | CSnd a _ _ _ => mid t a 4 | CSnd2 a _ _ _ _ => mid t a 3
  | CPush a _ => mid t a 2 | CPush2 a _ _ => mid t a 1
  | CEnd a => 1 + aft a
  | CReady _ => 12 * D + 11
  | CCheck _ => 4 | CCheck2 _ => 3 | CTop _ => 2 | CTop2 _ _ => 1
  | CIndex _ _ => 16 * D + 15
  | CNone _ _ _ => 16 * D + 14
  | CGo _ _ _ => 16 * D + 13
  | CRange _ _ _ => 16 * D + 12
  | CLevel _ _ _ x _ => 4 * x + 12 * D + 11
  | CLevel2 _ _ _ x _ _ => 4 * x + 12 * D + 10
  | CSib _ _ _ x _ => 4 * x + 12 * D + 9
  | CSib2 _ _ _ x _ _ => 4 * x + 12 * D + 8
  end.
Definition above (p : mpc) : Prop := match p with CLevel _ _ _ x _ | CLevel2 _ _ _ x _ _ | CSib _ _ _ x _ | CSib2 _ _ _ x _ _ => 1 <= x | _ => True end.
Lemma left_grow : forall t x p, left_ (grow t x) p = left_ t p.
Proof. intros t x p. reflexivity. Qed.
Lemma left_loop : forall t tm k i x pr, left_ t (loop tm k i x pr) = 4 * x + 12 * D + 11.
Proof. intros t tm k i [|x] pr; reflexivity. Qed.
Lemma above_loop : forall tm k i x pr, above (loop tm k i x pr).
Proof. intros tm k i [|x] pr; cbn; auto. lia. Qed.
Lemma half_lv : forall lo t u, length (t_leaves t) <= N -> t_upper t = Some u -> half lo (t_leaves t) u -> 2 <= top_len (t_leaves t) u -> 1 <= lv t.
Proof.
  intros lo t u L Eu Hf Lt. unfold lv. rewrite Eu. destruct u as [|x u]; cbn [top_len] in Lt; apply Nat.log2_up_pos; unfold top_len in Lt; lia.
Qed.
Lemma pushed_lv : forall lo t u new, length (t_leaves t) <= N -> t_upper t = Some u -> pushed lo (t_leaves t) u new -> Nat.log2_up (length new) + 1 <= lv t.
Proof.
  intros lo t u new L Eu P. unfold lv. rewrite Eu. destruct u as [|x u]; cbn [pushed] in P.
  - destruct P as (l & n & _ & L2 & Ln & Sn & ->). rewrite next_length, Ln, log2_up_half by exact L2. apply snapshot_len in Sn. apply Nat.log2_up_le_mono. lia.
  - destruct P as [L2 ->]. rewrite next_length, log2_up_half by exact L2. lia.
Qed.
Lemma left_step : forall lo t p, inv lo t p -> above p -> length (t_leaves t) <= N -> manswer p = None ->
  left_ (fst (mstep t p)) (snd (mstep t p)) < left_ t p /\ above (snd (mstep t p)).
Proof.
  intros lo t p [Lo Iv] Ab L Na.
  assert (Wl : forall e f, rest lo t -> forall k, (forall u, t_upper t = Some u -> left_ t (f u) < k /\ above (f u)) -> 0 < k ->
    left_ t (with_levels t (YProof e) f) < k /\ above (with_levels t (YProof e) f)).
  { intros e f R k Hf K. unfold with_levels. destruct (t_upper t) as [u|] eqn:Eu; [auto|]. split; [exact K|exact I]. }
  destruct p; cbn [mstep fst snd]; try discriminate; try contradiction.
  - (* CBegin *) cbn. split; [lia|exact I].
  - (* CAny *) destruct (0 <? _); cbn; (split; [lia|exact I]).
  - (* CBase *) cbn. split; [unfold lv; cbn; lia|exact I].
  - (* CWhile *) destruct Iv as (u & Eu & _). unfold with_levels. rewrite Eu. cbn. split; [lia|exact I].
  - (* CWhile2 *) destruct Iv as (Eu & Hf). destruct (Nat.ltb_spec 1 (length (top_of t u))) as [L1|L1]; cbn [left_ above]; (split; [|exact I]).
    + assert (1 <= lv t) by (eapply half_lv; eauto). unfold mid. lia.
    + lia.
  - destruct Iv as (u & Eu & _). unfold with_levels. rewrite Eu. cbn [left_ above]. split; [unfold mid; lia|exact I].
  - (* CLen2 *) cbv zeta. destruct (Nat.odd _); cbn [left_ above]; (split; [unfold mid; lia|exact I]).
  - destruct Iv as (u & Eu & _). unfold with_levels. rewrite Eu. cbn [left_ above]. split; [unfold mid; lia|exact I].
  - (* CSolo2 *) destruct (rev _); cbn [left_ above]; (split; [unfold mid; lia|exact I]).
  - destruct Iv as (u & Eu & _). unfold with_levels. rewrite Eu. cbn [left_ above]. split; [unfold mid; lia|exact I].
  - cbn [left_ above]. split; [unfold mid; lia|exact I].
  - destruct Iv as (u & Eu & _). unfold with_levels. rewrite Eu. cbn [left_ above]. split; [unfold mid; lia|exact I].
  - cbn [left_ above]. split; [unfold mid; lia|exact I].
  - destruct Iv as (u & Eu & _). unfold with_levels. rewrite Eu. cbn [left_ above]. split; [unfold mid; lia|exact I].
  - (* CPush2 *) destruct Iv as (Eu & _ & P). pose proof (pushed_lv _ _ _ _ L Eu P) as X. cbn [left_ above]. split; [|exact I]. unfold mid. unfold lv at 1. cbn [set_upper t_upper]. lia.
  - (* CEnd *) destruct a; cbn; (split; [lia|exact I]).
  - (* CReady *) destruct (t_ready t); cbn; (split; [lia|exact I]).
  - destruct (t_ready t); cbn; (split; [lia|exact I]).
  - destruct (t_upper t); cbn; (split; [lia|exact I]).
  - destruct Iv as (_ & u & Eu & _). unfold with_levels. rewrite Eu. cbn. split; [lia|exact I].
  - cbn. split; [lia|exact I].
  - (* CIndex *) destruct (index_of _ _); cbn [left_ above]; (split; [lia|exact I]).
  - destruct (t_upper t); cbn [left_ above]; (split; [lia|exact I]).
  - destruct (t_ready t); cbn [left_ above]; (split; [lia|exact I]).
  - (* CRange *) cbn [left_]. apply Wl; [exact Iv| |lia]. intros u Eu. rewrite left_loop. pose proof (rest_deep _ _ _ Iv L Eu). split; [lia|apply above_loop].
  - (* CLevel *) cbn [left_ above] in *. apply Wl; [exact Iv| |lia]. intros u Eu. destruct (entry u x); cbn [left_ above]; (split; [lia|auto]).
  - (* CLevel2 *) cbv zeta. cbn [above] in Ab. destruct (_ && _); [rewrite left_loop; cbn [left_]; split; [lia|apply above_loop]|]. cbn [left_ above]. split; [lia|exact Ab].
  - cbn [left_ above] in *. apply Wl; [exact Iv| |lia]. intros u Eu. destruct (entry u x); cbn [left_ above]; (split; [lia|auto]).
  - cbn [above] in Ab. destruct (nth_error _ _); [rewrite left_loop; cbn [left_]; split; [lia|apply above_loop]|]. cbn [left_ above]. split; [lia|exact I].
Qed.
Lemma left_call : forall t c, left_ t (mcall secure c) <= 16 * D + 15 /\ above (mcall secure c).
Proof.
  intros t [[b|]| |i| | |tm [k|]|p]; cbn [mcall]; try (split; [cbn [left_ aft]; lia|exact I]).
  destruct (mapM decode_elem (pf_proof p)); [|split; [cbn [left_ aft]; lia|exact I]]. destruct (decode_str _); [|split; [cbn [left_ aft]; lia|exact I]].
  destruct (from_hex _); [|split; [cbn [left_ aft]; lia|exact I]]. destruct (tools_verify _ _ _) as [[|]|]; split; try exact I; cbn [left_ aft]; lia.
Qed.

Theorem ends_within : forall m1 c m2, let ms := m1 ++ QCall c :: m2 in let i := length (mcalls_of m1) in apart secure builds ms -> length (placed [] ms) <= N ->
  exists p, nth_error (y_calls (at_ ms)) i = Some p /\ above p /\ (manswer p <> None \/ left_ (y_obj (at_ ms)) p + mturns i m2 <= 16 * D + 15).
Proof.
  intros m1 c m2. induction m2 as [|m m2 IH] using rev_ind; intros ms i Ap Ln.
  - exists (mcall secure c). unfold ms, i. rewrite mrun_snoc. cbn [mgo y_calls y_obj]. rewrite run_secure, <- (run_len secure m1), nth_snoc_new. split; [reflexivity|].
    destruct (left_call (y_obj (at_ m1)) c) as [A B]. split; [exact B|]. right. cbn. lia.
  - set (m0 := m1 ++ QCall c :: m2) in *. assert (Es : ms = m0 ++ [m]) by (unfold ms, m0; rewrite <- app_assoc; reflexivity).
    assert (Ap' : apart secure builds m0) by (eapply apart_init; rewrite <- Es; exact Ap).
    assert (Ln' : length (placed [] m0) <= N).
    { rewrite <- (leaves_len secure), Es, mrun_snoc in Ln. rewrite <- (leaves_len secure m0). destruct m as [c'|j]; [exact Ln|].
      destruct (nth_error (y_calls (at_ m0)) j) as [q|] eqn:Ej; [|rewrite (mgo_none _ _ Ej) in Ln; exact Ln].
      rewrite (mgo_at _ _ _ Ej) in Ln. cbn [y_obj] in Ln. rewrite mstep_leaves, app_length in Ln. lia. }
    destruct (IH Ap' Ln') as (p & Ep & Ab & Le). fold i in Ep, Le. rewrite <- (leaves_len secure m0) in Ln'.
    rewrite Es, mrun_snoc. assert (Tn : mturns i (m2 ++ [m]) = mturns i m2 + match m with QGo j => if j =? i then 1 else 0 | QCall _ => 0 end).
    { unfold mturns. rewrite filter_app, app_length. cbn [filter]. destruct m as [c'|j]; [reflexivity|]. destruct (j =? i); reflexivity. }
    rewrite Tn. clear Tn. destruct m as [c'|j].
    + exists p. cbn [mgo y_calls y_obj]. rewrite nth_snoc_old by (eapply nth_lt, Ep). rewrite Nat.add_0_r. auto.
    + destruct (nth_error (y_calls (at_ m0)) j) as [q|] eqn:Ej.
      2:{ rewrite (mgo_none _ _ Ej). exists p. split; [exact Ep|]. split; [exact Ab|]. destruct (Nat.eqb_spec j i) as [->|X]; [congruence|]. rewrite Nat.add_0_r. exact Le. }
      assert (Ec : nth_error (mcalls_of m0) i = Some c).
      { unfold m0, i. rewrite mcalls_app, nth_error_app2, Nat.sub_diag by lia. reflexivity. }
      rewrite (mgo_at _ _ _ Ej). cbn [y_calls y_obj]. destruct (Nat.eqb_spec j i) as [->|X].
      * rewrite Ep in Ej. injection Ej as <-. exists (snd (mstep (y_obj (at_ m0)) p)). split; [apply (upd_same _ _ _ _ _ Ep)|].
        destruct Le as [Le|Le].
        { destruct p; try contradiction. cbn [mstep snd fst]. split; [exact I|]. left. discriminate. }
        destruct (manswer p) as [o|] eqn:Ea; [destruct p; try discriminate; cbn [mstep snd]; split; [exact I|left; discriminate]|].
        destruct (builds c) eqn:Bc.
        -- destruct (held_run secure m0 Ap') as (cur & p0 & Iv & Dn & _). destruct (Dn _ _ _ Ec Bc Ep) as [[_ <-]|[o ->]]; [|discriminate].
           destruct (left_step _ _ _ Iv Ab Ln' Ea) as [A B]. split; [exact B|]. right. lia.
        -- pose proof (plain_run _ _ _ _ _ Ec Ep Bc) as Pl. destruct p; try discriminate; cbn [mstep snd]; (split; [exact I|left; discriminate]).
      * exists p. split; [rewrite (upd_other _ _ _ _ _ _ Ej) by auto; exact Ep|]. split; [exact Ab|]. rewrite Nat.add_0_r. destruct Le as [Le|Le]; [left; exact Le|].
        destruct (manswer p) as [o|] eqn:Ea; [left; discriminate|]. right.
        assert (Ob : fst (mstep (y_obj (at_ m0)) q) = y_obj (at_ m0) \/ (exists x, fst (mstep (y_obj (at_ m0)) q) = grow (y_obj (at_ m0)) x) \/ builds c = false).
        { destruct (nth_error (mcalls_of m0) j) as [cj|] eqn:Ecj; [|apply nth_lt in Ej; apply nth_error_None in Ecj; rewrite run_len in Ej; lia].
          destruct (builds cj) eqn:Bj.
          - destruct (builds c) eqn:Bc; [|auto]. destruct (held_run secure m0 Ap') as (cur & p0 & Iv & Dn & _). destruct (Dn _ _ _ Ecj Bj Ej) as [[Ecur _]|[o ->]]; [|left; reflexivity].
            destruct (Dn _ _ _ Ec Bc Ep) as [[E2 _]|[o ->]]; [congruence|discriminate].
          - destruct (plain_step (y_obj (at_ m0)) q (plain_run _ _ _ _ _ Ecj Ej Bj)) as [[E|E] _]; auto. }
        destruct Ob as [->|[[x ->]|Bc]]; [exact Le|rewrite left_grow; exact Le|].
        pose proof (plain_run _ _ _ _ _ Ec Ep Bc) as Pl. destruct p; try discriminate; exact Le.
Qed.
End S.

Theorem ends_soon : forall {H : Hash} secure m1 c m2, let ms := m1 ++ QCall c :: m2 in let i := length (mcalls_of m1) in apart secure builds ms ->
  16 * Nat.log2_up (length (placed [] ms)) + 15 <= mturns i m2 -> manswer_of (mrun (mpool_new secure) ms) i <> None.
Proof.
  intros H secure m1 c m2 ms i Ap L. destruct (ends_within secure (length (placed [] ms)) m1 c m2 Ap (le_n _)) as (p & Ep & _ & [A|A]); fold ms i in Ep, A; unfold manswer_of; rewrite Ep; [exact A|].
  destruct p; cbn [left_ manswer] in *; try discriminate; unfold mid in *; exfalso; lia.
Qed.
