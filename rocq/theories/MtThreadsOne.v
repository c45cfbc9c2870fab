(** One thread makes the tree while others put values: what get_merkle_root answers. *)
From Coq Require Import List Bool Arith NArith ZArith Lia.
From Verif Require Import Base BaseProofs ProofObj MptEq MerkleTree SpecMt MtProofs ThreadsPool EThreadsRun MtThreads SpecMtThreads MtThreadsRun MtThreadsSerial MtThreadsBuild.
Import ListNotations.

Section S.
Context {H : Hash}.
Variable secure : bool.
Notation at_ ms := (mrun (mpool_new secure) ms).

(** The calls that do not look above the leaves. *)
Definition plain (p : mpc) : bool := match p with CDone _ | CCount | CLeaf _ | CPut _ => true | _ => false end.
Lemma plain_step : forall t p, plain p = true -> (fst (mstep t p) = t \/ exists x, fst (mstep t p) = grow t x) /\ plain (snd (mstep t p)) = true.
Proof. intros t p E. destruct p; try discriminate; split; auto. right. eexists. reflexivity. Qed.
Lemma plain_run : forall ms i c p, nth_error (mcalls_of ms) i = Some c -> nth_error (y_calls (at_ ms)) i = Some p -> builds c = false -> plain p = true.
Proof.
  intros ms. induction ms as [|m ms IH] using rev_ind; intros i c p Ec Ep Ac; [destruct i; discriminate|]. rewrite mcalls_app in Ec. rewrite mrun_snoc in Ep. destruct m as [c'|j].
  - cbn [mgo y_calls mcalls_of flat_map app] in *. fold (mcalls_of ms) in *. apply nth_error_snoc in Ec as [Ec|[-> ->]].
    + rewrite nth_snoc_old in Ep by (rewrite run_len; eapply nth_lt, Ec). eauto.
    + rewrite <- (run_len secure), nth_snoc_new in Ep. injection Ep as <-. destruct c' as [[b|]| | | | | |]; try discriminate; reflexivity.
  - cbn [mcalls_of flat_map] in Ec. rewrite app_nil_r in Ec. fold (mcalls_of ms) in Ec. destruct (nth_error (y_calls (at_ ms)) j) as [q|] eqn:Ej.
    2:{ rewrite (mgo_none _ _ Ej) in Ep. eauto. }
    rewrite (mgo_at _ _ _ Ej) in Ep. cbn [y_calls] in Ep. destruct (Nat.eq_dec i j) as [->|N].
    + rewrite (upd_same _ _ _ _ _ Ej) in Ep. injection Ep as <-. apply plain_step. eauto.
    + rewrite (upd_other _ _ _ _ _ _ Ej N) in Ep. eauto.
Qed.

Definition held (lo i0 : nat) (ms : list mmove) : Prop :=
  let w := at_ ms in
  exists cur p, inv lo (y_obj w) p /\
    (forall i c q, nth_error (mcalls_of ms) i = Some c -> builds c = true -> nth_error (y_calls w) i = Some q -> (i = cur /\ q = p) \/ exists o, q = CDone o) /\
    ((exists o, p = CDone o) \/ exists c, nth_error (mcalls_of ms) cur = Some c /\ builds c = true /\ nth_error (y_calls w) cur = Some p) /\
    (forall i c o, i0 <= i -> nth_error (mcalls_of ms) i = Some c -> builds c = true -> nth_error (y_calls w) i = Some (CDone o) -> sound lo (t_leaves (y_obj w)) o).

Lemma whole_less : forall lo ls u, whole lo ls u -> whole 0 ls u.
Proof. intros lo ls u (n & L & W). exists n. split; [lia|exact W]. Qed.
Lemma done_less : forall lo t, done_with lo t -> done_with 0 t.
Proof. intros lo t [[E _]|(u & E & W)]; [left; auto|]. right. exists u. split; [exact E|]. eapply whole_less, W. Qed.
Lemma rest_done : forall lo t, rest lo t -> done_with 0 t.
Proof. intros lo t [[_ E]|[_ D]]; [left; auto|eapply done_less, D]. Qed.
Lemma inv_call : forall lo t c, lo <= length (t_leaves t) -> builds c = true -> (c = QMake /\ done_with 0 t \/ rest lo t) -> inv lo t (mcall secure c) /\ fine lo t (mcall secure c).
Proof.
  intros lo t c L B [[-> D]|R]; [split; [split; auto|exact I]|].
  destruct c as [v| |i| | |tm [k|]|p]; try discriminate; cbn [mcall].
  - split; [|exact I]. split; [exact L|]. eapply rest_done, R.
  - split; [split; auto|exact I].
  - split; [split; auto|exact I].
  - split; [split; auto|exact I].
  - destruct (mapM decode_elem (pf_proof p)); [|split; [split; auto|exact I]]. destruct (decode_str _); [|split; [split; auto|exact I]].
    destruct (from_hex _); [|split; [split; auto|exact I]]. destruct (tools_verify _ _ _) as [[|]|]; split; try exact I; split; auto.
Qed.

Lemma held_call : forall lo i0 ms c, held lo i0 ms -> apart secure builds (ms ++ [QCall c]) -> held lo i0 (ms ++ [QCall c]).
Proof.
  intros lo i0 ms c (cur & p & Iv & Dn & Cu & Sd) Ap.
  assert (Ec : mcalls_of (ms ++ [QCall c]) = mcalls_of ms ++ [c]) by (rewrite mcalls_app; reflexivity). pose proof (run_len secure ms) as Len.
  unfold held. rewrite Ec, mrun_snoc. cbn [mgo y_obj y_calls]. rewrite run_secure. destruct (builds c) eqn:Bc.
  - assert (Pd : exists o, p = CDone o).
    { destruct Cu as [Cu|(c' & E1 & E2 & E3)]; [exact Cu|]. pose proof (Ap ms [] c cur c' eq_refl Bc E1 E2) as A. unfold manswer_of in A. rewrite E3 in A. destruct p; cbn [manswer] in A; try contradiction. eauto. }
    destruct Pd as [o ->]. destruct Iv as [L R]. destruct (inv_call lo _ c L Bc (or_intror R)) as [I1 F1].
    exists (length (mcalls_of ms)), (mcall secure c). split; [exact I1|]. split; [|split].
    + intros i c0 q Ei B0 Eq. apply nth_error_snoc in Ei as [Ei|[-> ->]].
      * right. rewrite nth_snoc_old in Eq by (rewrite Len; eapply nth_lt, Ei). destruct (Dn _ _ _ Ei B0 Eq) as [[_ ->]|X]; eauto.
      * rewrite <- Len, nth_snoc_new in Eq. injection Eq as <-. left. auto.
    + right. exists c. rewrite nth_snoc_new. rewrite <- Len, nth_snoc_new. auto.
    + intros i c0 o0 Li Ei B0 Eq. apply nth_error_snoc in Ei as [Ei|[-> ->]].
      * rewrite nth_snoc_old in Eq by (rewrite Len; eapply nth_lt, Ei). eauto.
      * rewrite <- Len, nth_snoc_new in Eq. injection Eq as Eq. rewrite Eq in F1. exact F1.
  - exists cur, p. split; [exact Iv|]. split; [|split].
    + intros i c0 q Ei B0 Eq. apply nth_error_snoc in Ei as [Ei|[-> ->]]; [|congruence]. rewrite nth_snoc_old in Eq by (rewrite Len; eapply nth_lt, Ei). eauto.
    + destruct Cu as [Cu|(c' & E1 & E2 & E3)]; [auto|]. right. exists c'. rewrite nth_snoc_old by (eapply nth_lt, E1). rewrite nth_snoc_old by (eapply nth_lt, E3). auto.
    + intros i c0 o0 Li Ei B0 Eq. apply nth_error_snoc in Ei as [Ei|[-> ->]]; [|congruence]. rewrite nth_snoc_old in Eq by (rewrite Len; eapply nth_lt, Ei). eauto.
Qed.
Lemma held_go : forall lo i0 ms j, held lo i0 ms -> held lo i0 (ms ++ [QGo j]).
Proof.
  intros lo i0 ms j Hd. pose proof Hd as (cur & p & Iv & Dn & Cu & Sd).
  assert (Ec : mcalls_of (ms ++ [QGo j]) = mcalls_of ms) by (rewrite mcalls_app; cbn; apply app_nil_r). pose proof (run_len secure ms) as Len.
  unfold held. rewrite Ec, mrun_snoc. destruct (nth_error (y_calls (at_ ms)) j) as [q|] eqn:Ej; [|rewrite (mgo_none _ _ Ej); exact Hd].
  rewrite (mgo_at _ _ _ Ej). cbn [y_obj y_calls]. destruct (nth_error (mcalls_of ms) j) as [c|] eqn:Ecj.
  2:{ apply nth_lt in Ej. apply nth_error_None in Ecj. lia. }
  destruct (builds c) eqn:Bc.
  - (* a thread that makes the tree *)
    destruct (Dn _ _ _ Ecj Bc Ej) as [[-> ->]|[o ->]].
    + pose proof (inv_step lo _ _ Iv) as St. destruct (manswer p) as [o|] eqn:Ea.
      { destruct p; try discriminate. cbn [mstep fst snd]. rewrite (upd_id _ _ _ _ Ej). exists cur, (CDone o0). auto. }
      assert (St' : inv lo (fst (mstep (y_obj (at_ ms)) p)) (snd (mstep (y_obj (at_ ms)) p)) /\ fine lo (fst (mstep (y_obj (at_ ms)) p)) (snd (mstep (y_obj (at_ ms)) p)))
        by (destruct p; try discriminate; exact St). clear St. destruct St' as [I1 F1].
      exists cur, (snd (mstep (y_obj (at_ ms)) p)). split; [exact I1|]. split; [|split].
      * intros i c0 q Ei B0 Eq. destruct (Nat.eq_dec i cur) as [->|N].
        -- rewrite (upd_same _ _ _ _ _ Ej) in Eq. injection Eq as <-. auto.
        -- rewrite (upd_other _ _ _ _ _ _ Ej N) in Eq. destruct (Dn _ _ _ Ei B0 Eq) as [[X _]|X]; [contradiction|auto].
      * right. exists c. rewrite (upd_same _ _ _ _ _ Ej). auto.
      * intros i c0 o0 Li Ei B0 Eq. destruct (Nat.eq_dec i cur) as [->|N].
        -- rewrite (upd_same _ _ _ _ _ Ej) in Eq. injection Eq as Eq. rewrite Eq in F1. exact F1.
        -- rewrite (upd_other _ _ _ _ _ _ Ej N) in Eq. pose proof (Sd _ _ _ Li Ei B0 Eq) as Z0. rewrite mstep_leaves. destruct p; cbn [app]; rewrite ?app_nil_r; try exact Z0.
           apply sound_more, Z0.
    + cbn [mstep fst snd]. rewrite (upd_id _ _ _ _ Ej). exact Hd.
  - (* another one *)
    destruct (plain_step (y_obj (at_ ms)) q (plain_run _ _ _ _ Ecj Ej Bc)) as [Ob _].
    assert (Oth : forall i c0, nth_error (mcalls_of ms) i = Some c0 -> builds c0 = true -> i <> j) by (intros i c0 E B0 ->; congruence).
    exists cur, p. split; [|split; [|split]].
    + destruct Ob as [->|[x ->]]; [exact Iv|]. apply inv_more, Iv.
    + intros i c0 q0 Ei B0 Eq. rewrite (upd_other _ _ _ _ _ _ Ej (Oth _ _ Ei B0)) in Eq. eauto.
    + destruct Cu as [Cu|(c' & E1 & E2 & E3)]; [auto|]. right. exists c'. rewrite (upd_other _ _ _ _ _ _ Ej (Oth _ _ E1 E2)). auto.
    + intros i c0 o Li Ei B0 Eq. rewrite (upd_other _ _ _ _ _ _ Ej (Oth _ _ Ei B0)) in Eq. pose proof (Sd _ _ _ Li Ei B0 Eq) as Z0. destruct Ob as [->|[x ->]]; [exact Z0|]. apply sound_more, Z0.
Qed.
Lemma held_new : held 0 0 [].
Proof.
  exists 0, (CDone (YUnit (Ok tt))). split; [split; [cbn; lia|left; split; reflexivity]|]. split; [|split].
  - intros [|i]; discriminate.
  - left. eauto.
  - intros [|i]; discriminate.
Qed.
Lemma held_more : forall lo i0 m2 m1, held lo i0 m1 -> apart secure builds (m1 ++ m2) -> held lo i0 (m1 ++ m2).
Proof.
  intros lo i0 m2. induction m2 as [|m m2 IH] using rev_ind; intros m1 Hd Ap; [rewrite app_nil_r; exact Hd|]. rewrite app_assoc in *. pose proof (apart_init _ _ _ _ Ap) as Ap'.
  specialize (IH m1 Hd Ap'). destruct m as [c|j]; [apply held_call|apply held_go]; auto.
Qed.
Lemma held_run : forall ms, apart secure builds ms -> held 0 0 ms.
Proof. intros ms Ap. apply (held_more 0 0 ms [] held_new Ap). Qed.

(** As long as no call looks above the leaves. *)
Lemma untouched : forall ms, (forall i c, nth_error (mcalls_of ms) i = Some c -> builds c = false) -> t_ready (y_obj (at_ ms)) = false /\ t_upper (y_obj (at_ ms)) = None.
Proof.
  intros ms. induction ms as [|m ms IH] using rev_ind; intros No; [split; reflexivity|]. rewrite mcalls_app in No.
  assert (No' : forall i c, nth_error (mcalls_of ms) i = Some c -> builds c = false).
  { intros i c E. apply (No i). rewrite nth_error_app1 by (eapply nth_lt, E). exact E. }
  destruct (IH No') as [A B]. rewrite mrun_snoc. destruct m as [c|j]; [split; assumption|]. destruct (nth_error (y_calls (at_ ms)) j) as [q|] eqn:Ej; [|rewrite (mgo_none _ _ Ej); auto].
  rewrite (mgo_at _ _ _ Ej). cbn [y_obj]. destruct (nth_error (mcalls_of ms) j) as [c|] eqn:Ec.
  2:{ apply nth_lt in Ej. apply nth_error_None in Ec. rewrite run_len in Ej. lia. }
  destruct (plain_step (y_obj (at_ ms)) q (plain_run _ _ _ _ Ec Ej (No' _ _ Ec))) as [[->|[x ->]] _]; auto.
Qed.
(** The tree is made anew from here on. *)
Definition afresh (m1 : list mmove) (c : mtcmd) : Prop := c = QMake \/ (c = QRoot /\ forall i c', nth_error (mcalls_of m1) i = Some c' -> builds c' = false).
Lemma held_afresh : forall m1 c, apart secure builds (m1 ++ [QCall c]) -> afresh m1 c -> held (length (t_leaves (y_obj (at_ m1)))) (length (mcalls_of m1)) (m1 ++ [QCall c]).
Proof.
  intros m1 c Ap Af. assert (Bc : builds c = true) by (destruct Af as [->|[-> _]]; reflexivity). pose proof (run_len secure m1) as Len.
  destruct (held_run m1 (apart_init _ _ _ _ Ap)) as (cur & p & Iv & Dn & Cu & _).
  assert (Pd : exists o, p = CDone o).
  { destruct Cu as [Cu|(c' & E1 & E2 & E3)]; [exact Cu|]. pose proof (Ap m1 [] c cur c' eq_refl Bc E1 E2) as A. unfold manswer_of in A. rewrite E3 in A. destruct p; cbn [manswer] in A; try contradiction. eauto. }
  destruct Pd as [o ->]. destruct Iv as [_ R].
  assert (Cond : c = QMake /\ done_with 0 (y_obj (at_ m1)) \/ rest (length (t_leaves (y_obj (at_ m1)))) (y_obj (at_ m1))).
  { destruct Af as [->|[-> No]]; [left; split; [reflexivity|eapply rest_done, R]|]. right. left. apply untouched, No. }
  destruct (inv_call _ _ c (le_n _) Bc Cond) as [I1 F1].
  assert (Ec : mcalls_of (m1 ++ [QCall c]) = mcalls_of m1 ++ [c]) by (rewrite mcalls_app; reflexivity).
  unfold held. rewrite Ec, mrun_snoc. cbn [mgo y_obj y_calls]. rewrite run_secure. exists (length (mcalls_of m1)), (mcall secure c). split; [exact I1|]. split; [|split].
  - intros i c0 q Ei B0 Eq. apply nth_error_snoc in Ei as [Ei|[-> ->]].
    + right. rewrite nth_snoc_old in Eq by (rewrite Len; eapply nth_lt, Ei). destruct (Dn _ _ _ Ei B0 Eq) as [[_ ->]|X]; eauto.
    + rewrite <- Len, nth_snoc_new in Eq. injection Eq as <-. left. auto.
  - right. exists c. rewrite nth_snoc_new. rewrite <- Len, nth_snoc_new. auto.
  - intros i c0 o0 Li Ei B0 Eq. apply nth_error_snoc in Ei as [Ei|[-> ->]]; [apply nth_lt in Ei; lia|].
    rewrite <- Len, nth_snoc_new in Eq. injection Eq as Eq. rewrite Eq in F1. exact F1.
Qed.

(** ** The answers *)
Lemma leaves_len : forall ms, length (t_leaves (y_obj (at_ ms))) = length (placed [] ms).
Proof. intros ms. rewrite (puts_kept secure). apply map_length. Qed.
Theorem one_maker : forall m1 c m2 i c' o, let ms := m1 ++ QCall c :: m2 in apart secure builds ms -> afresh m1 c -> length (mcalls_of m1) <= i ->
  nth_error (mcalls_of ms) i = Some c' -> manswer_of (at_ ms) i = Some o ->
  match c', o with
  | QRoot, YBytes (Ok r) => exists n l, length (placed [] m1) <= n /\ 1 <= n /\ length l = n /\ snapshot (leaves_of secure (placed [] ms)) n l /\ r = to_hex (merkle_root l)
  | QRoot, YBytes (Err e) => e = ValueError /\ placed [] m1 = []
  | QPoi _ _, YProof (Ok p) => exists n l, length (placed [] m1) <= n /\ 1 <= n /\ length l = n /\ snapshot (leaves_of secure (placed [] ms)) n l /\ pf_root p = to_hex (merkle_root l)
  | _, _ => True
  end.
Proof.
  intros m1 c m2 i c' o ms Ap Af L Ei Ea.
  assert (Es : ms = (m1 ++ [QCall c]) ++ m2) by (unfold ms; rewrite <- app_assoc; reflexivity).
  assert (Ap1 : apart secure builds (m1 ++ [QCall c])).
  { intros a b c1 k c2 E. apply (Ap a (b ++ m2)). rewrite Es, E, <- app_assoc. reflexivity. }
  assert (Hd : held (length (t_leaves (y_obj (at_ m1)))) (length (mcalls_of m1)) ms).
  { rewrite Es. apply held_more; [apply held_afresh; auto|]. rewrite <- Es. exact Ap. }
  destruct Hd as (_ & _ & _ & _ & _ & Sd). unfold manswer_of in Ea. destruct (nth_error (y_calls (at_ ms)) i) as [q|] eqn:Eq; [|discriminate]. destruct q; try discriminate. injection Ea as ->.
  rewrite (puts_kept secure ms) in Sd. rewrite leaves_len in Sd. specialize (Sd i c' o L Ei).
  destruct c' as [v| |x| | |tm k|p]; try exact I.
  - specialize (Sd eq_refl Eq). destruct o as [r|n|[r|e]|r|r]; try exact I; cbn [sound answered] in Sd.
    + destruct Sd as (n & l & A1 & A2 & A3 & A4 & A5). exists n, l. auto.
    + destruct Sd as [-> E]. split; [reflexivity|]. destruct (placed [] m1); [reflexivity|discriminate].
  - specialize (Sd eq_refl Eq). destruct o as [r|n|r|[r|e]|r]; try exact I; cbn [sound answered] in Sd.
    destruct Sd as (n & l & A1 & A2 & A3 & A4 & A5). exists n, l. auto.
Qed.
(** No value came between. *)
Lemma snapshot_all : forall ls n l, length ls <= n -> length l = n -> snapshot ls n l -> l = ls.
Proof.
  intros ls n l L Ll [[L2 ->]|(O & j & x & Lj & E & ->)].
  - rewrite firstn_all2 by exact L. reflexivity.
  - apply nth_lt in E. lia.
Qed.
End S.
