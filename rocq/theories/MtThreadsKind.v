(** What kind of answer a call gives, in every schedule; and with one thread making the tree. *)
From Coq Require Import List Bool Arith NArith ZArith Lia.
From Verif Require Import Base BaseProofs ProofObj MptEq MerkleTree SpecMt MtProofs ThreadsPool EThreadsRun MtThreads SpecMtThreads MtThreadsRun MtThreadsSerial MtThreadsBuild MtThreadsOne.
Import ListNotations.

Section S.
Context {H : Hash}.
Variable secure : bool.
Notation at_ ms := (mrun (mpool_new secure) ms).

Definition okind (c : mtcmd) (o : mtout) : bool :=
  match c, o with
  | QPut _, YUnit _ | QMake, YUnit _ | QCount, YCount _ | QLeaf _, YBytes _ | QRoot, YBytes _ | QPoi _ _, YProof _ | QVerify _, YBool _ => true
  | _, _ => false
  end.
Definition wkind (c : mtcmd) (w : want) : bool := match c, w with QRoot, WRoot | QPoi _ _, WProof _ _ _ | QVerify _, WVerify _ => true | _, _ => false end.
Definition akind (c : mtcmd) (a : after) : bool := match a with Some w => wkind c w | None => match c with QMake => true | _ => false end end.
Definition pkind (c : mtcmd) (p : mpc) : bool :=
  match p with
  | CDone o => okind c o
  | CPut _ => match c with QPut _ => true | _ => false end
  | CCount => match c with QCount => true | _ => false end
  | CLeaf _ => match c with QLeaf _ => true | _ => false end
  | CBegin a | CAny a | CBase a | CWhile a | CWhile2 a _ | CLen a | CLen2 a _ | CSolo a _ | CSolo2 a _ _ | CFst a _ _ | CFst2 a _ _ _
  | CSnd a _ _ _ | CSnd2 a _ _ _ _ | CPush a _ | CPush2 a _ _ | CEnd a => akind c a
  | CReady w | CCheck w | CCheck2 w | CTop w | CTop2 w _ => wkind c w
  | _ => match c with QPoi _ _ => true | _ => false end
  end.
Lemma told_kind : forall c w r, wkind c w = true -> okind c (told w r) = true.
Proof. intros c w r E. destruct c, w; try discriminate; reflexivity. Qed.
Lemma failed_kind : forall c a e, akind c a = true -> okind c (failed a e) = true.
Proof. intros c [w|] e E; [apply told_kind, E|]. destruct c; try discriminate; reflexivity. Qed.
Lemma loop_kind : forall tm k i x pr c, (match c with QPoi _ _ => true | _ => false end) = true -> pkind c (loop tm k i x pr) = true.
Proof. intros tm k i [|x] pr c E; destruct c; try discriminate; reflexivity. Qed.
Lemma pkind_step : forall c t p, pkind c p = true -> pkind c (snd (mstep t p)) = true.
Proof.
  intros c t p E.
  destruct p; cbn [mstep snd pkind] in *; try exact E; unfold with_levels;
    try (destruct (t_upper t) as [v|]; [|apply failed_kind; exact E]); cbn [pkind]; try exact E.
  - destruct c; try discriminate; reflexivity.
  - destruct c; try discriminate; reflexivity.
  - destruct (0 <? _); exact E.
  - destruct (1 <? _); exact E.
  - cbv zeta. destruct (Nat.odd _); exact E.
  - destruct (rev _); [apply failed_kind|]; exact E.
  - destruct a as [w|]; cbn [next pkind]; [exact E|]. destruct c; try discriminate; reflexivity.
  - destruct (t_ready t); exact E.
  - destruct (t_ready t); [exact E|]. apply told_kind, E.
  - destruct (t_upper t); [exact E|]. apply told_kind, E.
  - destruct (t_upper t); [exact E|]. apply told_kind, E.
  - apply told_kind, E.
  - destruct (index_of _ _); [exact E|]. destruct c; try discriminate; reflexivity.
  - destruct (t_upper t); [exact E|]. destruct c; try discriminate; reflexivity.
  - destruct (t_ready t); [exact E|]. destruct c; try discriminate; reflexivity.
  - destruct (t_upper t); [apply loop_kind, E|]. destruct c; try discriminate; reflexivity.
  - destruct (t_upper t) as [v|]; [destruct (entry v x); [exact E|]|]; destruct c; try discriminate; reflexivity.
  - cbv zeta. destruct (_ && _); [apply loop_kind, E|exact E].
  - destruct (t_upper t) as [v|]; [destruct (entry v x); [exact E|]|]; destruct c; try discriminate; reflexivity.
  - destruct (nth_error _ _); [apply loop_kind, E|]. destruct c; try discriminate; reflexivity.
Qed.
Lemma pkind_call : forall c, pkind c (mcall secure c) = true.
Proof.
  intros c. destruct c as [[b|]| |i| | |tm [k|]|p]; try reflexivity. cbn [mcall]. destruct (mapM _ _); [|reflexivity]. destruct (decode_str _); [|reflexivity].
  destruct (from_hex _); [|reflexivity]. destruct (tools_verify _ _ _) as [[|]|]; reflexivity.
Qed.
Lemma pkind_run : forall ms i c p, nth_error (mcalls_of ms) i = Some c -> nth_error (y_calls (at_ ms)) i = Some p -> pkind c p = true.
Proof.
  intros ms. induction ms as [|m ms IH] using rev_ind; intros i c p Ec Ep; [destruct i; discriminate|]. rewrite mcalls_app in Ec. rewrite mrun_snoc in Ep. destruct m as [c'|j].
  - cbn [mgo y_calls mcalls_of flat_map app] in *. fold (mcalls_of ms) in *. apply nth_error_snoc in Ec as [Ec|[-> ->]].
    + rewrite nth_snoc_old in Ep by (rewrite run_len; eapply nth_lt, Ec). eauto.
    + rewrite <- (run_len secure), nth_snoc_new, run_secure in Ep. injection Ep as <-. apply pkind_call.
  - cbn [mcalls_of flat_map] in Ec. rewrite app_nil_r in Ec. fold (mcalls_of ms) in Ec. destruct (nth_error (y_calls (at_ ms)) j) as [q|] eqn:Ej.
    2:{ rewrite (mgo_none _ _ Ej) in Ep. eauto. }
    rewrite (mgo_at _ _ _ Ej) in Ep. cbn [y_calls] in Ep. destruct (Nat.eq_dec i j) as [->|N].
    + rewrite (upd_same _ _ _ _ _ Ej) in Ep. injection Ep as <-. apply pkind_step. eauto.
    + rewrite (upd_other _ _ _ _ _ _ Ej N) in Ep. eauto.
Qed.
Theorem answer_kind : forall ms i c o, nth_error (mcalls_of ms) i = Some c -> manswer_of (at_ ms) i = Some o -> okind c o = true.
Proof.
  intros ms i c o Ec Ea. unfold manswer_of in Ea. destruct (nth_error (y_calls (at_ ms)) i) as [p|] eqn:Ep; [|discriminate]. pose proof (pkind_run _ _ _ _ Ec Ep) as P.
  destruct p; try discriminate. injection Ea as ->. exact P.
Qed.

(** The root with one thread making the tree. *)
Theorem root_while_putting : forall m1 c m2 i o, let ms := m1 ++ QCall c :: m2 in apart secure builds ms ->
  c = QMake \/ (c = QRoot /\ forall c', In c' (mcalls_of m1) -> builds c' = false) -> length (mcalls_of m1) <= i ->
  nth_error (mcalls_of ms) i = Some QRoot -> manswer_of (at_ ms) i = Some o ->
  (placed [] m1 = [] /\ o = YBytes (Err ValueError)) \/
  exists n l, length (placed [] m1) <= n /\ 1 <= n /\ length l = n /\ snapshot (leaves_of secure (placed [] ms)) n l /\ o = YBytes (Ok (to_hex (merkle_root l))).
Proof.
  intros m1 c m2 i o ms Ap Af L Ei Ea.
  assert (Af' : afresh m1 c) by (destruct Af as [->|[-> No]]; [left; reflexivity|right; split; [reflexivity|]; intros j c' E; eapply No, nth_error_In, E]).
  pose proof (one_maker secure m1 c m2 i QRoot o Ap Af' L Ei Ea) as X. pose proof (answer_kind _ _ _ _ Ei Ea) as K. destruct o as [r|n|[r|e]|r|r]; try discriminate; cbn in X.
  - right. destruct X as (n & l & A1 & A2 & A3 & A4 & ->). exists n, l. auto.
  - left. destruct X as [-> X]. auto.
Qed.
Theorem root_quiet : forall m1 c m2 i o, let ms := m1 ++ QCall c :: m2 in apart secure builds ms ->
  c = QMake \/ (c = QRoot /\ forall c', In c' (mcalls_of m1) -> builds c' = false) -> length (mcalls_of m1) <= i ->
  nth_error (mcalls_of ms) i = Some QRoot -> manswer_of (at_ ms) i = Some o -> placed [] ms = placed [] m1 -> placed [] m1 <> [] ->
  o = YBytes (Ok (to_hex (merkle_root (leaves_of secure (placed [] m1))))).
Proof.
  intros m1 c m2 i o ms Ap Af L Ei Ea Q Ne. destruct (root_while_putting m1 c m2 i o Ap Af L Ei Ea) as [[E _]|(n & l & A1 & A2 & A3 & A4 & ->)]; [contradiction|].
  do 4 f_equal. rewrite <- Q. apply (snapshot_all _ n); [|exact A3|exact A4]. unfold leaves_of. rewrite map_length. fold ms. rewrite Q. exact A1.
Qed.
(** Every root is one of leaves that were put. *)
Theorem root_always : forall ms i o, apart secure builds ms -> nth_error (mcalls_of ms) i = Some QRoot -> manswer_of (at_ ms) i = Some o ->
  o = YBytes (Err ValueError) \/ exists n l, 1 <= n /\ length l = n /\ snapshot (leaves_of secure (placed [] ms)) n l /\ o = YBytes (Ok (to_hex (merkle_root l))).
Proof.
  intros ms i o Ap Ei Ea. pose proof (answer_kind _ _ _ _ Ei Ea) as K. destruct (held_run secure ms Ap) as (_ & _ & _ & _ & _ & Sd). unfold manswer_of in Ea.
  destruct (nth_error (y_calls (at_ ms)) i) as [q|] eqn:Eq; [|discriminate]. destruct q; try discriminate. injection Ea as ->.
  specialize (Sd i QRoot o (Nat.le_0_l _) Ei eq_refl Eq). rewrite (puts_kept secure ms) in Sd. destruct o as [r|n|[r|e]|r|r]; try discriminate; cbn [sound answered] in Sd.
  - right. destruct Sd as (n & l & A1 & A2 & A3 & A4 & ->). exists n, l. auto.
  - left. destruct Sd as [-> _]. reflexivity.
Qed.
End S.
