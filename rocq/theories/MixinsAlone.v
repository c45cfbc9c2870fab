(** pop and setdefault when no other thread has a turn. *)
From Coq Require Import List Bool Arith NArith ZArith Lia.
From Verif Require Import Base BaseProofs Rlp NibblePath Node ProofObj Mpt StoreProofs Spec SpecEmpt Empt MptProofs EmptProofs SpecEvery MptPy SpecMptEvery Threads SpecThreads ThreadsSeq ThreadsPool
  ThreadsAlone ThreadsSerial ThreadsRace EThreads SpecEThreads EThreadsRun EThreadsSerial EThreadsAlone EThreadsTrace EThreadsRead SpecETally ETallyProofs Mixins SpecMixins MixinsProofs MixinsMain MixinsTorn MixinsEnds.
Import ListNotations.

Section S.
Context {H : Hash}.
Variable secure : bool.
Hypothesis keccak_len : forall b, length (keccak b) = 32.
Notation start := (bench_new secure).
Notation after bs := (brun secure start bs).
Notation eafter ms := (erun secure (epool_new secure) ms).
Notation btrace := (btrace secure).

Lemma b_resume2 : forall bs j lim c st i cmd, nth_error (b_calls (after bs)) j = Some (lim, c, st) -> mturn st = [EGo i] -> num st = i ->
  nth_error (x_calls (eafter (btrace bs))) i = Some (e_call lim cmd) -> 0 < lim ->
  let r := esingle lim (eobject secure (eafter (btrace bs))) cmd in
  exists m, let T := btrace bs ++ repeat (EGo i) m in eanswer_of (eafter T) i = Some (fst r) /\ eobject secure (eafter T) = snd r /\
    btrace (bs ++ repeat (BGo j) m) = T ++ fst (mnext lim c (eafter T) st) /\
    nth_error (b_calls (after (bs ++ repeat (BGo j) m))) j = Some (lim, c, snd (mnext lim c (eafter T) st)).
Proof.
  intros bs j lim c st i cmd Ej Mt Nu Ei Ll r. destruct (eanswer (e_call lim cmd)) as [o|] eqn:Ea.
  - exists 1. cbn [repeat]. cbn zeta. destruct (own_step secure _ _ _ _ _ Ej) as [S1 S2]. rewrite Mt in S1, S2. split; [|split; [|auto]].
    + destruct (resume secure keccak_len _ _ _ _ (6 * lim + 14) Ei Ll (le_n _)) as [A _]. assert (Ed : e_call lim cmd = EDone o) by (destruct (e_call lim cmd); cbn in Ea; try discriminate; congruence).
      rewrite Ed in Ei. change [EGo i] with (repeat (EGo i) 1). rewrite erun_app, (idle secure _ _ _ 1 Ei). rewrite erun_app, (idle secure _ _ _ _ Ei) in A. exact A.
    + destruct (resume secure keccak_len _ _ _ _ (6 * lim + 14) Ei Ll (le_n _)) as [_ A]. assert (Ed : e_call lim cmd = EDone o) by (destruct (e_call lim cmd); cbn in Ea; try discriminate; congruence).
      rewrite Ed in Ei. change [EGo i] with (repeat (EGo i) 1). rewrite erun_app, (idle secure _ _ _ 1 Ei). rewrite erun_app, (idle secure _ _ _ _ Ei) in A. exact A.
  - destruct (b_resume secure keccak_len bs j lim c st i cmd Ej Mt Nu Ei Ea Ll) as (m & A & B & D & F). exists m. cbn zeta in *. rewrite F. erewrite upd_same by exact Ej. auto.
Qed.
Lemma b_idle : forall m bs j lim c i r, nth_error (b_calls (after bs)) j = Some (lim, c, SDone i r) -> after (bs ++ repeat (BGo j) m) = after bs.
Proof.
  induction m as [|m IH]; intros bs j lim c i r E; [cbn; rewrite app_nil_r; reflexivity|]. cbn [repeat]. change (BGo j :: repeat (BGo j) m) with ([BGo j] ++ repeat (BGo j) m). rewrite app_assoc.
  assert (X : after (bs ++ [BGo j]) = after bs).
  { rewrite brun_snoc. cbn [bgo]. rewrite E. cbn [mturn mnext]. unfold erun. cbn [fold_left]. pose proof (upd_id _ _ _ _ E) as U. destruct (after bs) as [p cs]. cbn [b_pool b_calls] in *. f_equal. exact U. }
  rewrite (IH _ _ lim c i r); [exact X|]. rewrite X. exact E.
Qed.
Theorem mixin_alone : forall bs lim c m, 0 < lim -> 12 * lim + 28 <= m ->
  let j := length (bcalls bs) in let w := after (bs ++ BCall lim c :: repeat (BGo j) m) in
  let r := mixin_single lim (eobject secure (b_pool (after bs))) c in banswer_of w j = Some (fst r) /\ eobject secure (b_pool w) = snd r.
Proof.
  intros bs lim c m Ll Lm j w r. set (e := eobject secure (b_pool (after bs))) in *.
  assert (Ex : exists m0 i, nth_error (b_calls (after (bs ++ BCall lim c :: repeat (BGo j) m0))) j = Some (lim, c, SDone i (fst r)) /\ eobject secure (b_pool (after (bs ++ BCall lim c :: repeat (BGo j) m0))) = snd r).
  { destruct (b_start secure keccak_len bs lim c Ll) as (m1 & A1 & A2 & A3 & A4). cbn zeta in *. fold j in A3, A4. set (i := length (ecalls_of (btrace bs))) in *. rewrite <- bench_pool in A1, A2. fold e in A1, A2.
    set (T1 := btrace bs ++ ECall lim (XGet (mkey c)) :: repeat (EGo i) m1) in *. set (bs1 := bs ++ BCall lim c :: repeat (BGo j) m1) in *.
    assert (Q : nth_error (b_calls (after bs1)) j = Some (lim, c, snd (mnext lim c (eafter T1) (SGet i)))) by (rewrite A4; unfold j; rewrite (bcalls_len secure); apply nth_snoc_new).
    assert (N : length (x_calls (eafter T1)) = S i) by (unfold T1; rewrite num_calls; reflexivity).
    assert (Stop : forall y, mnext lim c (eafter T1) (SGet i) = ([], SDone i y) -> r = (y, e) ->
      exists m0 i0, nth_error (b_calls (after (bs ++ BCall lim c :: repeat (BGo j) m0))) j = Some (lim, c, SDone i0 (fst r)) /\ eobject secure (b_pool (after (bs ++ BCall lim c :: repeat (BGo j) m0))) = snd r).
    { intros y E1 E2. exists m1, i. fold bs1. rewrite E2. cbn [fst snd]. rewrite E1 in Q, A3. cbn [fst snd] in Q, A3. rewrite app_nil_r in A3. split; [exact Q|]. rewrite bench_pool, A3. exact A2. }
    assert (Go : forall st cmd, mnext lim c (eafter T1) (SGet i) = ([ECall lim cmd], st) -> mturn st = [EGo (S i)] -> num st = S i ->
      (forall w, eanswer_of w (S i) = Some (fst (esingle lim e cmd)) -> mnext lim c w st = ([], SDone (S i) (fst r))) -> snd (esingle lim e cmd) = snd r ->
      exists m0 i0, nth_error (b_calls (after (bs ++ BCall lim c :: repeat (BGo j) m0))) j = Some (lim, c, SDone i0 (fst r)) /\ eobject secure (b_pool (after (bs ++ BCall lim c :: repeat (BGo j) m0))) = snd r).
    { intros st cmd E1 Mt Nu Fin Eo. rewrite E1 in Q, A3. cbn [fst snd] in Q, A3.
      assert (Ei : nth_error (x_calls (eafter (btrace bs1))) (S i) = Some (e_call lim cmd)) by (rewrite A3, erun_snoc; cbn [ego x_calls]; rewrite <- N; apply nth_snoc_new).
      assert (Ob : eobject secure (eafter (btrace bs1)) = e) by (rewrite A3, erun_snoc; exact A2).
      destruct (b_resume2 bs1 j lim c st (S i) cmd Q Mt Nu Ei Ll) as (m2 & B1 & B2 & B3 & B4). cbn zeta in *. rewrite Ob in B1, B2. rewrite (Fin _ B1) in B3, B4. cbn [fst snd] in B3, B4. rewrite app_nil_r in B3.
      exists (m1 + m2), (S i). assert (X : bs ++ BCall lim c :: repeat (BGo j) (m1 + m2) = bs1 ++ repeat (BGo j) m2) by (unfold bs1; rewrite repeat_app, <- app_assoc; reflexivity).
      rewrite X. split; [exact B4|]. rewrite bench_pool, B3, B2. exact Eo. }
    destruct c as [k dflt|k d]; cbn [mkey mixin_single] in *; cbn [mnext] in Stop, Go; rewrite A1, N in Stop, Go.
    - unfold r, empt_pop in *. destruct (empt_get lim e k) as [v|x] eqn:G.
      + eapply Go; [reflexivity|reflexivity|reflexivity| |].
        * intros w0 Ew. cbn [mnext esingle] in *. destruct (empt_delete lim false false [] e k) as [[u|y] e']; cbn [fst] in Ew |- *; rewrite Ew; reflexivity.
        * cbn [esingle]. destruct (empt_delete lim false false [] e k) as [[u|y] e']; reflexivity.
      + destruct x; try (eapply Stop; reflexivity); destruct dflt; eapply Stop; reflexivity.
    - unfold r, empt_setdefault in *. destruct (empt_get lim e k) as [v|x] eqn:G; [eapply Stop; reflexivity|]. destruct x; try (eapply Stop; reflexivity).
      eapply Go; [reflexivity|reflexivity|reflexivity| |].
      + intros w0 Ew. cbn [mnext esingle] in *. destruct (empt_update lim [] false e k d) as [[u|y] e']; cbn [fst] in Ew |- *; rewrite Ew; reflexivity.
      + cbn [esingle]. destruct (empt_update lim [] false e k d) as [[u|y] e']; reflexivity. }
  destruct Ex as (m0 & i & E1 & E2). assert (An : banswer_of w j <> None).
  { apply (mixins_end secure keccak_len). assert (X : forall n, bturns j (repeat (BGo j) n) = n).
    { induction n as [|n IHn]; [reflexivity|]. cbn [repeat]. unfold bturns in *. cbn [filter]. rewrite Nat.eqb_refl. cbn [length]. rewrite IHn. reflexivity. }
    fold j. rewrite X. exact Lm. }
  assert (Wx : w = after (bs ++ BCall lim c :: repeat (BGo j) m0)).
  { destruct (le_ge_dec m0 m) as [L|L].
    - unfold w. replace m with (m0 + (m - m0)) by lia. rewrite repeat_app. change (bs ++ BCall lim c :: repeat (BGo j) m0 ++ repeat (BGo j) (m - m0)) with (bs ++ (BCall lim c :: repeat (BGo j) m0) ++ repeat (BGo j) (m - m0)).
      rewrite app_assoc. eapply b_idle, E1.
    - unfold w in *. unfold banswer_of in An. destruct (nth_error (b_calls (after (bs ++ BCall lim c :: repeat (BGo j) m))) j) as [[[l1 c1] st]|] eqn:E3; [|contradiction]. destruct st; try contradiction.
      replace m0 with (m + (m0 - m)) by lia. rewrite repeat_app. change (bs ++ BCall lim c :: repeat (BGo j) m ++ repeat (BGo j) (m0 - m)) with (bs ++ (BCall lim c :: repeat (BGo j) m) ++ repeat (BGo j) (m0 - m)).
      rewrite app_assoc. symmetry. eapply b_idle, E3. }
  rewrite Wx. unfold banswer_of. rewrite E1. split; [reflexivity|exact E2].
Qed.
End S.
