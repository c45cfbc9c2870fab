(** pop and setdefault end, whatever other threads do. *)
From Coq Require Import List Bool Arith NArith ZArith Lia.
From Verif Require Import Base BaseProofs Rlp NibblePath Node ProofObj Mpt StoreProofs Spec SpecEmpt Empt MptProofs EmptProofs SpecEvery MptPy SpecMptEvery Threads SpecThreads ThreadsSeq ThreadsPool
  ThreadsAlone ThreadsSerial ThreadsRace EThreads SpecEThreads EThreadsRun EThreadsSerial EThreadsAlone EThreadsTrace EThreadsRead SpecETally ETallyProofs Mixins SpecMixins MixinsProofs MixinsMain MixinsTorn.
Import ListNotations.

Section S.
Context {H : Hash}.
Variable secure : bool.
Hypothesis keccak_len : forall b, length (keccak b) = 32.
Notation start := (bench_new secure).
Notation after bs := (brun secure start bs).
Notation eafter ms := (erun secure (epool_new secure) ms).
Notation btrace := (btrace secure).

(** The call [i] has ended after [n] more turns. *)
Definition due (n i : nat) (T : list emove) : Prop := forall T2, n <= eturns i T2 -> eanswer_of (eafter (T ++ T2)) i <> None.
Lemma eturns_app : forall i a b, eturns i (a ++ b) = eturns i a + eturns i b.
Proof. intros i a b. unfold eturns. rewrite filter_app, app_length. reflexivity. Qed.
Lemma due_more : forall n i T T1, due n i T -> due n i (T ++ T1).
Proof. intros n i T T1 D T2 L. rewrite <- app_assoc. apply D. rewrite eturns_app. lia. Qed.
Lemma due_turn : forall n i T, due (S n) i T -> due n i (T ++ [EGo i]).
Proof. intros n i T D T2 L. rewrite <- app_assoc. apply D. rewrite eturns_app. unfold eturns at 1. cbn [filter]. rewrite Nat.eqb_refl. cbn [length]. lia. Qed.
Lemma due_new : forall T lim c, due (6 * lim + 14) (length (ecalls_of T)) (T ++ [ECall lim c]).
Proof. intros T lim c T2 L. rewrite <- app_assoc. cbn [app]. apply eanswers; [exact keccak_len|exact L]. Qed.

Lemma own_step : forall bs j lim c st, nth_error (b_calls (after bs)) j = Some (lim, c, st) ->
  let T := btrace bs ++ mturn st in
  btrace (bs ++ [BGo j]) = T ++ fst (mnext lim c (eafter T) st) /\ nth_error (b_calls (after (bs ++ [BGo j]))) j = Some (lim, c, snd (mnext lim c (eafter T) st)).
Proof.
  intros bs j lim c st E T. split.
  - rewrite btrace_snoc. unfold step_trace. cbn [btrace_from]. rewrite app_nil_r, E, bench_pool, <- erun_app, app_assoc. reflexivity.
  - rewrite brun_snoc. cbn [bgo]. rewrite E, bench_pool, <- erun_app. fold T. destruct (mnext lim c (eafter T) st) as [ms st']. cbn [b_calls snd]. eapply upd_same, E.
Qed.
Lemma other_step : forall bs j x m, nth_error (b_calls (after bs)) j = Some x -> m <> BGo j -> nth_error (b_calls (after (bs ++ [m]))) j = Some x.
Proof.
  intros bs j x m E Ne. rewrite brun_snoc. destruct m as [m|lim c|q]; cbn [bgo b_calls]; [exact E|rewrite nth_snoc_old; [exact E|eapply nth_lt, E]|].
  destruct (nth_error (b_calls (after bs)) q) as [[[lim c] st]|] eqn:Eq; [|exact E]. destruct (mnext lim c _ st) as [ms st']. cbn [b_calls]. rewrite (upd_other _ _ _ _ _ _ Eq); [exact E|congruence].
Qed.
Lemma done_stays : forall b bs j lim c i r, nth_error (b_calls (after bs)) j = Some (lim, c, SDone i r) -> nth_error (b_calls (after (bs ++ b))) j = Some (lim, c, SDone i r).
Proof.
  induction b as [|m b IH] using rev_ind; intros bs j lim c i r E; [rewrite app_nil_r; exact E|]. specialize (IH _ _ _ _ _ _ E). rewrite app_assoc. destruct m as [m|l c'|q]; try (apply other_step; [exact IH|discriminate]).
  destruct (Nat.eq_dec q j) as [->|Ne]; [exact (proj2 (own_step _ _ _ _ _ IH))|]. apply other_step; [exact IH|congruence].
Qed.
Lemma phase : forall b bs j lim c st i n, nth_error (b_calls (after bs)) j = Some (lim, c, st) -> mturn st = [EGo i] -> num st = i -> due n i (btrace bs) -> 0 < n -> n <= bturns j b ->
  exists a b', b = a ++ BGo j :: b' /\ bturns j a < n /\ nth_error (b_calls (after (bs ++ a))) j = Some (lim, c, st) /\ eanswer_of (eafter (btrace (bs ++ a) ++ [EGo i])) i <> None.
Proof.
  induction b as [|m b IH]; intros bs j lim c st i n E Mt Nu D L0 Ln; [cbn in Ln; lia|].
  assert (Q : m = BGo j \/ m <> BGo j) by (destruct m as [m|l c'|q]; try (right; discriminate); destruct (Nat.eq_dec q j) as [->|]; [left; reflexivity|right; congruence]).
  destruct Q as [->|Ne].
  - unfold bturns in Ln. cbn [filter] in Ln. rewrite Nat.eqb_refl in Ln. cbn [length] in Ln. fold (bturns j b) in Ln. destruct (own_step _ _ _ _ _ E) as [S1 S2]. rewrite Mt in S1, S2.
    destruct (eanswer_of (eafter (btrace bs ++ [EGo i])) i) as [o|] eqn:Eo.
    { exists [], b. rewrite app_nil_r, Eo. repeat split; [cbn; lia|exact E|discriminate]. }
    assert (Mn : mnext lim c (eafter (btrace bs ++ [EGo i])) st = ([], st)).
    { destruct st as [i0|i0 v|i0|i0 r]; cbn [mturn num] in *; try discriminate; subst i0; cbn [mnext]; rewrite Eo; reflexivity. }
    rewrite Mn in S1, S2. cbn [fst snd] in S1, S2. rewrite app_nil_r in S1. destruct n as [|n]; [lia|]. apply due_turn in D. destruct n as [|n].
    { exfalso. apply (D []); [lia|]. rewrite app_nil_r. exact Eo. }
    rewrite <- S1 in D. destruct (IH _ _ _ _ _ _ _ S2 Mt Nu D ltac:(lia) ltac:(lia)) as (a & b' & -> & A1 & A2 & A3). exists (BGo j :: a), b'. rewrite <- app_assoc in A2, A3. cbn [app] in A2, A3.
    split; [reflexivity|]. split; [|auto]. unfold bturns in *. cbn [filter]. rewrite Nat.eqb_refl. cbn [length]. lia.
  - assert (X : forall a, bturns j (m :: a) = bturns j a).
    { intros a. unfold bturns. cbn [filter]. destruct m as [m|l c'|q]; try reflexivity. destruct (q =? j) eqn:Eq; [apply Nat.eqb_eq in Eq; congruence|reflexivity]. }
    rewrite X in Ln. pose proof (other_step _ _ _ _ E Ne) as E'. assert (D' : due n i (btrace (bs ++ [m]))) by (rewrite btrace_snoc; apply due_more, D).
    destruct (IH _ _ _ _ _ _ _ E' Mt Nu D' L0 Ln) as (a & b' & -> & A1 & A2 & A3). exists (m :: a), b'. rewrite <- app_assoc in A2, A3. cbn [app] in A2, A3. rewrite X. auto.
Qed.
Theorem mixins_end : forall bs lim c b, 12 * lim + 28 <= bturns (length (bcalls bs)) b -> banswer_of (after (bs ++ BCall lim c :: b)) (length (bcalls bs)) <> None.
Proof.
  intros bs lim c b L. set (j := length (bcalls bs)) in *.
  assert (Done : forall bs b lim c i r, nth_error (b_calls (after bs)) j = Some (lim, c, SDone i r) -> banswer_of (after (bs ++ b)) j <> None).
  { intros bs0 b0 l0 c0 i0 r0 E. unfold banswer_of. rewrite (done_stays _ _ _ _ _ _ _ E). discriminate. }
  assert (E0 : nth_error (b_calls (after (bs ++ [BCall lim c]))) j = Some (lim, c, SGet (length (ecalls_of (btrace bs))))).
  { rewrite brun_snoc. cbn [bgo b_calls]. rewrite bench_pool, (run_calls_len secure). unfold j. rewrite (bcalls_len secure). apply nth_snoc_new. }
  assert (D0 : due (6 * lim + 14) (length (ecalls_of (btrace bs))) (btrace (bs ++ [BCall lim c]))) by (rewrite btrace_snoc; apply due_new).
  destruct (phase b _ _ _ _ _ _ _ E0 eq_refl eq_refl D0 ltac:(lia) ltac:(lia)) as (a & b1 & -> & A1 & A2 & A3). set (i := length (ecalls_of (btrace bs))) in *.
  change (bs ++ BCall lim c :: a ++ BGo j :: b1) with (bs ++ [BCall lim c] ++ a ++ [BGo j] ++ b1). rewrite !app_assoc. set (bs1 := (bs ++ [BCall lim c]) ++ a) in *.
  assert (L1 : 6 * lim + 14 <= bturns j b1).
  { unfold bturns in *. rewrite filter_app, app_length in L. cbn [filter] in L. rewrite Nat.eqb_refl in L. cbn [length] in L. lia. }
  destruct (own_step _ _ _ _ _ A2) as [S1 S2]. cbn [mturn] in S1, S2. destruct (eanswer_of (eafter (btrace bs1 ++ [EGo i])) i) as [o|] eqn:Eo; [clear A3|contradiction]. set (T := btrace bs1 ++ [EGo i]) in *.
  assert (N : length (x_calls (eafter T)) = length (ecalls_of T)) by apply run_calls_len.
  assert (Next : forall st cmd, nth_error (b_calls (after (bs1 ++ [BGo j]))) j = Some (lim, c, st) -> btrace (bs1 ++ [BGo j]) = T ++ [ECall lim cmd] ->
    mturn st = [EGo (length (ecalls_of T))] -> num st = length (ecalls_of T) -> (forall w o, eanswer_of w (length (ecalls_of T)) = Some o -> exists r, snd (mnext lim c w st) = SDone (length (ecalls_of T)) r) ->
    banswer_of (after ((bs1 ++ [BGo j]) ++ b1)) j <> None).
  { intros st cmd Es Et Mt Nu Fin. assert (D1 : due (6 * lim + 14) (length (ecalls_of T)) (btrace (bs1 ++ [BGo j]))) by (rewrite Et; apply due_new).
    destruct (phase b1 _ _ _ _ _ _ _ Es Mt Nu D1 ltac:(lia) ltac:(lia)) as (a2 & b2 & -> & B1 & B2 & B3). destruct (eanswer_of (eafter (btrace ((bs1 ++ [BGo j]) ++ a2) ++ [EGo (length (ecalls_of T))])) _) as [o2|] eqn:Eo2; [|contradiction].
    destruct (own_step _ _ _ _ _ B2) as [_ R2]. rewrite Mt in R2. destruct (Fin _ _ Eo2) as [r Er]. rewrite Er in R2. change (a2 ++ BGo j :: b2) with (a2 ++ [BGo j] ++ b2). rewrite !app_assoc. eapply Done, R2. }
  cbn [mnext] in S1, S2. rewrite Eo, N in S1, S2.
  destruct o as [[v|x]|r|r|r|r|r]; try (eapply Done; exact S2); destruct c as [k dflt|k d]; try (eapply Done; exact S2).
  - eapply Next; [exact S2|exact S1|reflexivity|reflexivity|]. intros w o Ew. cbn [snd mnext]. rewrite Ew. destruct o as [r|r|r|[u|x]|r|r]; cbn [snd]; eauto.
  - destruct x; try (eapply Done; exact S2); destruct dflt; eapply Done; exact S2.
  - destruct x; try (eapply Done; exact S2). eapply Next; [exact S2|exact S1|reflexivity|reflexivity|]. intros w o Ew. cbn [snd mnext]. rewrite Ew. destruct o as [r|r|r|[u|x]|r|r]; cbn [snd]; eauto.
Qed.
End S.
