(** Proofs about Mixins.v. *)
From Coq Require Import List Bool Arith NArith ZArith Lia.
From Verif Require Import Base BaseProofs Rlp NibblePath Node ProofObj Mpt StoreProofs Spec SpecEmpt Empt MptProofs EmptProofs SpecEvery MptPy SpecMptEvery Threads SpecThreads ThreadsSeq ThreadsPool
  ThreadsAlone ThreadsSerial ThreadsRace EThreads SpecEThreads EThreadsRun EThreadsSerial EThreadsAlone EThreadsTrace EThreadsRead SpecETally ETallyProofs Mixins SpecMixins.
Import ListNotations.

Section S.
Context {H : Hash}.
Variable secure : bool.
Notation start := (bench_new secure).
Notation after bs := (brun secure start bs).
Notation eafter ms := (erun secure (epool_new secure) ms).
Notation btrace := (btrace secure).

Lemma brun_snoc : forall bs m, after (bs ++ [m]) = bgo secure (after bs) m.
Proof. intros bs m. unfold brun. rewrite fold_left_app. reflexivity. Qed.
Lemma btrace_from_app : forall a b w, btrace_from secure w (a ++ b) = btrace_from secure w a ++ btrace_from secure (brun secure w a) b.
Proof. induction a as [|m a IH]; intros b w; [reflexivity|]. cbn [app btrace_from]. rewrite IH, app_assoc. reflexivity. Qed.
Definition step_trace (w : bench) (m : bmove) : list emove := btrace_from secure w [m].
Lemma btrace_snoc : forall bs m, btrace (bs ++ [m]) = btrace bs ++ step_trace (after bs) m.
Proof. intros bs m. apply btrace_from_app. Qed.
Lemma erun_app : forall w a b, erun secure w (a ++ b) = erun secure (erun secure w a) b.
Proof. intros w a b. unfold erun. apply fold_left_app. Qed.
Theorem bench_pool : forall bs, b_pool (after bs) = eafter (btrace bs).
Proof.
  intros bs. induction bs as [|m bs IH] using rev_ind; [reflexivity|]. rewrite brun_snoc, btrace_snoc, erun_app, <- IH. unfold step_trace. cbn [btrace_from]. rewrite app_nil_r. destruct m as [m|lim c|j]; cbn [bgo]; try reflexivity.
  destruct (nth_error (b_calls (after bs)) j) as [[[lim c] st]|]; [|reflexivity]. destruct (mnext lim c (erun secure (b_pool (after bs)) (mturn st)) st) as [ms st'] eqn:E. cbn [fst b_pool].
  rewrite erun_app. reflexivity.
Qed.

(** ** What is known of a call *)
Definition num (st : mstate) : nat := match st with SGet i | SDel i _ | SPut i | SDone i _ => i end.
Definition so_far (ms : list emove) (lim : nat) (c : mcmd) (st : mstate) : Prop :=
  num st < length (ecalls_of ms) /\
  match st with
  | SGet i => nth_error (ecalls_of ms) i = Some (lim, XGet (mkey c))
  | SDel i v => (exists k o, c = PPop k o) /\ nth_error (ecalls_of ms) i = Some (lim, XDel (mkey c)) /\ put_before secure ms (mkey c) v
  | SPut i => exists k d, c = PSetdefault k d /\ nth_error (ecalls_of ms) i = Some (lim, XPut k d)
  | SDone i (Ok v) =>
      match c with
      | PPop k o => o = Some v \/ (put_before secure ms k v /\ nth_error (ecalls_of ms) i = Some (lim, XDel k) /\ eanswer_of (eafter ms) i = Some (RNone (Ok tt)))
      | PSetdefault k d => put_before secure ms k v
      end
  | SDone i (Err _) => True
  end.
Lemma answers_stay : forall a b i o, eanswer_of (eafter a) i = Some o -> eanswer_of (eafter (a ++ b)) i = Some o.
Proof. intros a b i o E. apply eanswer_done in E. unfold eanswer_of. rewrite (done_stays secure b a i o E). reflexivity. Qed.
Lemma calls_stay : forall a b i x, nth_error (ecalls_of a) i = Some x -> nth_error (ecalls_of (a ++ b)) i = Some x.
Proof. intros a b i x E. rewrite ecalls_app, nth_error_app1; [exact E|eapply nth_lt, E]. Qed.
Lemma put_stays : forall a b k v, put_before secure a k v -> put_before secure (a ++ b) k v.
Proof. intros a b k v (i & lim & A & B). exists i, lim. split; [apply calls_stay, A|apply answers_stay, B]. Qed.
Lemma so_far_stays : forall a b lim c st, so_far a lim c st -> so_far (a ++ b) lim c st.
Proof.
  intros a b lim c st (L & M). split; [rewrite ecalls_app, app_length; lia|]. destruct st as [i|i v|i|i [v|x]].
  - apply calls_stay, M.
  - destruct M as (K & A & B). split; [exact K|]. split; [apply calls_stay, A|apply put_stays, B].
  - destruct M as (k & d & K & A). exists k, d. split; [exact K|apply calls_stay, A].
  - destruct c; [|apply put_stays, M]. destruct M as [M|(A & B1 & B2)]; [left; exact M|right]. split; [apply put_stays, A|]. split; [apply calls_stay, B1|apply answers_stay, B2].
  - exact I.
Qed.
Lemma got_before : forall ms i lim k v, nth_error (ecalls_of ms) i = Some (lim, XGet k) -> eanswer_of (eafter ms) i = Some (RVal (Ok v)) -> put_before secure ms k v.
Proof. intros ms i lim k v A B. destruct (got_put secure ms i lim k v A B) as (m & e & j & l & (m2 & -> & _) & P & Q). apply put_stays. exists j, l. auto. Qed.
Lemma new_call : forall ms lim c, nth_error (ecalls_of (ms ++ [ECall lim c])) (length (x_calls (eafter ms))) = Some (lim, c).
Proof. intros ms lim c. rewrite (run_calls_len secure), ecalls_app. cbn. apply nth_snoc_new. Qed.
Lemma next_so : forall ms lim c st, so_far ms lim c st -> let r := mnext lim c (eafter ms) st in
  so_far (ms ++ fst r) lim c (snd r) /\ (num (snd r) = num st \/ num (snd r) = length (ecalls_of ms)).
Proof.
  intros ms lim c st (L & M) r. unfold r. clear r.
  assert (Old : forall st', num st' = num st -> so_far (ms ++ []) lim c st' -> so_far (ms ++ fst (@nil emove, st')) lim c (snd (@nil emove, st')) /\ (num (snd (@nil emove, st')) = num st \/ num (snd (@nil emove, st')) = length (ecalls_of ms))) by (cbn; auto).
  destruct st as [i|i v|i|i r]; cbn [mnext num] in *.
  - assert (Er : forall x, so_far (ms ++ []) lim c (SDone i (Err x))) by (intros x; split; [rewrite app_nil_r; exact L|exact I]).
    destruct (eanswer_of (eafter ms) i) as [[[v|x]|r|r|r|r|r]|] eqn:E; try (destruct c; apply Old; auto; fail).
    + destruct c as [k o|k d].
      * cbn [fst snd num]. rewrite (run_calls_len secure). split; [|right; reflexivity]. split; [cbn [num]; rewrite ecalls_app, app_length; cbn; lia|]. split; [eauto|].
        split; [rewrite <- (run_calls_len secure); apply new_call|]. apply put_stays. eapply got_before; eauto.
      * apply Old; [reflexivity|]. split; [rewrite app_nil_r; exact L|]. apply put_stays. eapply got_before; eauto.
    + destruct c as [k o|k d]; [destruct x; try (apply Old; auto; fail); destruct o as [d|]; apply Old; auto; split; [rewrite app_nil_r; exact L|left; reflexivity]|]. destruct x; try (apply Old; auto; fail).
      cbn [fst snd num]. rewrite (run_calls_len secure). split; [|right; reflexivity]. split; [cbn [num]; rewrite ecalls_app, app_length; cbn; lia|]. exists k, d. split; [reflexivity|].
      rewrite <- (run_calls_len secure). apply new_call.
    + apply Old; [reflexivity|]. apply so_far_stays. split; assumption.
  - assert (Er : forall x, so_far (ms ++ []) lim c (SDone i (Err x))) by (intros x; split; [rewrite app_nil_r; exact L|exact I]).
    destruct M as ((k & dflt & ->) & A & B). destruct (eanswer_of (eafter ms) i) as [[r|r|r|[[]|x]|r|r]|] eqn:E; try (apply Old; auto; fail).
    + apply Old; [reflexivity|]. split; [rewrite app_nil_r; exact L|]. right. split; [apply put_stays, B|]. rewrite app_nil_r. auto.
    + apply Old; [reflexivity|]. apply so_far_stays. split; [exact L|]. split; [eauto|auto].
  - assert (Er : forall x, so_far (ms ++ []) lim c (SDone i (Err x))) by (intros x; split; [rewrite app_nil_r; exact L|exact I]).
    destruct M as (k & d & -> & A). destruct (eanswer_of (eafter ms) i) as [[r|r|r|[[]|x]|r|r]|] eqn:E; try (apply Old; auto; fail).
    + apply Old; [reflexivity|]. split; [rewrite app_nil_r; exact L|]. apply put_stays. exists i, lim. auto.
    + apply Old; [reflexivity|]. apply so_far_stays. split; [exact L|]. eauto.
  - cbn [fst snd num]. split; [|left; reflexivity]. apply so_far_stays. split; assumption.
Qed.

Lemma split_nth : forall A (l : list A) i x, nth_error l i = Some x -> l = firstn i l ++ x :: skipn (S i) l.
Proof. intros A l. induction l as [|y l IH]; intros [|i] x E; try discriminate; cbn in *; [congruence|]. f_equal. apply IH, E. Qed.
Lemma NoDup_app_snoc : forall A (l : list A) x, NoDup l -> ~ In x l -> NoDup (l ++ [x]).
Proof. intros A l x N I. apply NoDup_Add with (a := x) (l := l); [|auto]. rewrite <- (app_nil_r l) at 1. apply Add_app. Qed.
Lemma NoDup_insert : forall A (a b : list A) x, NoDup (a ++ b) -> ~ In x (a ++ b) -> NoDup (a ++ x :: b).
Proof. intros A a b x N I. apply NoDup_Add with (a := x) (l := a ++ b); [apply Add_app|auto]. Qed.

Lemma bench_run : forall bs,
  map fst (b_calls (after bs)) = bcalls bs /\
  NoDup (map (fun x => num (snd x)) (b_calls (after bs))) /\
  (forall j lim c st, nth_error (b_calls (after bs)) j = Some (lim, c, st) -> so_far (btrace bs) lim c st).
Proof.
  intros bs. induction bs as [|m bs (I1 & I2 & I3)] using rev_ind.
  { split; [reflexivity|]. split; [constructor|]. intros [|j] lim c st E; discriminate. }
  pose proof (bench_pool bs) as Ep. assert (Bc : bcalls (bs ++ [m]) = bcalls bs ++ match m with BCall lim c => [(lim, c)] | _ => [] end) by (unfold bcalls; rewrite flat_map_app; cbn; now rewrite app_nil_r).
  assert (Small : forall j x, nth_error (b_calls (after bs)) j = Some x -> num (snd x) < length (ecalls_of (btrace bs))) by (intros j [[lim c] st] E; apply (I3 _ _ _ _ E)).
  rewrite brun_snoc, btrace_snoc, Bc. unfold step_trace. cbn [btrace_from]. rewrite app_nil_r. destruct m as [m|lim c|j]; cbn [bgo].
  - cbn [b_calls]. rewrite app_nil_r. split; [exact I1|]. split; [exact I2|]. intros j lim c st E. apply so_far_stays. eauto.
  - cbn [b_calls]. rewrite !map_app, I1. split; [reflexivity|]. rewrite Ep, (run_calls_len secure). split.
    + cbn [map snd num]. apply NoDup_app_snoc; [exact I2|]. intros Hi. apply in_map_iff in Hi as (x & E & Hi). apply In_nth_error in Hi as [j Ej]. specialize (Small _ _ Ej). lia.
    + intros j l' c' st E. apply nth_error_snoc in E as [E|[-> E]]; [apply so_far_stays; eauto|]. injection E as -> -> ->. split; [cbn [num]; rewrite ecalls_app, app_length; cbn; lia|].
      cbn [so_far]. rewrite <- (run_calls_len secure). apply new_call.
  - rewrite app_nil_r. destruct (nth_error (b_calls (after bs)) j) as [[[lim c] st]|] eqn:Ej.
    2:{ rewrite app_nil_r. auto. }
    rewrite Ep. rewrite <- erun_app. destruct (mnext lim c (eafter (btrace bs ++ mturn st)) st) as [ms st'] eqn:En. cbn [fst b_calls].
    assert (S0 : so_far (btrace bs ++ mturn st) lim c st) by (apply so_far_stays; eauto). pose proof (next_so _ _ _ _ S0) as N. cbn zeta in N. rewrite En in N. cbn [fst snd] in N. destruct N as (N1 & N2).
    assert (Lt : length (ecalls_of (btrace bs ++ mturn st)) = length (ecalls_of (btrace bs))) by (rewrite ecalls_app, app_length; destruct st; cbn; lia). rewrite Lt in N2.
    split; [|split].
    + rewrite <- I1. rewrite (split_nth _ _ _ _ Ej) at 3. rewrite !map_app. reflexivity.
    + rewrite (split_nth _ _ _ _ Ej) in I2. rewrite map_app in I2. cbn [map snd] in I2. rewrite map_app. cbn [map snd]. destruct N2 as [-> | ->]; [exact I2|].
      apply NoDup_remove_1 in I2 as I2'. apply NoDup_insert; [exact I2'|]. rewrite <- map_app. intros Hi. apply in_map_iff in Hi as (x & E & Hi).
      assert (Inx : In x (b_calls (after bs))) by (rewrite (split_nth _ _ _ _ Ej); apply in_app_iff in Hi as [Hi|Hi]; apply in_app_iff; [left; exact Hi|right; right; exact Hi]).
      apply In_nth_error in Inx as [i Ei]. specialize (Small _ _ Ei). lia.
    + intros i l' c' st1 E. rewrite app_assoc. destruct (Nat.eq_dec i j) as [->|Ne].
      * rewrite (upd_same _ _ _ _ _ Ej) in E. injection E as <- <- <-. exact N1.
      * rewrite (upd_other _ _ _ _ _ _ Ej Ne) in E. rewrite <- app_assoc. apply so_far_stays. eauto.
Qed.
End S.
