(** popitem beside other threads: proofs. *)
From Coq Require Import List Bool Arith NArith ZArith Lia.
From Verif Require Import Base BaseProofs Rlp NibblePath Node ProofObj Mpt StoreProofs Spec SpecEmpt Empt MptProofs EmptProofs SpecEvery MptPy SpecMptEvery Threads SpecThreads ThreadsSeq ThreadsPool
  ThreadsAlone ThreadsSerial ThreadsRace EThreads SpecEThreads EThreadsRun EThreadsSerial EThreadsAlone EThreadsTrace EThreadsRead SpecETally ETallyProofs Mixins SpecMixins MixinsProofs MixinsMain MixinsTorn MixinsEnds
  Popitem SpecPopitem.
Import ListNotations.

Section S.
Context {H : Hash}.
Variable secure : bool.
Notation after ds := (drun secure (desk_new secure) ds).
Notation bafter bs := (brun secure (bench_new secure) bs).
Notation dtrace := (dtrace secure).

Lemma drun_snoc : forall ds m, after (ds ++ [m]) = dgo secure (after ds) m.
Proof. intros ds m. unfold drun. rewrite fold_left_app. reflexivity. Qed.
Lemma dtrace_from_app : forall a b w, dtrace_from secure w (a ++ b) = dtrace_from secure w a ++ dtrace_from secure (drun secure w a) b.
Proof. induction a as [|m a IH]; intros b w; [reflexivity|]. cbn [app dtrace_from]. rewrite IH, app_assoc. reflexivity. Qed.
Lemma dtrace_snoc : forall ds m, dtrace (ds ++ [m]) = dtrace ds ++ dtrace_from secure (after ds) [m].
Proof. intros ds m. apply dtrace_from_app. Qed.
Lemma brun_app : forall w a b, brun secure w (a ++ b) = brun secure (brun secure w a) b.
Proof. intros w a b. unfold brun. apply fold_left_app. Qed.
Theorem desk_bench : forall ds, d_bench (after ds) = bafter (dtrace ds).
Proof.
  intros ds. induction ds as [|m ds IH] using rev_ind; [reflexivity|]. rewrite drun_snoc, dtrace_snoc, brun_app, <- IH. cbn [dtrace_from]. rewrite app_nil_r. destruct m as [m|lim|q]; cbn [dgo]; try reflexivity.
  destruct (nth_error (d_items (after ds)) q) as [[lim st]|]; reflexivity.
Qed.
Theorem desk_pool : forall ds, b_pool (d_bench (after ds)) = erun secure (epool_new secure) (dsteps secure ds).
Proof. intros ds. rewrite desk_bench. apply bench_pool. Qed.

Definition jof (st : istate) : list nat := match st with IPop _ j => [j] | IDone (Some j) _ => [j] | _ => [] end.
Definition known (bs : list bmove) (lim : nat) (st : istate) : Prop :=
  match st with
  | ISize _ => True
  | IPop k j => nth_error (bcalls bs) j = Some (lim, PPop k None)
  | IDone (Some j) (Ok (k, v)) => nth_error (bcalls bs) j = Some (lim, PPop k None) /\ banswer_of (bafter bs) j = Some (Ok v)
  | IDone None (Ok _) => False
  | IDone _ (Err _) => True
  end.
Lemma banswer_stays : forall a b j r, banswer_of (bafter a) j = Some r -> banswer_of (bafter (a ++ b)) j = Some r.
Proof.
  intros a b j r E. unfold banswer_of in *. destruct (nth_error (b_calls (bafter a)) j) as [[[l c] st]|] eqn:En; [|discriminate]. destruct st as [i|i v|i|i r']; try discriminate. injection E as ->.
  rewrite (done_stays secure b _ _ _ _ _ _ En). reflexivity.
Qed.
Lemma bcalls_app : forall a b, bcalls (a ++ b) = bcalls a ++ bcalls b.
Proof. intros a b. unfold bcalls. apply flat_map_app. Qed.
Lemma bcalls_stay : forall a b j x, nth_error (bcalls a) j = Some x -> nth_error (bcalls (a ++ b)) j = Some x.
Proof. intros a b j x E. rewrite bcalls_app, nth_error_app1; [exact E|eapply nth_lt, E]. Qed.
Lemma known_stays : forall a b lim st, known a lim st -> known (a ++ b) lim st.
Proof.
  intros a b lim st K. destruct st as [n|k j|[j|] [[k v]|x]]; try exact K; [apply bcalls_stay, K|]. destruct K as [A B]. split; [apply bcalls_stay, A|apply banswer_stays, B].
Qed.
Lemma flat_snoc : forall (l : list (nat * istate)) x, flat_map (fun y => jof (snd y)) (l ++ [x]) = flat_map (fun y => jof (snd y)) l ++ jof (snd x).
Proof. intros l x. rewrite flat_map_app. cbn. rewrite app_nil_r. reflexivity. Qed.

Lemma desk_run : forall ds,
  map fst (d_items (after ds)) = dcalls ds /\
  NoDup (flat_map (fun y => jof (snd y)) (d_items (after ds))) /\
  (forall j, In j (flat_map (fun y => jof (snd y)) (d_items (after ds))) -> j < length (bcalls (dtrace ds))) /\
  (forall q lim st, nth_error (d_items (after ds)) q = Some (lim, st) -> known (dtrace ds) lim st).
Proof.
  intros ds. induction ds as [|m ds (I1 & I2 & I3 & I4)] using rev_ind.
  { split; [reflexivity|]. split; [constructor|]. split; [intros j []|]. intros [|q] lim st E; discriminate. }
  assert (Dc : dcalls (ds ++ [m]) = dcalls ds ++ match m with DPopitem lim => [lim] | _ => [] end) by (unfold dcalls; rewrite flat_map_app; cbn; now rewrite app_nil_r).
  rewrite drun_snoc, dtrace_snoc, Dc. cbn [dtrace_from]. rewrite app_nil_r.
  assert (Sm : forall b j, In j (flat_map (fun y => jof (snd y)) (d_items (after ds))) -> j < length (bcalls (dtrace ds ++ b))) by (intros b j I; rewrite bcalls_app, app_length; specialize (I3 _ I); lia).
  destruct m as [m|lim|q]; cbn [dgo].
  - cbn [d_items]. rewrite app_nil_r. split; [exact I1|]. split; [exact I2|]. split; [apply Sm|]. intros q lim st E. apply known_stays. eauto.
  - cbn [d_items]. rewrite app_nil_r, map_app, I1, flat_snoc. cbn [snd jof]. rewrite app_nil_r. split; [reflexivity|]. split; [exact I2|]. split; [exact I3|].
    intros q l st E. apply nth_error_snoc in E as [E|[-> E]]; [eauto|]. injection E as -> ->. exact I.
  - rewrite app_nil_r. destruct (nth_error (d_items (after ds)) q) as [[lim st]|] eqn:Eq.
    2:{ rewrite app_nil_r. auto. }
    cbn [d_items]. rewrite desk_bench. set (bs := dtrace ds) in *. set (T := iturn lim (bafter bs) st). set (st' := inext (bafter bs) (brun secure (bafter bs) T) st).
    assert (Kn : known (bs ++ T) lim st' /\ (jof st' = jof st \/ (jof st = [] /\ jof st' = [length (bcalls bs)] /\ length (bcalls (bs ++ T)) = S (length (bcalls bs))))).
    { pose proof (I4 _ _ _ Eq) as K. unfold st', T. rewrite <- brun_app. destruct st as [n|k j|o r]; cbn [iturn inext].
      - destruct (length (here (bafter bs)) =? n); [|split; [exact I|left; reflexivity]]. destruct (here (bafter bs)) as [|k ks]; [split; [exact I|left; reflexivity]|].
        rewrite <- (bcalls_len secure). split; [cbn [known]; rewrite bcalls_app; cbn; apply nth_snoc_new|]. right. cbn [jof]. split; [reflexivity|]. split; [reflexivity|]. rewrite bcalls_app, app_length. cbn. lia.
      - destruct (banswer_of (bafter (bs ++ [BGo j])) j) as [[v|x]|] eqn:Eb; (split; [|left; reflexivity]); cbn [known]; [|exact I|apply bcalls_stay, K]. split; [apply bcalls_stay, K|exact Eb].
      - split; [|left; reflexivity]. apply known_stays, K. }
    destruct Kn as [Kn Jn]. split; [|split; [|split]].
    + rewrite <- I1. rewrite (split_nth _ _ _ _ Eq) at 3. rewrite !map_app. reflexivity.
    + rewrite (split_nth _ _ _ _ Eq) in I2, I3. rewrite flat_map_app in *. cbn [flat_map snd] in *. destruct Jn as [-> |(J1 & J2 & J3)]; [exact I2|]. rewrite J1 in I2, I3. cbn [app] in I2, I3. rewrite J2. cbn [app].
      apply NoDup_insert; [exact I2|]. intros Hi. specialize (I3 _ Hi). lia.
    + intros j Hi. rewrite flat_map_app in Hi. cbn [flat_map snd] in Hi. rewrite (split_nth _ _ _ _ Eq) in Sm. rewrite flat_map_app in Sm. cbn [flat_map snd] in Sm. destruct Jn as [Je|(J1 & J2 & J3)]; [rewrite Je in Hi; apply Sm, Hi|].
      rewrite J2 in Hi. rewrite J1 in Sm. cbn [app] in Sm. apply in_app_iff in Hi as [Hi|[<-|Hi]]; [apply Sm, in_app_iff; auto|rewrite J3; lia|apply Sm, in_app_iff; auto].
    + intros p l s E. destruct (Nat.eq_dec p q) as [->|Ne].
      * rewrite (upd_same _ _ _ _ _ Eq) in E. injection E as <- <-. exact Kn.
      * rewrite (upd_other _ _ _ _ _ _ Eq Ne) in E. apply known_stays. eauto.
Qed.
Theorem popitem_values : forall ds q k v, danswer_of (after ds) q = Some (Ok (k, v)) -> put_before secure (dsteps secure ds) k v.
Proof.
  intros ds q k v E. unfold danswer_of in E. destruct (nth_error (d_items (after ds)) q) as [[lim st]|] eqn:Eq; [|discriminate]. destruct st as [n|k' j|o r]; try discriminate. injection E as ->.
  destruct (desk_run ds) as (_ & _ & _ & I4). specialize (I4 _ _ _ Eq). destruct o as [j|]; [|contradiction]. destruct I4 as [A B]. destruct (mixin_values secure _ _ _ _ _ A B) as [P|P]; [exact P|discriminate].
Qed.
Lemma flat_NoDup : forall (p : nat * istate -> bool) l, NoDup (flat_map (fun y => jof (snd y)) l) -> NoDup (flat_map (fun y => jof (snd y)) (filter p l)).
Proof.
  intros p l. induction l as [|x l IH]; intros N; [constructor|]. cbn [flat_map filter] in *. assert (N2 : NoDup (flat_map (fun y => jof (snd y)) l)) by (clear IH; induction (jof (snd x)); [exact N|inversion N; auto]).
  destruct (p x); [|auto]. cbn [flat_map]. specialize (IH N2). destruct (jof (snd x)) as [|j [|j2 js]] eqn:Ej; [exact IH| |destruct (snd x) as [|? ?|[?|] ?]; discriminate].
  cbn [app] in *. inversion N; subst. constructor; [|exact IH]. intros F. apply in_flat_map in F as (y & F1 & F2). apply filter_In in F1 as [F1 _]. apply H2, in_flat_map. eauto.
Qed.
Lemma seq_items : forall A (p : A -> bool) (l : list A) n, length (filter (fun i => match nth_error l (i - n) with Some x => p x | None => false end) (List.seq n (length l))) = length (filter p l).
Proof.
  intros A p l. induction l as [|x l IH]; intros n; [reflexivity|]. cbn [length List.seq filter]. rewrite Nat.sub_diag. cbn [nth_error].
  assert (X : filter (fun i => match nth_error (x :: l) (i - n) with Some x => p x | None => false end) (List.seq (S n) (length l)) = filter (fun i => match nth_error l (i - S n) with Some x => p x | None => false end) (List.seq (S n) (length l))).
  { apply filter_ext_in. intros i I. apply in_seq in I. replace (i - n) with (S (i - S n)) by lia. reflexivity. }
  rewrite X. assert (Y := IH (S n)). destruct (p x); cbn [length]; rewrite Y; reflexivity.
Qed.
Theorem popitems_counted : forall ds k, let w := b_pool (d_bench (after ds)) in popitems k ds (after ds) + has w k <= tally (puts_k k) (dsteps secure ds) w.
Proof.
  intros ds k w. destruct (desk_run ds) as (I1 & I2 & I3 & I4). pose proof (pops_counted secure (dtrace ds) k) as Pc. cbn zeta in Pc. rewrite <- desk_bench in Pc. fold w in Pc. unfold dsteps.
  enough (popitems k ds (after ds) <= popped k (dtrace ds) (d_bench (after ds))) by lia. clear Pc.
  unfold popitems. set (p := fun y : nat * istate => match snd y with IDone _ (Ok (k', _)) => bytes_eqb k' k | _ => false end).
  assert (E : filter (fun q => match danswer_of (after ds) q with Some (Ok (k', _)) => bytes_eqb k' k | _ => false end) (List.seq 0 (length (dcalls ds))) =
    filter (fun i => match nth_error (d_items (after ds)) (i - 0) with Some x => p x | None => false end) (List.seq 0 (length (d_items (after ds))))).
  { rewrite <- I1, map_length. apply filter_ext. intros q. rewrite Nat.sub_0_r. unfold danswer_of, p. destruct (nth_error (d_items (after ds)) q) as [[lim [n|k' j|o [[k' v]|x]]]|]; reflexivity. }
  rewrite E, seq_items. clear E.
  assert (L : length (filter p (d_items (after ds))) = length (flat_map (fun y => jof (snd y)) (filter p (d_items (after ds))))).
  { assert (One : forall y, In y (filter p (d_items (after ds))) -> length (jof (snd y)) = 1).
    { intros [lim st] I. apply filter_In in I as [I Py]. apply In_nth_error in I as [q Eq]. specialize (I4 _ _ _ Eq). unfold p in Py. cbn [snd] in *. destruct st as [n|k' j|[j|] [[k' v]|x]]; try discriminate; [reflexivity|contradiction]. }
    revert One. generalize (filter p (d_items (after ds))). intros l. induction l as [|y l IH]; intros One; [reflexivity|]. cbn [flat_map length]. rewrite app_length, (One y) by (left; reflexivity). rewrite <- IH by (intros z I; apply One; right; exact I). reflexivity. }
  rewrite L. unfold popped. apply NoDup_incl_length; [apply flat_NoDup, I2|]. intros j Hi. apply in_flat_map in Hi as ([lim st] & F1 & F2). apply filter_In in F1 as [F1 Py]. apply In_nth_error in F1 as [q Eq].
  specialize (I4 _ _ _ Eq). unfold p in Py. cbn [snd] in *. destruct st as [n|k' j'|[j'|] [[k' v]|x]]; try discriminate; [|contradiction]. cbn [jof] in F2. destruct F2 as [->|[]]. destruct I4 as [A B].
  apply filter_In. split; [apply in_seq; split; [lia|]; eapply nth_lt, A|]. rewrite A, desk_bench, B. cbn [pops_k]. rewrite Py. reflexivity.
Qed.
End S.
