(** What pop and setdefault do beside other threads: the theorems. *)
From Coq Require Import List Bool Arith NArith ZArith Lia.
From Verif Require Import Base BaseProofs Rlp NibblePath Node ProofObj Mpt StoreProofs Spec SpecEmpt Empt MptProofs EmptProofs SpecEvery MptPy SpecMptEvery Threads SpecThreads ThreadsSeq ThreadsPool
  ThreadsAlone ThreadsSerial ThreadsRace EThreads SpecEThreads EThreadsRun EThreadsSerial EThreadsAlone EThreadsTrace EThreadsRead SpecETally ETallyProofs Mixins SpecMixins MixinsProofs.
Import ListNotations.

Section S.
Context {H : Hash}.
Variable secure : bool.
Notation start := (bench_new secure).
Notation after bs := (brun secure start bs).
Notation eafter ms := (erun secure (epool_new secure) ms).
Notation btrace := (btrace secure).

Lemma calls_at : forall bs j lim c, nth_error (bcalls bs) j = Some (lim, c) -> exists st, nth_error (b_calls (after bs)) j = Some (lim, c, st).
Proof.
  intros bs j lim c E. destruct (bench_run secure bs) as (I1 & _). rewrite <- I1, nth_error_map in E. destruct (nth_error (b_calls (after bs)) j) as [[x st]|]; [|discriminate].
  cbn in E. injection E as ->. eauto.
Qed.
Theorem mixin_values : forall bs j lim c v, nth_error (bcalls bs) j = Some (lim, c) -> banswer_of (after bs) j = Some (Ok v) -> put_before secure (btrace bs) (mkey c) v \/ c = PPop (mkey c) (Some v).
Proof.
  intros bs j lim c v E A. destruct (calls_at _ _ _ _ E) as [st Es]. destruct (bench_run secure bs) as (_ & _ & I3). pose proof (I3 _ _ _ _ Es) as (_ & M). unfold banswer_of in A. rewrite Es in A.
  destruct st as [i|i u|i|i r]; try discriminate. injection A as ->. destruct c as [k o|k d]; [|left; exact M]. destruct M as [->|M]; [right; reflexivity|left; apply M].
Qed.

(** ** Counting *)
Lemma combine_seq : forall A B (p : A * B -> bool) (cs : list A) (os : list B) n, length cs = length os ->
  length (filter p (combine cs os)) = length (filter (fun i => match nth_error cs (i - n), nth_error os (i - n) with Some x, Some o => p (x, o) | _, _ => false end) (List.seq n (length cs))).
Proof.
  intros A B p cs. induction cs as [|x cs IH]; intros [|o os] n L; try discriminate; [reflexivity|]. cbn [combine length List.seq filter]. rewrite Nat.sub_diag. cbn [nth_error].
  assert (X : filter (fun i => match nth_error (x :: cs) (i - n), nth_error (o :: os) (i - n) with Some x, Some o => p (x, o) | _, _ => false end) (List.seq (S n) (length cs)) =
              filter (fun i => match nth_error cs (i - S n), nth_error os (i - S n) with Some x, Some o => p (x, o) | _, _ => false end) (List.seq (S n) (length cs))).
  { apply filter_ext_in. intros i I. apply in_seq in I. replace (i - n) with (S (i - S n)) by lia. reflexivity. }
  rewrite X. assert (Y := IH os (S n) ltac:(cbn in L; lia)). destruct (p (x, o)); cbn [length]; rewrite Y; reflexivity.
Qed.
Lemma value_eqb_refl : forall v, value_eqb v v = true.
Proof.
  assert (B : forall b, bytes_eqb b b = true) by (intros b; destruct (bytes_eqb_spec b b); [reflexivity|congruence]).
  intros [b|b|x y b]; cbn; rewrite ?eqb_reflx, B; reflexivity.
Qed.
Theorem pops_counted : forall bs k, let w := b_pool (after bs) in popped k bs (after bs) + has w k <= tally (puts_k k) (btrace bs) w.
Proof.
  intros bs k w. assert (W : w = eafter (btrace bs)) by apply bench_pool. pose proof (proj1 (tallies secure (btrace bs) k)) as T. rewrite <- W in T.
  enough (popped k bs (after bs) <= tally (dels_k k) (btrace bs) w) by lia. clear T.
  destruct (bench_run secure bs) as (I1 & I2 & I3).
  unfold tally, popped. assert (Lc : length (ecalls_of (btrace bs)) = length (map eanswer (x_calls w))) by (rewrite map_length, W; symmetry; apply run_calls_len).
  rewrite (combine_seq _ _ _ _ _ 0 Lc).
  set (P := fun j => match nth_error (bcalls bs) j with Some (_, c) => match banswer_of (after bs) j with Some (Ok v) => pops_k k c v | _ => false end | None => false end).
  set (js := filter P (List.seq 0 (length (bcalls bs)))).
  set (f := fun j => match nth_error (b_calls (after bs)) j with Some x => num (snd x) | None => 0 end).
  rewrite <- (map_length f js). apply NoDup_incl_length.
  - assert (NJ : NoDup js) by (apply NoDup_filter, seq_NoDup). assert (Lj : forall j, In j js -> j < length (b_calls (after bs))).
    { intros j I. apply filter_In in I as [I _]. apply in_seq in I. rewrite <- I1, map_length in I. lia. }
    clearbody js. clear P. revert NJ Lj. induction js as [|j js IH]; intros NJ Lj; [constructor|]. inversion NJ; subst. cbn [map]. constructor; [|apply IH; auto; intros; apply Lj; right; auto].
    intros F. apply in_map_iff in F as (j' & E & I). assert (A := Lj j (or_introl eq_refl)). assert (B := Lj j' (or_intror I)).
    rewrite NoDup_nth_error in I2. assert (j = j'); [|subst; contradiction]. apply I2; [rewrite map_length; exact A|].
    rewrite !nth_error_map. unfold f in E. destruct (nth_error (b_calls (after bs)) j) eqn:E1; [|apply nth_error_None in E1; lia]. destruct (nth_error (b_calls (after bs)) j') eqn:E2; [|apply nth_error_None in E2; lia].
    cbn. congruence.
  - intros i I. apply in_map_iff in I as (j & <- & I). apply filter_In in I as [_ Pj]. unfold P in Pj. destruct (nth_error (bcalls bs) j) as [[lim c]|] eqn:Ej; [|discriminate].
    destruct (calls_at _ _ _ _ Ej) as [st Es]. pose proof (I3 _ _ _ _ Es) as (L & M). unfold banswer_of in Pj. rewrite Es in Pj. unfold f. rewrite Es. cbn [snd].
    destruct st as [i|i u|i|i [v|x]]; try discriminate. destruct c as [k' o|]; [|discriminate]. cbn [pops_k] in Pj. destruct (bytes_eqb_spec k' k) as [->|]; [|discriminate]. cbn [num andb] in *.
    destruct M as [->|(_ & M1 & M2)]; [rewrite value_eqb_refl in Pj; discriminate|].
    apply filter_In. split; [apply in_seq; lia|]. rewrite Nat.sub_0_r, M1, nth_error_map. rewrite W. unfold eanswer_of in M2. destruct (nth_error (x_calls (eafter (btrace bs))) i) as [p|]; [|discriminate]. cbn [option_map].
    cbn [fst snd dels_k]. rewrite M2. cbn [went_well]. destruct (bytes_eqb_spec k k); [reflexivity|congruence].
Qed.

(** ** Calls of which the rest has the object for itself *)
Hypothesis keccak_len : forall b, length (keccak b) = 32.
Lemma resume : forall ms i lim c m, nth_error (x_calls (eafter ms)) i = Some (e_call lim c) -> 0 < lim -> 6 * lim + 14 <= m ->
  eanswer_of (eafter (ms ++ repeat (EGo i) m)) i = Some (fst (esingle lim (eobject secure (eafter ms)) c)) /\ eobject secure (eafter (ms ++ repeat (EGo i) m)) = snd (esingle lim (eobject secure (eafter ms)) c).
Proof.
  intros ms i lim c m E0 Ll Lm.
  assert (A : eanswer_of (eafter (ms ++ repeat (EGo i) m)) i <> None).
  { assert (X : forall n, eturns i (repeat (EGo i) n) = n).
    { induction n as [|n IHn]; [reflexivity|]. cbn [repeat]. unfold eturns in *. cbn [filter]. rewrite Nat.eqb_refl. cbn [length]. rewrite IHn. reflexivity. }
    refine (runs_left secure keccak_len (repeat (EGo i) m) ms i _ (6 * lim + 14) E0 _ _); [apply left_c, call_left; try exact keccak_len; try exact secure; try assumption|rewrite X; exact Lm]. }
  destruct (ev_runs secure m _ _ _ E0) as [p [Ep Ev]]. unfold eanswer_of in *. rewrite Ep in *. destruct p as [o| | | | |]; cbn [eanswer] in *; try contradiction.
  unfold evw in Ev. rewrite (ev_call secure keccak_len _ _ _ _ _ Ll) in Ev. cbn [ev] in Ev. injection Ev as -> Ev. split; [reflexivity|exact Ev].
Qed.
Lemma idle : forall w i o m, nth_error (x_calls w) i = Some (EDone o) -> erun secure w (repeat (EGo i) m) = w.
Proof.
  intros w i o m E. induction m as [|m IH]; [reflexivity|]. cbn [repeat]. change (erun secure w (EGo i :: repeat (EGo i) m)) with (erun secure (ego secure w (EGo i)) (repeat (EGo i) m)).
  assert (X : ego secure w (EGo i) = w) by (rewrite (ego_at secure _ _ _ E); cbn [estep fst snd]; rewrite (upd_id _ _ _ _ E); destruct w; reflexivity). rewrite X. exact IH.
Qed.
Lemma b_until : forall n bs j lim c st i o, nth_error (b_calls (after bs)) j = Some (lim, c, st) -> mturn st = [EGo i] -> num st = i -> eanswer_of (eafter (btrace bs)) i = None ->
  eanswer_of (eafter (btrace bs ++ repeat (EGo i) n)) i = Some o ->
  exists m, let T := btrace bs ++ repeat (EGo i) m in eanswer_of (eafter T) i = Some o /\ eobject secure (eafter T) = eobject secure (eafter (btrace bs ++ repeat (EGo i) n)) /\
    btrace (bs ++ repeat (BGo j) m) = T ++ fst (mnext lim c (eafter T) st) /\
    b_calls (after (bs ++ repeat (BGo j) m)) = upd j (lim, c, snd (mnext lim c (eafter T) st)) (b_calls (after bs)).
Proof.
  intros n. induction n as [|n IH]; intros bs j lim c st i o Ej Mt Nu No So; [cbn in So; rewrite app_nil_r in So; congruence|].
  assert (Bt : btrace (bs ++ [BGo j]) = (btrace bs ++ [EGo i]) ++ fst (mnext lim c (eafter (btrace bs ++ [EGo i])) st)).
  { rewrite btrace_snoc. unfold step_trace. cbn [btrace_from]. rewrite app_nil_r, Ej, Mt, bench_pool, <- erun_app, app_assoc. reflexivity. }
  assert (Bc : b_calls (after (bs ++ [BGo j])) = upd j (lim, c, snd (mnext lim c (eafter (btrace bs ++ [EGo i])) st)) (b_calls (after bs))).
  { rewrite brun_snoc. cbn [bgo]. rewrite Ej, Mt, bench_pool, <- erun_app. destruct (mnext lim c (eafter (btrace bs ++ [EGo i])) st) as [ms st']. reflexivity. }
  cbn [repeat] in So. change (EGo i :: repeat (EGo i) n) with ([EGo i] ++ repeat (EGo i) n) in So. rewrite app_assoc in So.
  destruct (eanswer_of (eafter (btrace bs ++ [EGo i])) i) as [o'|] eqn:Eo.
  - pose proof (eanswer_done _ _ _ Eo) as Ed. assert (Eq : eafter ((btrace bs ++ [EGo i]) ++ repeat (EGo i) n) = eafter (btrace bs ++ [EGo i])) by (rewrite erun_app; eapply idle, Ed).
    rewrite Eq in So. exists 1. cbn [repeat]. cbn zeta. split; [exact So|]. split.
    + change (EGo i :: repeat (EGo i) n) with ([EGo i] ++ repeat (EGo i) n). rewrite app_assoc, Eq. reflexivity.
    + split; [exact Bt|exact Bc].
  - assert (Mn : mnext lim c (eafter (btrace bs ++ [EGo i])) st = ([], st)).
    { destruct st as [i0|i0 v|i0|i0 r]; cbn [mturn num] in *; try discriminate; subst i0; cbn [mnext]; rewrite Eo; reflexivity. }
    rewrite Mn in Bt, Bc. cbn [fst snd] in Bt, Bc. rewrite app_nil_r in Bt. rewrite (upd_id _ _ _ _ Ej) in Bc.
    destruct (IH (bs ++ [BGo j]) j lim c st i o) as (m & A & B & D & F); auto; [rewrite Bc; exact Ej|rewrite Bt; exact Eo|rewrite Bt; exact So|].
    exists (S m). cbn [repeat]. cbn zeta. change (EGo i :: repeat (EGo i) m) with ([EGo i] ++ repeat (EGo i) m). change (EGo i :: repeat (EGo i) n) with ([EGo i] ++ repeat (EGo i) n).
    change (BGo j :: repeat (BGo j) m) with ([BGo j] ++ repeat (BGo j) m). rewrite !app_assoc. rewrite Bt, Bc in *. auto.
Qed.
Lemma b_resume : forall bs j lim c st i cmd, nth_error (b_calls (after bs)) j = Some (lim, c, st) -> mturn st = [EGo i] -> num st = i ->
  nth_error (x_calls (eafter (btrace bs))) i = Some (e_call lim cmd) -> eanswer (e_call lim cmd) = None -> 0 < lim ->
  let r := esingle lim (eobject secure (eafter (btrace bs))) cmd in
  exists m, let T := btrace bs ++ repeat (EGo i) m in eanswer_of (eafter T) i = Some (fst r) /\ eobject secure (eafter T) = snd r /\
    btrace (bs ++ repeat (BGo j) m) = T ++ fst (mnext lim c (eafter T) st) /\
    b_calls (after (bs ++ repeat (BGo j) m)) = upd j (lim, c, snd (mnext lim c (eafter T) st)) (b_calls (after bs)).
Proof.
  intros bs j lim c st i cmd Ej Mt Nu Ei Ea Ll r. destruct (resume _ _ _ _ (6 * lim + 14) Ei Ll (le_n _)) as [A B].
  destruct (b_until (6 * lim + 14) bs j lim c st i _ Ej Mt Nu ltac:(unfold eanswer_of; rewrite Ei; exact Ea) A) as (m & X1 & X2 & X3 & X4). exists m. cbn zeta in *. rewrite X2, B. auto.
Qed.
(** A call is made and has the object for itself until its get has ended. *)
Lemma b_start : forall bs lim c, 0 < lim -> let e := eobject secure (eafter (btrace bs)) in let i := length (ecalls_of (btrace bs)) in let j := length (bcalls bs) in
  exists m, let T := btrace bs ++ ECall lim (XGet (mkey c)) :: repeat (EGo i) m in eanswer_of (eafter T) i = Some (RVal (empt_get lim e (mkey c))) /\ eobject secure (eafter T) = e /\
    btrace (bs ++ BCall lim c :: repeat (BGo j) m) = T ++ fst (mnext lim c (eafter T) (SGet i)) /\
    b_calls (after (bs ++ BCall lim c :: repeat (BGo j) m)) = b_calls (after bs) ++ [(lim, c, snd (mnext lim c (eafter T) (SGet i)))].
Proof.
  intros bs lim c Ll e i j. assert (Lj : j = length (b_calls (after bs))) by (unfold j; rewrite <- (proj1 (bench_run secure bs)), map_length; reflexivity).
  assert (Bt : btrace (bs ++ [BCall lim c]) = btrace bs ++ [ECall lim (XGet (mkey c))]) by (rewrite btrace_snoc; reflexivity).
  assert (Bc : b_calls (after (bs ++ [BCall lim c])) = b_calls (after bs) ++ [(lim, c, SGet i)]) by (rewrite brun_snoc; cbn [bgo b_calls]; rewrite bench_pool, (run_calls_len secure); reflexivity).
  destruct (b_resume (bs ++ [BCall lim c]) j lim c (SGet i) i (XGet (mkey c))) as (m & A & B & D & F); auto.
  - rewrite Bc, Lj. apply nth_snoc_new.
  - rewrite Bt, erun_snoc. cbn [ego x_calls]. unfold i. rewrite <- (run_calls_len secure). apply nth_snoc_new.
  - cbn zeta in A, B, D, F. rewrite Bt in A, B, D, F. assert (Eo : eobject secure (eafter (btrace bs ++ [ECall lim (XGet (mkey c))])) = e) by (rewrite erun_snoc; reflexivity). rewrite Eo in A, B. cbn [esingle fst snd] in A, B.
    exists m. cbn zeta. change (BCall lim c :: repeat (BGo j) m) with ([BCall lim c] ++ repeat (BGo j) m). change (ECall lim (XGet (mkey c)) :: repeat (EGo i) m) with ([ECall lim (XGet (mkey c))] ++ repeat (EGo i) m).
    rewrite !app_assoc. split; [exact A|]. split; [exact B|]. split; [exact D|]. rewrite F, Bc, Lj. rewrite firstn_app, Nat.sub_diag, firstn_all, app_nil_r. f_equal. f_equal. rewrite skipn_all2; [reflexivity|]. rewrite app_length. cbn. lia.
Qed.
Lemma kept_call : forall b a i p, nth_error (x_calls (eafter a)) i = Some p -> Forall (fun m => m <> EGo i) b -> nth_error (x_calls (eafter (a ++ b))) i = Some p.
Proof.
  induction b as [|x b IH] using rev_ind; intros a i p E F; [rewrite app_nil_r; exact E|]. apply Forall_app in F as [F1 F2]. inversion F2; subst. specialize (IH _ _ _ E F1). rewrite app_assoc, erun_snoc. destruct x as [lim c|q].
  - cbn [ego x_calls]. rewrite nth_snoc_old; [exact IH|eapply nth_lt, IH].
  - destruct (nth_error (x_calls (eafter (a ++ b))) q) as [y|] eqn:Eq; [|cbn [ego]; rewrite Eq; exact IH]. rewrite (ego_at secure _ _ _ Eq). cbn [x_calls]. rewrite (upd_other _ _ _ _ _ _ Eq); [exact IH|]. intros ->. now apply H2.
Qed.
Lemma bmoves_trace : forall ms bs, btrace (bs ++ map BMove ms) = btrace bs ++ ms /\ b_calls (after (bs ++ map BMove ms)) = b_calls (after bs).
Proof.
  induction ms as [|m ms IH] using rev_ind; intros bs; [cbn; rewrite !app_nil_r; auto|]. rewrite map_app. cbn [map]. rewrite app_assoc. destruct (IH bs) as [A B]. split.
  - rewrite btrace_snoc, A. unfold step_trace. cbn [btrace_from]. rewrite !app_nil_r, app_assoc. reflexivity.
  - rewrite brun_snoc. cbn [bgo b_calls]. exact B.
Qed.
End S.
