(** The calls on the trie that calls on the EMPT make. *)
From Coq Require Import List Bool Arith NArith ZArith Lia.
From Verif Require Import Base BaseProofs Rlp NibblePath Node ProofObj Mpt StoreProofs Spec SpecEmpt Empt MptProofs EmptProofs SpecEvery MptPy SpecMptEvery Threads SpecThreads ThreadsSeq ThreadsPool
  ThreadsAlone ThreadsSerial ThreadsRace EThreads SpecEThreads EThreadsRun EThreadsSerial EThreadsAlone.
Import ListNotations.

Section S.
Context {H : Hash}.
Variable secure : bool.
Notation start := (epool_new secure).
Notation after ms := (erun secure start ms).
Notation tafter m := (run_moves secure (pool_new secure) m).

(** ** The moves of the trie *)
Definition tmove (w : epool) (m : emove) : list move :=
  match m with
  | ECall _ _ => []
  | EGo i => match nth_error (x_calls w) i with Some (ETrie lim c _) => [MCall lim c] | Some (EWait j _) => [MGo j] | _ => [] end
  end.
Fixpoint trace_from (w : epool) (ms : list emove) : list move :=
  match ms with [] => [] | m :: ms => tmove w m ++ trace_from (ego secure w m) ms end.
Definition trace (ms : list emove) : list move := trace_from start ms.
Lemma trace_from_app : forall a b w, trace_from w (a ++ b) = trace_from w a ++ trace_from (erun secure w a) b.
Proof. induction a as [|m a IH]; intros b w; [reflexivity|]. cbn [app trace_from]. rewrite IH, app_assoc. reflexivity. Qed.
Lemma trace_app : forall a b, trace (a ++ b) = trace a ++ trace_from (after a) b.
Proof. intros. apply trace_from_app. Qed.
Lemma trace_snoc : forall ms m, trace (ms ++ [m]) = trace ms ++ tmove (after ms) m.
Proof. intros. rewrite trace_app. cbn [trace_from]. rewrite app_nil_r. reflexivity. Qed.
Lemma trie_step : forall w m, x_trie (ego secure w m) = run_moves secure (x_trie w) (tmove w m).
Proof.
  intros w m. destruct m as [lim c|i]; [reflexivity|]. destruct (nth_error (x_calls w) i) as [p|] eqn:Ep.
  - rewrite (ego_at secure _ _ _ Ep). cbn [x_trie tmove]. rewrite Ep. destruct p as [o|k f|k v p|k f|lim c f|j f]; cbn [estep fst]; try reflexivity. destruct (dget (x_data w) k); reflexivity.
  - cbn [ego tmove]. rewrite Ep. reflexivity.
Qed.
Lemma trace_run : forall ms, x_trie (after ms) = tafter (trace ms).
Proof.
  intros ms. induction ms as [|m ms IH] using rev_ind; [reflexivity|]. rewrite erun_snoc, trie_step, trace_snoc, IH. unfold run_moves. rewrite fold_left_app. reflexivity.
Qed.
Lemma tmove_short : forall w m, length (tmove w m) <= 1.
Proof. intros w m. destruct m as [lim c|i]; cbn [tmove]; [cbn; lia|]. destruct (nth_error (x_calls w) i) as [[]|]; cbn; lia. Qed.
Lemma trace_prefix : forall ms m1 m2, trace ms = m1 ++ m2 -> exists me mr, ms = me ++ mr /\ trace me = m1.
Proof.
  intros ms. induction ms as [|m ms IH] using rev_ind; intros m1 m2 E.
  - exists [], []. split; [reflexivity|]. cbn in E. symmetry in E. apply app_eq_nil in E as [-> _]. reflexivity.
  - destruct m2 as [|x m2]; [exists (ms ++ [m]), []; rewrite !app_nil_r in *; auto|]. rewrite trace_snoc in E. pose proof (tmove_short (after ms) m) as L.
    assert (Le : length m1 <= length (trace ms)) by (apply (f_equal (@length move)) in E; rewrite !app_length in E; cbn [length] in E; lia).
    assert (X : trace ms = m1 ++ skipn (length m1) (trace ms)).
    { rewrite <- (firstn_skipn (length m1) (trace ms)) at 1. f_equal. apply (f_equal (firstn (length m1))) in E. rewrite !firstn_app in E. rewrite Nat.sub_diag in E.
      replace (length m1 - length (trace ms)) with 0 in E by lia. cbn [firstn] in E. rewrite !app_nil_r, firstn_all in E. exact E. }
    destruct (IH _ _ X) as [me [mr [-> E2]]]. exists me, (mr ++ [m]). rewrite app_assoc. auto.
Qed.
Lemma trace_len : forall ms, length (calls_of (trace ms)) = length (p_calls (x_trie (after ms))).
Proof. intros ms. rewrite trace_run. symmetry. apply calls_len. Qed.
Lemma tcalls_app : forall a b, calls_of (a ++ b) = calls_of a ++ calls_of b.
Proof. intros. unfold calls_of. apply flat_map_app. Qed.
Lemma trace_calls_old : forall a b j x, nth_error (calls_of (trace a)) j = Some x -> nth_error (calls_of (trace (a ++ b))) j = Some x.
Proof. intros a b j x E. rewrite trace_app, tcalls_app. rewrite nth_error_app1; [exact E|]. eapply nth_lt, E. Qed.

(** ** Which calls make which calls *)
Definition own (c : ecmd) (tc : tcmd) : Prop :=
  match tc with
  | TGet k => c = XGet k \/ c = XRef k
  | TIn k => c = XIn k \/ c = XDel k
  | TPut k rb => exists v, c = XPut k v /\ bind (update_ref k v) (fun r => ref_encode r) = Ok rb
  | TDel k => c = XDel k
  | TPoi tm k => c = XPoi tm k
  | TRoot => c = XRoot
  | THash => c = XHash
  end.
Definition kind (c : ecmd) (o : eout) : Prop :=
  match c, o with
  | XGet _, RVal _ | XRef _, RRef _ | XIn _, RBool _ | XPut _ _, RNone _ | XDel _, RNone _ | XPoi _ _, RProof _ | XRoot, ROpt _ | XHash, ROpt _ => True
  | _, _ => False
  end.
Fixpoint makes (lim : nat) (c : ecmd) (p : eprog) : Prop :=
  match p with
  | EDone o => kind c o
  | EData _ f => forall o, makes lim c (f o)
  | EStore k v p => c = XPut k v /\ makes lim c p
  | EDrop k f => c = XDel k /\ forall b, makes lim c (f b)
  | ETrie lim' tc f => lim' = lim /\ own c tc /\ forall o, makes lim c (f o)
  | EWait _ f => forall o, makes lim c (f o)
  end.
Lemma makes_call : forall lim c, makes lim c (e_call lim c).
Proof.
  intros lim c. destruct c; cbn [e_call].
  - cbn. intros [v|]; [|exact I]. cbn. split; [reflexivity|]. split; [auto|]. intros o. destruct o; exact I.
  - cbn. split; [reflexivity|]. split; [auto|]. intros o. destruct o; exact I.
  - cbn. split; [reflexivity|]. split; [auto|]. intros o. destruct o; exact I.
  - unfold e_put. destruct (bind (update_ref k v) (fun r => ref_encode r)) eqn:E; [|exact I]. cbn. split; [reflexivity|]. split; [eauto|]. intros o. destruct o as [| |[|]| |]; cbn; auto.
  - cbn. split; [reflexivity|]. split; [auto|]. intros o. destruct o as [|[[|]|]| | |]; try exact I. cbn. split; [reflexivity|]. intros [|]; [|exact I]. cbn. split; [reflexivity|]. split; [auto|].
    intros o. destruct o; exact I.
  - cbn. split; [reflexivity|]. split; [auto|]. intros o. destruct o; exact I.
  - cbn. split; [reflexivity|]. split; [auto|]. intros o. destruct o; exact I.
  - cbn. split; [reflexivity|]. split; [auto|]. intros o. destruct o; exact I.
Qed.
Lemma makes_step : forall lim c t d p, makes lim c p -> makes lim c (snd (estep secure t d p)).
Proof.
  intros lim c t d p M. destruct p as [o|k f|k v p|k f|lim' tc f|j f]; cbn [estep snd makes] in *; auto.
  - apply M.
  - destruct (dget d k); cbn [snd]; apply M.
  - apply M.
  - destruct (answer_of _ j); [apply M|exact M].
Qed.
Lemma makes_run : forall ms i lim c p, nth_error (ecalls_of ms) i = Some (lim, c) -> nth_error (x_calls (after ms)) i = Some p -> makes lim c p.
Proof.
  intros ms. induction ms as [|m ms IH] using rev_ind; intros i lim c p Ec Ep; [destruct i; discriminate|].
  rewrite erun_snoc in Ep. pose proof (run_calls_len secure ms) as Len. destruct m as [lim' c'|i'].
  - rewrite ecalls_app in Ec. cbn in Ec. cbn [ego x_calls] in Ep. apply nth_error_snoc in Ep as [Ep|[-> ->]].
    + rewrite nth_snoc_old in Ec by (rewrite <- Len; eapply nth_lt, Ep). eauto.
    + rewrite Len, nth_snoc_new in Ec. injection Ec as <- <-. apply makes_call.
  - assert (Ec' : ecalls_of (ms ++ [EGo i']) = ecalls_of ms) by (rewrite ecalls_app; cbn; apply app_nil_r). rewrite Ec' in Ec.
    destruct (nth_error (x_calls (after ms)) i') as [q|] eqn:Eq; [|cbn [ego] in Ep; rewrite Eq in Ep; eauto]. rewrite (ego_at secure _ _ _ Eq) in Ep. cbn [x_calls] in Ep.
    destruct (Nat.eq_dec i i') as [->|N].
    + rewrite (upd_same _ _ _ _ _ Eq) in Ep. injection Ep as <-. apply makes_step. eauto.
    + rewrite (upd_other _ _ _ _ _ _ Eq N) in Ep. eauto.
Qed.
Lemma owner : forall ms j lim tc, nth_error (calls_of (trace ms)) j = Some (lim, tc) -> exists i c, nth_error (ecalls_of ms) i = Some (lim, c) /\ own c tc.
Proof.
  intros ms. induction ms as [|m ms IH] using rev_ind; intros j lim tc E; [destruct j; discriminate|].
  assert (Old : forall i c, nth_error (ecalls_of ms) i = Some (lim, c) -> nth_error (ecalls_of (ms ++ [m])) i = Some (lim, c)).
  { intros i c Ei. rewrite ecalls_app, nth_error_app1; [exact Ei|]. eapply nth_lt, Ei. }
  rewrite trace_snoc, tcalls_app in E. destruct m as [lim' c'|i]; cbn [tmove] in E.
  - cbn in E. rewrite app_nil_r in E. destruct (IH _ _ _ E) as [i [c [E1 E2]]]. eauto.
  - destruct (nth_error (x_calls (after ms)) i) as [p|] eqn:Ep.
    2:{ cbn in E. rewrite app_nil_r in E. destruct (IH _ _ _ E) as [i' [c [E1 E2]]]. eauto. }
    destruct p as [o|k f|k v p|k f|lim' tc' f|j' f]; cbn in E; try (rewrite app_nil_r in E; destruct (IH _ _ _ E) as [i' [c [E1 E2]]]; eauto; fail).
    apply nth_error_snoc in E as [E|[_ E]]; [destruct (IH _ _ _ E) as [i' [c [E1 E2]]]; eauto|]. injection E as -> ->.
    assert (Li : i < length (ecalls_of ms)) by (rewrite <- (run_calls_len secure); eapply nth_lt, Ep).
    destruct (nth_error (ecalls_of ms) i) as [[lim c]|] eqn:Ei; [|apply nth_error_None in Ei; lia].
    pose proof (makes_run _ _ _ _ _ Ei Ep) as M. destruct M as [-> [M _]]. eauto.
Qed.
Lemma own_keys : forall c tc k, own c tc -> In k (tkeys1 tc) -> In k (ekeys1 c).
Proof.
  intros c tc k O I. destruct tc; cbn in I; try contradiction; destruct I as [<-|[]]; cbn in O.
  - destruct O as [->| ->]; now left.
  - destruct O as [->| ->]; now left.
  - destruct O as [v' [-> _]]; now left.
  - rewrite O; now left.
  - rewrite O; now left.
Qed.
Lemma trace_keys : forall ms k, In k (tkeys (trace ms)) -> In k (ekeys ms).
Proof.
  intros ms k I. unfold tkeys in I. apply in_flat_map in I as [[lim tc] [I1 I2]]. apply In_nth_error in I1 as [j Ej]. destruct (owner _ _ _ _ Ej) as [i [c [Ei O]]].
  unfold ekeys. apply in_flat_map. exists (lim, c). split; [eapply nth_error_In, Ei|]. eapply own_keys; eauto.
Qed.
Lemma bound : forall A B (x : result A) (f : A -> result B) y, bind x f = Ok y -> exists a, x = Ok a /\ f a = Ok y.
Proof. intros A B [a|e] f y E; [exists a; auto|discriminate]. Qed.
Lemma update_ref_is : forall k v r, update_ref k v = Ok r -> r = mkRef k (val_bytes v).
Proof. intros k v r E. destruct v as [b| |[] [] b]; cbn in *; try discriminate; injection E as <-; reflexivity. Qed.
Lemma ref_fits : (forall b, length (keccak b) = 32) -> forall k v rb, bind (update_ref k v) (fun r => ref_encode r) = Ok rb -> (blen k < 2 ^ 57)%N -> (blen (val_bytes v) < 2 ^ 57)%N -> rb <> [] /\ (blen rb < 2 ^ 59)%N.
Proof.
  intros keccak_len k v rb E Lk Lv. apply bound in E as [r [Er E]]. apply update_ref_is in Er. subst r.
  destruct (ref_encode_total keccak_len (mkRef k (val_bytes v)) Lk Lv) as [b [Eb F]]. assert (X : Ok rb = Ok b) by (rewrite <- E; exact Eb). injection X as ->. exact F.
Qed.
Lemma trace_fits : (forall b, length (keccak b) = 32) -> forall ms, xfits ms -> tfits secure (trace ms).
Proof.
  intros keccak_len ms [F1 F2]. split.
  - intros k I. apply trace_keys in I. specialize (F1 _ I). lia.
  - intros lim k v I. apply In_nth_error in I as [j Ej]. destruct (owner _ _ _ _ Ej) as [i [c [Ei [v' [-> Ev]]]]]. apply nth_error_In in Ei.
    destruct (ref_fits keccak_len _ _ _ Ev) as [N L]; [apply F1; unfold ekeys; apply in_flat_map; exists (lim, XPut k v'); split; [exact Ei|now left]|eapply F2, Ei|]. auto.
Qed.
Lemma trace_keys_ok : forall ms, keys_ok secure (ekeys ms) -> keys_ok secure (tkeys (trace ms)).
Proof. intros ms K. eapply keys_ok_incl; [|exact K]. intros k. apply trace_keys. Qed.

(** ** A call of the trie that a call waits for *)
Definition during_since (ms : list emove) (i : nat) (m : list emove) (j : nat) : Prop :=
  forall me mr, ms = me ++ mr -> j < length (calls_of (trace me)) ->
    length m <= length me /\ i < length (ecalls_of me) /\ (answer_of (x_trie (after me)) j = None -> eanswer_of (after me) i = None).
Definition waits (ms : list emove) (i : nat) (m : list emove) (lim : nat) (tc : tcmd) (g : tout -> eprog) (p : eprog) : Prop :=
  exists j, nth_error (calls_of (trace ms)) j = Some (lim, tc) /\ during_since ms i m j /\
    (p = EWait j g \/ exists a, answer_of (x_trie (after ms)) j = Some a /\ p = g a).
Lemma snoc_split : forall A (l : list A) x a b, l ++ [x] = a ++ b -> (b = [] /\ a = l ++ [x]) \/ exists b', b = b' ++ [x] /\ l = a ++ b'.
Proof.
  intros A l x a b E. destruct b as [|y b] using rev_ind; [left; rewrite app_nil_r in E; auto|]. right. rewrite app_assoc in E. apply app_inj_tail in E as [E ->]. eauto.
Qed.
Lemma answer_stays : forall ms m j a, answer_of (x_trie (after ms)) j = Some a -> answer_of (x_trie (after (ms ++ [m]))) j = Some a.
Proof.
  intros ms m j a E. rewrite erun_snoc, trie_step. destruct (tmove (after ms) m) as [|x [|y l]] eqn:Et; [exact E| |pose proof (tmove_short (after ms) m) as L; rewrite Et in L; cbn in L; lia].
  unfold run_moves. cbn [fold_left]. unfold answer_of in *. destruct (nth_error (p_calls (x_trie (after ms))) j) as [q|] eqn:Eq; [|discriminate].
  destruct x as [lim c|j']; cbn [go p_calls].
  - rewrite nth_snoc_old by (eapply nth_lt, Eq). rewrite Eq. exact E.
  - destruct (nth_error (p_calls (x_trie (after ms))) j') as [q'|] eqn:Eq'; [|rewrite Eq; exact E]. destruct (access (p_obj (x_trie (after ms))) q') as [s' q2] eqn:Ea. cbn [p_calls].
    destruct (Nat.eq_dec j j') as [<-|N]; [|rewrite (upd_other _ _ _ _ _ _ Eq' N), Eq; exact E]. rewrite (upd_same _ _ _ _ _ Eq'). rewrite Eq in Eq'. injection Eq' as <-.
    destruct q; try discriminate. cbn in Ea. injection Ea as <- <-. exact E.
Qed.
Lemma waits_step : forall ms i m lim tc g p x p', (forall a, exists o, g a = EDone o) ->
  i < length (ecalls_of ms) -> nth_error (x_calls (after ms)) i = Some p -> waits ms i m lim tc g p -> nth_error (x_calls (after (ms ++ [x]))) i = Some p' -> waits (ms ++ [x]) i m lim tc g p'.
Proof.
  intros ms i m lim tc g p x p' G Li Ep [j [Ej [D W]]] Ep'. exists j. split; [apply trace_calls_old, Ej|].
  assert (Lj : j < length (calls_of (trace ms))) by (eapply nth_lt, Ej).
  assert (W' : p' = EWait j g \/ exists a, answer_of (x_trie (after (ms ++ [x]))) j = Some a /\ p' = g a).
  { pose proof Ep' as Q. rewrite erun_snoc in Q. destruct x as [lim' c|i'].
    - cbn [ego x_calls] in Q. rewrite nth_snoc_old in Q by (eapply nth_lt, Ep). rewrite Ep in Q. injection Q as <-. destruct W as [->|[a [Ea ->]]]; [auto|]. right. exists a. split; [|reflexivity]. apply answer_stays, Ea.
    - destruct (nth_error (x_calls (after ms)) i') as [q|] eqn:Eq.
      2:{ cbn [ego] in Q. rewrite Eq, Ep in Q. injection Q as <-. destruct W as [->|[a [Ea ->]]]; [auto|]. right. exists a. split; [|reflexivity]. apply answer_stays, Ea. }
      destruct (Nat.eq_dec i i') as [<-|N].
      + rewrite Ep in Eq. injection Eq as <-. rewrite (ego_at secure _ _ _ Ep) in Q. cbn [x_calls] in Q. rewrite (upd_same _ _ _ _ _ Ep) in Q. injection Q as <-.
        destruct W as [->|[a [Ea ->]]].
        * assert (T : x_trie (after (ms ++ [EGo i])) = go secure (x_trie (after ms)) (MGo j)) by (rewrite erun_snoc, (ego_at secure _ _ _ Ep); reflexivity).
          rewrite T. cbn [estep snd]. destruct (answer_of (go secure (x_trie (after ms)) (MGo j)) j) as [a|]; [right; eauto|auto].
        * destruct (G a) as [o Eo]. rewrite Eo. cbn [estep snd]. right. exists a. split; [apply answer_stays, Ea|congruence].
      + rewrite (ego_at secure _ _ _ Eq) in Q. cbn [x_calls] in Q. rewrite (upd_other _ _ _ _ _ _ Eq N), Ep in Q. injection Q as <-.
        destruct W as [->|[a [Ea ->]]]; [auto|]. right. exists a. split; [|reflexivity]. apply answer_stays, Ea. }
  split; [|exact W'].
  intros me mr E L. apply snoc_split in E as [[-> ->]|[b' [-> E]]]; [|eapply D; eauto].
  destruct (D ms [] (eq_sym (app_nil_r ms)) Lj) as [D1 [D2 _]]. rewrite app_length, ecalls_app, app_length. split; [lia|]. split; [lia|]. intros An. unfold eanswer_of. rewrite Ep'.
  destruct W' as [->|[a [Ea _]]]; [reflexivity|congruence].
Qed.
Lemma waits_start : forall ms i m lim tc g, nth_error (x_calls (after ms)) i = Some (ETrie lim tc g) -> length m <= length ms -> i < length (ecalls_of ms) ->
  waits (ms ++ [EGo i]) i m lim tc g (EWait (length (calls_of (trace ms))) g).
Proof.
  intros ms i m lim tc g Ep Lm Li. exists (length (calls_of (trace ms))). split; [|split; [|auto]].
  - rewrite trace_snoc, tcalls_app. cbn [tmove]. rewrite Ep. cbn. apply nth_snoc_new.
  - intros me mr E L. apply snoc_split in E as [[-> ->]|[b' [-> ->]]].
    + rewrite app_length, ecalls_app, app_length. split; [lia|]. split; [lia|]. intros _. unfold eanswer_of. rewrite erun_snoc, (ego_at secure _ _ _ Ep). cbn [x_calls].
      rewrite (upd_same _ _ _ _ _ Ep). reflexivity.
    + rewrite trace_app, tcalls_app, app_length in L. lia.
Qed.

(** ** How far a call that reads is *)
Definition got (k : bytes) (v : value) (a : tout) : eprog :=
  match a with
  | AVal rb => EDone (RVal (bind rb (fun b => bind (ref_decode b) (fun r => bind (expected_ref k v) (fun x => if ref_eq r x then Ok v else Err InvalidReferenceError)))))
  | _ => EDone (RVal (Err RuntimeError))
  end.
Definition told_of (c : ecmd) (a : tout) : eprog :=
  match c with
  | XRef _ => match a with AVal rb => EDone (RRef (bind rb ref_decode)) | _ => EDone (RRef (Err RuntimeError)) end
  | XIn _ => match a with ABool r => EDone (RBool r) | _ => EDone (RBool (Err RuntimeError)) end
  | XPoi _ _ => match a with AProof r => EDone (RProof r) | _ => EDone (RProof (Err RuntimeError)) end
  | _ => match a with AOpt r => EDone (ROpt r) | _ => EDone (ROpt (Err RuntimeError)) end
  end.
Definition asked (c : ecmd) : option tcmd :=
  match c with XRef k => Some (TGet k) | XIn k => Some (TIn k) | XPoi tm k => Some (TPoi tm k) | XRoot => Some TRoot | XHash => Some THash | _ => None end.
Lemma e_call_asked : forall lim c tc, asked c = Some tc -> e_call lim c = ETrie lim tc (told_of c).
Proof. intros lim c tc E. destruct c; try discriminate; injection E as <-; reflexivity. Qed.
Lemma got_done : forall k v a, exists o, got k v a = EDone o.
Proof. intros k v a. destruct a; cbn; eauto. Qed.
Lemma told_done : forall c a, exists o, told_of c a = EDone o.
Proof. intros c a. destruct c, a; cbn; eauto. Qed.

Definition getting (ms : list emove) (i lim : nat) (k : bytes) (p : eprog) : Prop :=
  p = e_get lim k \/
  (exists m e, eduring secure ms i m e /\
    match dget (e_data e) k with
    | None => p = EDone (RVal (Err KeyError))
    | Some v => p = ETrie lim (TGet k) (got k v) \/ waits ms i m lim (TGet k) (got k v) p
    end).
Lemma eduring_more : forall ms x i m e, eduring secure ms i m e -> eduring secure (ms ++ [x]) i m e.
Proof. intros ms x i m e [m2 [-> R]]. exists (m2 ++ [x]). rewrite app_assoc. auto. Qed.
Lemma getting_run : forall ms i lim k p, nth_error (ecalls_of ms) i = Some (lim, XGet k) -> nth_error (x_calls (after ms)) i = Some p -> getting ms i lim k p.
Proof.
  intros ms. induction ms as [|x ms IH] using rev_ind; intros i lim k p Ec Ep; [destruct i; discriminate|].
  pose proof (run_calls_len secure ms) as Len. pose proof Ep as Q. rewrite erun_snoc in Q.
  destruct (Nat.lt_ge_cases i (length (ecalls_of ms))) as [Li|Li].
  2:{ destruct x as [lim' c'|i'].
      - rewrite ecalls_app in Ec. cbn in Ec. apply nth_error_snoc in Ec as [Ec|[-> Ec]]; [apply nth_lt in Ec; lia|]. injection Ec as <- <-. cbn [ego x_calls] in Q. rewrite <- Len, nth_snoc_new in Q. injection Q as <-. left. reflexivity.
      - rewrite ecalls_app in Ec. cbn in Ec. rewrite app_nil_r in Ec. apply nth_lt in Ec. lia. }
  assert (Ec0 : nth_error (ecalls_of ms) i = Some (lim, XGet k)) by (rewrite ecalls_app, nth_error_app1 in Ec by exact Li; exact Ec).
  destruct (nth_error (x_calls (after ms)) i) as [p0|] eqn:Ep0; [|apply nth_error_None in Ep0; lia].
  specialize (IH _ _ _ _ Ec0 Ep0).
  assert (Same : p = p0 -> getting (ms ++ [x]) i lim k p).
  { intros ->. destruct IH as [->|[m [e [D M]]]]; [left; reflexivity|]. right. exists m, e. split; [apply eduring_more, D|].
    destruct (dget (e_data e) k) as [v|]; [|exact M]. destruct M as [M|M]; [auto|]. right. eapply (waits_step _ _ _ _ _ _ _ x); eauto. apply got_done. }
  destruct x as [lim' c'|i'].
  { apply Same. cbn [ego x_calls] in Q. rewrite nth_snoc_old in Q by lia. congruence. }
  destruct (Nat.eq_dec i i') as [<-|N].
  2:{ apply Same. destruct (nth_error (x_calls (after ms)) i') as [q|] eqn:Eq; [|cbn [ego] in Q; rewrite Eq in Q; congruence].
      rewrite (ego_at secure _ _ _ Eq) in Q. cbn [x_calls] in Q. rewrite (upd_other _ _ _ _ _ _ Eq N) in Q. congruence. }
  rewrite (ego_at secure _ _ _ Ep0) in Q. cbn [x_calls] in Q. rewrite (upd_same _ _ _ _ _ Ep0) in Q. injection Q as Q.
  destruct IH as [->|[m [e [D M]]]].
  - right. exists ms, (eobject secure (after ms)). split.
    + exists [EGo i]. split; [reflexivity|]. split; [exact Li|]. split; [|reflexivity]. unfold eanswer_of. rewrite Ep0. reflexivity.
    + unfold e_get in Q. cbn [estep snd eobject e_data] in Q. cbn [eobject e_data]. destruct (dget (x_data (after ms)) k) as [v|]; [left|]; symmetry; exact Q.
  - destruct (dget (e_data e) k) as [v|] eqn:Ed.
    + right. exists m, e. split; [apply eduring_more, D|]. rewrite Ed. right. destruct M as [->|M].
      * cbn [estep snd] in Q. subst p. rewrite <- trace_len. apply waits_start; auto. destruct D as [m2 [-> _]]. rewrite app_length. lia.
      * eapply (waits_step _ _ _ _ _ _ _ (EGo i)); eauto. apply got_done.
    + subst p0. apply Same. symmetry. exact Q.
Qed.
Definition asking (ms : list emove) (i lim : nat) (c : ecmd) (tc : tcmd) (p : eprog) : Prop :=
  p = e_call lim c \/ waits ms i [] lim tc (told_of c) p.
Lemma asking_run : forall ms i lim c tc p, asked c = Some tc -> nth_error (ecalls_of ms) i = Some (lim, c) -> nth_error (x_calls (after ms)) i = Some p -> asking ms i lim c tc p.
Proof.
  intros ms. induction ms as [|x ms IH] using rev_ind; intros i lim c tc p Ea Ec Ep; [destruct i; discriminate|].
  pose proof (run_calls_len secure ms) as Len. pose proof Ep as Q. rewrite erun_snoc in Q.
  destruct (Nat.lt_ge_cases i (length (ecalls_of ms))) as [Li|Li].
  2:{ destruct x as [lim' c'|i'].
      - rewrite ecalls_app in Ec. cbn in Ec. apply nth_error_snoc in Ec as [Ec|[-> Ec]]; [apply nth_lt in Ec; lia|]. injection Ec as <- <-. cbn [ego x_calls] in Q. rewrite <- Len, nth_snoc_new in Q. injection Q as <-. left. reflexivity.
      - rewrite ecalls_app in Ec. cbn in Ec. rewrite app_nil_r in Ec. apply nth_lt in Ec. lia. }
  assert (Ec0 : nth_error (ecalls_of ms) i = Some (lim, c)) by (rewrite ecalls_app, nth_error_app1 in Ec by exact Li; exact Ec).
  destruct (nth_error (x_calls (after ms)) i) as [p0|] eqn:Ep0; [|apply nth_error_None in Ep0; lia].
  specialize (IH _ _ _ _ _ Ea Ec0 Ep0). destruct IH as [->|W]; [|right; eapply (waits_step _ _ _ _ _ _ _ x); eauto; apply told_done].
  destruct x as [lim' c'|i'].
  { left. cbn [ego x_calls] in Q. rewrite nth_snoc_old in Q by lia. congruence. }
  destruct (Nat.eq_dec i i') as [<-|N].
  2:{ left. destruct (nth_error (x_calls (after ms)) i') as [q|] eqn:Eq; [|cbn [ego] in Q; rewrite Eq in Q; congruence].
      rewrite (ego_at secure _ _ _ Eq) in Q. cbn [x_calls] in Q. rewrite (upd_other _ _ _ _ _ _ Eq N) in Q. congruence. }
  right. rewrite (ego_at secure _ _ _ Ep0) in Q. cbn [x_calls] in Q. rewrite (upd_same _ _ _ _ _ Ep0) in Q. injection Q as Q. rewrite (e_call_asked _ _ _ Ea) in *. cbn [estep snd] in Q. subst p.
  rewrite <- trace_len. apply waits_start; auto. cbn. lia.
Qed.

(** ** What answers rest on *)
Lemma stems_mono : forall (P Q : mpt -> Prop) lim c o, (forall t, P t -> Q t) -> stems P lim c o -> stems Q lim c o.
Proof.
  intros P Q lim c o PQ S. assert (Em : emptied P -> emptied Q) by (intros [t [t' [A [B [C D]]]]]; exists t, t'; auto).
  destruct c, o; cbn [stems] in *; try contradiction; auto.
  - destruct S as [[t [Pt E]]|[x [E [O M]]]]; [left; eauto|right; eauto].
  - destruct S as [[t [Pt E]]|[S|[[E M]|[E [t [t' [A [B [C D]]]]]]]]]; [left; eauto|auto|right; right; left; auto|right; right; right; split; [exact E|exists t, t'; auto]].
  - destruct r as [p|x].
    + destruct S as [t [t' [p' [r' [A [B C]]]]]]. exists t, t', p', r'. auto.
    + destruct S as [[t [Pt E]]|[E M]]; [left; eauto|auto].
  - destruct S as [t [Pt E]]. eauto.
  - destruct S as [[t [Pt E]]|[[E M]|[t [t' [r' [A [B C]]]]]]]; [left; eauto|right; left; auto|right; right; exists t, t', r'; auto].
Qed.
Lemma during_seen : forall ms i m j t, during_since ms i m j -> during secure (trace ms) j t -> seen secure ms i m t.
Proof.
  intros ms i m j t D [m1 [m2 [E [L [An Et]]]]]. destruct (trace_prefix _ _ _ E) as [me [mr [E1 E2]]]. subst m1. destruct (D me mr E1 L) as [Lm [Li A]].
  exists me, (eobject secure (after me)). split; [exact Lm|]. split.
  - exists mr. rewrite trace_run in A. auto.
  - cbn [eobject e_trie]. rewrite trace_run. exact Et.
Qed.
End S.

Theorem ethreads_rest : forall (H : Hash), (forall b, length (keccak b) = 32) ->
  forall secure ms, keys_ok secure (ekeys ms) -> xfits ms ->
  let w := erun secure (epool_new secure) ms in no_collision (h_log (p_obj (x_trie w))) ->
  forall i lim c o, nth_error (ecalls_of ms) i = Some (lim, c) -> eanswer_of w i = Some o -> erests secure ms i lim c o.
Proof.
  intros H keccak_len secure ms K F w NC i lim c o Ec Ea. unfold eanswer_of in Ea. destruct (nth_error (x_calls w) i) as [p|] eqn:Ep; [|discriminate]. destruct p as [o'| | | | |]; try discriminate. injection Ea as ->.
  pose proof (trace_keys_ok secure ms K) as K'. pose proof (trace_fits secure keccak_len ms F) as F'. unfold w in NC. rewrite trace_run in NC.
  assert (W : forall m tc g, waits secure ms i m lim tc g (EDone o) -> exists a, stems (seen secure ms i m) lim tc a /\ EDone o = g a).
  { intros m tc g [j [Ej [D [X|[a [Ea Eg]]]]]]; [discriminate|]. exists a. split; [|exact Eg]. rewrite trace_run in Ea.
    eapply stems_mono; [intros t; apply (during_seen secure ms i m j t D)|]. exact (threads_stem keccak_len secure (trace secure ms) K' F' NC _ _ _ _ Ej Ea). }
  assert (Ask : forall tc, asked c = Some tc -> exists a, stems (seen secure ms i []) lim tc a /\ EDone o = told_of c a).
  { intros tc Et. destruct (asking_run secure ms i lim c tc _ Et Ec Ep) as [X|X]; [rewrite (e_call_asked _ _ _ Et) in X; discriminate|eauto]. }
  destruct c as [k|k|k|k v|k|tm k| |]; cbn [erests].
  - destruct (getting_run secure ms i lim k _ Ec Ep) as [X|[m [e [D M]]]]; [discriminate|]. destruct (dget (e_data e) k) as [v|] eqn:Ed.
    + destruct M as [X|M]; [discriminate|]. destruct (W _ _ _ M) as [a [S E]]. destruct a; cbn [stems] in S; try contradiction. injection E as ->. exists m, e. rewrite Ed. eauto.
    + injection M as ->. exists m, e. rewrite Ed. auto.
  - destruct (Ask _ eq_refl) as [a [S E]]. destruct a; cbn [stems] in S; try contradiction. injection E as ->. eauto.
  - destruct (Ask _ eq_refl) as [a [S E]]. destruct a; try contradiction. injection E as ->. exact S.
  - pose proof (makes_run secure _ _ _ _ _ Ec Ep) as M. destruct o; try contradiction. exact I.
  - pose proof (makes_run secure _ _ _ _ _ Ec Ep) as M. destruct o; try contradiction. exact I.
  - destruct (Ask _ eq_refl) as [a [S E]]. destruct a; try contradiction. injection E as ->. exact S.
  - destruct (Ask _ eq_refl) as [a [S E]]. destruct a; try contradiction. injection E as ->. exact S.
  - destruct (Ask _ eq_refl) as [a [S E]]. destruct a; try contradiction. injection E as ->. exact S.
Qed.
