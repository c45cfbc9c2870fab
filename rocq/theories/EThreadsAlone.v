(** Every call on the EMPT answers after a bounded number of its own steps; alone it is the call of Empt.v. *)
From Coq Require Import List Bool Arith NArith ZArith Lia.
From Verif Require Import Base BaseProofs Rlp NibblePath Node ProofObj Mpt StoreProofs Empt SpecEvery MptPy SpecMptEvery Threads SpecThreads ThreadsSeq ThreadsPool ThreadsAlone
  EThreads SpecEThreads EThreadsRun EThreadsSerial.
Import ListNotations.

Section S.
Context {H : Hash}.
Variable secure : bool.
Hypothesis keccak_len : forall b, length (keccak b) = 32.
Notation start := (epool_new secure).
Notation after ms := (erun secure start ms).

(** At most [n] steps are left. *)
Fixpoint left_ (n : nat) (p : eprog) {struct p} : Prop :=
  match p with
  | EDone _ => True
  | EData _ f => match n with 0 => False | S n => forall o, left_ n (f o) end
  | EStore _ _ p => match n with 0 => False | S n => left_ n p end
  | EDrop _ f => match n with 0 => False | S n => forall b, left_ n (f b) end
  | ETrie lim _ f => 3 * lim + 6 <= n /\ forall o, left_ (n - (3 * lim + 6)) (f o)
  | EWait _ _ => False
  end.
Definition leftc (cs : list (prog tout)) (n : nat) (p : eprog) : Prop :=
  match p with
  | EWait j f => exists q m, nth_error cs j = Some q /\ within m q /\ tells q /\ S m <= S n /\ 1 <= n /\ forall o, left_ (n - Nat.max 1 m) (f o)
  | _ => left_ n p
  end.
Lemma left_more : forall p n m, left_ n p -> n <= m -> left_ m p.
Proof.
  induction p as [o|k f IH|k v p IH|k f IH|lim c f IH|j f IH]; intros n m L Le; cbn [left_] in *; auto.
  - destruct n as [|n]; [contradiction|]. destruct m as [|m]; [lia|]. intros o. apply (IH o n); [apply L|lia].
  - destruct n as [|n]; [contradiction|]. destruct m as [|m]; [lia|]. apply (IH n); [apply L|lia].
  - destruct n as [|n]; [contradiction|]. destruct m as [|m]; [lia|]. intros o. apply (IH o n); [apply L|lia].
  - destruct L as [L1 L2]. split; [lia|]. intros o. eapply IH; [apply L2|lia].
Qed.
Lemma left_c : forall cs n p, left_ n p -> leftc cs n p.
Proof. intros cs n p L. destruct p; try exact L. contradiction. Qed.
Lemma call_left : forall lim c, left_ (6 * lim + 14) (e_call lim c).
Proof.
  intros lim c. destruct c; cbn [e_call].
  - apply (left_more _ (S (3 * lim + 6 + 0))); [|lia]. unfold e_get. cbn [left_]. intros [v|]; [|exact I]. cbn [left_]. split; [lia|]. intros o. destruct o; exact I.
  - cbn [e_ref left_]. split; [lia|]. intros o. destruct o; exact I.
  - cbn [e_in left_]. split; [lia|]. intros o. destruct o; exact I.
  - unfold e_put. destruct (bind _ _); [|exact I]. cbn [left_]. split; [lia|]. intros o. replace (6 * lim + 14 - (3 * lim + 6)) with (S (3 * lim + 7)) by lia. destruct o as [| |[|]| |]; exact I.
  - cbn [e_del left_]. split; [lia|]. intros o. replace (6 * lim + 14 - (3 * lim + 6)) with (S (3 * lim + 7)) by lia. destruct o as [|[[|]|]| | |]; try exact I. cbn [left_].
    intros [|]; [|exact I]. cbn [left_]. split; [lia|]. intros o. destruct o; exact I.
  - cbn [e_poi left_]. split; [lia|]. intros o. destruct o; exact I.
  - cbn [e_opt left_]. split; [lia|]. intros o. destruct o; exact I.
  - cbn [e_opt left_]. split; [lia|]. intros o. destruct o; exact I.
Qed.
Lemma tells_call : forall lim c, tells (call_prog secure lim c).
Proof. intros lim c. destruct c; apply told_tells. Qed.
Lemma within0 : forall (q : prog tout), within 0 q -> tells q -> exists o, q = PRet (Ok o).
Proof. intros q W T. destruct q as [[o|e]| | | |]; cbn in *; try contradiction. eauto. Qed.
Lemma left_step : forall t d p n, leftc (p_calls t) n p ->
  leftc (p_calls (fst (fst (estep secure t d p)))) (pred n) (snd (estep secure t d p)).
Proof.
  intros t d p n L. destruct p as [o|k f|k v p|k f|lim c f|j f]; cbn [estep fst snd leftc left_] in *.
  - exact I.
  - destruct n as [|n]; [contradiction|]. apply left_c, L.
  - destruct n as [|n]; [contradiction|]. apply left_c, L.
  - destruct n as [|n]; [contradiction|]. destruct (dget d k); cbn [snd fst pred]; apply left_c, L.
  - destruct L as [L1 L2]. exists (call_prog secure lim c), (3 * lim + 5). cbn [go p_calls]. rewrite nth_snoc_new. split; [reflexivity|]. split; [apply within_call; exact keccak_len|].
    split; [apply tells_call|]. split; [lia|]. split; [lia|]. intros o. replace (pred n - Nat.max 1 (3 * lim + 5)) with (n - (3 * lim + 6)) by lia. apply L2.
  - destruct L as [q [m [Eq [W [T [L1 [L2 L3]]]]]]]. rewrite (go_mid_answer secure _ _ _ Eq). destruct (access_within (p_obj t) q m W T) as [W' T'].
    destruct (answer (snd (access (p_obj t) q))) as [o|] eqn:Eo.
    + apply left_c. eapply left_more; [apply L3|]. lia.
    + assert (2 <= m).
      { destruct m as [|[|m]]; [| |lia]; (destruct (within0 _ W' T') as [o E]; rewrite E in Eo; discriminate). }
      exists (snd (access (p_obj t) q)), (pred m). rewrite (go_mid secure _ _ _ Eq). cbn [p_calls]. split; [eapply upd_same, Eq|]. split; [exact W'|]. split; [exact T'|]. split; [lia|]. split; [lia|].
      intros o. eapply left_more; [apply L3|]. lia.
Qed.
Lemma left_other : forall cs cs' n p, leftc cs n p -> (forall j f, p = EWait j f -> nth_error cs' j = nth_error cs j) -> leftc cs' n p.
Proof. intros cs cs' n p L E. destruct p as [o|k f|k v p|k f|lim c f|j f]; try exact L. cbn [leftc] in *. rewrite (E _ _ eq_refl). exact L. Qed.

Lemma runs_left : forall ms2 ms i p n, nth_error (x_calls (after ms)) i = Some p -> leftc (p_calls (x_trie (after ms))) n p -> n <= eturns i ms2 ->
  eanswer_of (after (ms ++ ms2)) i <> None.
Proof.
  induction ms2 as [|m ms2 IH]; intros ms i p n Ep L Le.
  - rewrite app_nil_r. cbn in Le. assert (n = 0) by lia. subst n. unfold eanswer_of. rewrite Ep. destruct p as [o|k f|k v p|k f|lim c f|j f]; cbn [leftc left_] in L; try contradiction; try lia.
    + discriminate.
    + destruct L as [q [m [_ [_ [_ [_ [L _]]]]]]]. lia.
  - replace (ms ++ m :: ms2) with ((ms ++ [m]) ++ ms2) by (rewrite <- app_assoc; reflexivity). pose proof (kept_run secure ms) as K. set (w := after ms) in *. destruct m as [lim c|j].
    + apply (IH (ms ++ [ECall lim c]) i p n); [| |exact Le]; rewrite erun_snoc; fold w; cbn [ego x_calls x_trie]; [rewrite nth_snoc_old; [exact Ep|eapply nth_lt, Ep]|exact L].
    + destruct (nth_error (x_calls w) j) as [q|] eqn:Eq.
      2:{ apply (IH (ms ++ [EGo j]) i p n); [rewrite erun_snoc; fold w; cbn [ego]; rewrite Eq; exact Ep|rewrite erun_snoc; fold w; cbn [ego]; rewrite Eq; exact L|].
          unfold eturns in *. cbn [filter] in Le. destruct (j =? i) eqn:Ej; [|exact Le]. apply Nat.eqb_eq in Ej. congruence. }
      unfold eturns in Le. cbn [filter] in Le. destruct (Nat.eq_dec j i) as [->|N].
      * rewrite Nat.eqb_refl in Le. cbn [length] in Le. rewrite Ep in Eq. injection Eq as <-.
        apply (IH (ms ++ [EGo i]) i (snd (estep secure (x_trie w) (x_data w) p)) (pred n)); [| |unfold eturns; lia]; rewrite erun_snoc; fold w; rewrite (ego_at secure _ _ _ Ep); cbn [x_calls x_trie].
        -- eapply upd_same, Ep.
        -- apply left_step, L.
      * apply Nat.eqb_neq in N as Nb. rewrite Nb in Le.
        apply (IH (ms ++ [EGo j]) i p n); [| |exact Le]; rewrite erun_snoc; fold w; rewrite (ego_at secure _ _ _ Eq); cbn [x_calls x_trie].
        -- rewrite (upd_other _ _ _ _ _ _ Eq); auto.
        -- eapply left_other; [exact L|]. intros j' f ->. destruct (kept_wait _ _ K _ _ _ Ep) as [q' Eq']. rewrite Eq'. apply step_calls; [exact Eq'|].
           intros f' ->. apply N. eapply kept_diff; eauto.
Qed.
Lemma run_calls_len : forall ms, length (x_calls (after ms)) = length (ecalls_of ms).
Proof. intros ms. apply (kept_len _ _ (kept_run secure ms)). Qed.
Theorem eanswers : forall ms lim c ms2, 6 * lim + 14 <= eturns (length (ecalls_of ms)) ms2 ->
  eanswer_of (after (ms ++ ECall lim c :: ms2)) (length (ecalls_of ms)) <> None.
Proof.
  intros ms lim c ms2 Le. replace (ms ++ ECall lim c :: ms2) with ((ms ++ [ECall lim c]) ++ ms2) by (rewrite <- app_assoc; reflexivity).
  eapply runs_left; [| |exact Le]; rewrite erun_snoc; cbn [ego x_calls x_trie].
  - rewrite <- run_calls_len. apply nth_snoc_new.
  - apply left_c, call_left.
Qed.

Lemma ev_runs : forall m ms i p, nth_error (x_calls (after ms)) i = Some p ->
  exists p', nth_error (x_calls (after (ms ++ repeat (EGo i) m))) i = Some p' /\ evw secure (after (ms ++ repeat (EGo i) m)) p' = evw secure (after ms) p.
Proof.
  induction m as [|m IH]; intros ms i p Ep; cbn [repeat].
  - rewrite app_nil_r. eauto.
  - replace (ms ++ EGo i :: repeat (EGo i) m) with ((ms ++ [EGo i]) ++ repeat (EGo i) m) by (rewrite <- app_assoc; reflexivity).
    pose proof (kept_run secure ms) as K. set (w := after ms) in *.
    assert (E : after (ms ++ [EGo i]) = mkEpool (fst (fst (estep secure (x_trie w) (x_data w) p))) (snd (fst (estep secure (x_trie w) (x_data w) p))) (upd i (snd (estep secure (x_trie w) (x_data w) p)) (x_calls w))).
    { rewrite erun_snoc. fold w. apply (ego_at secure _ _ _ Ep). }
    destruct (IH (ms ++ [EGo i]) i (snd (estep secure (x_trie w) (x_data w) p))) as [p' [E1 E2]].
    + rewrite E. cbn [x_calls]. eapply upd_same, Ep.
    + exists p'. split; [exact E1|]. rewrite E2, E. unfold evw. cbn [x_trie x_data]. apply ev_step; [eapply kept_ok; eauto|]. intros j f ->. eapply kept_wait; eauto.
Qed.
Theorem ealone : forall ms lim c m, 0 < lim -> 6 * lim + 14 <= m ->
  let i := length (ecalls_of ms) in let w := after (ms ++ ECall lim c :: repeat (EGo i) m) in
  eanswer_of w i = Some (fst (esingle lim (eobject secure (after ms)) c)) /\ eobject secure w = snd (esingle lim (eobject secure (after ms)) c).
Proof.
  intros ms lim c m Ll Lm i w.
  assert (A : eanswer_of w i <> None).
  { apply eanswers. assert (X : forall n, eturns i (repeat (EGo i) n) = n).
    { induction n as [|n IHn]; [reflexivity|]. cbn [repeat]. unfold eturns in *. cbn [filter]. rewrite Nat.eqb_refl. cbn [length]. rewrite IHn. reflexivity. }
    fold i. rewrite X. exact Lm. }
  assert (E0 : nth_error (x_calls (after (ms ++ [ECall lim c]))) i = Some (e_call lim c)).
  { rewrite erun_snoc. cbn [ego x_calls]. unfold i. rewrite <- run_calls_len. apply nth_snoc_new. }
  destruct (ev_runs m _ _ _ E0) as [p [Ep Ev]]. assert (Ew : (ms ++ [ECall lim c]) ++ repeat (EGo i) m = ms ++ ECall lim c :: repeat (EGo i) m) by (rewrite <- app_assoc; reflexivity).
  rewrite Ew in Ep, Ev. fold w in Ep, Ev. unfold eanswer_of in *. rewrite Ep in *. destruct p as [o| | | | |]; cbn [eanswer] in *; try contradiction.
  unfold evw in Ev. rewrite erun_snoc in Ev. cbn [ego x_trie x_data] in Ev. rewrite (ev_call secure keccak_len _ _ _ _ _ Ll) in Ev. cbn [ev] in Ev. injection Ev as -> Ev. split; [reflexivity|exact Ev].
Qed.
End S.
