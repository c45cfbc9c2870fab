(** Each thread has an MPT object of its own: proofs about SpecSeveral.v, continued. *)
From Coq Require Import List Bool Arith NArith ZArith Lia.
From Verif Require Import Base BaseProofs Rlp NibblePath Node ProofObj Mpt Spec SpecCodec SpecEmpt SpecEvery MptPy SpecMptEvery StoreProofs SharedProofs SimProofs Threads SpecThreads ThreadsSeq
  ThreadsProofs ThreadsPool ThreadsAlone Several SpecSeveral SeveralProofs.
Import ListNotations.

Section T.
Context {H : Hash}.
Hypothesis keccak_len : forall b, length (keccak b) = 32.

Lemma session_snoc : forall cs t lim c, session t (cs ++ [(lim, c)]) =
  (fst (session t cs) ++ [fst (single lim (snd (session t cs)) c)], snd (single lim (snd (session t cs)) c)).
Proof.
  induction cs as [|[l0 c0] cs IH]; intros t lim c; [reflexivity|]. cbn [app session]. rewrite IH. destruct (session (snd (single l0 t c0)) cs) as [os t']. reflexivity.
Qed.
Definition done (o : tout) : prog tout := PRet (Ok o).
Section One.
Variable b : bool.
Notation t0 := (mpt_new b).
Definition stand (cs : list (nat * tcmd)) (w : pool) : Prop :=
  (p_calls w = map done (fst (session t0 cs)) /\ object b w = snd (session t0 cs)) \/
  (exists cs0 lim c p, cs = cs0 ++ [(lim, c)] /\ p_calls w = map done (fst (session t0 cs0)) ++ [p] /\ answer p = None /\
     solo p (p_obj w) = (Ok (fst (single lim (snd (session t0 cs0)) c)), of_mpt (snd (single lim (snd (session t0 cs0)) c)))).
Lemma call_not_yet : forall lim c, answer (call_prog b lim c) = None.
Proof. intros lim c. destruct c; reflexivity. Qed.
Lemma run_secure : forall A t fl (m : M A) f, m_secure (snd (run_op t fl m f)) = m_secure t.
Proof. intros A t fl m f. unfold run_op. destruct (m _) as [[a|e] st]; reflexivity. Qed.
Lemma single_secure : forall lim t c, m_secure (snd (single lim t c)) = m_secure t.
Proof.
  intros lim t c. destruct c as [k|k|k v|k|tm k| |]; cbn [single snd]; try reflexivity.
  - unfold mpt_update. match goal with |- context [run_op ?a ?b ?c ?d] => pose proof (run_secure _ a b c d) as Q; destruct (run_op a b c d) end. exact Q.
  - unfold mpt_delete. destruct (root_is_empty t); [reflexivity|].
    match goal with |- context [run_op ?a ?b ?c ?d] => pose proof (run_secure _ a b c d) as Q; destruct (run_op a b c d) end. exact Q.
Qed.
Lemma session_secure : forall cs t, m_secure (snd (session t cs)) = m_secure t.
Proof.
  induction cs as [|[lim c] cs IH]; intros t; [reflexivity|]. cbn [session]. specialize (IH (snd (single lim t c))). destruct (session _ cs) as [os t']. cbn [snd] in *.
  rewrite IH. apply single_secure.
Qed.
Lemma stand_call : forall cs w lim c, stand cs w -> ~ In None (map answer (p_calls w)) -> 0 < lim -> stand (cs ++ [(lim, c)]) (go b w (MCall lim c)).
Proof.
  intros cs w lim c [[E1 E2]|(cs0 & l & c0 & p & _ & E & A & _)] N Hl.
  - right. exists cs, lim, c, (call_prog b lim c). split; [reflexivity|]. cbn [go p_calls p_obj]. split; [rewrite E1; reflexivity|]. split; [apply call_not_yet|].
    rewrite <- E2. exact (solo_call b keccak_len (p_obj w) lim c Hl).
  - exfalso. apply N. rewrite E, map_app. apply in_or_app. right. left. exact A.
Qed.
Lemma access_solo : forall s (p : prog tout), solo (snd (access s p)) (fst (access s p)) = solo p s.
Proof. intros s p. destruct p; reflexivity. Qed.
Lemma put_back : forall A (l : list A) i x, nth_error l i = Some x -> firstn i l ++ x :: skipn (S i) l = l.
Proof. intros A l i x E. symmetry. exact (proj1 (split_at _ _ _ _ E)). Qed.
Lemma done_stays : forall w i o, nth_error (p_calls w) i = Some (done o) -> go b w (MGo i) = w.
Proof. intros [s cs] i o E. cbn [go p_calls p_obj] in *. rewrite E. cbn [done access]. f_equal. exact (put_back _ _ _ _ E). Qed.
Lemma stand_go : forall cs w i, stand cs w -> stand cs (go b w (MGo i)).
Proof.
  intros cs w i S. destruct S as [[E1 E2]|(cs0 & lim & c & p & Ec & E & A & So)].
  - left. destruct (nth_error (p_calls w) i) as [p|] eqn:Ei.
    + assert (Hp : exists o, p = done o).
      { rewrite E1 in Ei. apply nth_error_In, in_map_iff in Ei. destruct Ei as (o & <- & _). eauto. }
      destruct Hp as [o ->]. rewrite (done_stays w i o Ei). auto.
    + cbn [go]. rewrite Ei. auto.
  - destruct (Nat.lt_trichotomy i (length (fst (session t0 cs0)))) as [L|[L|L]].
    + assert (Hp : exists o, nth_error (p_calls w) i = Some (done o)).
      { rewrite E, nth_error_app1 by (rewrite map_length; exact L). rewrite nth_error_map. destruct (nth_error (fst (session t0 cs0)) i) as [o|] eqn:Eo; [cbn; eauto|].
        apply nth_error_None in Eo. lia. }
      destruct Hp as [o Ei]. rewrite (done_stays w i o Ei). right. exists cs0, lim, c, p. auto.
    + assert (Ew : go b w (MGo i) = mkPool (fst (access (p_obj w) p)) (map done (fst (session t0 cs0)) ++ [snd (access (p_obj w) p)])).
      { destruct w as [s q]. cbn [p_calls p_obj] in *. rewrite E, L. rewrite <- (map_length done). apply go_at. }
      rewrite Ew. destruct (answer (snd (access (p_obj w) p))) as [o|] eqn:Ea.
      * left. assert (Ep : snd (access (p_obj w) p) = done o) by (destruct (snd (access (p_obj w) p)) as [[x|x]| | | |]; try discriminate; injection Ea as ->; reflexivity).
        rewrite <- access_solo, Ep in So. cbn [solo done] in So. injection So as So1 So2. cbn [p_calls]. rewrite Ep, Ec, session_snoc. cbn [fst snd]. rewrite map_app, So1. cbn [map].
        split; [reflexivity|]. unfold object. cbn [p_obj]. rewrite So2. unfold of_mpt. cbn [h_map h_log h_root].
        assert (Es : m_secure (snd (single lim (snd (session t0 cs0)) c)) = b) by (rewrite single_secure, session_secure; reflexivity).
        destruct (snd (single lim (snd (session t0 cs0)) c)) as [x1 x2 x3 x4]. cbn [m_map m_log m_root m_secure] in *. rewrite Es. reflexivity.
      * right. exists cs0, lim, c, (snd (access (p_obj w) p)). cbn [p_calls p_obj]. split; [exact Ec|]. split; [reflexivity|]. split; [exact Ea|]. rewrite access_solo. exact So.
    + right. exists cs0, lim, c, p. assert (Ei : nth_error (p_calls w) i = None) by (apply nth_error_None; rewrite E, app_length, map_length; cbn [length]; lia).
      cbn [go]. rewrite Ei. auto.
Qed.
End One.

Lemma ocalls_app : forall n j m1 m2, ocalls n j (m1 ++ m2) = ocalls n j m1 ++ ocalls n j m2.
Proof. intros. apply flat_map_app. Qed.
Lemma calls_part : forall n j ms own, calls_of (part n j own ms) = ocalls n j ms.
Proof.
  intros n j ms. induction ms as [|[j' lim c|i] ms IH]; intros own; [reflexivity| |]; cbn [part]; rewrite calls_app, IH; cbn [ocalls flat_map].
  - destruct ((j' <? n) && (j' =? j)); reflexivity.
  - destruct (nth_error own i) as [j'|]; [destruct (j' =? j)|]; reflexivity.
Qed.

Section Many.
Variables (bs : list bool) (j : nat) (b : bool).
Notation n := (length bs).
Notation after ms := (vrun bs (several_new bs) ms).
Notation only ms := (run_moves b (pool_new b) (part n j [] ms)).
Hypothesis Ej : nth_error bs j = Some b.
Lemma stand_all : forall ms, keys_ok b (tkeys (part n j [] ms)) -> tfits b (part n j [] ms) -> no_collision (v_log (after ms)) ->
  (forall lim c, In (lim, c) (ocalls n j ms) -> 0 < lim) -> by_turns bs j ms -> stand b (ocalls n j ms) (only ms).
Proof.
  intros ms Ko Fi. assert (Ho : forall lim c, In (lim, c) (calls_of (part n j [] ms)) -> okc b (tkeys (part n j [] ms)) c) by exact (fit_calls b (part n j [] ms) Fi).
  pose proof (proj1 Fi) as Ks. revert Ko Ks Ho. generalize (tkeys (part n j [] ms)) as K. clear Fi. intros K Ko Ks.
  induction ms as [|m ms IH] using rev_ind; intros Ho N Hl T.
  - left. split; reflexivity.
  - assert (N0 : no_collision (v_log (after ms))) by (eapply nocoll_incl; [apply vlog|exact N]).
    assert (Ho0 : forall lim c, In (lim, c) (calls_of (part n j [] ms)) -> okc b K c).
    { intros lim c Hi. apply (Ho lim c). rewrite part_app, calls_app. apply in_or_app. auto. }
    assert (S : stand b (ocalls n j ms) (only ms)).
    { apply IH; auto.
      - intros lim c Hi. apply (Hl lim c). rewrite ocalls_app. apply in_or_app. auto.
      - intros m1 m2 lim c E. apply (T m1 (m2 ++ [m]) lim c). rewrite E, <- app_assoc. reflexivity. }
    rewrite ocalls_app, part_app, run_app. destruct m as [j' lim c|i]; cbn [ocalls flat_map part].
    + destruct ((j' <? n) && (j' =? j)) eqn:Ejj; rewrite !app_nil_r; cbn [run_moves fold_left]; [|exact S].
      apply andb_true_iff in Ejj. destruct Ejj as [Lj Ejj]. apply Nat.eqb_eq in Ejj. subst j'.
      apply stand_call; [exact S| |].
      * pose proof (T ms [] lim c eq_refl) as Q. rewrite answers_on_on in Q. destruct (same_all keccak_len bs j b K Ej Ko Ks ms Ho0 N0) as [C _ _ _]. rewrite C in Q. exact Q.
      * apply (Hl lim c). rewrite ocalls_app. apply in_or_app. right. cbn [ocalls flat_map]. rewrite Lj, Nat.eqb_refl. left. reflexivity.
    + rewrite app_nil_r. destruct (nth_error _ i) as [j'|]; [destruct (j' =? j)|]; cbn [run_moves fold_left]; rewrite ?app_nil_r; cbn [fold_left]; [apply stand_go; exact S|exact S|exact S].
Qed.
Theorem several_turns : forall ms, keys_ok b (tkeys (part n j [] ms)) -> tfits b (part n j [] ms) -> no_collision (v_log (after ms)) ->
  (forall lim c, In (lim, c) (ocalls n j ms) -> 0 < lim) -> by_turns bs j ms ->
  (forall i o, nth_error (answers_on j (after ms)) i = Some (Some o) -> nth_error (fst (session (mpt_new b) (ocalls n j ms))) i = Some o) /\
  (~ In None (answers_on j (after ms)) -> answers_on j (after ms) = map Some (fst (session (mpt_new b) (ocalls n j ms))) /\
     nth_error (v_roots (after ms)) j = Some (m_root (snd (session (mpt_new b) (ocalls n j ms))))).
Proof.
  intros ms Ko Fi N Hl T. destruct (several_apart keccak_len bs ms j b Ej Ko Fi N) as (E & R & _). rewrite E, R.
  assert (Md : forall l, map answer (map done l) = map Some l) by (intros l; rewrite map_map; reflexivity).
  destruct (stand_all ms Ko Fi N Hl T) as [[E1 E2]|(cs0 & lim & c & p & Ec & E1 & A & _)]; rewrite E1.
  - rewrite Md. split.
    + intros i o Ei. rewrite nth_error_map in Ei. destruct (nth_error _ i); [injection Ei as ->; reflexivity|discriminate].
    + intros _. split; [reflexivity|]. rewrite <- E2. reflexivity.
  - rewrite map_app, Md. cbn [map]. rewrite A. split.
    + intros i o Ei. rewrite Ec, session_snoc. cbn [fst]. destruct (nth_error_snoc _ _ _ _ _ Ei) as [Ei'|[_ X]]; [|discriminate].
      rewrite nth_error_map in Ei'. destruct (nth_error (fst (session (mpt_new b) cs0)) i) as [x|] eqn:Ex; [|discriminate]. injection Ei' as ->.
      rewrite nth_error_app1 by (apply nth_error_Some; congruence). exact Ex.
    + intros X. exfalso. apply X. apply in_or_app. right. left. reflexivity.
Qed.
End Many.
End T.
