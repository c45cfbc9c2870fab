(** Schedules of calls on one EMPT object: what steps keep, and what a call alone does. *)
From Coq Require Import List Bool Arith NArith ZArith Lia.
From Verif Require Import Base BaseProofs Rlp NibblePath Node ProofObj Mpt StoreProofs Empt SpecEvery MptPy SpecMptEvery Threads SpecThreads ThreadsSeq ThreadsPool ThreadsAlone
  EThreads SpecEThreads.
Import ListNotations.

(** ** Lists *)
Notation upd i x l := (firstn i l ++ x :: skipn (S i) l).
Lemma upd_same : forall A (l : list A) i y x, nth_error l i = Some y -> nth_error (upd i x l) i = Some x.
Proof.
  intros A l i y x E. destruct (split_at _ _ _ _ E) as [_ L]. rewrite nth_error_app2 by lia. rewrite L, Nat.sub_diag. reflexivity.
Qed.
Lemma upd_other : forall A (l : list A) i y x j, nth_error l i = Some y -> j <> i -> nth_error (upd i x l) j = nth_error l j.
Proof.
  intros A l i y x j E N. destruct (split_at _ _ _ _ E) as [El L]. rewrite El at 3. destruct (Nat.lt_trichotomy j i) as [X|[X|X]]; [|contradiction|].
  - rewrite !nth_error_app1 by lia. reflexivity.
  - rewrite !nth_error_app2 by lia. rewrite L. destruct (j - i) as [|n] eqn:Ej; [lia|]. reflexivity.
Qed.
Lemma upd_length : forall A (l : list A) i y x, nth_error l i = Some y -> length (upd i x l) = length l.
Proof.
  intros A l i y x E. destruct (split_at _ _ _ _ E) as [El L]. rewrite El at 3. rewrite !app_length. reflexivity.
Qed.
Lemma upd_id : forall A (l : list A) i y, nth_error l i = Some y -> upd i y l = l.
Proof. intros A l i y E. symmetry. apply (split_at _ _ _ _ E). Qed.
Lemma nth_snoc_old : forall A (l : list A) x i, i < length l -> nth_error (l ++ [x]) i = nth_error l i.
Proof. intros. apply nth_error_app1. assumption. Qed.
Lemma nth_snoc_new : forall A (l : list A) x, nth_error (l ++ [x]) (length l) = Some x.
Proof. intros. rewrite nth_error_app2, Nat.sub_diag by lia. reflexivity. Qed.
Lemma nth_lt : forall A (l : list A) i x, nth_error l i = Some x -> i < length l.
Proof. intros A l i x E. apply nth_error_Some. congruence. Qed.

(** ** Programs that only read *)
Fixpoint reads_only {A} (p : prog A) : Prop :=
  match p with
  | PRet _ => True
  | PGet _ k => forall o, reads_only (k o)
  | PSet _ _ _ => False
  | PRoot k => forall o, reads_only (k o)
  | PAssign _ _ => False
  end.
Lemma reads_bind : forall A B (p : prog A) (f : A -> prog B), reads_only p -> (forall a, reads_only (f a)) -> reads_only (pbind p f).
Proof. intros A B p f. induction p as [[a|e]|h k IH|h e k IH|k IH|r k IH]; intros R Hf; cbn [pbind reads_only] in *; auto; contradiction. Qed.
Lemma reads_told : forall A (g : result A -> tout) (p : prog A), reads_only p -> reads_only (told g p).
Proof. intros A g p. induction p as [r|h k IH|h e k IH|k IH|r k IH]; intros R; cbn [told reads_only] in *; auto; contradiction. Qed.

Section S.
Context {H : Hash}.
Lemma reads_node : forall r, reads_only (p_node r).
Proof. intros [r|]; cbn [p_node]; [destruct (length r =? 32)|]; cbn; auto. Qed.
Lemma reads_get : forall f r p, reads_only (p_get f r p).
Proof.
  induction f as [|f IH]; intros r p; cbn [p_get]; [exact I|]. apply reads_bind; [apply reads_node|]. intros n. destruct (np_len p =? 0); [exact I|].
  destruct n; [destruct (np_eq _ _)|destruct (np_starts_with _ _)|destruct (0 <? _)]; try exact I; apply IH.
Qed.
Lemma reads_contains : forall f r p, reads_only (p_contains f r p).
Proof.
  induction f as [|f IH]; intros r p; cbn [p_contains]; [exact I|]. apply reads_bind; [cbn; auto|]. intros [x|]; [|exact I]. apply reads_bind; [cbn; auto|]. intros b.
  destruct (match b with Some x0 => bytes_eqb x0 EMPTY_HASH | None => false end); [exact I|]. apply reads_bind; [apply reads_node|]. intros n. destruct (np_len p =? 0); [exact I|].
  destruct n; [exact I|destruct (np_starts_with _ _)|destruct (0 <? _)]; try exact I; apply IH.
Qed.
Lemma reads_poi : forall f r p acc, reads_only (p_poi f r p acc).
Proof.
  induction f as [|f IH]; intros r p acc; cbn [p_poi]; [exact I|]. apply reads_bind; [apply reads_node|]. intros n. destruct (np_len p =? 0); [destruct (node_encode n); exact I|].
  destruct n; [destruct (np_eq _ _)|destruct (np_starts_with _ _)|destruct (0 <? _)]; try exact I; (destruct (node_encode _); [cbn [pbind]; try exact I; apply IH|exact I]).
Qed.
Lemma reads_call : forall secure lim c, is_write c = false -> reads_only (call_prog secure lim c).
Proof.
  intros secure lim c Wc. destruct c as [k|k|k v|k|tm k| |]; try discriminate; cbn [call_prog]; apply reads_told.
  - unfold call_get. apply reads_bind; [cbn; auto|]. intros a. destruct (is_falsy a); [exact I|]. apply reads_bind; [cbn; auto|]. intros r.
    apply reads_bind; [apply reads_get|]. intros n. exact I.
  - unfold call_contains. apply reads_bind; [cbn; auto|]. intros a. destruct (is_falsy a); [exact I|]. apply reads_bind; [cbn; auto|]. intros r.
    apply reads_bind; [apply reads_contains|]. intros n. exact I.
  - unfold call_poi, unless_empty. apply reads_bind; [cbn; auto|]. intros [a|]; [|exact I]. apply reads_bind; [cbn; auto|]. intros b. destruct (is_empty_hash b); [exact I|].
    apply reads_bind; [cbn; auto|]. intros r. apply reads_bind; [apply reads_poi|]. intros l. apply reads_bind; [cbn; auto|]. intros [r2|]; exact I.
  - cbn. auto.
  - unfold call_hash. apply reads_bind; [cbn; auto|]. intros a. destruct (is_falsy a); [exact I|]. apply reads_bind; [cbn; auto|]. intros [b|]; [|exact I].
    destruct (length b =? 32); [cbn; auto|]. apply reads_bind; [cbn; auto|]. intros [c|]; exact I.
Qed.
Lemma access_reads : forall s p, reads_only p -> fst (access s p) = s /\ reads_only (snd (access s p)).
Proof. intros s p R. destruct p; cbn [access fst snd reads_only] in *; auto; contradiction. Qed.
Lemma access_solo : forall s p, solo p s = solo (snd (access s p)) (fst (access s p)).
Proof. intros s p. destruct p; reflexivity. Qed.

(** ** The rests of calls on the EMPT *)
(** No call of the trie is under way. *)
Fixpoint plainly (p : eprog) : Prop :=
  match p with
  | EDone _ => True
  | EData _ f => forall o, plainly (f o)
  | EStore _ _ p => plainly p
  | EDrop _ f => forall b, plainly (f b)
  | ETrie _ _ f => forall o, plainly (f o)
  | EWait _ _ => False
  end.
(** Nothing is written. *)
Fixpoint looks (p : eprog) : Prop :=
  match p with
  | EDone _ => True
  | EData _ f => forall o, looks (f o)
  | EStore _ _ p => False
  | EDrop _ f => False
  | ETrie _ c f => is_write c = false /\ forall o, looks (f o)
  | EWait _ f => forall o, looks (f o)
  end.
Definition waits_ok (p : eprog) : Prop := match p with EWait _ f => forall o, plainly (f o) | _ => plainly p end.
Lemma call_plainly : forall lim c, plainly (e_call lim c).
Proof.
  intros lim c. destruct c; cbn [e_call].
  - cbn. intros [v|]; [|exact I]. cbn. intros o. destruct o; exact I.
  - cbn. intros o. destruct o; exact I.
  - cbn. intros o. destruct o; exact I.
  - unfold e_put. destruct (bind _ _); [|exact I]. cbn. intros o. destruct o as [| |[|]| |]; exact I.
  - cbn. intros o. destruct o as [|[[|]|]| | |]; try exact I. cbn. intros [|]; [|exact I]. cbn. intros o. destruct o; exact I.
  - cbn. intros o. destruct o; exact I.
  - cbn. intros o. destruct o; exact I.
  - cbn. intros o. destruct o; exact I.
Qed.
Lemma plainly_ok : forall p, plainly p -> waits_ok p.
Proof. intros p P. destruct p; try exact P. contradiction. Qed.
Lemma call_looks : forall lim c, is_ewrite c = false -> looks (e_call lim c).
Proof.
  intros lim c Wc. destruct c; try discriminate; cbn [e_call].
  - cbn. intros [v|]; [|exact I]. cbn. split; [reflexivity|]. intros o. destruct o; exact I.
  - cbn. split; [reflexivity|]. intros o. destruct o; exact I.
  - cbn. split; [reflexivity|]. intros o. destruct o; exact I.
  - cbn. split; [reflexivity|]. intros o. destruct o; exact I.
  - cbn. split; [reflexivity|]. intros o. destruct o; exact I.
  - cbn. split; [reflexivity|]. intros o. destruct o; exact I.
Qed.

Variable secure : bool.
Notation start := (epool_new secure).
Notation after ms := (erun secure start ms).

Lemma erun_app : forall w a b, erun secure w (a ++ b) = erun secure (erun secure w a) b.
Proof. intros. unfold erun. apply fold_left_app. Qed.
Lemma erun_snoc : forall ms m, after (ms ++ [m]) = ego secure (after ms) m.
Proof. intros. rewrite erun_app. reflexivity. Qed.
Lemma ecalls_app : forall a b, ecalls_of (a ++ b) = ecalls_of a ++ ecalls_of b.
Proof. intros. unfold ecalls_of. apply flat_map_app. Qed.

(** What every schedule keeps. *)
Record kept (ms : list emove) (w : epool) : Prop := {
  kept_len : length (x_calls w) = length (ecalls_of ms);
  kept_ok : forall i p, nth_error (x_calls w) i = Some p -> waits_ok p;
  kept_wait : forall i j f, nth_error (x_calls w) i = Some (EWait j f) -> exists q, nth_error (p_calls (x_trie w)) j = Some q;
  kept_diff : forall i i' j f f', nth_error (x_calls w) i = Some (EWait j f) -> nth_error (x_calls w) i' = Some (EWait j f') -> i = i';
  kept_looks : forall i lim c p, nth_error (ecalls_of ms) i = Some (lim, c) -> is_ewrite c = false -> nth_error (x_calls w) i = Some p -> looks p;
  kept_reads : forall i lim c j f q, nth_error (ecalls_of ms) i = Some (lim, c) -> is_ewrite c = false -> nth_error (x_calls w) i = Some (EWait j f) ->
    nth_error (p_calls (x_trie w)) j = Some q -> reads_only q
}.

(** One step, seen from the trie. *)
Lemma go_mid : forall t j q, nth_error (p_calls t) j = Some q ->
  go secure t (MGo j) = mkPool (fst (access (p_obj t) q)) (upd j (snd (access (p_obj t) q)) (p_calls t)).
Proof. intros t j q E. cbn [go]. rewrite E. destruct (access (p_obj t) q). reflexivity. Qed.
Lemma go_mid_answer : forall t j q, nth_error (p_calls t) j = Some q -> answer_of (go secure t (MGo j)) j = answer (snd (access (p_obj t) q)).
Proof. intros t j q E. rewrite (go_mid _ _ _ E). unfold answer_of. cbn [p_calls]. rewrite (upd_same _ _ _ _ _ E). reflexivity. Qed.

Lemma plainly_step : forall t d p, waits_ok p -> waits_ok (snd (estep secure t d p)).
Proof.
  intros t d p P. destruct p as [o|k f|k v p|k f|lim c f|j f]; cbn [estep snd waits_ok] in *.
  - exact I.
  - apply plainly_ok, P.
  - apply plainly_ok, P.
  - destruct (dget d k); cbn [snd]; apply plainly_ok, P.
  - exact P.
  - destruct (answer_of _ j); [apply plainly_ok, P|exact P].
Qed.
Lemma looks_step : forall t d p, looks p -> looks (snd (estep secure t d p)).
Proof.
  intros t d p P. destruct p as [o|k f|k v p|k f|lim c f|j f]; cbn [estep snd looks] in *; auto; try contradiction.
  - apply P.
  - destruct (answer_of _ j); [apply P|exact P].
Qed.


(** A step of call [i] that leaves the calls of the trie other threads wait for. *)
Lemma kept_put : forall ms w i p t' d' p',
  kept ms w -> nth_error (x_calls w) i = Some p ->
  waits_ok p' -> (looks p -> looks p') ->
  (forall j q, nth_error (p_calls (x_trie w)) j = Some q -> (forall f, p <> EWait j f) -> nth_error (p_calls t') j = Some q) ->
  (forall j f, p' = EWait j f -> exists q, nth_error (p_calls t') j = Some q /\
     (forall i' f', i' <> i -> nth_error (x_calls w) i' = Some (EWait j f') -> False) /\
     (looks p -> (forall f0 q0, p = EWait j f0 -> nth_error (p_calls (x_trie w)) j = Some q0 -> reads_only q0) -> reads_only q)) ->
  kept (ms ++ [EGo i]) (mkEpool t' d' (upd i p' (x_calls w))).
Proof.
  intros ms w i p t' d' p' [K1 K2 K3 K4 K5 K6] Ep P' L' T' W'.
  assert (E : ecalls_of (ms ++ [EGo i]) = ecalls_of ms) by (rewrite ecalls_app; cbn; apply app_nil_r).
  assert (NP : forall i' j f', i' <> i -> nth_error (x_calls w) i' = Some (EWait j f') -> forall f, p <> EWait j f).
  { intros i' j f' N E' f ->. apply N. eapply K4; eauto. }
  split; cbn [x_calls x_trie x_data]; rewrite ?E.
  - rewrite (upd_length _ _ _ _ _ Ep). exact K1.
  - intros i' p1 E'. destruct (Nat.eq_dec i' i) as [->|N]; [rewrite (upd_same _ _ _ _ _ Ep) in E'; injection E' as <-; exact P'|rewrite (upd_other _ _ _ _ _ _ Ep N) in E'; eauto].
  - intros i' j f' E'. destruct (Nat.eq_dec i' i) as [->|N].
    + rewrite (upd_same _ _ _ _ _ Ep) in E'. injection E' as E'. destruct (W' _ _ E') as [q [Eq _]]. eauto.
    + rewrite (upd_other _ _ _ _ _ _ Ep N) in E'. destruct (K3 _ _ _ E') as [q Eq]. exists q. apply T'; eauto.
  - intros i1 i2 j f1 f2 E1 E2. destruct (Nat.eq_dec i1 i) as [->|N1]; destruct (Nat.eq_dec i2 i) as [->|N2]; auto.
    + rewrite (upd_same _ _ _ _ _ Ep) in E1. injection E1 as E1. rewrite (upd_other _ _ _ _ _ _ Ep N2) in E2. destruct (W' _ _ E1) as [q [_ [F _]]]. destruct (F _ _ N2 E2).
    + rewrite (upd_same _ _ _ _ _ Ep) in E2. injection E2 as E2. rewrite (upd_other _ _ _ _ _ _ Ep N1) in E1. destruct (W' _ _ E2) as [q [_ [F _]]]. destruct (F _ _ N1 E1).
    + rewrite (upd_other _ _ _ _ _ _ Ep N1) in E1. rewrite (upd_other _ _ _ _ _ _ Ep N2) in E2. eauto.
  - intros i' lim' c' p1 Ec Wc E'. destruct (Nat.eq_dec i' i) as [->|N]; [|rewrite (upd_other _ _ _ _ _ _ Ep N) in E'; eauto].
    rewrite (upd_same _ _ _ _ _ Ep) in E'. injection E' as <-. apply L'. eauto.
  - intros i' lim' c' j f' q Ec Wc E' Eq. destruct (Nat.eq_dec i' i) as [->|N].
    + rewrite (upd_same _ _ _ _ _ Ep) in E'. injection E' as E'. destruct (W' _ _ E') as [q' [Eq' [_ R]]]. rewrite Eq in Eq'. injection Eq' as <-.
      apply R; [eauto|]. intros f0 q0 -> Eq0. eauto.
    + rewrite (upd_other _ _ _ _ _ _ Ep N) in E'. destruct (K3 _ _ _ E') as [q' Eq']. pose proof (T' _ _ Eq' (NP _ _ _ N E')) as Eq2. rewrite Eq in Eq2. injection Eq2 as <-. eauto.
Qed.
Lemma not_waiting : forall p j f, plainly p -> p <> EWait j f.
Proof. intros p j f P ->. exact P. Qed.

Lemma kept_run : forall ms, kept ms (after ms).
Proof.
  intros ms. induction ms as [|m ms IH] using rev_ind.
  - split; try (intros [|i]; discriminate); reflexivity.
  - rewrite erun_snoc. set (w := after ms) in *. destruct m as [lim c|i].
    + (* a call is made *)
      destruct IH as [K1 K2 K3 K4 K5 K6].
      assert (E : ecalls_of (ms ++ [ECall lim c]) = ecalls_of ms ++ [(lim, c)]) by (rewrite ecalls_app; reflexivity).
      assert (NW : forall j f, e_call lim c <> EWait j f) by (intros j f; apply not_waiting, call_plainly).
      split; cbn [ego x_calls x_trie x_data]; rewrite ?E, ?app_length.
      * rewrite K1. reflexivity.
      * intros i p Ei. apply nth_error_snoc in Ei as [Ei|[_ ->]]; [eauto|]. apply plainly_ok, call_plainly.
      * intros i j f Ei. apply nth_error_snoc in Ei as [Ei|[_ Ei]]; [eauto|]. symmetry in Ei. now apply NW in Ei.
      * intros i i' j f f' E1 E2. apply nth_error_snoc in E1 as [E1|[_ E1]]; [|symmetry in E1; now apply NW in E1].
        apply nth_error_snoc in E2 as [E2|[_ E2]]; [|symmetry in E2; now apply NW in E2]. eauto.
      * intros i lim' c' p Ec Wc Ep. apply nth_error_snoc in Ep as [Ep|[-> ->]].
        -- apply nth_error_snoc in Ec as [Ec|[-> _]]; [eauto|]. apply nth_lt in Ep. lia.
        -- rewrite K1, nth_snoc_new in Ec. injection Ec as <- <-. now apply call_looks.
      * intros i lim' c' j f q Ec Wc Ep Eq. apply nth_error_snoc in Ep as [Ep|[_ Ep]]; [|symmetry in Ep; now apply NW in Ep].
        apply nth_error_snoc in Ec as [Ec|[-> _]]; [eauto|]. apply nth_lt in Ep. lia.
    + (* a call goes on *)
      cbn [ego]. destruct (nth_error (x_calls w) i) as [p|] eqn:Ep.
      2:{ assert (E : ecalls_of (ms ++ [EGo i]) = ecalls_of ms) by (rewrite ecalls_app; cbn; apply app_nil_r). destruct IH as [K1 K2 K3 K4 K5 K6]. split; rewrite ?E; eauto. }
      pose proof (kept_ok _ _ IH _ _ Ep) as P0. pose proof (plainly_step (x_trie w) (x_data w) p P0) as P'. pose proof (looks_step (x_trie w) (x_data w) p) as L'.
      destruct p as [o|k f|k v p|k f|lim c f|j f].
      * cbn [estep]. eapply kept_put; eauto; discriminate.
      * cbn [estep snd] in *. eapply kept_put; eauto. intros j f' E'. exfalso. revert E'; apply not_waiting; apply P0.
      * cbn [estep snd] in *. eapply kept_put; eauto. intros j f' E'. exfalso. revert E'; apply not_waiting; apply P0.
      * cbn [estep snd] in *. destruct (dget (x_data w) k); cbn [snd] in *; (eapply kept_put; eauto; intros j f' E'; exfalso; revert E'; apply not_waiting; apply P0).
      * cbn [estep snd] in *. eapply kept_put; eauto.
        -- intros j q Ej _. cbn [go p_calls]. rewrite nth_snoc_old; [exact Ej|eapply nth_lt, Ej].
        -- intros j f' E'. injection E' as <- <-. cbn [go p_calls]. rewrite nth_snoc_new. eexists. split; [reflexivity|]. split.
           ++ intros i' f' _ E'. destruct (kept_wait _ _ IH _ _ _ E') as [q Eq]. apply nth_lt in Eq. lia.
           ++ intros [Wc _] _. now apply reads_call.
      * cbn [estep snd] in *. destruct (kept_wait _ _ IH _ _ _ Ep) as [q Eq]. rewrite (go_mid_answer _ _ _ Eq) in *.
        assert (TT : forall j' q', nth_error (p_calls (x_trie w)) j' = Some q' -> (forall f0, EWait j f <> EWait j' f0) -> nth_error (p_calls (go secure (x_trie w) (MGo j))) j' = Some q').
        { intros j' q' Ej' N. rewrite (go_mid _ _ _ Eq). cbn [p_calls]. rewrite (upd_other _ _ _ _ _ _ Eq); [exact Ej'|]. intros ->. eapply N; reflexivity. }
        destruct (answer (snd (access (p_obj (x_trie w)) q))) as [o|] eqn:Eo; cbn [snd] in *.
        -- eapply kept_put; eauto. intros j' f' E'. exfalso. revert E'; apply not_waiting; apply P0.
        -- eapply kept_put; eauto. intros j' f' E'. injection E' as <- <-. exists (snd (access (p_obj (x_trie w)) q)). split; [|split].
           ++ rewrite (go_mid _ _ _ Eq). cbn [p_calls]. eapply upd_same, Eq.
           ++ intros i' f' N E'. apply N. eapply kept_diff; eauto.
           ++ intros _ R. apply access_reads. eapply R; eauto.
Qed.
End S.
