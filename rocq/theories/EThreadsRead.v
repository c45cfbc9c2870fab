(** One writer on one EMPT object: what was written is what the other threads read. *)
From Coq Require Import List Bool Arith NArith ZArith Lia.
From Verif Require Import Base BaseProofs Rlp NibblePath Node ProofObj Mpt StoreProofs Spec SpecGet SpecEmpt Empt MptProofs EmptProofs SpecEvery MptPy SpecMptEvery Threads SpecThreads ThreadsSeq ThreadsPool
  ThreadsAlone ThreadsSerial ThreadsRace EThreads SpecEThreads EThreadsRun EThreadsSerial EThreadsAlone EThreadsTrace.
Import ListNotations.

Section S.
Context {H : Hash}.
Variable secure : bool.
Notation start := (epool_new secure).
Notation after ms := (erun secure start ms).
Notation tafter m := (run_moves secure (pool_new secure) m).
Notation trace := (trace secure).

Lemma ecall_split : forall ms j x, nth_error (ecalls_of ms) j = Some x -> exists m1 m2, ms = m1 ++ ECall (fst x) (snd x) :: m2 /\ length (ecalls_of m1) = j.
Proof.
  intros ms. induction ms as [|m ms IH] using rev_ind; intros j x E; [destruct j; discriminate|]. rewrite ecalls_app in E. destruct m as [lim c|i].
  - cbn in E. apply nth_error_snoc in E as [E|[-> ->]].
    + destruct (IH _ _ E) as [m1 [m2 [-> L]]]. exists m1, (m2 ++ [ECall lim c]). rewrite <- app_assoc. auto.
    + exists ms, []. auto.
  - cbn in E. rewrite app_nil_r in E. destruct (IH _ _ E) as [m1 [m2 [-> L]]]. exists m1, (m2 ++ [EGo i]). rewrite <- app_assoc. auto.
Qed.
Lemma done_stays : forall b a i o, nth_error (x_calls (after a)) i = Some (EDone o) -> nth_error (x_calls (after (a ++ b))) i = Some (EDone o).
Proof.
  induction b as [|x b IH] using rev_ind; intros a i o E; [rewrite app_nil_r; exact E|]. specialize (IH _ _ _ E). rewrite app_assoc, erun_snoc. destruct x as [lim c|i'].
  - cbn [ego x_calls]. rewrite nth_snoc_old; [exact IH|eapply nth_lt, IH].
  - destruct (nth_error (x_calls (after (a ++ b))) i') as [q|] eqn:Eq; [|cbn [ego]; rewrite Eq; exact IH]. rewrite (ego_at secure _ _ _ Eq). cbn [x_calls].
    destruct (Nat.eq_dec i i') as [<-|N]; [|rewrite (upd_other _ _ _ _ _ _ Eq N); exact IH]. rewrite (upd_same _ _ _ _ _ Eq). rewrite IH in Eq. injection Eq as <-. reflexivity.
Qed.
Lemma eanswer_done : forall w i o, eanswer_of w i = Some o -> nth_error (x_calls w) i = Some (EDone o).
Proof. intros w i o E. unfold eanswer_of in E. destruct (nth_error (x_calls w) i) as [[]|]; try discriminate. injection E as ->. reflexivity. Qed.
Lemma earlier_done : forall ms j x i y, one_ewriter secure ms -> nth_error (ecalls_of ms) j = Some x -> is_ewrite (snd x) = true -> i < j -> nth_error (ecalls_of ms) i = Some y -> is_ewrite (snd y) = true ->
  exists o, nth_error (x_calls (after ms)) i = Some (EDone o).
Proof.
  intros ms j [lim c] i [l' c'] O Ej Wj L Ei Wi. destruct (ecall_split _ _ _ Ej) as [m1 [m2 [-> Lm]]]. cbn [fst snd] in *.
  rewrite ecalls_app, nth_error_app1 in Ei by lia. pose proof (O m1 m2 lim c i l' c' eq_refl Wj Ei Wi) as A. destruct (eanswer_of (after m1) i) as [o|] eqn:Eo; [|contradiction].
  exists o. apply done_stays, eanswer_done, Eo.
Qed.
Lemma two_writers : forall ms i j x y p q, one_ewriter secure ms -> nth_error (ecalls_of ms) i = Some x -> is_ewrite (snd x) = true -> nth_error (ecalls_of ms) j = Some y -> is_ewrite (snd y) = true ->
  nth_error (x_calls (after ms)) i = Some p -> nth_error (x_calls (after ms)) j = Some q -> eanswer p = None -> eanswer q = None -> i = j.
Proof.
  intros ms i j x y p q O Ei Wi Ej Wj Ep Eq Ap Aq. destruct (Nat.lt_trichotomy i j) as [L|[L|L]]; [|exact L|].
  - destruct (earlier_done ms j y i x O Ej Wj L Ei Wi) as [o E]. rewrite Ep in E. injection E as ->. discriminate.
  - destruct (earlier_done ms i x j y O Ei Wi L Ej Wj) as [o E]. rewrite Eq in E. injection E as ->. discriminate.
Qed.
Lemma one_ewriter_prefix : forall a b, one_ewriter secure (a ++ b) -> one_ewriter secure a.
Proof. intros a b O m1 m2 lim c i l' c' E. eapply (O m1 (m2 ++ b)). rewrite E, <- app_assoc. reflexivity. Qed.
Lemma call_of : forall ms i p, nth_error (x_calls (after ms)) i = Some p -> exists x, nth_error (ecalls_of ms) i = Some x.
Proof. intros ms i p E. destruct (nth_error (ecalls_of ms) i) eqn:Ei; [eauto|]. apply nth_error_None in Ei. rewrite <- (run_calls_len secure) in Ei. apply nth_lt in E. lia. Qed.
Lemma own_writes : forall c tc, own c tc -> is_write tc = true -> is_ewrite c = true.
Proof. intros c tc O W. destruct tc; try discriminate; cbn in O; [destruct O as [v' [-> _]]|rewrite O]; reflexivity. Qed.

(** ** The calls on the trie have one writer too *)
Lemma trace_split : forall ms m1 x m2, trace ms = m1 ++ x :: m2 -> exists me y mr, ms = me ++ y :: mr /\ trace me = m1 /\ tmove (after me) y = [x].
Proof.
  intros ms. induction ms as [|m ms IH] using rev_ind; intros m1 x m2 E; [destruct m1; discriminate|]. rewrite trace_snoc in E.
  pose proof (tmove_short secure (after ms) m) as L. destruct (tmove (after ms) m) as [|z [|]] eqn:Et; [| |cbn in L; lia].
  - rewrite app_nil_r in E. destruct (IH _ _ _ E) as [me [y [mr [-> R]]]]. exists me, y, (mr ++ [m]). rewrite <- app_assoc. auto.
  - destruct m2 as [|z' m2] using rev_ind.
    + apply app_inj_tail in E as [E ->]. exists ms, m, []. auto.
    + replace (m1 ++ x :: m2 ++ [z']) with ((m1 ++ x :: m2) ++ [z']) in E by (rewrite <- app_assoc; reflexivity). apply app_inj_tail in E as [E _].
      destruct (IH _ _ _ E) as [me [y [mr [-> R]]]]. exists me, y, (mr ++ [m]). rewrite <- app_assoc. auto.
Qed.
Lemma write_calls : forall ms jj x, nth_error (calls_of (trace ms)) jj = Some x -> is_write (snd x) = true ->
  answer_of (x_trie (after ms)) jj <> None \/ exists i y f, nth_error (ecalls_of ms) i = Some y /\ is_ewrite (snd y) = true /\ nth_error (x_calls (after ms)) i = Some (EWait jj f).
Proof.
  intros ms. induction ms as [|m ms IH] using rev_ind; intros jj x E W; [destruct jj; discriminate|].
  destruct (Nat.lt_ge_cases jj (length (calls_of (trace ms)))) as [Lj|Lj].
  - rewrite trace_snoc, tcalls_app, nth_error_app1 in E by exact Lj. destruct (IH _ _ E W) as [A|[i [y [f [Ei [Wi Ep]]]]]].
    + left. destruct (answer_of (x_trie (after ms)) jj) as [a|] eqn:Ea; [|contradiction]. rewrite (answer_stays secure ms m _ _ Ea). discriminate.
    + assert (Ei' : nth_error (ecalls_of (ms ++ [m])) i = Some y) by (rewrite ecalls_app, nth_error_app1; [exact Ei|eapply nth_lt, Ei]).
      destruct m as [lim c|i'].
      * right. exists i, y, f. rewrite erun_snoc. cbn [ego x_calls]. rewrite nth_snoc_old by (eapply nth_lt, Ep). auto.
      * destruct (nth_error (x_calls (after ms)) i') as [q|] eqn:Eq; [|right; exists i, y, f; rewrite erun_snoc; cbn [ego]; rewrite Eq; auto].
        destruct (Nat.eq_dec i i') as [<-|N].
        -- rewrite Ep in Eq. injection Eq as <-. rewrite erun_snoc, (ego_at secure _ _ _ Ep). cbn [x_trie x_calls estep fst snd].
           destruct (answer_of (go secure (x_trie (after ms)) (MGo jj)) jj) eqn:Ea; [left; discriminate|]. right. exists i, y, f. rewrite (upd_same _ _ _ _ _ Ep). auto.
        -- right. exists i, y, f. rewrite erun_snoc, (ego_at secure _ _ _ Eq). cbn [x_calls]. rewrite (upd_other _ _ _ _ _ _ Eq N). auto.
  - rewrite trace_snoc, tcalls_app in E. destruct m as [lim c|i]; cbn [tmove] in E; [cbn in E; rewrite app_nil_r in E; apply nth_lt in E; lia|].
    destruct (nth_error (x_calls (after ms)) i) as [p|] eqn:Ep; [|cbn in E; rewrite app_nil_r in E; apply nth_lt in E; lia].
    destruct p as [o|k f|k v p|k f|lim' tc' f|j' f]; cbn in E; try (rewrite app_nil_r in E; apply nth_lt in E; lia).
    apply nth_error_snoc in E as [E|[-> ->]]; [apply nth_lt in E; lia|]. cbn [snd] in W. right. destruct (call_of _ _ _ Ep) as [[lim c] Ei].
    destruct (makes_run secure _ _ _ _ _ Ei Ep) as [_ [M _]]. exists i, (lim, c), f. split; [rewrite ecalls_app, nth_error_app1; [exact Ei|eapply nth_lt, Ei]|].
    split; [eapply own_writes; eauto|]. rewrite erun_snoc, (ego_at secure _ _ _ Ep). cbn [x_calls estep snd]. rewrite (upd_same _ _ _ _ _ Ep), trace_len. reflexivity.
Qed.
Lemma trace_one_writer : forall ms, one_ewriter secure ms -> one_writer secure (trace ms).
Proof.
  intros ms O m1 m2 lim c jj l' c' E Wc Ej Wj. destruct (trace_split _ _ _ _ E) as [me [y [mr [Ems [Et Ey]]]]]. subst m1. rewrite <- trace_run.
  destruct y as [lim1 c1|i]; [discriminate|]. cbn [tmove] in Ey. destruct (nth_error (x_calls (after me)) i) as [p|] eqn:Ep; [|discriminate].
  destruct p as [o|k f|k v p|k f|lim1 c1 f|j1 f]; try discriminate. injection Ey as -> ->. destruct (call_of _ _ _ Ep) as [[lime ce] Ei].
  destruct (makes_run secure _ _ _ _ _ Ei Ep) as [_ [M _]]. assert (We : is_ewrite ce = true) by (eapply own_writes; eauto).
  destruct (write_calls _ _ _ Ej Wj) as [A|[i' [y' [f' [Ei' [Wi' Ep']]]]]]; [exact A|].
  assert (X : i = i') by (eapply (two_writers me); [rewrite Ems in O; eapply one_ewriter_prefix, O|exact Ei|exact We|exact Ei'|exact Wi'|exact Ep|exact Ep'|reflexivity|reflexivity]).
  subst i'. congruence.
Qed.

(** ** The last update of a key *)
Definition twrites_key (k : bytes) (c : tcmd) : Prop := match c with TPut k' _ | TDel k' => k' = k | _ => False end.
Definition stored (k : bytes) (v : value) (a : tout) : eprog :=
  match a with
  | ANone (Ok _) => EStore k v (EDone (RNone (Ok tt)))
  | ANone (Err x) => EDone (RNone (Err x))
  | _ => EDone (RNone (Err RuntimeError))
  end.
Definition putting (ms : list emove) (lim : nat) (k : bytes) (v : value) (p : eprog) : Prop :=
  p = e_put lim k v \/
  exists jj rb, bind (update_ref k v) (fun r => ref_encode r) = Ok rb /\ nth_error (calls_of (trace ms)) jj = Some (lim, TPut k rb) /\
    (forall j' x, jj < j' -> nth_error (calls_of (trace ms)) j' = Some x -> ~ twrites_key k (snd x)) /\
    (p = EWait jj (stored k v) \/ exists a, answer_of (x_trie (after ms)) jj = Some a /\
      (p = stored k v a \/ ((exists u, a = ANone (Ok u)) /\ p = EDone (RNone (Ok tt)) /\ dget (x_data (after ms)) k = Some v))).
Lemma own_key : forall c tc k, own c tc -> twrites_key k tc -> writes_key k c.
Proof. intros c tc k O W. destruct tc; try contradiction; cbn in O, W; subst; [destruct O as [v' [-> _]]; reflexivity|reflexivity]. Qed.
Lemma key_ewrite : forall k c, writes_key k c -> is_ewrite c = true.
Proof. intros k c W. destruct c; try contradiction; reflexivity. Qed.

Lemma data_nodup : forall ms, NoDup (dkeys (x_data (after ms))).
Proof.
  intros ms. induction ms as [|m ms IH] using rev_ind; [constructor|]. rewrite erun_snoc. destruct m as [lim c|i]; [exact IH|].
  destruct (nth_error (x_calls (after ms)) i) as [p|] eqn:Ep; [|cbn [ego]; rewrite Ep; exact IH]. rewrite (ego_at secure _ _ _ Ep). cbn [x_data].
  destruct p as [o|k f|k v p|k f|lim c f|j f]; cbn [estep fst snd]; try exact IH; [apply NoDup_dset, IH|]. destruct (dget (x_data (after ms)) k); cbn [fst snd]; [apply NoDup_ddel, IH|exact IH].
Qed.
(** What the other calls leave while call [j] is the last to write [k]. *)
Lemma other_data : forall ms i j x k, one_ewriter secure ms -> nth_error (ecalls_of ms) j = Some x -> writes_key k (snd x) ->
  (forall n y, j < n -> nth_error (ecalls_of ms) n = Some y -> ~ writes_key k (snd y)) -> i <> j ->
  dget (x_data (ego secure (after ms) (EGo i))) k = dget (x_data (after ms)) k.
Proof.
  intros ms i j x k O Ej Wj No N. destruct (nth_error (x_calls (after ms)) i) as [p|] eqn:Ep; [|cbn [ego]; rewrite Ep; reflexivity].
  rewrite (ego_at secure _ _ _ Ep). cbn [x_data]. destruct (call_of _ _ _ Ep) as [[lim c] Ei]. pose proof (makes_run secure _ _ _ _ _ Ei Ep) as M.
  assert (Other : eanswer p = None -> writes_key k c -> False).
  { intros A W. destruct (Nat.lt_trichotomy i j) as [L|[L|L]]; [|contradiction|exact (No _ _ L Ei W)].
    destruct (earlier_done ms j x i (lim, c) O Ej (key_ewrite _ _ Wj) L Ei (key_ewrite _ _ W)) as [o E]. rewrite Ep in E. injection E as ->. discriminate. }
  destruct p as [o|k' f|k' v' p|k' f|lim1 c1 f|j1 f]; cbn [estep fst snd]; try reflexivity.
  - cbn [makes] in M. destruct M as [-> _]. rewrite dget_dset. destruct (bytes_eqb_spec k' k) as [->|Ne]; [exfalso; apply Other; reflexivity|]. destruct (bytes_eqb_spec k k'); [congruence|reflexivity].
  - cbn [makes] in M. destruct M as [-> _]. destruct (dget (x_data (after ms)) k') eqn:Ed; [|reflexivity]. cbn [fst snd].
    destruct (bytes_eqb_spec k' k) as [->|Ne]; [exfalso; apply Other; reflexivity|]. rewrite dget_ddel by apply data_nodup. destruct (bytes_eqb_spec k k'); [congruence|reflexivity].
Qed.
Lemma other_calls : forall ms m j x k jj, one_ewriter secure ms -> nth_error (ecalls_of ms) j = Some x -> writes_key k (snd x) ->
  (forall n y, j < n -> nth_error (ecalls_of ms) n = Some y -> ~ writes_key k (snd y)) -> (forall lim c f, nth_error (x_calls (after ms)) j <> Some (ETrie lim c f)) ->
  (forall j' y, jj < j' -> nth_error (calls_of (trace ms)) j' = Some y -> ~ twrites_key k (snd y)) ->
  forall j' y, jj < j' -> nth_error (calls_of (trace (ms ++ [m]))) j' = Some y -> ~ twrites_key k (snd y).
Proof.
  intros ms m j x k jj O Ej Wj No NE Old j' y L E. rewrite trace_snoc, tcalls_app in E.
  destruct m as [lim c|i]; cbn [tmove] in E; [cbn in E; rewrite app_nil_r in E; eauto|].
  destruct (nth_error (x_calls (after ms)) i) as [p|] eqn:Ep; [|cbn in E; rewrite app_nil_r in E; eauto].
  destruct p as [o|k' f|k' v p|k' f|lim' tc' f|j1 f]; cbn in E; try (rewrite app_nil_r in E; eauto; fail).
  apply nth_error_snoc in E as [E|[-> ->]]; [eauto|]. cbn [snd]. intros W. destruct (call_of _ _ _ Ep) as [[lim c] Ei]. destruct (makes_run secure _ _ _ _ _ Ei Ep) as [_ [M _]].
  pose proof (own_key _ _ _ M W) as Wc. destruct (Nat.lt_trichotomy i j) as [Li|[->|Li]].
  - destruct (earlier_done ms j x i (lim, c) O Ej (key_ewrite _ _ Wj) Li Ei (key_ewrite _ _ Wc)) as [o E]. congruence.
  - eapply NE, Ep.
  - exact (No _ _ Li Ei Wc).
Qed.
Lemma putting_run : forall ms j lim k v p, one_ewriter secure ms -> nth_error (ecalls_of ms) j = Some (lim, XPut k v) ->
  (forall n y, j < n -> nth_error (ecalls_of ms) n = Some y -> ~ writes_key k (snd y)) -> nth_error (x_calls (after ms)) j = Some p -> putting ms lim k v p.
Proof.
  intros ms. induction ms as [|x ms IH] using rev_ind; intros j lim k v p O Ec No Ep; [destruct j; discriminate|].
  pose proof (run_calls_len secure ms) as Len. pose proof Ep as Q. rewrite erun_snoc in Q. apply one_ewriter_prefix in O as O'.
  destruct (Nat.lt_ge_cases j (length (ecalls_of ms))) as [Lj|Lj].
  2:{ destruct x as [lim' c'|i'].
      - rewrite ecalls_app in Ec. cbn in Ec. apply nth_error_snoc in Ec as [Ec|[-> Ec]]; [apply nth_lt in Ec; lia|]. injection Ec as <- <-. cbn [ego x_calls] in Q. rewrite <- Len, nth_snoc_new in Q. injection Q as <-. left. reflexivity.
      - rewrite ecalls_app in Ec. cbn in Ec. rewrite app_nil_r in Ec. apply nth_lt in Ec. lia. }
  assert (Ec0 : nth_error (ecalls_of ms) j = Some (lim, XPut k v)) by (rewrite ecalls_app, nth_error_app1 in Ec by exact Lj; exact Ec).
  assert (No0 : forall n y, j < n -> nth_error (ecalls_of ms) n = Some y -> ~ writes_key k (snd y)).
  { intros n y L E. apply (No n y L). rewrite ecalls_app, nth_error_app1; [exact E|eapply nth_lt, E]. }
  destruct (nth_error (x_calls (after ms)) j) as [p0|] eqn:Ep0; [|apply nth_error_None in Ep0; lia].
  specialize (IH _ _ _ _ _ O' Ec0 No0 Ep0).
  (* the calls on the trie after its own *)
  assert (Later : forall jj, (forall lim c f, p0 <> ETrie lim c f) -> (forall j' y, jj < j' -> nth_error (calls_of (trace ms)) j' = Some y -> ~ twrites_key k (snd y)) ->
    forall j' y, jj < j' -> nth_error (calls_of (trace (ms ++ [x]))) j' = Some y -> ~ twrites_key k (snd y)).
  { intros jj NE. apply (other_calls ms x j _ k jj O' Ec0 eq_refl No0). intros l c f E. rewrite Ep0 in E. injection E as ->. eapply NE. reflexivity. }
  assert (Stored : forall a l c f, stored k v a <> ETrie l c f) by (intros [| |[]| |]; discriminate).
  (* another call moves *)
  assert (Same : p = p0 -> x <> EGo j -> putting (ms ++ [x]) lim k v p).
  { intros -> Nx. destruct IH as [->|[jj [rb [Eb [Ej [Nl W]]]]]]; [left; reflexivity|]. right. exists jj, rb. split; [exact Eb|]. split; [apply trace_calls_old, Ej|]. split.
    - apply Later; [|exact Nl]. intros l c f. destruct W as [->|[a [_ [->|[_ [-> _]]]]]]; [discriminate|apply Stored|discriminate].
    - destruct W as [->|[a [Ea W]]]; [auto|]. right. exists a. split; [apply answer_stays, Ea|]. destruct W as [->|[Eu [-> Ed]]]; [auto|]. right. split; [exact Eu|]. split; [reflexivity|].
      rewrite erun_snoc. destruct x as [l c|i]; [exact Ed|]. rewrite (other_data ms i j _ k O' Ec0 eq_refl No0); [exact Ed|]. intros ->. now apply Nx. }
  destruct x as [lim' c'|i'].
  { apply Same; [|discriminate]. cbn [ego x_calls] in Q. rewrite nth_snoc_old in Q by lia. congruence. }
  destruct (Nat.eq_dec j i') as [<-|N].
  2:{ apply Same; [|congruence]. destruct (nth_error (x_calls (after ms)) i') as [q|] eqn:Eq; [|cbn [ego] in Q; rewrite Eq in Q; congruence].
      rewrite (ego_at secure _ _ _ Eq) in Q. cbn [x_calls] in Q. rewrite (upd_other _ _ _ _ _ _ Eq N) in Q. congruence. }
  clear Same. rewrite (ego_at secure _ _ _ Ep0) in Q. cbn [x_calls] in Q. rewrite (upd_same _ _ _ _ _ Ep0) in Q. injection Q as Q.
  destruct IH as [->|[jj [rb [Eb [Ej [Nl W]]]]]].
  - unfold e_put in Q. unfold e_put in Ep0. destruct (bind (update_ref k v) (fun r => ref_encode r)) as [rb|e] eqn:Eb; [|left; unfold e_put; rewrite Eb; symmetry; exact Q].
    cbn [estep snd] in Q. right. exists (length (calls_of (trace ms))), rb. split; [exact Eb|]. rewrite trace_snoc, tcalls_app. cbn [tmove]. rewrite Ep0. cbn [calls_of flat_map app]. split; [apply nth_snoc_new|]. split.
    + intros j' y L E. apply nth_lt in E. rewrite app_length in E. cbn in E. lia.
    + left. rewrite trace_len. symmetry. exact Q.
  - right. exists jj, rb. split; [exact Eb|]. split; [apply trace_calls_old, Ej|]. split.
    + apply Later; [|exact Nl]. intros l c f. destruct W as [->|[a [_ [->|[_ [-> _]]]]]]; [discriminate|apply Stored|discriminate].
    + destruct W as [->|[a [Ea [->|[Eu [-> Ed]]]]]].
      * assert (T : x_trie (after (ms ++ [EGo j])) = go secure (x_trie (after ms)) (MGo jj)) by (rewrite erun_snoc, (ego_at secure _ _ _ Ep0); reflexivity).
        rewrite T. cbn [estep snd] in Q. destruct (answer_of (go secure (x_trie (after ms)) (MGo jj)) jj) as [a|]; subst p; [right; eauto|auto].
      * right. exists a. split; [apply answer_stays, Ea|]. destruct a as [| |[u|e]| |]; cbn [stored estep snd] in *; try (left; symmetry; exact Q).
        right. split; [eauto|]. split; [symmetry; exact Q|]. rewrite erun_snoc, (ego_at secure _ _ _ Ep0). cbn [estep fst snd x_data]. apply dget_dset_same.
      * right. exists a. split; [apply answer_stays, Ea|]. right. split; [exact Eu|]. cbn [estep snd] in Q. split; [symmetry; exact Q|].
        rewrite erun_snoc, (ego_at secure _ _ _ Ep0). cbn [estep fst snd x_data]. exact Ed.
Qed.
(** After it has answered. *)
Lemma put_settled : forall ms j lim k v, one_ewriter secure ms -> nth_error (ecalls_of ms) j = Some (lim, XPut k v) ->
  (forall n y, j < n -> nth_error (ecalls_of ms) n = Some y -> ~ writes_key k (snd y)) -> eanswer_of (after ms) j = Some (RNone (Ok tt)) ->
  dget (x_data (after ms)) k = Some v /\
  exists jj rb, bind (update_ref k v) (fun r => ref_encode r) = Ok rb /\ nth_error (calls_of (trace ms)) jj = Some (lim, TPut k rb) /\
    (forall j' x, jj < j' -> nth_error (calls_of (trace ms)) j' = Some x -> ~ twrites_key k (snd x)) /\ exists u, answer_of (x_trie (after ms)) jj = Some (ANone (Ok u)).
Proof.
  intros ms j lim k v O Ec No Ea. apply eanswer_done in Ea. destruct (putting_run _ _ _ _ _ _ O Ec No Ea) as [E|[jj [rb [Eb [Ej [Nl W]]]]]].
  - unfold e_put in E. destruct (bind (update_ref k v) (fun r => ref_encode r)); discriminate.
  - destruct W as [E|[a [Ea' [E|[[u ->] [_ Ed]]]]]]; [discriminate| |].
    + destruct a as [| |[u|e]| |]; discriminate.
    + split; [exact Ed|]. exists jj, rb. eauto.
Qed.

(** ** What the trie holds then *)
Definition gwrites (k : bytes) (c : gcmd) : Prop := match c with GPut k' _ _ | GDel k' _ => k' = k | _ => False end.
Lemma gfollows_keeps : forall h outs d u d' u' k rb, gfollows secure d u h outs d' u' -> d k = Some rb -> (forall x, In x h -> ~ gwrites k (snd x)) -> d' k = Some rb.
Proof.
  intros h outs d u d' u' k rb F. induction F as [d u|d u lim c o d1 u1 h outs d2 u2 D F IH]; intros E N; [exact E|]. apply IH; [|intros x I; apply N; now right].
  specialize (N _ (or_introl eq_refl)). cbn [snd] in N. destruct D as [k' r G|k' r G|k' v fl|k' v fl x G|k' fl r d' G|tm k' r G|tm k' r G|p r v G|p r v G|r G|r G]; try exact E; cbn [gwrites] in N.
  - unfold set_ref. destruct (bytes_eqb_spec k k'); [congruence|exact E].
  - destruct G; try exact E. unfold drop_ref. destruct (bytes_eqb_spec k k'); [congruence|exact E].
Qed.
Lemma gfollows_put : forall h1 o1 lim k rb u0 h2 o2 d u d' u', length h1 = length o1 ->
  gfollows secure d u (h1 ++ (lim, GPut k rb []) :: h2) (o1 ++ ONone (Ok u0) :: o2) d' u' -> (forall x, In x h2 -> ~ gwrites k (snd x)) -> d' k = Some rb.
Proof.
  induction h1 as [|[l c] h1 IH]; intros [|o o1] lim k rb u0 h2 o2 d u d' u' L F N; try discriminate; cbn [app] in F; inversion F; subst.
  - match goal with X : gdoes _ _ _ _ _ _ _ _ |- _ => inversion X; subst end. eapply gfollows_keeps; [eassumption| |exact N]. unfold set_ref. rewrite bytes_eqb_refl. reflexivity.
  - eapply IH; [|eassumption|exact N]. now injection L.
Qed.
Lemma written_put : forall w ms jj lim k rb u, nth_error (calls_of ms) jj = Some (lim, TPut k rb) -> answer_of w jj = Some (ANone (Ok u)) ->
  (forall j' x, jj < j' -> nth_error (calls_of ms) j' = Some x -> ~ twrites_key k (snd x)) ->
  exists A B, written w ms = A ++ ((lim, GPut k rb []), ONone (Ok u)) :: B /\ forall x, In x B -> ~ gwrites k (snd (fst x)).
Proof.
  intros w ms jj lim k rb u Ej Ea N. unfold written. pose proof (nth_lt _ _ _ _ Ej) as L. replace (length (calls_of ms)) with (jj + S (length (calls_of ms) - S jj)) by lia.
  rewrite seq_app, flat_map_app. cbn [Nat.add List.seq flat_map]. rewrite Ej, Ea. cbn [as_write snd fst app]. eexists. eexists. split; [reflexivity|].
  intros x I. apply in_flat_map in I as [j' [I1 I2]]. apply in_seq in I1. destruct (nth_error (calls_of ms) j') as [y|] eqn:Ey; [|contradiction].
  assert (Lj : jj < j') by lia. specialize (N _ _ Lj Ey). destruct y as [l c]. unfold as_write in I2. cbn [snd fst] in *.
  destruct c; try contradiction; destruct (answer_of w j') as [[]|]; try contradiction; destruct I2 as [<-|[]]; cbn [fst snd gwrites twrites_key] in *; exact N.
Qed.
End S.

Lemma update_expected : forall {H : Hash} k v r, update_ref k v = Ok r -> expected_ref k v = Ok r.
Proof. intros H k v r E. destruct v as [b| |[] [] b]; cbn in *; try discriminate; exact E. Qed.
Lemma prefix_longer : forall (a b a' b' : list emove), a ++ b = a' ++ b' -> length (ecalls_of a') < length (ecalls_of a) -> exists c, a = a' ++ c.
Proof.
  intros a b a' b' E L. exists (skipn (length a') a). assert (La : length a' <= length a).
  { destruct (Nat.le_gt_cases (length a') (length a)) as [X|X]; [exact X|]. exfalso. apply (f_equal (firstn (length a))) in E. rewrite !firstn_app, firstn_all, Nat.sub_diag in E.
    replace (length a - length a') with 0 in E by lia. cbn [firstn] in E. rewrite !app_nil_r in E. rewrite E in L.
    rewrite <- (firstn_skipn (length a) a') in L at 1. rewrite ecalls_app, app_length in L. lia. }
  apply (f_equal (firstn (length a'))) in E. rewrite !firstn_app, firstn_all, Nat.sub_diag in E. replace (length a' - length a) with 0 in E by lia. cbn [firstn] in E. rewrite !app_nil_r in E.
  rewrite <- E at 1. symmetry. apply firstn_skipn.
Qed.

Theorem settled : forall (H : Hash), (forall b, length (keccak b) = 32) ->
  forall secure ms, keys_ok secure (ekeys ms) -> xfits ms ->
  let w := erun secure (epool_new secure) ms in no_collision (h_log (p_obj (x_trie w))) -> one_ewriter secure ms ->
  forall m1 m2 lim c k j lim' v o, ms = m1 ++ ECall lim c :: m2 ->
  nth_error (ecalls_of m1) j = Some (lim', XPut k v) -> eanswer_of (erun secure (epool_new secure) m1) j = Some (RNone (Ok tt)) ->
  (forall n x, j < n -> nth_error (ecalls_of ms) n = Some x -> ~ writes_key k (snd x)) ->
  eanswer_of w (length (ecalls_of m1)) = Some o -> served secure lim k v c o.
Proof.
  intros H keccak_len secure ms K F w NC O m1 m2 lim c k j lim' v o Ems Ej Eaj No Eo. set (i := length (ecalls_of m1)) in *.
  pose proof (trace_keys_ok secure ms K) as K'. pose proof (trace_fits secure keccak_len ms F) as F'. unfold w in NC. rewrite trace_run in NC. pose proof (trace_one_writer secure ms O) as O'.
  assert (Ec : nth_error (ecalls_of ms) i = Some (lim, c)). { rewrite Ems, ecalls_app. unfold i. rewrite nth_error_app2, Nat.sub_diag by lia. reflexivity. }
  apply eanswer_done in Eo.
  (* at every moment of the call *)
  assert (At : forall me mr, ms = me ++ mr -> i < length (ecalls_of me) -> dget (x_data (erun secure (epool_new secure) me)) k = Some v /\
    exists jj rb, bind (update_ref k v) (fun r => ref_encode r) = Ok rb /\ nth_error (calls_of (trace secure me)) jj = Some (lim', TPut k rb) /\
    (forall j' x, jj < j' -> nth_error (calls_of (trace secure me)) j' = Some x -> ~ twrites_key k (snd x)) /\ exists u, answer_of (x_trie (erun secure (epool_new secure) me)) jj = Some (ANone (Ok u))).
  { intros me mr E L. destruct (prefix_longer me mr m1 (ECall lim c :: m2)) as [b Eb]; [congruence|exact L|]. apply (put_settled secure me j lim' k v).
    - rewrite E in O. eapply one_ewriter_prefix, O.
    - rewrite Eb, ecalls_app, nth_error_app1; [exact Ej|eapply nth_lt, Ej].
    - intros n y Ln En. apply (No n y Ln). rewrite E, ecalls_app, nth_error_app1; [exact En|eapply nth_lt, En].
    - unfold eanswer_of. rewrite Eb, (done_stays secure b m1 j _ (eanswer_done _ _ _ Eaj)). reflexivity. }
  destruct (At ms [] (eq_sym (app_nil_r ms))) as [_ [_ [rb [Eb _]]]]; [eapply nth_lt, Ec|].
  (* what the trie holds at every moment of the call of the trie *)
  assert (Mo : forall m jt d u, during_since secure ms i m jt -> moment secure (trace secure ms) jt d u -> d k = Some rb).
  { intros m jt d u D [t1 [t2 [E [L [An G]]]]]. destruct (trace_prefix secure _ _ _ E) as [me [mr [E1 E2]]]. subst t1. destruct (D me mr E1 L) as [_ [Li _]].
    destruct (At me mr E1 Li) as [_ [jj [rb' [Eb' [Ejj [Nl [u0 Ea]]]]]]]. rewrite Eb in Eb'. injection Eb' as <-. rewrite trace_run in Ea.
    destruct (written_put _ _ _ _ _ _ _ Ejj Ea Nl) as [A [B [EW NB]]]. rewrite EW in G. rewrite !map_app in G. cbn [map fst snd] in G.
    eapply gfollows_put; [|exact G|]; [rewrite !map_length; reflexivity|]. intros x I. apply in_map_iff in I as [y [<- I]]. apply NB, I. }
  assert (Wt : forall m tc g, waits secure ms i m lim tc g (EDone o) -> exists jt a, during_since secure ms i m jt /\ reads secure (trace secure ms) jt lim tc a /\ EDone o = g a).
  { intros m tc g [jt [Ejt [D [X|[a [Ea Eg]]]]]]; [discriminate|]. exists jt, a. split; [exact D|]. split; [|exact Eg]. rewrite trace_run in Ea.
    exact (threads_reads keccak_len secure (trace secure ms) K' F' NC O' _ _ _ _ Ejt Ea). }
  assert (Ask : forall tc, asked c = Some tc -> exists jt a, during_since secure ms i [] jt /\ reads secure (trace secure ms) jt lim tc a /\ EDone o = told_of c a).
  { intros tc Et. destruct (asking_run secure ms i lim c tc _ Et Ec Eo) as [X|X]; [rewrite (e_call_asked _ _ _ Et) in X; discriminate|eauto]. }
  assert (Got : forall m jt r, during_since secure ms i m jt -> reads secure (trace secure ms) jt lim (TGet k) (AVal r) -> r = Ok rb \/ (lim <= frames secure k /\ r = Err RecursionError)).
  { intros m jt r D R. cbn [reads] in R. destruct R as [[d [u [M G]]]|[x [-> [_ [d [u [_ [_ [M [[Hd _] _]]]]]]]]]].
    - pose proof (Mo _ _ _ _ D M) as Ed. destruct G as [v0 E|v0 _ [E _]|Hd _|x E _|_ L]; [left; congruence|congruence|rewrite (Hd k) in Ed; discriminate|congruence|right; auto].
    - pose proof (Mo _ _ _ _ D M) as Ed. rewrite (Hd k) in Ed. discriminate. }
  apply bound in Eb as [r [Er Eb]]. pose proof (update_ref_is _ _ _ Er) as Eri. pose proof (update_expected _ _ _ Er) as Ex. pose proof (ref_round_trip _ _ Eb) as Ed.
  destruct c as [k'|k'|k'|k' v'|k'|tm k'| |]; cbn [served]; try exact I; intros ->.
  - destruct (getting_run secure ms i lim k _ Ec Eo) as [X|[m [e [D M]]]]; [discriminate|].
    assert (Edk : dget (e_data e) k = Some v). { destruct D as [mr [E [L [_ <-]]]]. cbn [eobject e_data]. apply (At m mr E L). }
    rewrite Edk in M. destruct M as [X|M]; [discriminate|]. destruct (Wt _ _ _ M) as [jt [a [D2 [R E]]]]. destruct a as [ra| | | |]; cbn [reads] in R; try contradiction.
    cbn [got] in E. injection E as ->. destruct (Got _ _ _ D2 R) as [->|[L ->]]; [left|right; auto]. cbn [bind]. rewrite Ed. cbn [bind]. rewrite Ex. cbn [bind]. unfold ref_eq. rewrite N.eqb_refl. reflexivity.
  - destruct (Ask _ eq_refl) as [jt [a [D [R E]]]]. destruct a as [ra| | | |]; cbn [reads] in R; try contradiction. cbn [told_of] in E. injection E as ->.
    destruct (Got _ _ _ D R) as [->|[L ->]]; [left|right; auto]. cbn [bind]. rewrite Ed, Eri. reflexivity.
  - destruct (Ask _ eq_refl) as [jt [a [D [R E]]]]. destruct a as [|ra| | |]; cbn [reads] in R; try contradiction. cbn [told_of] in E. injection E as ->.
    destruct R as [[d [u [M A]]]|[[-> ->]|[[-> [d [u [_ [_ [M [[Hd _] _]]]]]]]|[-> [d [u [_ [_ [M [[Hd _] _]]]]]]]]]].
    + pose proof (Mo _ _ _ _ D M) as Edk. destruct A as [_|Nh|L]; [left; reflexivity| |right; auto]. exfalso. apply Nh. left. congruence.
    + right. split; [lia|reflexivity].
    + pose proof (Mo _ _ _ _ D M) as Edk. rewrite (Hd k) in Edk. discriminate.
    + pose proof (Mo _ _ _ _ D M) as Edk. rewrite (Hd k) in Edk. discriminate.
Qed.
