(** An object opened on the root of another one: proofs about SpecOpening.v, continued. *)
From Coq Require Import List Bool Arith NArith ZArith Lia.
From Verif Require Import Base BaseProofs Rlp RlpProofs NibblePath NibbleProofs Node ProofObj Mpt Tree TreeEnc StoreProofs ReadProofs Spec SpecCodec
  MptRefine MptProofs SpecShared SimProofs SharedProofs SpecEmpt EmptFaultProofs SpecWalk SpecEvery MptPy SpecMptEvery MptEveryProofs Threads SpecThreads ThreadsSeq ThreadsProofs ThreadsPool
  ThreadsAlone ThreadsRace Several SpecSeveral SeveralProofs Opening SpecOpening OpeningProofs.
Import ListNotations.

Section T.
Context {H : Hash}.
Hypothesis keccak_len : forall b, length (keccak b) = 32.
Notation after ms := (orun realm0 ms).
Notation life b l := (run_moves b (pool_new b) l).

(** ** Calls that write nothing *)
Inductive mild {A} : prog A -> Prop :=
| mild_ret : forall r, mild (PRet r)
| mild_get : forall h k, (forall o, mild (k o)) -> mild (PGet h k)
| mild_root : forall k, (forall o, mild (k o)) -> mild (PRoot k).
Lemma mild_bind : forall A B (p : prog A) (f : A -> prog B), mild p -> (forall a, mild (f a)) -> mild (pbind p f).
Proof. intros A B p f Hp Hf. induction Hp as [[a|x]| |]; cbn [pbind]; try (constructor; auto). apply Hf. Qed.
Lemma mild_told : forall A (g : result A -> tout) p, mild p -> mild (told g p).
Proof. intros A g p Hp. induction Hp; cbn [told]; constructor; auto. Qed.
Lemma mild_proot : mild proot.
Proof. constructor. intros. constructor. Qed.
Lemma mild_node : forall r, mild (p_node r).
Proof. intros [r|]; unfold p_node; [|constructor]. destruct (length r =? 32); constructor. intros o. constructor. Qed.
Lemma mild_pget : forall f r p, mild (p_get f r p).
Proof.
  induction f as [|f IH]; intros r p; cbn [p_get]; [constructor|]. apply mild_bind; [apply mild_node|]. intros n. destruct (np_len p =? 0); [constructor|].
  destruct n as [lp d|ep nr|bs d].
  - destruct (np_eq lp p); constructor.
  - destruct (np_starts_with p ep); [apply IH|constructor].
  - cbv zeta. destruct (0 <? _); [apply IH|constructor].
Qed.
Lemma mild_poi : forall f r p acc, mild (p_poi f r p acc).
Proof.
  induction f as [|f IH]; intros r p acc; cbn [p_poi]; [constructor|]. apply mild_bind; [apply mild_node|]. intros n. destruct (np_len p =? 0).
  { apply mild_bind; [constructor|]. intros. constructor. }
  destruct n as [lp d|ep nr|bs d].
  - destruct (np_eq lp p); [|constructor]. apply mild_bind; [constructor|]. intros. constructor.
  - destruct (np_starts_with p ep); [|constructor]. apply mild_bind; [constructor|]. intros. apply IH.
  - cbv zeta. destruct (0 <? _); [|constructor]. apply mild_bind; [constructor|]. intros. apply IH.
Qed.
Lemma mild_contains : forall f r p, mild (p_contains f r p).
Proof.
  induction f as [|f IH]; intros r p; cbn [p_contains]; [constructor|]. apply mild_bind; [apply mild_proot|]. intros [a|]; [|constructor].
  apply mild_bind; [apply mild_proot|]. intros b. destruct (match b with Some x => _ | None => _ end); [constructor|].
  apply mild_bind; [apply mild_node|]. intros n. destruct (np_len p =? 0); [constructor|]. destruct n as [lp d|ep nr|bs d]; [constructor| |].
  - destruct (np_starts_with p ep); [apply IH|constructor].
  - cbv zeta. destruct (0 <? _); [apply IH|constructor].
Qed.
Lemma mild_unless : forall A (p : prog A), mild p -> mild (unless_empty p).
Proof.
  intros A p Hp. unfold unless_empty. apply mild_bind; [apply mild_proot|]. intros [a|]; [|constructor].
  apply mild_bind; [apply mild_proot|]. intros b. destruct (is_empty_hash b); [constructor|exact Hp].
Qed.
Lemma mild_call : forall b lim c, is_write c = false -> mild (call_prog b lim c).
Proof.
  intros b lim c Wc. destruct c as [k|k|k v|k|tm k| |]; try discriminate; cbn [call_prog]; apply mild_told.
  - unfold call_get. apply mild_bind; [apply mild_proot|]. intros a. destruct (is_falsy a); [constructor|].
    apply mild_bind; [apply mild_proot|]. intros r. apply mild_bind; [apply mild_pget|]. intros. constructor.
  - unfold call_contains. apply mild_bind; [apply mild_proot|]. intros a. destruct (is_falsy a); [constructor|].
    apply mild_bind; [apply mild_proot|]. intros r. apply mild_bind; [apply mild_contains|]. intros. constructor.
  - apply mild_unless. apply mild_bind; [apply mild_proot|]. intros r. apply mild_bind; [apply mild_poi|]. intros.
    apply mild_bind; [apply mild_proot|]. intros [r2|]; constructor.
  - apply mild_proot.
  - unfold call_hash. apply mild_bind; [apply mild_proot|]. intros a. destruct (is_falsy a); [constructor|].
    apply mild_bind; [apply mild_proot|]. intros [r|]; [|constructor]. destruct (length r =? 32); [apply mild_proot|].
    apply mild_bind; [apply mild_proot|]. intros [r2|]; constructor.
Qed.
Lemma mild_access : forall s p, mild p -> fst (access s p) = s /\ mild (snd (access s p)).
Proof. intros s p Hp. destruct Hp; cbn [access fst snd]; split; auto. constructor. Qed.

(** ** A life to which only reads are added *)
Definition mere (n : nat) (m : move) : Prop := match m with MCall _ c => is_write c = false | MGo r => n <= r end.
Lemma mere_same : forall b l0 lx, Forall (mere (length (calls_of l0))) lx ->
  p_obj (life b (l0 ++ lx)) = p_obj (life b l0) /\ (forall i p, length (calls_of l0) <= i -> nth_error (p_calls (life b (l0 ++ lx))) i = Some p -> mild p).
Proof.
  intros b l0 lx. induction lx as [|m lx IH] using rev_ind; intros F.
  - rewrite app_nil_r. split; [reflexivity|]. intros i p L E. assert (i < length (p_calls (life b l0))) by (apply nth_error_Some; congruence). rewrite life_calls in H0. lia.
  - apply Forall_app in F. destruct F as [F Fm]. inversion Fm as [|? ? Hm _]; subst. destruct (IH F) as [Eo Em]. rewrite app_assoc, after_snoc. destruct m as [lim c|r]; cbn [go mere] in *.
    + split; [exact Eo|]. cbn [p_calls]. intros i p L E. destruct (nth_error_snoc _ _ _ _ _ E) as [E'|[_ ->]]; [eauto|]. apply mild_call. exact Hm.
    + destruct (nth_error (p_calls (life b (l0 ++ lx))) r) as [p|] eqn:Er; [|split; [exact Eo|exact Em]].
      destruct (mild_access (p_obj (life b (l0 ++ lx))) p (Em _ _ Hm Er)) as [Q1 Q2].
      destruct (access (p_obj (life b (l0 ++ lx))) p) as [s p'] eqn:Ea. cbn [fst snd p_obj p_calls] in *. split; [congruence|].
      intros i q L E. assert (Lr : r < length (p_calls (life b (l0 ++ lx)))) by (apply nth_error_Some; congruence).
      change (firstn r (p_calls (life b (l0 ++ lx))) ++ p' :: skipn (S r) (p_calls (life b (l0 ++ lx)))) with (set_nth r p' (p_calls (life b (l0 ++ lx)))) in E.
      destruct (Nat.eq_dec i r) as [->|Ni]; [rewrite set_at in E by exact Lr; injection E as <-; exact Q2|]. rewrite set_off in E by auto. eauto.
Qed.
Lemma prefix_cases : forall A (a b c d : list A), a ++ b = c ++ d -> (exists e, a = c ++ e) \/ (exists e, c = a ++ e).
Proof.
  intros A a. induction a as [|x a IH]; intros b c d E; [right; exists c; reflexivity|]. destruct c as [|y c]; [left; exists (x :: a); reflexivity|].
  cbn [app] in E. injection E as <- E. destruct (IH _ _ _ E) as [[e ->]|[e ->]]; [left|right]; exists e; reflexivity.
Qed.
Lemma mere_answer : forall b l0 lx r lim c o, Forall (mere (length (calls_of l0))) lx -> fit b (l0 ++ lx) -> no_collision (h_log (p_obj (life b (l0 ++ lx)))) ->
  length (calls_of l0) <= r -> nth_error (calls_of (l0 ++ lx)) r = Some (lim, c) -> is_write c = false -> 0 < lim -> answer_of (life b (l0 ++ lx)) r = Some o ->
  o = fst (single lim (object b (life b l0)) c).
Proof.
  intros b l0 lx r lim c o F [Ko Fi] N Lr Ec Wc Hl Eo.
  assert (D : forall t, during b (l0 ++ lx) r t -> t = object b (life b l0)).
  { intros t (m1 & m2 & E & L & _ & <-). unfold object. destruct (prefix_cases _ _ _ _ _ (eq_sym E)) as [[e ->]|[e ->]].
    - assert (Fe : Forall (mere (length (calls_of l0))) e).
      { rewrite <- app_assoc in E. apply app_inv_head in E. rewrite E in F. apply Forall_app in F. exact (proj1 F). }
      rewrite (proj1 (mere_same b l0 e Fe)). reflexivity.
    - destruct e as [|x e]; [rewrite app_nil_r; reflexivity|]. rewrite calls_app, app_length in Lr. lia. }
  destruct (still keccak_len b (l0 ++ lx) Ko Fi N r lim c o Ec Eo Wc Hl) as (t & P & ->); [intros t t' P P'; rewrite (D _ P), (D _ P'); reflexivity|].
  rewrite (D _ P). reflexivity.
Qed.

(** ** The life of the object opened *)
Section Open.
Variables (m1 : list omove) (j : nat) (b : bool) (l0 : list move).
Notation n := (length (fst (tale_of m1))).
Hypothesis Start : nth_error (fst (tale_of (m1 ++ [OOpen j]))) n = Some (b, l0).
Hypothesis Fresh : forall i r, nth_error (snd (tale_of (m1 ++ [OOpen j]))) i <> Some (n, r).
Lemma later : forall m2, only_read n m2 -> exists lx, nth_error (fst (tale_of (m1 ++ OOpen j :: m2))) n = Some (b, l0 ++ lx) /\ Forall (mere (length (calls_of l0))) lx /\
  (forall i r, nth_error (snd (tale_of (m1 ++ OOpen j :: m2))) i = Some (n, r) -> length (calls_of l0) <= r).
Proof.
  induction m2 as [|m m2 IH] using rev_ind; intros R.
  - exists []. rewrite app_nil_r. split; [exact Start|]. split; [constructor|]. intros i r E. destruct (Fresh i r E).
  - destruct IH as (lx & E1 & F & L); [intros lim c Hi; apply (R lim c), in_or_app; auto|].
    replace (m1 ++ OOpen j :: m2 ++ [m]) with ((m1 ++ OOpen j :: m2) ++ [m]) by (rewrite <- app_assoc; reflexivity).
    set (ms := m1 ++ OOpen j :: m2) in *. rewrite tale_snoc.
    assert (Ln : n < length (fst (tale_of ms))) by (apply nth_error_Some; congruence).
    assert (Same : exists lx, nth_error (fst (tale_of ms)) n = Some (b, l0 ++ lx) /\ Forall (mere (length (calls_of l0))) lx /\
      (forall i r, nth_error (snd (tale_of ms)) i = Some (n, r) -> length (calls_of l0) <= r)) by eauto.
    destruct m as [b'|j'|j' lim c|i]; cbn [tell].
    + cbn [fst snd]. rewrite nth_error_app1 by exact Ln. exact Same.
    + destruct (nth_error (fst (tale_of ms)) j') as [[b' l']|]; [|exact Same]. cbn [fst snd]. rewrite nth_error_app1 by exact Ln. exact Same.
    + destruct (nth_error (fst (tale_of ms)) j') as [[b' l']|] eqn:Ej; [|exact Same]. cbn [fst snd]. assert (Lj' : j' < length (fst (tale_of ms))) by (apply nth_error_Some; congruence).
      destruct (Nat.eq_dec n j') as [E|Nj].
      * subst j'. rewrite set_at by exact Lj'. rewrite E1 in Ej. injection Ej as <- <-. exists (lx ++ [MCall lim c]). rewrite app_assoc. split; [reflexivity|]. split.
        -- apply Forall_app. split; [exact F|]. constructor; [|constructor]. cbn [mere]. apply (R lim c), in_or_app. right. left. reflexivity.
        -- intros i r Ei. destruct (nth_error_snoc _ _ _ _ _ Ei) as [Ei'|[_ Eb]]; [eauto|]. injection Eb as ->. rewrite calls_app, app_length. lia.
      * rewrite set_off by auto. exists lx. split; [exact E1|]. split; [exact F|]. intros i r Ei. destruct (nth_error_snoc _ _ _ _ _ Ei) as [Ei'|[_ Eb]]; [eauto|]. congruence.
    + destruct (nth_error (snd (tale_of ms)) i) as [[j' r]|] eqn:Ei; [|exact Same].
      destruct (nth_error (fst (tale_of ms)) j') as [[b' l']|] eqn:Ej; [|exact Same]. cbn [fst snd]. assert (Lj' : j' < length (fst (tale_of ms))) by (apply nth_error_Some; congruence).
      destruct (Nat.eq_dec n j') as [E|Nj].
      * subst j'. rewrite set_at by exact Lj'. rewrite E1 in Ej. injection Ej as <- <-. exists (lx ++ [MGo r]). rewrite app_assoc. split; [reflexivity|]. split; [|exact L].
        apply Forall_app. split; [exact F|]. constructor; [|constructor]. cbn [mere]. eauto.
      * rewrite set_off by auto. eauto.
Qed.
End Open.

(** ** A read alone, in the storage of the life and in a larger one *)
Lemma fit_incl : forall b l1 l2, incl (calls_of l1) (calls_of l2) -> fit b l2 -> fit b l1.
Proof.
  intros b l1 l2 I (Ko & F1 & F2). assert (I1 : incl (tkeys l1) (tkeys l2)).
  { intros k Hk. unfold tkeys in *. apply in_flat_map in Hk. destruct Hk as (x & X1 & X2). apply in_flat_map. exists x. auto. }
  split; [intros Eb; eapply nocoll_incl; [exact I1|exact (Ko Eb)]|]. split; [intros k Hk; apply F1, I1, Hk|]. intros lim k v Hi. apply (F2 lim k v), I, Hi.
Qed.
Lemma calls_repeat : forall i k, calls_of (repeat (MGo i) k) = [].
Proof. intros i k. induction k as [|k IH]; [reflexivity|exact IH]. Qed.

Fixpoint onward (s : shared) (k : nat) (p : prog tout) : prog tout := match k with 0 => p | S k => snd (access s (onward s k p)) end.
Lemma onward_mild : forall s k p, mild p -> mild (onward s k p).
Proof. intros s k p M. induction k as [|k IH]; [exact M|]. exact (proj2 (mild_access s _ IH)). Qed.
Lemma onward_in : forall s k p, snd (access s (onward s k p)) = onward s k (snd (access s p)).
Proof. intros s k p. induction k as [|k IH]; [reflexivity|]. cbn [onward]. rewrite IH. reflexivity. Qed.
Lemma onward_solo : forall s (p : prog tout), mild p -> exists k0, forall k, k0 <= k -> onward s k p = PRet (fst (solo p s)).
Proof.
  intros s p M. induction M as [r|h q Mq IH|q Mq IH].
  - exists 0. intros k _. induction k as [|k IH]; [reflexivity|]. cbn [onward]. rewrite IH. reflexivity.
  - destruct (IH (dget (h_map s) h)) as [k0 Hk]. exists (S k0). intros k Lk. destruct k as [|k]; [lia|]. cbn [onward]. rewrite onward_in. apply Hk. lia.
  - destruct (IH (h_root s)) as [k0 Hk]. exists (S k0). intros k Lk. destruct k as [|k]; [lia|]. cbn [onward]. rewrite onward_in. apply Hk. lia.
Qed.
Lemma onward_life : forall b l lim c k, is_write c = false -> let r := length (calls_of l) in
  p_obj (life b (l ++ MCall lim c :: repeat (MGo r) k)) = p_obj (life b l) /\
  nth_error (p_calls (life b (l ++ MCall lim c :: repeat (MGo r) k))) r = Some (onward (p_obj (life b l)) k (call_prog b lim c)).
Proof.
  intros b l lim c k Wc r.
  assert (M : forall k, Forall (mere (length (calls_of l))) (MCall lim c :: repeat (MGo r) k)).
  { intros k'. constructor; [exact Wc|]. apply Forall_forall. intros x Hx. apply repeat_spec in Hx. subst x. apply le_n. }
  split; [exact (proj1 (mere_same b l _ (M k)))|]. induction k as [|k IH].
  - rewrite after_snoc. cbn [go p_calls onward]. subst r. rewrite <- (life_calls b l). apply nth_snoc.
  - replace (l ++ MCall lim c :: repeat (MGo r) (S k)) with ((l ++ MCall lim c :: repeat (MGo r) k) ++ [MGo r]) by (rewrite <- app_assoc; cbn [app]; rewrite <- repeat_cons; reflexivity).
    rewrite after_snoc. cbn [go]. rewrite IH, (proj1 (mere_same b l _ (M k))). cbn [onward]. destruct (access (p_obj (life b l)) (onward (p_obj (life b l)) k (call_prog b lim c))) as [s' p'] eqn:Ea.
    cbn [p_calls snd]. apply (set_at _ r p'). apply nth_error_Some. rewrite IH. discriminate.
Qed.
Lemma calls_then : forall l lim c r k, calls_of (l ++ MCall lim c :: repeat (MGo r) k) = calls_of l ++ [(lim, c)].
Proof. intros. rewrite calls_app. change (MCall lim c :: repeat (MGo r) k) with ([MCall lim c] ++ repeat (MGo r) k). rewrite calls_app, calls_repeat, app_nil_r. reflexivity. Qed.

Lemma reads_over : forall b l lim c m' log', fit b (l ++ [MCall lim c]) -> no_collision (h_log (p_obj (life b l))) -> dinv m' log' -> no_collision log' ->
  part_of (h_map (p_obj (life b l))) m' -> is_write c = false -> 0 < lim ->
  fst (single lim (object b (life b l)) c) = fst (single lim (mkMpt m' log' (h_root (p_obj (life b l))) b) c).
Proof.
  intros b l lim c m' log' F N D N' P Wc Hl. set (s := p_obj (life b l)) in *. set (s' := mkShared m' log' (h_root s)). set (r := length (calls_of l)).
  assert (E : forall k, onward s k (call_prog b lim c) = onward s' k (call_prog b lim c)).
  { induction k as [|k IH]; [reflexivity|]. cbn [onward]. rewrite <- IH. set (p := onward s k (call_prog b lim c)) in *.
    destruct (onward_life b l lim c k Wc) as [Eo Ep]. fold r s p in Eo, Ep. set (lk := l ++ MCall lim c :: repeat (MGo r) k) in *.
    assert (Fk : fit b lk) by (eapply fit_incl; [|exact F]; subst lk; rewrite calls_then, calls_call; apply incl_refl). destruct Fk as [Ko Fi].
    assert (M : mild p) by (apply onward_mild, mild_call; exact Wc).
    destruct M as [x|h q Mq|q Mq]; cbn [access snd]; [reflexivity| |reflexivity]. f_equal. cbn [h_map s'].
    destruct (dget (h_map s) h) as [x|] eqn:Ex; [symmetry; exact (P _ _ Ex)|].
    assert (Na : no_collision (h_log (p_obj (life b lk)))) by (rewrite Eo; exact N).
    destruct (all_good keccak_len b (tkeys lk) Ko (proj1 Fi) lk (fit_calls b lk Fi) Na) as (d & u & st & [B Ff Ll Lp A] & _).
    assert (Ec : nth_error (calls_of lk) r = Some (lim, c)) by (subst lk; rewrite calls_then; apply nth_snoc).
    destruct (nth_error st r) as [a|] eqn:Ea; [|apply nth_error_None in Ea; assert (r < length (calls_of lk)) by (apply nth_error_Some; congruence); lia].
    assert (Eh : h = EMPTY_HASH).
    { eapply (no_miss keccak_len b (tkeys lk) Ko (proj1 Fi)); [exact Na| |exact (A _ _ _ _ _ Ec Ep Ea)|reflexivity|rewrite Eo; exact Ex]. apply (fit_calls b lk Fi lim c). eapply nth_error_In. exact Ec. }
    rewrite Eh. symmetry. eapply no_empty; [exact D|exact N']. }
  pose proof (mild_call b lim c Wc) as M. destruct (onward_solo s _ M) as [k1 H1]. destruct (onward_solo s' _ M) as [k2 H2].
  specialize (H1 (k1 + k2) ltac:(lia)). specialize (H2 (k1 + k2) ltac:(lia)). rewrite E, H2 in H1. injection H1 as H1.
  rewrite (solo_call b keccak_len s lim c Hl), (solo_call b keccak_len s' lim c Hl) in H1. cbn [fst] in H1. injection H1 as H1. symmetry. exact H1.
Qed.
(** The object of number [n] in the common storage and by its life. *)
Lemma reads_alike : forall ms n b l lim c, all_fit ms -> no_collision (r_log (after ms)) -> nth_error (fst (tale_of ms)) n = Some (b, l) -> fit b (l ++ [MCall lim c]) ->
  is_write c = false -> 0 < lim ->
  fst (single lim (object b (life b l)) c) = fst (single lim (mkMpt (r_map (after ms)) (r_log (after ms)) (h_root (p_obj (life b l))) b) c).
Proof.
  intros ms n b l lim c F N En Fc Wc Hl. destruct (lives keccak_len ms F N) as (_ & _ & Ob & _). destruct (Ob _ _ _ En) as (_ & P & I).
  apply reads_over; auto; [eapply nocoll_incl; [exact I|exact N]|]. exact (en_d _ (entire_all keccak_len ms N)).
Qed.

(** Where a call stands in the tale. *)
Lemma call_in_tale : forall ms i j lim c, no_collision (r_log (after ms)) -> is_call ms i j lim c -> exists b l r, nth_error (snd (tale_of ms)) i = Some (j, r) /\
  nth_error (fst (tale_of ms)) j = Some (b, l) /\ nth_error (calls_of l) r = Some (lim, c).
Proof.
  intros ms i j lim c N (p & q & -> & Lj & ->). replace (p ++ OCall j lim c :: q) with ((p ++ [OCall j lim c]) ++ q) in * by (rewrite <- app_assoc; reflexivity).
  assert (N1 : no_collision (r_log (after p))).
  { eapply nocoll_incl; [|exact N]. unfold orun at 2. rewrite !fold_left_app. eapply incl_tran; [|apply olog]. apply (olog [OCall j lim c] (after p)). }
  assert (Lo : length (fst (tale_of p)) = length (r_objs (after p))) by (destruct (entire_all keccak_len p N1) as [D O C Hh]; rewrite <- (map_length fst), <- O, map_length; reflexivity).
  assert (Lc : length (snd (tale_of p)) = length (r_calls (after p))) by (destruct (entire_all keccak_len p N1) as [D O C Hh]; rewrite <- (map_length fst), <- C, map_length; reflexivity).
  assert (G : forall q, exists b l r, nth_error (snd (tale_of ((p ++ [OCall j lim c]) ++ q))) (length (r_calls (after p))) = Some (j, r) /\
    nth_error (fst (tale_of ((p ++ [OCall j lim c]) ++ q))) j = Some (b, l) /\ nth_error (calls_of l) r = Some (lim, c)).
  { clear N q. induction q as [|m q IH] using rev_ind.
    - rewrite app_nil_r, tale_snoc. cbn [tell]. destruct (nth_error (fst (tale_of p)) j) as [[b l]|] eqn:Ej; [|apply nth_error_None in Ej; lia].
      exists b, (l ++ [MCall lim c]), (length (calls_of l)). cbn [fst snd]. rewrite <- Lc, nth_snoc, set_at by lia. rewrite calls_call, nth_snoc. auto.
    - destruct IH as (b & l & r & E1 & E2 & E3). rewrite app_assoc. destruct (tale_grows ((p ++ [OCall j lim c]) ++ q) m j b l E2) as [l' E2']. exists b, (l ++ l'), r.
      split; [|split; [exact E2'|rewrite calls_app, nth_error_app1; [exact E3|apply nth_error_Some; congruence]]].
      rewrite tale_snoc. set (T := tale_of ((p ++ [OCall j lim c]) ++ q)) in *. destruct m as [b'|j'|j' lim' c'|i']; cbn [tell]; auto.
      + destruct (nth_error (fst T) j') as [[? ?]|]; exact E1.
      + destruct (nth_error (fst T) j') as [[? ?]|]; [|exact E1]. cbn [snd]. rewrite nth_error_app1; [exact E1|apply nth_error_Some; congruence].
      + destruct (nth_error (snd T) i') as [[j2 r2]|]; [|exact E1]. destruct (nth_error (fst T) j2) as [[? ?]|]; exact E1. }
  exact (G q).
Qed.

Lemma fit_prefix : forall m2 m1, all_fit (m1 ++ m2) -> all_fit m1.
Proof.
  induction m2 as [|m m2 IH] using rev_ind; intros m1 F; [rewrite app_nil_r in F; exact F|]. apply IH. eapply fit_before. rewrite <- app_assoc. exact F.
Qed.
Lemma orun_app : forall m1 m2, after (m1 ++ m2) = orun (after m1) m2.
Proof. intros. apply fold_left_app. Qed.

Theorem snapshot : forall m1 m2 j b r, nth_error (r_objs (after m1)) j = Some (b, r) ->
  let n := length (r_objs (after m1)) in let ms := m1 ++ OOpen j :: m2 in let t := mpt_init (r_map (after m1)) r b in
  all_fit ms -> no_collision (r_log (after ms)) -> only_read n m2 ->
  nth_error (r_objs (after ms)) n = Some (b, m_root t) /\
  forall i lim c o, is_call ms i n lim c -> 0 < lim -> oanswer (after ms) i = Some o -> o = fst (single lim t c).
Proof.
  intros m1 m2 j b r Ej n ms t F N R.
  assert (Ems : ms = (m1 ++ [OOpen j]) ++ m2) by (subst ms; rewrite <- app_assoc; reflexivity).
  assert (F2 : all_fit (m1 ++ [OOpen j])) by (rewrite Ems in F; exact (fit_prefix _ _ F)). assert (F1 : all_fit m1) by exact (fit_prefix _ _ F2).
  assert (N2 : no_collision (r_log (after (m1 ++ [OOpen j])))) by (eapply nocoll_incl; [|exact N]; rewrite Ems, (orun_app (m1 ++ [OOpen j])); apply olog).
  assert (N1 : no_collision (r_log (after m1))) by (eapply nocoll_incl; [|exact N2]; rewrite orun_app; apply olog).
  destruct (entire_all keccak_len m1 N1) as [D O C Hh].
  assert (Lo : length (fst (tale_of m1)) = n) by (subst n; rewrite <- (map_length fst), <- O, map_length; reflexivity).
  destruct (fst_at _ _ _ _ _ _ _ _ O Ej) as [lj Elj].
  destruct (lives keccak_len m1 F1 N1) as (_ & _ & Ob & _). destruct (Ob _ _ _ Elj) as (Er & _). rewrite Ej in Er. injection Er as Er. clear Ob.
  set (l0 := so_far b lj).
  assert (Et : tale_of (m1 ++ [OOpen j]) = (fst (tale_of m1) ++ [(b, l0)], snd (tale_of m1))) by (rewrite tale_snoc; cbn [tell]; rewrite Elj; reflexivity).
  assert (Start : nth_error (fst (tale_of (m1 ++ [OOpen j]))) (length (fst (tale_of m1))) = Some (b, l0)) by (rewrite Et; apply nth_snoc).
  assert (Fresh : forall i r, nth_error (snd (tale_of (m1 ++ [OOpen j]))) i <> Some (length (fst (tale_of m1)), r)).
  { intros i r' E. rewrite Et in E. cbn [snd] in E. apply (calls_below keccak_len m1 i _ r' N1) in E. lia. }
  assert (Root : h_root (p_obj (life b l0)) = m_root t).
  { subst t l0. unfold so_far. rewrite Er. destruct (h_root (p_obj (life b lj))) as [x|] eqn:Ex; [rewrite Ex|]; reflexivity. }
  destruct (later m1 j b l0 Start Fresh m2) as (lx & E1 & Fx & Lx); [rewrite Lo; exact R|]. fold ms in E1, Lx. rewrite Lo in *.
  destruct (lives keccak_len ms F N) as (_ & _ & Ob & An). destruct (Ob _ _ _ E1) as (Eo & _ & Il). rewrite (proj1 (mere_same b l0 lx Fx)), Root in Eo. split; [exact Eo|].
  intros i lim c o Ic Hl Ea. destruct (call_in_tale ms i n lim c N Ic) as (b' & l' & r' & G1 & G2 & G3). rewrite E1 in G2. injection G2 as <- <-.
  destruct (An _ _ _ G1) as (b' & l' & G2 & G4). rewrite E1 in G2. injection G2 as <- <-. rewrite Ea in G4. pose proof (Lx _ _ G1) as Lr.
  assert (Inx : In (lim, c) (calls_of lx)).
  { rewrite calls_app, nth_error_app2 in G3 by exact Lr. eapply nth_error_In. exact G3. }
  assert (Wc : is_write c = false).
  { unfold calls_of in Inx. apply in_flat_map in Inx. destruct Inx as (m & Hm & Hc). rewrite Forall_forall in Fx. specialize (Fx _ Hm). destruct m as [lim' c'|]; [|destruct Hc].
    destruct Hc as [Hc|[]]. injection Hc as <- <-. exact Fx. }
  pose proof (F _ _ _ E1) as Ff.
  assert (Nl : no_collision (h_log (p_obj (life b (l0 ++ lx))))) by (eapply nocoll_incl; [exact Il|exact N]).
  rewrite (mere_answer b l0 lx r' lim c o Fx Ff Nl Lr G3 Wc Hl (eq_sym G4)).
  rewrite (reads_alike (m1 ++ [OOpen j]) n b l0 lim c F2 N2 Start); [|eapply fit_incl; [|exact Ff]|exact Wc|exact Hl].
  - rewrite Root. assert (Em : r_map (after (m1 ++ [OOpen j])) = r_map (after m1)) by (rewrite oafter_snoc; cbn [ogo]; rewrite Ej; reflexivity). rewrite Em.
    destruct c as [k|k|k v|k|tm k| |]; try discriminate; reflexivity.
  - rewrite !calls_app. intros x Hx. apply in_app_or in Hx. apply in_or_app. destruct Hx as [Hx|[<-|[]]]; auto.
Qed.

Lemma fresh_life : forall b, part_of (h_map (p_obj (life b []))) [] /\ h_log (p_obj (life b [])) = r_log realm0.
Proof. intros b. split; [intros x y Hx; destruct b; discriminate|destruct b; reflexivity]. Qed.
Lemma root_alike : forall ms j b r lim c l m' log', all_fit ms -> no_collision (r_log (after ms)) -> nth_error (r_objs (after ms)) j = Some (b, r) -> nth_error (fst (tale_of ms)) j = Some (b, l) ->
  fit b (l ++ [MCall lim c]) -> dinv m' log' -> no_collision log' -> part_of (r_map (after ms)) m' -> is_write c = false -> 0 < lim ->
  fst (single lim (mpt_init m' r b) c) = fst (single lim (object b (life b (so_far b l))) c).
Proof.
  intros ms j b r lim c l m' log' F N Ej El Fc D N' P Wc Hl. destruct (lives keccak_len ms F N) as (_ & _ & Ob & _). destruct (Ob _ _ _ El) as (Er & Pl & I). rewrite Ej in Er. injection Er as Er.
  rewrite (reads_over b (so_far b l) lim c m' log'); auto.
  - unfold so_far. rewrite Er. destruct (h_root (p_obj (life b l))) as [x|] eqn:Ex; [rewrite Ex|]; destruct c; try discriminate; reflexivity.
  - unfold so_far. destruct (h_root _); [exact Fc|]. eapply fit_incl; [|exact Fc]. rewrite (calls_call l). intros x [<-|[]]. apply in_or_app. right. left. reflexivity.
  - unfold so_far. destruct (h_root _); [eapply nocoll_incl; [exact I|exact N]|]. rewrite (proj2 (fresh_life b)). eapply nocoll_incl; [apply (olog ms realm0)|exact N].
  - unfold so_far. destruct (h_root _); [eapply part_trans; [exact Pl|exact P]|]. intros x y Hx. destruct b; discriminate.
Qed.
Lemma realm_grows : forall m2 m1, no_collision (r_log (after (m1 ++ m2))) -> part_of (r_map (after m1)) (r_map (after (m1 ++ m2))).
Proof.
  induction m2 as [|m m2 IH] using rev_ind; intros m1 N; [rewrite app_nil_r; apply part_refl|].
  rewrite app_assoc in *. rewrite oafter_snoc in *. assert (N0 : no_collision (r_log (after (m1 ++ m2)))) by (eapply nocoll_incl; [apply olog1|exact N]).
  eapply part_trans; [exact (IH _ N0)|]. destruct (entire_all keccak_len _ N0) as [D O C Hh]. set (w := after (m1 ++ m2)) in *.
  destruct m as [b|j|j lim c|i]; cbn [ogo] in *; try apply part_refl.
  - destruct (nth_error (r_objs w) j) as [[b r]|]; apply part_refl.
  - destruct (nth_error (r_objs w) j) as [[b r]|]; apply part_refl.
  - destruct (nth_error (r_calls w) i) as [[j p]|] eqn:Ei; [|apply part_refl]. destruct (nth_error (r_objs w) j) as [[b r]|]; [|apply part_refl].
    assert (Hp : honest p) by (rewrite Forall_forall in Hh; exact (proj1 (Hh _ (nth_error_In _ _ Ei)))).
    pose proof (access_grows (mkShared (r_map w) (r_log w) r) p Hp D) as G. destruct (access _ p) as [s p']. exact (proj2 (G N)).
Qed.
(** A root that an object once had stays readable with the answers of that moment. *)
Theorem old_roots : forall m1 m2 j b r l lim c, nth_error (r_objs (after m1)) j = Some (b, r) -> nth_error (fst (tale_of m1)) j = Some (b, l) ->
  all_fit m1 -> no_collision (r_log (after (m1 ++ m2))) -> fit b (l ++ [MCall lim c]) -> is_write c = false -> 0 < lim ->
  fst (single lim (mpt_init (r_map (after (m1 ++ m2))) r b) c) = fst (single lim (mpt_init (r_map (after m1)) r b) c).
Proof.
  intros m1 m2 j b r l lim c Ej El F N Fc Wc Hl.
  assert (N1 : no_collision (r_log (after m1))) by (eapply nocoll_incl; [|exact N]; rewrite orun_app; apply olog).
  rewrite (root_alike m1 j b r lim c l _ (r_log (after (m1 ++ m2))) F N1 Ej El Fc); [|exact (en_d _ (entire_all keccak_len _ N))|exact N|exact (realm_grows _ _ N)|exact Wc|exact Hl].
  rewrite (root_alike m1 j b r lim c l (r_map (after m1)) (r_log (after m1)) F N1 Ej El Fc); auto; [exact (en_d _ (entire_all keccak_len _ N1))|apply part_refl].
Qed.
End T.
