(** Proofs about SpecSeveral.v. *)
From Coq Require Import List Bool Arith NArith ZArith Lia.
From Verif Require Import Base BaseProofs Rlp RlpProofs NibblePath NibbleProofs Node ProofObj Mpt Tree TreeEnc StoreProofs ReadProofs Spec SpecCodec
  MptRefine MptProofs SpecShared SimProofs SharedProofs SpecEmpt EmptFaultProofs SpecWalk SpecEvery MptPy SpecMptEvery MptEveryProofs Threads SpecThreads ThreadsSeq ThreadsProofs ThreadsPool
  Several SpecSeveral.
Import ListNotations.

Section T.
Context {H : Hash}.
Hypothesis keccak_len : forall b, length (keccak b) = 32.

(** ** All writes are of a node under its hash *)
Inductive honest {A} : prog A -> Prop :=
| honest_ret : forall r, honest (PRet r)
| honest_get : forall h k, (forall o, honest (k o)) -> honest (PGet h k)
| honest_set : forall e k, 32 <= length e -> honest k -> honest (PSet (keccak e) e k)
| honest_root : forall k, (forall o, honest (k o)) -> honest (PRoot k)
| honest_assign : forall r k, honest k -> honest (PAssign r k).
Lemma honest_tame : forall A (p : prog A), tame p -> honest p.
Proof. intros A p T. induction T; constructor; auto. Qed.
Lemma honest_bind : forall A B (p : prog A) (f : A -> prog B), honest p -> (forall a, honest (f a)) -> honest (pbind p f).
Proof. intros A B p f Hp Hf. induction Hp as [[a|x]| | | |]; cbn [pbind]; try (constructor; auto). apply Hf. Qed.
Lemma honest_told : forall A (g : result A -> tout) p, honest p -> honest (told g p).
Proof. intros A g p Hp. induction Hp; cbn [told]; constructor; auto. Qed.

Lemma honest_proot : honest proot.
Proof. constructor. intros. constructor. Qed.
Lemma honest_contains : forall f r p, honest (p_contains f r p).
Proof.
  induction f as [|f IH]; intros r p; cbn [p_contains]; [constructor|]. apply honest_bind; [apply honest_proot|]. intros [a|]; [|constructor].
  apply honest_bind; [apply honest_proot|]. intros b. destruct (match b with Some x => _ | None => _ end); [constructor|].
  apply honest_bind; [apply honest_tame, tame_node|]. intros n. destruct (np_len p =? 0); [constructor|]. destruct n as [lp d|ep nr|bs d]; [constructor| |].
  - destruct (np_starts_with p ep); [apply IH|constructor].
  - cbv zeta. destruct (0 <? _); [apply IH|constructor].
Qed.
Lemma honest_unless : forall A (p : prog A), honest p -> honest (unless_empty p).
Proof.
  intros A p Hp. unfold unless_empty. apply honest_bind; [apply honest_proot|]. intros [a|]; [|constructor].
  apply honest_bind; [apply honest_proot|]. intros b. destruct (is_empty_hash b); [constructor|exact Hp].
Qed.
Lemma honest_hash : honest call_hash.
Proof.
  unfold call_hash. apply honest_bind; [apply honest_proot|]. intros a. destruct (is_falsy a); [constructor|].
  apply honest_bind; [apply honest_proot|]. intros [b|]; [|constructor]. destruct (length b =? 32); [apply honest_proot|].
  apply honest_bind; [apply honest_proot|]. intros [c|]; constructor.
Qed.
Lemma honest_call : forall b lim c, honest (call_prog b lim c).
Proof.
  intros b lim c. destruct c as [k|k|k v|k|tm k| |]; cbn [call_prog]; apply honest_told.
  - unfold call_get. apply honest_bind; [apply honest_proot|]. intros a. destruct (is_falsy a); [constructor|].
    apply honest_bind; [apply honest_proot|]. intros r. apply honest_bind; [apply honest_tame, tame_pget|]. intros. constructor.
  - unfold call_contains. apply honest_bind; [apply honest_proot|]. intros a. destruct (is_falsy a); [constructor|].
    apply honest_bind; [apply honest_proot|]. intros r. apply honest_bind; [apply honest_contains|]. intros. constructor.
  - unfold call_update. apply honest_bind; [apply honest_proot|]. intros r. apply honest_bind; [apply honest_tame, tame_update; exact keccak_len|]. intros. constructor. constructor.
  - apply honest_unless. apply honest_bind; [apply honest_proot|]. intros r. apply honest_bind; [apply honest_tame, tame_delete; exact keccak_len|]. intros. constructor. constructor.
  - apply honest_unless. apply honest_bind; [apply honest_proot|]. intros r. apply honest_bind; [apply honest_tame, tame_poi|]. intros.
    apply honest_bind; [apply honest_proot|]. intros [r2|]; constructor.
  - apply honest_proot.
  - apply honest_hash.
Qed.
Lemma honest_access : forall s p, honest p -> honest (snd (access s p)).
Proof. intros s p Hp. destruct Hp; cbn [access snd]; auto. constructor. Qed.

(** ** The nodes that a call reads are there *)
Lemma track_there : forall A (q0 : prog A) t m log h k, track q0 t m log (PGet h k) ->
  (forall sv, seq q0 (mkStore (m_map t) (m_log t) []) = (Err KeyError, sv) -> incl (s_log sv) log -> False) -> dget m h = None -> False.
Proof.
  intros A q0 t m log h k (T & sv & E & P & L) N Em. inversion T as [|h' k' Ek Tk|]; subst h' k'. cbn [seq] in E.
  destruct (dget (s_map sv) h) as [x|] eqn:Ex.
  - rewrite (P _ _ Ex) in Em. discriminate.
  - rewrite Ek in E. cbn [seq] in E. exact (N sv (eq_sym E) L).
Qed.
Lemma told_get : forall A B (g : result B -> tout) (q : prog A) (f : A -> prog B) h k, told g (pbind q f) = PGet h k ->
  (exists k', q = PGet h k') \/ (exists a, q = PRet (Ok a)).
Proof.
  intros A B g q f h k E. destruct q as [[a|x]|h' k'|h' e k'|k'|r k']; cbn [pbind told] in E; try discriminate; [right; eauto|].
  injection E as -> _. left. eauto.
Qed.
Section One.
Variables (secure : bool) (K : list bytes).
Hypothesis K_ok : keys_ok secure K.
Hypothesis K_small : forall k, In k K -> (blen k < 2 ^ 59)%N.
Lemma no_miss : forall P m log u lim c p a h k, no_collision log -> okc secure K c -> ainv secure K P m log u lim c p a -> p = PGet h k -> dget m h = None -> h = EMPTY_HASH.
Proof.
  intros P m log u lim c p a h k N [Oc Ov] A E Em.
  destruct A as [c|c o p Wa W St|k' Sg|k' t q d0 u0 r0 Pt Bt Ft Hh Er T Nq|k' Sg|k' t d0 u0 p Pt Bt Ft Hu Hm S Ea|k' f t Pt Er0 El Hu Sg|k' Sg Hu|k' f t Pt Er0 El|k' f t Pt Er0 El
    |k' v t q d0 u0 Pt Bt T Nq|k'|k' Hu|k' t q d0 u0 r0 Pt Bt Hh Hu Er T Nq|tm k' Sg|tm k' Hu Sg|tm k' t q d0 u0 r0 Pt Bt Ft Hh Er T Nq|Sg|long t r' Pt Er Hn El]; try discriminate;
    try (assert (Hk : In k' K) by (apply Oc; left; reflexivity)).
  - destruct c; discriminate.
  - subst p. inversion W. reflexivity.
  - destruct (told_get _ _ _ _ _ _ _ E) as [[kk ->]|[x ->]]; [|destruct (Nq _ eq_refl)]. exfalso. apply (track_there _ _ _ _ _ _ _ T); [|exact Em].
    intros sv Es _. rewrite seq_get in Es. injection Es as Es _. cbn [s_map] in Es.
    pose proof (get_result keccak_len secure K K_ok lim _ _ _ k' _ Bt Hh Er) as G. rewrite Es in G.
    pose proof (b_get keccak_len secure K K_ok K_small _ _ _ k' lim Bt Ft Hk) as X. rewrite G in X. exact (no_key_get secure _ _ _ _ Hh X).
  - subst p. inversion S as [|h' x kk Ex Sk|]; subst. rewrite (Hm _ _ Ex) in Em. discriminate.
  - subst lim. discriminate.
  - subst lim. discriminate.
  - destruct (told_get _ _ _ _ _ _ _ E) as [[kk ->]|[x ->]]; [|discriminate E]. exfalso. apply (track_there _ _ _ _ _ _ _ T); [|exact Em].
    intros sv Es Hl. exact (no_key_up secure _ _ (put_end keccak_len secure K K_small _ _ _ k' v lim _ _ Bt Hk Ov Es (nocoll_incl _ _ Hl N))).
  - destruct (told_get _ _ _ _ _ _ _ E) as [[kk ->]|[x ->]]; [|discriminate E]. exfalso. apply (track_there _ _ _ _ _ _ _ T); [|exact Em].
    intros sv Es Hl. exact (no_key_drop secure _ _ _ _ (del_end keccak_len secure K K_ok K_small _ _ _ k' lim _ _ _ Bt Hk Hh Er Es (nocoll_incl _ _ Hl N))).
  - destruct (told_get _ _ _ _ _ _ _ E) as [[kk ->]|[x ->]]; [|discriminate E]. exfalso. apply (track_there _ _ _ _ _ _ _ T); [|exact Em].
    intros sv Es _. rewrite seq_poi in Es. injection Es as Es _. cbn [s_map] in Es.
    pose proof (poi_result keccak_len secure K K_ok lim _ _ _ tm k' _ Bt Hh Er) as G. rewrite Es in G.
    pose proof (b_poi keccak_len secure K K_ok K_small _ _ _ k' lim tm Bt Ft Hk) as X. rewrite G in X. exact (no_key_poi secure _ _ _ _ _ X).
  - destruct long; discriminate.
Qed.
End One.

(** ** One access, in the storage of the object alone and in the common one *)
Lemma access_same : forall s p m' l', part_of (h_map s) m' -> incl (h_log s) l' -> (forall h k, p = PGet h k -> dget (h_map s) h = None -> dget m' h = None) ->
  snd (access s p) = snd (access (mkShared m' l' (h_root s)) p) /\ h_root (fst (access s p)) = h_root (fst (access (mkShared m' l' (h_root s)) p)) /\
  part_of (h_map (fst (access s p))) (h_map (fst (access (mkShared m' l' (h_root s)) p))) /\
  incl (h_log (fst (access s p))) (h_log (fst (access (mkShared m' l' (h_root s)) p))).
Proof.
  intros s p m' l' P L M. destruct p as [r|h k|h e k|k|r k]; cbn [access fst snd h_map h_log h_root]; try (repeat split; auto; fail).
  - split; [|repeat split; auto]. destruct (dget (h_map s) h) as [x|] eqn:Ex; [rewrite (P _ _ Ex); reflexivity|]. rewrite (M _ _ eq_refl Ex). reflexivity.
  - repeat split; auto; [apply part_dset; exact P|]. intros x [<-|Hx]; [left; reflexivity|right; auto].
Qed.
Lemma access_grows : forall s p, honest p -> dinv (h_map s) (h_log s) -> no_collision (h_log (fst (access s p))) ->
  dinv (h_map (fst (access s p))) (h_log (fst (access s p))) /\ part_of (h_map s) (h_map (fst (access s p))).
Proof.
  intros s p Hp D N. destruct Hp as [r|h k Hk|e k L Hk|k Hk|r k Hk]; cbn [access fst h_map h_log] in *; try (split; [exact D|apply part_refl]).
  destruct (grow (h_map s) (h_log s) e D L N) as (D' & P & _). auto.
Qed.

(** ** The calls on one object *)
Definition on (j : nat) (l : list (nat * prog tout)) : list (prog tout) := flat_map (fun x => if fst x =? j then [snd x] else []) l.
Lemma on_app : forall j l1 l2, on j (l1 ++ l2) = on j l1 ++ on j l2.
Proof. intros. apply flat_map_app. Qed.
Lemma on_amount : forall j l, length (on j l) = amount j (map fst l).
Proof.
  intros j l. unfold amount. induction l as [|[j' p] l IH]; [reflexivity|]. cbn [on flat_map map filter fst snd]. fold (on j l). rewrite app_length, IH.
  rewrite (Nat.eqb_sym j' j). destruct (j =? j'); reflexivity.
Qed.
Lemma answers_on_on : forall j w, answers_on j w = map answer (on j (v_calls w)).
Proof.
  intros j w. unfold answers_on. induction (v_calls w) as [|[j' p] l IH]; [reflexivity|]. cbn [on flat_map fst snd]. fold (on j l). rewrite map_app, <- IH. destruct (j' =? j); reflexivity.
Qed.
Lemma owners_app : forall n m1 m2, owners n (m1 ++ m2) = owners n m1 ++ owners n m2.
Proof. intros. apply flat_map_app. Qed.
Lemma part_app : forall n j m1 own m2, part n j own (m1 ++ m2) = part n j own m1 ++ part n j (own ++ owners n m1) m2.
Proof.
  intros n j m1. induction m1 as [|[j' lim c|i] m1 IH]; intros own m2; cbn [part app].
  - rewrite app_nil_r. reflexivity.
  - rewrite IH, <- !app_assoc. f_equal. f_equal. f_equal. rewrite <- (owners_app n [VCall j' lim c] m1). reflexivity.
  - rewrite IH, app_assoc. reflexivity.
Qed.
Lemma run_app : forall b w m1 m2, run_moves b w (m1 ++ m2) = run_moves b (run_moves b w m1) m2.
Proof. intros. apply fold_left_app. Qed.

Lemma put_at : forall A (l1 l2 : list A) p p', firstn (length l1) (l1 ++ p :: l2) ++ p' :: skipn (S (length l1)) (l1 ++ p :: l2) = l1 ++ p' :: l2.
Proof.
  intros A l1 l2 p p'. induction l1 as [|x l1 IH]; [reflexivity|]. cbn [length firstn app]. change (skipn (S (S (length l1))) (x :: l1 ++ p :: l2)) with (skipn (S (length l1)) (l1 ++ p :: l2)).
  f_equal. exact IH.
Qed.

Section Many.
Variable bs : list bool.
Notation n := (length bs).
Notation after ms := (vrun bs (several_new bs) ms).
Notation alone b j ms := (run_moves b (pool_new b) (part n j [] ms)).

Lemma vafter_snoc : forall ms m, after (ms ++ [m]) = vgo bs (after ms) m.
Proof. intros. unfold vrun. rewrite fold_left_app. reflexivity. Qed.
Lemma vlog : forall ms m, incl (v_log (after ms)) (v_log (after (ms ++ [m]))).
Proof.
  intros ms m. rewrite vafter_snoc. destruct m as [j lim c|i]; cbn [vgo].
  - destruct (nth_error bs j); apply incl_refl.
  - destruct (nth_error (v_calls (after ms)) i) as [[j p]|]; [|apply incl_refl].
    pose proof (access_log (mkShared (v_map (after ms)) (v_log (after ms)) (nth j (v_roots (after ms)) None)) p) as L. cbn [h_log] in L. destruct (access _ p). exact L.
Qed.

Record whole (ms : list vmove) : Prop := {
  wh_d : dinv (v_map (after ms)) (v_log (after ms));
  wh_r : length (v_roots (after ms)) = n;
  wh_o : map fst (v_calls (after ms)) = owners n ms;
  wh_h : Forall (fun x => honest (snd x) /\ fst x < n) (v_calls (after ms))
}.
Lemma whole_all : forall ms, no_collision (v_log (after ms)) -> whole ms.
Proof.
  induction ms as [|m ms IH] using rev_ind; intros N.
  - constructor; [apply (new_dinv false)|apply map_length|reflexivity|constructor].
  - assert (W : whole ms) by (apply IH; eapply nocoll_incl; [apply vlog|exact N]). destruct W as [D R O Hh].
    destruct m as [j lim c|i]; constructor; rewrite vafter_snoc in *; cbn [vgo] in *; rewrite ?owners_app.
    + destruct (nth_error bs j); exact D.
    + destruct (nth_error bs j); exact R.
    + cbn [owners flat_map]. destruct (nth_error bs j) as [b|] eqn:Ej; cbn [v_calls].
      * assert (L : j < n) by (apply nth_error_Some; congruence). apply Nat.ltb_lt in L. rewrite L, map_app, O. reflexivity.
      * apply nth_error_None in Ej. apply Nat.ltb_ge in Ej. rewrite Ej, O, !app_nil_r. reflexivity.
    + destruct (nth_error bs j) as [b|] eqn:Ej; cbn [v_calls]; [|exact Hh]. apply Forall_app. split; [exact Hh|]. constructor; [|constructor].
      split; [apply honest_call|apply nth_error_Some; cbn [fst]; congruence].
    + destruct (nth_error (v_calls (after ms)) i) as [[j p]|] eqn:Ei; [|exact D].
      assert (Hp : honest p) by (rewrite Forall_forall in Hh; exact (proj1 (Hh _ (nth_error_In _ _ Ei)))).
      pose proof (access_grows (mkShared (v_map (after ms)) (v_log (after ms)) (nth j (v_roots (after ms)) None)) p Hp D) as G.
      destruct (access _ p) as [s p']. exact (proj1 (G N)).
    + destruct (nth_error (v_calls (after ms)) i) as [[j p]|] eqn:Ei; [|exact R].
      assert (Hp : j < n) by (rewrite Forall_forall in Hh; exact (proj2 (Hh _ (nth_error_In _ _ Ei)))).
      destruct (access _ p) as [s p']. cbn [v_roots]. rewrite app_length. cbn [length]. rewrite firstn_length, skipn_length. lia.
    + cbn [owners flat_map]. rewrite app_nil_r. destruct (nth_error (v_calls (after ms)) i) as [[j p]|] eqn:Ei; [|exact O].
      destruct (access _ p) as [s p']. cbn [v_calls]. destruct (split_at _ _ _ _ Ei) as [El _]. rewrite <- O. rewrite El at 3. rewrite !map_app. reflexivity.
    + destruct (nth_error (v_calls (after ms)) i) as [[j p]|] eqn:Ei; [|exact Hh].
      assert (Hp : honest p /\ j < n) by (rewrite Forall_forall in Hh; exact (Hh _ (nth_error_In _ _ Ei))).
      pose proof (honest_access (mkShared (v_map (after ms)) (v_log (after ms)) (nth j (v_roots (after ms)) None)) p (proj1 Hp)) as G.
      destruct (access _ p) as [s p']. cbn [v_calls]. destruct (split_at _ _ _ _ Ei) as [El _]. rewrite El in Hh. apply Forall_app in Hh. destruct Hh as [H1 H2].
      apply Forall_app. split; [exact H1|]. inversion H2; subst. constructor; [split; [exact G|exact (proj2 Hp)]|assumption].
Qed.

Section Object.
Variables (j : nat) (b : bool) (K : list bytes).
Hypothesis Ej : nth_error bs j = Some b.
Hypothesis K_ok : keys_ok b K.
Hypothesis K_small : forall k, In k K -> (blen k < 2 ^ 59)%N.
Record same (ms : list vmove) : Prop := {
  sm_c : on j (v_calls (after ms)) = p_calls (alone b j ms);
  sm_r : nth_error (v_roots (after ms)) j = Some (h_root (p_obj (alone b j ms)));
  sm_m : part_of (h_map (p_obj (alone b j ms))) (v_map (after ms));
  sm_l : incl (h_log (p_obj (alone b j ms))) (v_log (after ms))
}.
Lemma same_all : forall ms, (forall lim c, In (lim, c) (calls_of (part n j [] ms)) -> okc b K c) -> no_collision (v_log (after ms)) -> same ms.
Proof.
  induction ms as [|m ms IH] using rev_ind; intros Ho N.
  - constructor.
    + reflexivity.
    + cbn [vrun fold_left several_new v_roots]. rewrite nth_error_map, Ej. reflexivity.
    + destruct b; apply part_refl.
    + destruct b; apply incl_refl.
  - assert (N0 : no_collision (v_log (after ms))) by (eapply nocoll_incl; [apply vlog|exact N]).
    assert (Ho0 : forall lim c, In (lim, c) (calls_of (part n j [] ms)) -> okc b K c).
    { intros lim c Hi. apply (Ho lim c). rewrite part_app, calls_app. apply in_or_app. auto. }
    destruct (IH Ho0 N0) as [C R M L]. destruct (whole_all ms N0) as [D Rl O Hh]. clear IH.
    destruct m as [j' lim c|i].
    + assert (Ep : part n j [] (ms ++ [VCall j' lim c]) = part n j [] ms ++ (if (j' <? n) && (j' =? j) then [MCall lim c] else [])).
      { rewrite part_app. cbn [part]. rewrite app_nil_r. reflexivity. }
      destruct (nth_error bs j') as [b'|] eqn:Ej'.
      * assert (Lj : j' <? n = true) by (apply Nat.ltb_lt, nth_error_Some; congruence). rewrite Lj in Ep. cbn [andb] in Ep.
        constructor; rewrite vafter_snoc, Ep; cbn [vgo]; rewrite Ej'; cbn [v_calls v_roots v_map v_log]; destruct (j' =? j) eqn:Ejj; rewrite ?app_nil_r, ?run_app; cbn [run_moves fold_left go p_calls p_obj]; auto.
        -- rewrite on_app, C. cbn [on flat_map fst snd]. rewrite Ejj. apply Nat.eqb_eq in Ejj. assert (b' = b) by congruence. subst b'. reflexivity.
        -- rewrite on_app. cbn [on flat_map fst snd]. rewrite Ejj. cbn [app]. rewrite app_nil_r. exact C.
      * assert (Lj : j' <? n = false) by (apply Nat.ltb_ge, nth_error_None; exact Ej'). rewrite Lj in Ep. cbn [andb] in Ep. rewrite app_nil_r in Ep.
        constructor; rewrite vafter_snoc, Ep; cbn [vgo]; rewrite Ej'; auto.
    + assert (Ep : part n j [] (ms ++ [VGo i]) = part n j [] ms ++
        match nth_error (owners n ms) i with Some j' => if j' =? j then [MGo (amount j (firstn i (owners n ms)))] else [] | None => [] end).
      { rewrite part_app. cbn [part]. rewrite app_nil_r. reflexivity. }
      rewrite <- O, nth_error_map in Ep. destruct (nth_error (v_calls (after ms)) i) as [[j' p]|] eqn:Ei; cbn [option_map fst] in Ep.
      2: { rewrite app_nil_r in Ep. constructor; rewrite vafter_snoc, Ep; cbn [vgo]; rewrite Ei; auto. }
      assert (Hp : honest p /\ j' < n) by (rewrite Forall_forall in Hh; exact (Hh _ (nth_error_In _ _ Ei))). destruct Hp as [Hp Lj'].
      rewrite vafter_snoc in N. cbn [vgo] in N. rewrite Ei in N.
      set (sc := mkShared (v_map (after ms)) (v_log (after ms)) (nth j' (v_roots (after ms)) None)) in *.
      pose proof (access_grows sc p Hp D) as G. destruct (split_at _ _ _ _ Ei) as [El Ell].
      destruct (j' =? j) eqn:Ejj.
      * apply Nat.eqb_eq in Ejj. subst j'. set (r := amount j (firstn i (map fst (v_calls (after ms))))) in *.
        assert (Er : r = length (on j (firstn i (v_calls (after ms))))) by (rewrite on_amount, <- firstn_map; reflexivity).
        assert (Eon : p_calls (alone b j ms) = on j (firstn i (v_calls (after ms))) ++ p :: on j (skipn (S i) (v_calls (after ms)))).
        { rewrite <- C. rewrite El at 1. rewrite on_app. cbn [on flat_map fst snd]. rewrite Nat.eqb_refl. reflexivity. }
        assert (Enth : nth_error (p_calls (alone b j ms)) r = Some p) by (rewrite Eon, Er; apply nth_mid').
        assert (Eroot : nth j (v_roots (after ms)) None = h_root (p_obj (alone b j ms))) by (apply nth_error_nth with (d := None) in R; exact R).
        assert (Miss : forall h k, p = PGet h k -> dget (h_map (p_obj (alone b j ms))) h = None -> dget (v_map (after ms)) h = None).
        { intros h k E Em. assert (Na : no_collision (h_log (p_obj (alone b j ms)))) by (eapply nocoll_incl; [exact L|exact N0]).
          destruct (all_good keccak_len b K K_ok K_small (part n j [] ms) Ho0 Na) as (d & u & l & [B F Ll Lp A] & _).
          assert (Li : r < length (p_calls (alone b j ms))) by (apply nth_error_Some; congruence).
          destruct (nth_error l r) as [a|] eqn:Ea; [|apply nth_error_None in Ea; lia].
          destruct (nth_error (calls_of (part n j [] ms)) r) as [[lim c]|] eqn:Ec; [|apply nth_error_None in Ec; lia].
          assert (Eh : h = EMPTY_HASH).
          { eapply (no_miss b K K_ok K_small); [exact Na| |exact (A _ _ _ _ _ Ec Enth Ea)|exact E|exact Em]. apply (Ho0 lim c). eapply nth_error_In. exact Ec. }
          rewrite Eh. eapply no_empty; [exact D|exact N0]. }
        destruct (access_same (p_obj (alone b j ms)) p (v_map (after ms)) (v_log (after ms)) M L Miss) as (Q1 & Q2 & Q3 & Q4).
        rewrite <- Eroot in Q1, Q2, Q3, Q4. fold sc in Q1, Q2, Q3, Q4.
        assert (Ea : run_moves b (pool_new b) (part n j [] (ms ++ [VGo i])) = mkPool (fst (access (p_obj (alone b j ms)) p)) (firstn r (p_calls (alone b j ms)) ++ snd (access (p_obj (alone b j ms)) p) :: skipn (S r) (p_calls (alone b j ms)))).
        { rewrite Ep, run_app. cbn [run_moves fold_left go]. fold (run_moves b (pool_new b) (part n j [] ms)). rewrite Enth. destruct (access (p_obj (alone b j ms)) p). reflexivity. }
        assert (Ev : after (ms ++ [VGo i]) = mkSeveral (h_map (fst (access sc p))) (h_log (fst (access sc p))) (firstn j (v_roots (after ms)) ++ h_root (fst (access sc p)) :: skipn (S j) (v_roots (after ms)))
            (firstn i (v_calls (after ms)) ++ (j, snd (access sc p)) :: skipn (S i) (v_calls (after ms)))).
        { rewrite vafter_snoc. cbn [vgo]. rewrite Ei. fold sc. destruct (access sc p). reflexivity. }
        constructor; rewrite Ev, Ea; cbn [v_calls v_roots v_map v_log p_calls p_obj]; auto.
        -- rewrite on_app. cbn [on flat_map fst snd]. rewrite Nat.eqb_refl. rewrite <- Q1, Eon, Er. fold (on j (skipn (S i) (v_calls (after ms)))).
           rewrite put_at. reflexivity.
        -- rewrite <- Q2. rewrite nth_error_app2; rewrite firstn_length_le by lia; [|lia]. rewrite Nat.sub_diag. reflexivity.
      * assert (Nj : j' <> j) by (apply Nat.eqb_neq; exact Ejj). rewrite app_nil_r in Ep.
        assert (Ev : after (ms ++ [VGo i]) = mkSeveral (h_map (fst (access sc p))) (h_log (fst (access sc p))) (firstn j' (v_roots (after ms)) ++ h_root (fst (access sc p)) :: skipn (S j') (v_roots (after ms)))
            (firstn i (v_calls (after ms)) ++ (j', snd (access sc p)) :: skipn (S i) (v_calls (after ms)))).
        { rewrite vafter_snoc. cbn [vgo]. rewrite Ei. fold sc. destruct (access sc p). reflexivity. }
        assert (Nf : no_collision (h_log (fst (access sc p)))) by (destruct (access sc p); exact N).
        destruct (G Nf) as [_ Gp]. constructor; rewrite Ev, Ep; cbn [v_calls v_roots v_map v_log]; auto.
        -- rewrite on_app. cbn [on flat_map fst snd]. rewrite Ejj. cbn [app]. rewrite <- C. rewrite El at 3. rewrite on_app. cbn [on flat_map fst snd]. rewrite Ejj. reflexivity.
        -- assert (j < length (v_roots (after ms))) by (apply nth_error_Some; congruence).
           rewrite <- R. destruct (Nat.lt_ge_cases j j') as [Lt|Ge].
           ++ rewrite nth_error_app1 by (rewrite firstn_length; lia). rewrite <- (firstn_skipn j' (v_roots (after ms))) at 2. rewrite nth_error_app1 by (rewrite firstn_length; lia). reflexivity.
           ++ rewrite nth_error_app2 by (rewrite firstn_length; lia). rewrite firstn_length_le by lia. destruct (j - j') as [|x] eqn:Ex; [lia|]. cbn [nth_error].
              rewrite <- (firstn_skipn (S j') (v_roots (after ms))) at 2. rewrite nth_error_app2 by (rewrite firstn_length; lia). rewrite firstn_length_le by lia. f_equal. lia.
        -- eapply part_trans; [exact M|exact Gp].
        -- eapply incl_tran; [exact L|]. apply (access_log sc p).
Qed.
End Object.

(** The answers, the root and the nodes of one object are those it has alone. *)
Theorem several_apart : forall ms j b, nth_error bs j = Some b -> keys_ok b (tkeys (part n j [] ms)) -> tfits b (part n j [] ms) ->
  no_collision (v_log (after ms)) ->
  answers_on j (after ms) = map answer (p_calls (alone b j ms)) /\ nth_error (v_roots (after ms)) j = Some (h_root (p_obj (alone b j ms))) /\
  part_of (h_map (p_obj (alone b j ms))) (v_map (after ms)) /\ incl (h_log (p_obj (alone b j ms))) (v_log (after ms)).
Proof.
  intros ms j b Ej Ko Fi N. destruct (same_all j b (tkeys (part n j [] ms)) Ej Ko (proj1 Fi) ms) as [C R M L]; [|exact N|].
  - exact (fit_calls b (part n j [] ms) Fi).
  - split; [rewrite answers_on_on, C; reflexivity|auto].
Qed.
End Many.
End T.
