(** Calls on one EMPT object that meet: what goes wrong. *)
From Coq Require Import List Bool Arith NArith ZArith Lia.
From Verif Require Import Base BaseProofs Rlp NibblePath Node ProofObj Mpt StoreProofs Spec SpecGet SpecEmpt Empt MptProofs EmptProofs SpecEvery MptPy SpecMptEvery Threads SpecThreads ThreadsSeq ThreadsPool
  ThreadsAlone ThreadsSerial ThreadsRace EThreads SpecEThreads EThreadsRun EThreadsSerial EThreadsAlone EThreadsTrace EThreadsRead.
Import ListNotations.

(** ** A deleted key *)
Section Del.
Context {H : Hash}.
Variable secure : bool.
Notation start := (epool_new secure).
Notation after ms := (erun secure start ms).
Definition ended (a : tout) : eprog := match a with ANone r => EDone (RNone r) | _ => EDone (RNone (Err RuntimeError)) end.
Definition dropped (lim : nat) (k : bytes) (b : bool) : eprog := if b then ETrie lim (TDel k) ended else EDone (RNone (Err KeyError)).
Definition checked (lim : nat) (k : bytes) (a : tout) : eprog :=
  match a with
  | ABool (Ok true) => EDrop k (dropped lim k)
  | ABool (Ok false) => EDone (RNone (Err KeyNotFoundError))
  | ABool (Err x) => EDone (RNone (Err x))
  | _ => EDone (RNone (Err RuntimeError))
  end.
Lemma e_del_is : forall lim k, e_del lim k = ETrie lim (TIn k) (checked lim k).
Proof. reflexivity. Qed.
Definition deleting (w : epool) (lim : nat) (k : bytes) (p : eprog) : Prop :=
  (p = e_del lim k \/ (exists j, p = EWait j (checked lim k)) \/ p = EDrop k (dropped lim k) \/ exists x, p = EDone (RNone (Err x))) \/
  ((p = ETrie lim (TDel k) ended \/ (exists j, p = EWait j ended) \/ exists r, p = EDone (RNone r)) /\ dget (x_data w) k = None).
Lemma deleting_own : forall ms lim k p, deleting (after ms) lim k p -> 
  forall t' d' p', estep secure (x_trie (after ms)) (x_data (after ms)) p = (t', d', p') -> forall cs, deleting (mkEpool t' d' cs) lim k p'.
Proof.
  intros ms lim k p [[->|[[j ->]|[->|[x ->]]]]|[[->|[[j ->]|[r ->]]] Ed]] t' d' p' E cs; unfold deleting; cbn [x_data].
  - rewrite e_del_is in E. cbn [estep] in E. injection E as <- <- <-. left. right. left. eauto.
  - cbn [estep] in E. injection E as <- <- <-. destruct (answer_of _ j) as [a|]; [|left; right; left; eauto]. left. right. right. unfold checked. destruct a as [|[[|]|]| | |]; eauto.
  - cbn [estep] in E. destruct (dget (x_data (after ms)) k) as [v|] eqn:Ev; injection E as <- <- <-; cbn [dropped].
    + right. split; [auto|]. rewrite dget_ddel by apply data_nodup. rewrite bytes_eqb_refl. reflexivity.
    + left. right. right. right. eauto.
  - cbn [estep] in E. injection E as <- <- <-. left. right. right. right. eauto.
  - cbn [estep] in E. injection E as <- <- <-. right. split; [|exact Ed]. right. left. eauto.
  - cbn [estep] in E. injection E as <- <- <-. right. split; [|exact Ed]. destruct (answer_of _ j) as [a|]; [|right; left; eauto]. right. right. destruct a; cbn [ended]; eauto.
  - cbn [estep] in E. injection E as <- <- <-. right. split; [|exact Ed]. right. right. eauto.
Qed.
Lemma deleting_run : forall ms j lim k p, one_ewriter secure ms -> nth_error (ecalls_of ms) j = Some (lim, XDel k) ->
  (forall n y, j < n -> nth_error (ecalls_of ms) n = Some y -> ~ writes_key k (snd y)) -> nth_error (x_calls (after ms)) j = Some p -> deleting (after ms) lim k p.
Proof.
  intros ms. induction ms as [|x ms IH] using rev_ind; intros j lim k p O Ec No Ep; [destruct j; discriminate|].
  pose proof (run_calls_len secure ms) as Len. rewrite erun_snoc in *. apply one_ewriter_prefix in O as O'.
  destruct (Nat.lt_ge_cases j (length (ecalls_of ms))) as [Lj|Lj].
  2:{ destruct x as [lim' c'|i'].
      - rewrite ecalls_app in Ec. cbn in Ec. apply nth_error_snoc in Ec as [Ec|[-> Ec]]; [apply nth_lt in Ec; lia|]. injection Ec as <- <-. cbn [ego x_calls] in Ep. rewrite <- Len, nth_snoc_new in Ep. injection Ep as <-. left. left. reflexivity.
      - rewrite ecalls_app in Ec. cbn in Ec. rewrite app_nil_r in Ec. apply nth_lt in Ec. lia. }
  assert (Ec0 : nth_error (ecalls_of ms) j = Some (lim, XDel k)) by (rewrite ecalls_app, nth_error_app1 in Ec by exact Lj; exact Ec).
  assert (No0 : forall n y, j < n -> nth_error (ecalls_of ms) n = Some y -> ~ writes_key k (snd y)).
  { intros n y L E. apply (No n y L). rewrite ecalls_app, nth_error_app1; [exact E|eapply nth_lt, E]. }
  destruct (nth_error (x_calls (after ms)) j) as [p0|] eqn:Ep0; [|apply nth_error_None in Ep0; lia].
  specialize (IH _ _ _ _ O' Ec0 No0 Ep0).
  assert (Same : p = p0 -> dget (x_data (ego secure (after ms) x)) k = dget (x_data (after ms)) k -> deleting (ego secure (after ms) x) lim k p).
  { intros -> E. destruct IH as [IH|[IH Ed]]; [left; exact IH|]. right. split; [exact IH|]. rewrite E. exact Ed. }
  destruct x as [lim' c'|i'].
  { apply Same; [|reflexivity]. cbn [ego x_calls] in Ep. rewrite nth_snoc_old in Ep by lia. congruence. }
  destruct (Nat.eq_dec j i') as [<-|N].
  2:{ apply Same; [|apply (other_data secure ms i' j _ k O' Ec0 eq_refl No0); congruence]. destruct (nth_error (x_calls (after ms)) i') as [q|] eqn:Eq; [|cbn [ego] in Ep; rewrite Eq in Ep; congruence].
      rewrite (ego_at secure _ _ _ Eq) in Ep. cbn [x_calls] in Ep. rewrite (upd_other _ _ _ _ _ _ Eq N) in Ep. congruence. }
  rewrite (ego_at secure _ _ _ Ep0) in *. cbn [x_calls] in Ep. rewrite (upd_same _ _ _ _ _ Ep0) in Ep. injection Ep as <-.
  eapply deleting_own; [exact IH|]. destruct (estep secure (x_trie (after ms)) (x_data (after ms)) p0) as [[t' d'] p']. reflexivity.
Qed.
(** After a delete of the key has answered, and until another write of the key, get raises KeyError. *)
Theorem removed : forall ms, one_ewriter secure ms -> forall m1 m2 lim k j lim' o, ms = m1 ++ ECall lim (XGet k) :: m2 ->
  nth_error (ecalls_of m1) j = Some (lim', XDel k) -> eanswer_of (after m1) j = Some (RNone (Ok tt)) ->
  (forall n x, j < n -> nth_error (ecalls_of ms) n = Some x -> ~ writes_key k (snd x)) ->
  eanswer_of (after ms) (length (ecalls_of m1)) = Some o -> o = RVal (Err KeyError).
Proof.
  intros ms O m1 m2 lim k j lim' o Ems Ej Eaj No Eo. set (i := length (ecalls_of m1)) in *.
  assert (Ec : nth_error (ecalls_of ms) i = Some (lim, XGet k)). { rewrite Ems, ecalls_app. unfold i. rewrite nth_error_app2, Nat.sub_diag by lia. reflexivity. }
  apply eanswer_done in Eo. destruct (getting_run secure ms i lim k _ Ec Eo) as [X|[me [e [D M]]]]; [discriminate|].
  destruct D as [mr [E [L [_ <-]]]]. cbn [eobject e_data] in M. assert (Ed : dget (x_data (after me)) k = None); [|rewrite Ed in M; injection M as ->; reflexivity].
  destruct (prefix_longer me mr m1 (ECall lim (XGet k) :: m2)) as [b Eb]; [congruence|exact L|].
  assert (Dn : nth_error (x_calls (after me)) j = Some (EDone (RNone (Ok tt)))) by (rewrite Eb; apply done_stays, eanswer_done, Eaj).
  destruct (deleting_run me j lim' k (EDone (RNone (Ok tt)))) as [[X|[[? X]|[X|[? X]]]]|[_ Ed]]; try discriminate; [| | | |exact Ed].
  - rewrite E in O. eapply one_ewriter_prefix, O.
  - rewrite Eb, ecalls_app, nth_error_app1; [exact Ej|eapply nth_lt, Ej].
  - intros n y Ln En. apply (No n y Ln). rewrite E, ecalls_app, nth_error_app1; [exact En|eapply nth_lt, En].
  - exact Dn.
Qed.
End Del.

(** ** Races *)
Section Race.
Context {H : Hash}.
Variable secure : bool.
Lemma upd_upd : forall A (l : list A) i y a b, nth_error l i = Some y -> upd i b (upd i a l) = upd i b l.
Proof.
  intros A l i y a b E. destruct (split_at _ _ _ _ E) as [_ L]. set (x := firstn i l) in *. rewrite firstn_app, L, Nat.sub_diag. cbn [firstn]. rewrite app_nil_r.
  replace (firstn i x) with x by (symmetry; apply firstn_all2; lia). f_equal. f_equal. change (x ++ a :: skipn (S i) l) with (x ++ [a] ++ skipn (S i) l). rewrite app_assoc, skipn_app.
  rewrite skipn_all2 by (rewrite app_length; cbn; lia). rewrite app_length. cbn [length]. replace (S i - (length x + 1)) with 0 by lia. reflexivity.
Qed.
Lemma erun_more : forall w m ms, erun secure w (m :: ms) = erun secure (ego secure w m) ms.
Proof. reflexivity. Qed.
(** The call of the trie, run to its end. *)
Lemma wait_runs : forall m w i j g q, nth_error (x_calls w) i = Some (EWait j g) -> nth_error (p_calls (x_trie w)) j = Some q -> within m q -> tells q ->
  exists n a s', solo q (p_obj (x_trie w)) = (Ok a, s') /\ let w' := erun secure w (repeat (EGo i) n) in
    p_obj (x_trie w') = s' /\ x_data w' = x_data w /\ x_calls w' = upd i (g a) (x_calls w).
Proof.
  induction m as [|m IH]; intros w i j g q Ep Eq W T.
  - destruct (within0 q W T) as [a ->]. exists 1, a, (p_obj (x_trie w)). split; [reflexivity|]. cbn [repeat]. rewrite erun_more, (ego_at secure _ _ _ Ep). cbn [erun fold_left x_trie x_data x_calls estep fst snd].
    rewrite (go_mid_answer secure _ _ _ Eq), (go_mid secure _ _ _ Eq). cbn [access fst snd answer p_obj]. auto.
  - destruct (access_within (p_obj (x_trie w)) q _ W T) as [W' T']. cbn [pred] in W'.
    assert (E1 : ego secure w (EGo i) = mkEpool (go secure (x_trie w) (MGo j)) (x_data w) (upd i (match answer (snd (access (p_obj (x_trie w)) q)) with Some o => g o | None => EWait j g end) (x_calls w))).
    { rewrite (ego_at secure _ _ _ Ep). cbn [estep fst snd]. rewrite (go_mid_answer secure _ _ _ Eq). reflexivity. }
    destruct (answer (snd (access (p_obj (x_trie w)) q))) as [a|] eqn:Ea.
    + exists 1, a, (fst (access (p_obj (x_trie w)) q)). split.
      * rewrite access_solo. unfold answer in Ea. destruct (snd (access (p_obj (x_trie w)) q)) as [[]| | | |]; try discriminate. injection Ea as ->. reflexivity.
      * cbn [repeat]. rewrite erun_more, E1. cbn [erun fold_left x_trie x_data x_calls]. rewrite (go_mid secure _ _ _ Eq). auto.
    + destruct (IH (ego secure w (EGo i)) i j g (snd (access (p_obj (x_trie w)) q))) as [n [a [s' [Es R]]]].
      * rewrite E1. cbn [x_calls]. eapply upd_same, Ep.
      * rewrite E1. cbn [x_trie]. rewrite (go_mid secure _ _ _ Eq). cbn [p_calls]. eapply upd_same, Eq.
      * exact W'.
      * exact T'.
      * exists (S n), a, s'. split.
        -- rewrite access_solo. rewrite E1 in Es. cbn [x_trie] in Es. rewrite (go_mid secure _ _ _ Eq) in Es. exact Es.
        -- cbn [repeat]. cbv zeta in *. rewrite erun_more. destruct R as [R1 [R2 R3]]. split; [exact R1|]. split; [rewrite R2, E1; reflexivity|].
           rewrite R3, E1. cbn [x_calls]. eapply upd_upd, Ep.
Qed.
Hypothesis keccak_len : forall b, length (keccak b) = 32.
Lemma trie_runs : forall w i lim c g, 0 < lim -> nth_error (x_calls w) i = Some (ETrie lim c g) ->
  exists n, let w' := erun secure w (repeat (EGo i) n) in
    object secure (x_trie w') = snd (single lim (object secure (x_trie w)) c) /\ x_data w' = x_data w /\ x_calls w' = upd i (g (fst (single lim (object secure (x_trie w)) c))) (x_calls w).
Proof.
  intros w i lim c g L Ep.
  assert (E1 : ego secure w (EGo i) = mkEpool (mkPool (p_obj (x_trie w)) (p_calls (x_trie w) ++ [call_prog secure lim c])) (x_data w) (upd i (EWait (length (p_calls (x_trie w))) g) (x_calls w))).
  { rewrite (ego_at secure _ _ _ Ep). reflexivity. }
  destruct (wait_runs (3 * lim + 5) (ego secure w (EGo i)) i (length (p_calls (x_trie w))) g (call_prog secure lim c)) as [n [a [s' [Es [R1 [R2 R3]]]]]].
  - rewrite E1. cbn [x_calls]. eapply upd_same, Ep.
  - rewrite E1. cbn [x_trie p_calls]. apply nth_snoc_new.
  - apply within_call. exact keccak_len.
  - apply tells_call.
  - exists (S n). cbn [repeat]. cbv zeta. rewrite erun_more. rewrite E1 in Es. cbn [x_trie p_obj] in Es. rewrite (solo_as secure keccak_len lim _ c L) in Es. injection Es as <- <-.
    split; [|split].
    + unfold object at 1. rewrite R1. change (as_mpt secure (of_mpt (snd (single lim (as_mpt secure (p_obj (x_trie w))) c))) = snd (single lim (object secure (x_trie w)) c)).
      rewrite of_as; [reflexivity|]. apply single_secure. reflexivity.
    + rewrite R2, E1. reflexivity.
    + rewrite R3, E1. cbn [x_calls]. eapply upd_upd, Ep.
Qed.
Notation start := (epool_new secure).
Notation after ms := (erun secure start ms).
Lemma mid_nth : forall A (l : list A) x r, nth_error (l ++ x :: r) (length l) = Some x.
Proof. intros. rewrite nth_error_app2, Nat.sub_diag by lia. reflexivity. Qed.
Lemma mid_upd : forall A (l : list A) x y r, upd (length l) y (l ++ x :: r) = l ++ y :: r.
Proof.
  intros A l x y r. rewrite firstn_app, Nat.sub_diag, firstn_all. cbn [firstn]. rewrite app_nil_r. f_equal. f_equal. change (l ++ x :: r) with (l ++ [x] ++ r). rewrite app_assoc, skipn_app.
  rewrite skipn_all2 by (rewrite app_length; cbn; lia). rewrite app_length. cbn [length]. replace (S (length l) - (length l + 1)) with 0 by lia. reflexivity.
Qed.
Lemma mid_nth2 : forall A (l : list A) a x r, nth_error (l ++ a :: x :: r) (S (length l)) = Some x.
Proof. intros. change (l ++ a :: x :: r) with (l ++ [a] ++ x :: r). rewrite app_assoc. replace (S (length l)) with (length (l ++ [a])) by (rewrite app_length; cbn; lia). apply mid_nth. Qed.
Lemma mid_upd2 : forall A (l : list A) a x y r, upd (S (length l)) y (l ++ a :: x :: r) = l ++ a :: y :: r.
Proof.
  intros. transitivity (upd (length (l ++ [a])) y ((l ++ [a]) ++ x :: r)).
  - rewrite <- app_assoc. cbn [app]. rewrite app_length. cbn [length]. rewrite Nat.add_1_r. reflexivity.
  - rewrite mid_upd, <- app_assoc. reflexivity.
Qed.

(** Two updates of one key at the same time. *)
Theorem crossed_updates : forall ms k l1 v1 rb1 l2 v2 rb2, let e := eobject secure (after ms) in let i := length (ecalls_of ms) in
  0 < l1 -> 0 < l2 -> bind (update_ref k v1) (fun r => ref_encode r) = Ok rb1 -> bind (update_ref k v2) (fun r => ref_encode r) = Ok rb2 ->
  fst (mpt_update l1 [] (e_trie e) k rb1) = Ok tt -> fst (mpt_update l2 [] (snd (mpt_update l1 [] (e_trie e) k rb1)) k rb2) = Ok tt ->
  exists n1 n2, let w := after (ms ++ [ECall l1 (XPut k v1); ECall l2 (XPut k v2)] ++ repeat (EGo i) n1 ++ repeat (EGo (S i)) n2 ++ [EGo i]) in
  eanswer_of w i = Some (RNone (Ok tt)) /\ eanswer_of w (S i) = Some (RNone (Ok tt)) /\
  eobject secure w = mkEmpt (dset (dset (e_data e) k v2) k v1) (snd (mpt_update l2 [] (snd (mpt_update l1 [] (e_trie e) k rb1)) k rb2)).
Proof.
  intros ms k l1 v1 rb1 l2 v2 rb2 e i L1 L2 E1 E2 Ok1 Ok2. set (w0 := after ms) in *. set (cs := x_calls w0). assert (Li : i = length cs) by (symmetry; apply run_calls_len).
  set (w1 := erun secure w0 [ECall l1 (XPut k v1); ECall l2 (XPut k v2)]).
  assert (C1 : x_calls w1 = cs ++ [ETrie l1 (TPut k rb1) (stored k v1); ETrie l2 (TPut k rb2) (stored k v2)]).
  { unfold w1. rewrite !erun_more. cbn [erun fold_left ego x_calls e_call]. unfold e_put. rewrite E1, E2, <- app_assoc. reflexivity. }
  destruct (trie_runs w1 i l1 (TPut k rb1) (stored k v1) L1) as [n1 [A1 [A2 A3]]]; [rewrite C1, Li; apply mid_nth|].
  set (w2 := erun secure w1 (repeat (EGo i) n1)) in *. change (object secure (x_trie w1)) with (e_trie e) in *. rewrite C1, Li, mid_upd in A3. cbn [single] in A1, A3.
  destruct (mpt_update l1 [] (e_trie e) k rb1) as [r1 t1]. cbn [fst snd] in *. subst r1. cbn [stored] in A3.
  destruct (trie_runs w2 (S i) l2 (TPut k rb2) (stored k v2) L2) as [n2 [B1 [B2 B3]]]; [rewrite A3, Li; apply mid_nth2|].
  set (w3 := erun secure w2 (repeat (EGo (S i)) n2)) in *. rewrite A1 in B1, B3. cbn [single] in B1, B3. destruct (mpt_update l2 [] t1 k rb2) as [r2 t2]. cbn [fst snd] in *. subst r2. cbn [stored] in B3.
  rewrite A3, Li, mid_upd2 in B3.
  exists n1, (n2 + 1). cbv zeta. rewrite repeat_app, !erun_app. fold w0. fold w1. fold w2. cbn [repeat]. fold w3.
  rewrite erun_more. cbn [erun fold_left]. rewrite (ego_at secure w3 (S i) (EStore k v2 (EDone (RNone (Ok tt))))) by (rewrite B3, Li; apply mid_nth2).
  cbn [estep fst snd]. rewrite B3, Li, mid_upd2. set (w4 := mkEpool _ _ _).
  rewrite (ego_at secure w4 (length cs) (EStore k v1 (EDone (RNone (Ok tt))))) by (unfold w4; cbn [x_calls]; apply mid_nth).
  cbn [estep fst snd]. unfold w4. cbn [x_trie x_data x_calls]. rewrite mid_upd. unfold eanswer_of, eobject. cbn [x_trie x_data x_calls]. rewrite mid_nth, mid_nth2. split; [reflexivity|]. split; [reflexivity|].
  rewrite B1, B2, A2. reflexivity.
Qed.
(** Such an object refuses to give the value. *)
Theorem crossed_get : forall lim e k v r rb, dget (e_data e) k = Some v -> mpt_get lim (e_trie e) k = Ok rb -> ref_encode r = Ok rb ->
  (exists r', expected_ref k v = Ok r' /\ ref_hash r <> ref_hash r') -> empt_get lim e k = Err InvalidReferenceError.
Proof.
  intros lim e k v r rb Ed Eg Er [r' [Ex Ne]]. unfold empt_get. rewrite Ed, Eg. cbn [bind]. rewrite (ref_round_trip _ _ Er). cbn [bind]. rewrite Ex. cbn [bind]. unfold ref_eq.
  destruct (N.eqb_spec (ref_hash r) (ref_hash r')); [contradiction|reflexivity].
Qed.

Theorem crossed : forall ms k l1 v1 rb1 l2 v2 rb2, let e := eobject secure (after ms) in let i := length (ecalls_of ms) in
  let t' := snd (mpt_update l2 [] (snd (mpt_update l1 [] (e_trie e) k rb1)) k rb2) in
  0 < l1 -> 0 < l2 -> bind (update_ref k v1) (fun r => ref_encode r) = Ok rb1 -> bind (update_ref k v2) (fun r => ref_encode r) = Ok rb2 ->
  fst (mpt_update l1 [] (e_trie e) k rb1) = Ok tt -> fst (mpt_update l2 [] (snd (mpt_update l1 [] (e_trie e) k rb1)) k rb2) = Ok tt ->
  ref_hash (mkRef k (val_bytes v2)) <> ref_hash (mkRef k (val_bytes v1)) ->
  exists n1 n2, let w := after (ms ++ [ECall l1 (XPut k v1); ECall l2 (XPut k v2)] ++ repeat (EGo i) n1 ++ repeat (EGo (S i)) n2 ++ [EGo i]) in
  eanswer_of w i = Some (RNone (Ok tt)) /\ eanswer_of w (S i) = Some (RNone (Ok tt)) /\
  eobject secure w = mkEmpt (dset (dset (e_data e) k v2) k v1) t' /\
  forall lim, mpt_get lim t' k = Ok rb2 -> empt_get lim (eobject secure w) k = Err InvalidReferenceError.
Proof.
  intros ms k l1 v1 rb1 l2 v2 rb2 e i t' L1 L2 E1 E2 Ok1 Ok2 Ne.
  destruct (crossed_updates ms k l1 v1 rb1 l2 v2 rb2 L1 L2 E1 E2 Ok1 Ok2) as [n1 [n2 [A1 [A2 A3]]]]. exists n1, n2. cbv zeta. split; [exact A1|]. split; [exact A2|]. split; [exact A3|].
  intros lim Eg. unfold i. rewrite A3. apply bound in E1 as [r1 [Er1 Eb1]]. apply bound in E2 as [r2 [Er2 Eb2]]. rewrite (update_ref_is _ _ _ Er2) in Eb2.
  apply (crossed_get lim _ k v1 (mkRef k (val_bytes v2)) rb2); cbn [e_data e_trie].
  - rewrite dget_dset, bytes_eqb_refl. reflexivity.
  - exact Eg.
  - exact Eb2.
  - exists (mkRef k (val_bytes v1)). split; [|exact Ne]. apply update_ref_is in Er1 as Er1'. rewrite <- Er1'. apply update_expected. exact Er1.
Qed.

(** A get while the one writer overwrites the key. *)
Theorem torn_get : forall ms k lim v1 l2 v2 rb2, let e := eobject secure (after ms) in let i := length (ecalls_of ms) in let t' := snd (mpt_update l2 [] (e_trie e) k rb2) in
  0 < lim -> 0 < l2 -> dget (e_data e) k = Some v1 -> bind (update_ref k v2) (fun r => ref_encode r) = Ok rb2 -> fst (mpt_update l2 [] (e_trie e) k rb2) = Ok tt ->
  mpt_get lim t' k = Ok rb2 -> ref_hash (mkRef k (val_bytes v2)) <> ref_hash (mkRef k (val_bytes v1)) -> expected_ref k v1 = Ok (mkRef k (val_bytes v1)) ->
  exists n1 n2, let w := after (ms ++ [ECall lim (XGet k); EGo i; ECall l2 (XPut k v2)] ++ repeat (EGo (S i)) n1 ++ repeat (EGo i) n2) in
  eanswer_of w (S i) = Some (RNone (Ok tt)) /\ eanswer_of w i = Some (RVal (Err InvalidReferenceError)).
Proof.
  intros ms k lim v1 l2 v2 rb2 e i t' Ll L2 Ed E2 Ok2 Eg Ne Ex. set (w0 := after ms) in *. set (cs := x_calls w0). assert (Li : i = length cs) by (symmetry; apply run_calls_len).
  set (w1 := erun secure w0 [ECall lim (XGet k); EGo i; ECall l2 (XPut k v2)]).
  assert (C1 : w1 = mkEpool (x_trie w0) (x_data w0) (cs ++ [ETrie lim (TGet k) (got k v1); ETrie l2 (TPut k rb2) (stored k v2)])).
  { unfold w1. rewrite !erun_more. cbn [erun fold_left]. set (wa := ego secure w0 (ECall lim (XGet k))). rewrite (ego_at secure wa i (e_get lim k)) by (rewrite Li; apply mid_nth).
    unfold wa. cbn [ego x_calls x_trie x_data e_get estep fst snd]. rewrite Li. fold cs. rewrite mid_upd. change (x_data w0) with (e_data e). rewrite Ed. cbn [e_call]. unfold e_put. rewrite E2, <- app_assoc. reflexivity. }
  set (g1 := ETrie lim (TGet k) (got k v1)) in *.
  destruct (trie_runs w1 (S i) l2 (TPut k rb2) (stored k v2) L2) as [n1 [A1 [A2 A3]]]; [rewrite C1, Li; apply mid_nth2|].
  set (w2 := erun secure w1 (repeat (EGo (S i)) n1)) in *. rewrite C1 in A1, A2, A3. cbn [x_trie x_data x_calls] in A1, A2, A3. change (object secure (x_trie w0)) with (e_trie e) in *. cbn [single] in A1, A3.
  unfold t' in *. destruct (mpt_update l2 [] (e_trie e) k rb2) as [r2 t2]. cbn [fst snd] in *. subst r2. cbn [stored] in A3. rewrite Li, mid_upd2 in A3.
  set (w3 := ego secure w2 (EGo (S i))).
  assert (C3 : w3 = mkEpool (x_trie w2) (dset (x_data w2) k v2) (cs ++ g1 :: [EDone (RNone (Ok tt))])).
  { unfold w3. rewrite (ego_at secure w2 (S i) (EStore k v2 (EDone (RNone (Ok tt))))) by (rewrite A3, Li; apply mid_nth2). cbn [estep fst snd]. rewrite A3, Li, mid_upd2. reflexivity. }
  destruct (trie_runs w3 i lim (TGet k) (got k v1) Ll) as [n2 [B1 [B2 B3]]]; [rewrite C3, Li; apply mid_nth|].
  exists (n1 + 1), n2. cbv zeta. rewrite repeat_app, !erun_app. fold w0. fold w1. fold w2. cbn [repeat]. change (erun secure w2 [EGo (S i)]) with w3. set (w4 := erun secure w3 (repeat (EGo i) n2)) in *.
  rewrite C3 in B3. cbn [x_trie x_calls] in B3. rewrite A1, Li, mid_upd in B3. cbn [single fst] in B3. rewrite Eg in B3.
  unfold eanswer_of. rewrite B3. split.
  - rewrite Li, mid_nth2. reflexivity.
  - rewrite Li, mid_nth. cbn [got eanswer]. f_equal. f_equal. apply bound in E2 as [r [Er Eb]]. rewrite (update_ref_is _ _ _ Er) in Eb. cbn [bind]. rewrite (ref_round_trip _ _ Eb). cbn [bind]. rewrite Ex. cbn [bind].
    unfold ref_eq. destruct (N.eqb_spec (ref_hash (mkRef k (val_bytes v2))) (ref_hash (mkRef k (val_bytes v1)))); [contradiction|reflexivity].
Qed.
End Race.
