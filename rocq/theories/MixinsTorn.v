(** pop and setdefault are not single steps. *)
From Coq Require Import List Bool Arith NArith ZArith Lia.
From Verif Require Import Base BaseProofs Rlp NibblePath Node ProofObj Mpt StoreProofs Spec SpecEmpt Empt MptProofs EmptProofs SpecEvery MptPy SpecMptEvery Threads SpecThreads ThreadsSeq ThreadsPool
  ThreadsAlone ThreadsSerial ThreadsRace EThreads SpecEThreads EThreadsRun EThreadsSerial EThreadsAlone EThreadsTrace EThreadsRead SpecETally ETallyProofs Mixins SpecMixins MixinsProofs MixinsMain.
Import ListNotations.

Section S.
Context {H : Hash}.
Variable secure : bool.
Hypothesis keccak_len : forall b, length (keccak b) = 32.
Notation start := (bench_new secure).
Notation after bs := (brun secure start bs).
Notation eafter ms := (erun secure (epool_new secure) ms).
Notation btrace := (btrace secure).

Lemma ecalls_repeat : forall i m, ecalls_of (repeat (EGo i) m) = [].
Proof. intros i m. induction m; [reflexivity|exact IHm]. Qed.
Lemma num_calls : forall T lim c i m, length (x_calls (eafter (T ++ ECall lim c :: repeat (EGo i) m))) = S (length (ecalls_of T)).
Proof. intros T lim c i m. rewrite (run_calls_len secure), ecalls_app, app_length. cbn [ecalls_of flat_map app length]. fold (ecalls_of (repeat (EGo i) m)). rewrite ecalls_repeat. cbn. lia. Qed.
Lemma not_turns : forall i q m, q <> i -> Forall (fun x => x <> EGo i) (repeat (EGo q) m).
Proof. intros i q m Ne. apply Forall_forall. intros x I. apply repeat_spec in I. subst. congruence. Qed.
Lemma bcalls_len : forall bs, length (bcalls bs) = length (b_calls (after bs)).
Proof. intros bs. rewrite <- (proj1 (bench_run secure bs)), map_length. reflexivity. Qed.

Theorem torn_pop : forall bs lim k v1 lim2 v2 e2 e3, 0 < lim -> 0 < lim2 -> v1 <> v2 ->
  let e := eobject secure (b_pool (after bs)) in
  empt_get lim e k = Ok v1 -> empt_update lim2 [] false e k v2 = (Ok tt, e2) -> empt_delete lim false false [] e2 k = (Ok tt, e3) ->
  let j := length (bcalls bs) in let i := length (x_calls (b_pool (after bs))) in
  exists m1 m3,
    let w := after (((bs ++ BCall lim (PPop k None) :: repeat (BGo j) m1) ++ map BMove (ECall lim2 (XPut k v2) :: repeat (EGo (S (S i))) (6 * lim2 + 14))) ++ repeat (BGo j) m3) in
    banswer_of w j = Some (Ok v1) /\ eanswer_of (b_pool w) (S (S i)) = Some (RNone (Ok tt)) /\ dget (x_data (b_pool w)) k = None /\
    fst (empt_pop lim e2 k None) <> Ok v1 /\ (forall lim' e' e'', empt_update lim' [] false e' k v2 = (Ok tt, e'') -> dget (e_data e'') k = Some v2).
Proof.
  intros bs lim k v1 lim2 v2 e2 e3 Ll Ll2 Ne e Eg Eu Ed j i. assert (Ei : i = length (ecalls_of (btrace bs))) by (unfold i; rewrite bench_pool; apply run_calls_len).
  assert (Put : forall lim' e' e'', empt_update lim' [] false e' k v2 = (Ok tt, e'') -> dget (e_data e'') k = Some v2).
  { intros lim' e' e'' U. unfold empt_update in U. destruct (bind (update_ref k v2) (fun r => ref_encode r)); [|discriminate]. destruct (mpt_update _ _ _ _ _) as [[]]; [|discriminate]. injection U as <-. cbn [e_data]. apply dget_dset_same. }
  unfold e in *. rewrite bench_pool in *.
  destruct (b_start secure keccak_len bs lim (PPop k None) Ll) as (m1 & A1 & A2 & A3 & A4). cbn zeta in *. cbn [mkey] in *. rewrite <- Ei in *. fold j in A3, A4. exists m1.
  set (T1 := btrace bs ++ ECall lim (XGet k) :: repeat (EGo i) m1) in *. assert (N1 : length (x_calls (eafter T1)) = S i) by (unfold T1; rewrite num_calls; lia).
  cbn [mnext] in A3, A4. rewrite A1, Eg in A3, A4. cbn [fst snd] in A3, A4. rewrite N1 in A4.
  set (bs1 := bs ++ BCall lim (PPop k None) :: repeat (BGo j) m1) in *. set (T2 := T1 ++ [ECall lim (XDel k)]) in *.
  assert (E2 : nth_error (x_calls (eafter T2)) (S i) = Some (e_call lim (XDel k))) by (unfold T2; rewrite erun_snoc; cbn [ego x_calls]; rewrite <- N1; apply nth_snoc_new).
  assert (N2 : length (ecalls_of T2) = S (S i)) by (unfold T2; rewrite ecalls_app, app_length, <- (run_calls_len secure), N1; cbn; lia).
  assert (O2 : eobject secure (eafter T2) = eobject secure (eafter (btrace bs))) by (unfold T2; rewrite erun_snoc; exact A2).
  destruct (ealone secure keccak_len T2 lim2 (XPut k v2) (6 * lim2 + 14) Ll2 (le_n _)) as [B1 B2]. rewrite N2, O2 in B1, B2. cbn [esingle] in B1, B2. rewrite Eu in B1, B2. cbn [fst snd] in B1, B2.
  set (ms := ECall lim2 (XPut k v2) :: repeat (EGo (S (S i))) (6 * lim2 + 14)) in *. destruct (bmoves_trace secure ms bs1) as [C1 C2]. rewrite A3 in C1. rewrite A4 in C2.
  set (bs2 := bs1 ++ map BMove ms) in *. set (T3 := T2 ++ ms) in *.
  assert (E3 : nth_error (x_calls (eafter T3)) (S i) = Some (e_call lim (XDel k))).
  { apply kept_call; [exact E2|]. constructor; [discriminate|]. apply not_turns. lia. }
  destruct (b_resume secure keccak_len bs2 j lim (PPop k None) (SDel (S i) v1) (S i) (XDel k)) as (m3 & D1 & D2 & D3 & D4); auto.
  { rewrite C2. unfold j. rewrite bcalls_len. apply nth_snoc_new. }
  { rewrite C1. exact E3. }
  cbn zeta in *. rewrite C1 in *. cbn [esingle] in D1, D2. rewrite B2, Ed in D1, D2. cbn [fst snd] in D1, D2. cbn [mnext] in D3, D4. rewrite D1 in D3, D4. cbn [fst snd] in D3, D4. rewrite app_nil_r in D3.
  exists m3. rewrite bench_pool, D3. split; [|split; [|split; [|split; [|exact Put]]]].
  - unfold banswer_of. rewrite D4. erewrite upd_same; [reflexivity|]. rewrite C2. unfold j. rewrite bcalls_len. apply nth_snoc_new.
  - unfold eanswer_of. pose proof (eanswer_done _ _ _ B1) as X. rewrite (kept_call secure (repeat (EGo (S i)) m3) T3 (S (S i)) _ X); [reflexivity|]. apply not_turns. lia.
  - change (x_data (eafter (T3 ++ repeat (EGo (S i)) m3))) with (e_data (eobject secure (eafter (T3 ++ repeat (EGo (S i)) m3)))). rewrite D2.
    pose proof (data_nodup secure T3) as Nd. assert (X : x_data (eafter T3) = e_data e2) by (rewrite <- B2; reflexivity). rewrite X in Nd.
    unfold empt_delete in Ed. destruct (mpt_contains lim (e_trie e2) k) as [[]|]; try discriminate. destruct (dget (e_data e2) k); [|discriminate]. destruct (mpt_delete lim [] (e_trie e2) k) as [r t].
    injection Ed as -> <-. cbn [e_data]. rewrite dget_ddel by exact Nd. destruct (bytes_eqb_spec k k); [reflexivity|congruence].
  - unfold empt_pop. intros F. specialize (Put _ _ _ Eu). destruct (empt_get lim e2 k) as [v|x] eqn:G; [|destruct x; discriminate]. assert (v = v2).
    { unfold empt_get in G. rewrite Put in G. destruct (mpt_get lim (e_trie e2) k); [|discriminate]. cbn [bind] in G. destruct (ref_decode _); [|discriminate]. cbn [bind] in G. destruct (expected_ref k v2); [|discriminate]. cbn [bind] in G.
      destruct (ref_eq _ _); [|discriminate]. now injection G. }
    subst v. rewrite Ed in F. cbn [fst] in F. congruence.
Qed.

Theorem torn_setdefault : forall bs lim k d1 lim2 d2 e2 e3, 0 < lim -> 0 < lim2 ->
  let e := eobject secure (b_pool (after bs)) in
  dget (e_data e) k = None -> empt_update lim2 [] false e k d2 = (Ok tt, e2) -> empt_update lim [] false e2 k d1 = (Ok tt, e3) ->
  let j := length (bcalls bs) in
  exists m1 m2 m2' m3,
    let w := after ((((bs ++ BCall lim (PSetdefault k d1) :: repeat (BGo j) m1) ++ BCall lim2 (PSetdefault k d2) :: repeat (BGo (S j)) m2) ++ repeat (BGo (S j)) m2') ++ repeat (BGo j) m3) in
    banswer_of w j = Some (Ok d1) /\ banswer_of w (S j) = Some (Ok d2) /\ dget (x_data (b_pool w)) k = Some d1.
Proof.
  intros bs lim k d1 lim2 d2 e2 e3 Ll Ll2 e Eg Eu Ed j. assert (Pend : forall l e0 d e1, empt_update l [] false e0 k d = (Ok tt, e1) -> eanswer (e_call l (XPut k d)) = None /\ dget (e_data e1) k = Some d).
  { intros l e0 d e1 U. unfold empt_update in U. cbn [e_call]. unfold e_put. destruct (bind (update_ref k d) (fun r => ref_encode r)); [|discriminate]. split; [reflexivity|].
    destruct (mpt_update _ _ _ _ _) as [[]]; [|discriminate]. injection U as <-. cbn [e_data]. apply dget_dset_same. }
  unfold e in *. rewrite bench_pool in *. set (i := length (ecalls_of (btrace bs))).
  assert (G : forall l, empt_get l (eobject secure (eafter (btrace bs))) k = Err KeyError) by (intros l; unfold empt_get; rewrite Eg; reflexivity).
  destruct (b_start secure keccak_len bs lim (PSetdefault k d1) Ll) as (m1 & A1 & A2 & A3 & A4). cbn zeta in *. cbn [mkey] in *. fold j in A3, A4. fold i in A1, A2, A3, A4. exists m1.
  set (T1 := btrace bs ++ ECall lim (XGet k) :: repeat (EGo i) m1) in *. assert (N1 : length (x_calls (eafter T1)) = S i) by (unfold T1; rewrite num_calls; reflexivity).
  cbn [mnext] in A3, A4. rewrite A1, G in A3, A4. cbn [fst snd] in A3, A4. rewrite N1 in A4.
  set (bs1 := bs ++ BCall lim (PSetdefault k d1) :: repeat (BGo j) m1) in *. set (T2 := T1 ++ [ECall lim (XPut k d1)]) in *.
  assert (E2 : nth_error (x_calls (eafter T2)) (S i) = Some (e_call lim (XPut k d1))) by (unfold T2; rewrite erun_snoc; cbn [ego x_calls]; rewrite <- N1; apply nth_snoc_new).
  assert (N2 : length (ecalls_of T2) = S (S i)) by (unfold T2; rewrite ecalls_app, app_length, <- (run_calls_len secure), N1; cbn; lia).
  assert (O2 : eobject secure (eafter T2) = eobject secure (eafter (btrace bs))) by (unfold T2; rewrite erun_snoc; exact A2).
  assert (J1 : length (bcalls bs1) = S j) by (rewrite bcalls_len, A4, app_length; unfold j; rewrite bcalls_len; cbn; lia).
  destruct (b_start secure keccak_len bs1 lim2 (PSetdefault k d2) Ll2) as (m2 & B1 & B2 & B3 & B4). cbn zeta in *. cbn [mkey] in *. rewrite A3, J1, ?N2, ?O2 in *. exists m2.
  set (T3 := T2 ++ ECall lim2 (XGet k) :: repeat (EGo (S (S i))) m2) in *. assert (N3 : length (x_calls (eafter T3)) = S (S (S i))) by (unfold T3; rewrite num_calls; lia).
  cbn [mnext] in B3, B4. rewrite B1, G in B3, B4. cbn [fst snd] in B3, B4. rewrite N3, A4 in B4. rewrite <- app_assoc in B4. cbn [app] in B4.
  set (bs2 := bs1 ++ BCall lim2 (PSetdefault k d2) :: repeat (BGo (S j)) m2) in *. set (T4 := T3 ++ [ECall lim2 (XPut k d2)]) in *.
  assert (E4 : nth_error (x_calls (eafter T4)) (S (S (S i))) = Some (e_call lim2 (XPut k d2))) by (unfold T4; rewrite erun_snoc; cbn [ego x_calls]; rewrite <- N3; apply nth_snoc_new).
  assert (O4 : eobject secure (eafter T4) = eobject secure (eafter (btrace bs))) by (unfold T4; rewrite erun_snoc; exact B2).
  assert (E4' : nth_error (x_calls (eafter T4)) (S i) = Some (e_call lim (XPut k d1))).
  { unfold T4, T3. rewrite <- app_assoc. apply kept_call; [exact E2|]. constructor; [discriminate|]. apply Forall_app. split; [apply not_turns; lia|]. constructor; [discriminate|constructor]. }
  assert (J2 : length (b_calls (after bs)) = j) by (unfold j; rewrite bcalls_len; reflexivity).
  assert (Q0 : nth_error (b_calls (after bs2)) j = Some (lim, PSetdefault k d1, SPut (S i))) by (rewrite B4, nth_error_app2, J2, Nat.sub_diag by lia; reflexivity).
  assert (Q1 : nth_error (b_calls (after bs2)) (S j) = Some (lim2, PSetdefault k d2, SPut (S (S (S i))))) by (rewrite B4, nth_error_app2, J2 by lia; replace (S j - j) with 1 by lia; reflexivity).
  destruct (b_resume secure keccak_len bs2 (S j) lim2 (PSetdefault k d2) _ (S (S (S i))) (XPut k d2) Q1) as (m2' & C1 & C2 & C3 & C4); auto.
  { rewrite B3. exact E4. }
  { apply (Pend _ _ _ _ Eu). }
  cbn zeta in *. rewrite B3, ?O4 in *. cbn [esingle] in C1, C2. rewrite Eu in C1, C2. cbn [fst snd] in C1, C2. cbn [mnext] in C3, C4. rewrite C1 in C3, C4. cbn [fst snd] in C3, C4. rewrite app_nil_r in C3. exists m2'.
  set (bs3 := bs2 ++ repeat (BGo (S j)) m2') in *. set (T5 := T4 ++ repeat (EGo (S (S (S i)))) m2') in *.
  assert (Q2 : nth_error (b_calls (after bs3)) j = Some (lim, PSetdefault k d1, SPut (S i))) by (rewrite C4; rewrite (upd_other _ _ _ _ _ _ Q1); [exact Q0|lia]).
  assert (Q3 : nth_error (b_calls (after bs3)) (S j) = Some (lim2, PSetdefault k d2, SDone (S (S (S i))) (Ok d2))) by (rewrite C4; eapply upd_same, Q1).
  destruct (b_resume secure keccak_len bs3 j lim (PSetdefault k d1) _ (S i) (XPut k d1) Q2) as (m3 & D1 & D2 & D3 & D4); auto.
  { rewrite C3. apply kept_call; [exact E4'|]. apply not_turns. lia. }
  { apply (Pend _ _ _ _ Ed). }
  cbn zeta in *. rewrite C3, ?C2 in *. cbn [esingle] in D1, D2. rewrite Ed in D1, D2. cbn [fst snd] in D1, D2. cbn [mnext] in D3, D4. rewrite D1 in D3, D4. cbn [fst snd] in D3, D4. rewrite app_nil_r in D3. exists m3.
  unfold banswer_of. rewrite bench_pool, D3, D4. split; [|split].
  - erewrite upd_same by exact Q2. reflexivity.
  - erewrite upd_other by (exact Q2 || lia). rewrite Q3. reflexivity.
  - change (x_data (eafter (T5 ++ repeat (EGo (S i)) m3))) with (e_data (eobject secure (eafter (T5 ++ repeat (EGo (S i)) m3)))). rewrite D2. apply (Pend _ _ _ _ Ed).
Qed.
End S.
