(** clear beside other threads: proofs. *)
From Coq Require Import List Bool Arith NArith ZArith Lia.
From Verif Require Import Base BaseProofs Rlp NibblePath Node ProofObj Mpt StoreProofs Spec SpecEmpt Empt MptProofs EmptProofs SpecEvery MptPy SpecMptEvery Threads SpecThreads ThreadsSeq ThreadsPool
  ThreadsAlone ThreadsSerial ThreadsRace EThreads SpecEThreads EThreadsRun EThreadsSerial EThreadsAlone EThreadsTrace EThreadsRead SpecETally ETallyProofs Mixins SpecMixins MixinsProofs MixinsMain MixinsTorn MixinsEnds MixinsAlone
  Popitem SpecPopitem PopitemProofs PopitemEnds Clearing SpecClearing.
Import ListNotations.

Section S.
Context {H : Hash}.
Variable secure : bool.
Notation after cs := (crun secure (room_new secure) cs).
Notation dafter ds := (drun secure (desk_new secure) ds).
Notation bafter bs := (brun secure (bench_new secure) bs).
Notation eafter ms := (erun secure (epool_new secure) ms).
Notation ctrace := (ctrace secure).
Notation dtrace := (dtrace secure).

Lemma crun_snoc : forall cs m, after (cs ++ [m]) = cgo secure (after cs) m.
Proof. intros cs m. unfold crun. rewrite fold_left_app. reflexivity. Qed.
Lemma ctrace_from_app : forall a b w, ctrace_from secure w (a ++ b) = ctrace_from secure w a ++ ctrace_from secure (crun secure w a) b.
Proof. induction a as [|m a IH]; intros b w; [reflexivity|]. cbn [app ctrace_from]. rewrite IH, app_assoc. reflexivity. Qed.
Lemma ctrace_snoc : forall cs m, ctrace (cs ++ [m]) = ctrace cs ++ ctrace_from secure (after cs) [m].
Proof. intros cs m. apply ctrace_from_app. Qed.
Lemma drun_app : forall w a b, drun secure w (a ++ b) = drun secure (drun secure w a) b.
Proof. intros w a b. unfold drun. apply fold_left_app. Qed.
Theorem room_desk : forall cs, c_desk (after cs) = dafter (ctrace cs).
Proof.
  intros cs. induction cs as [|m cs IH] using rev_ind; [reflexivity|]. rewrite crun_snoc, ctrace_snoc, drun_app, <- IH. cbn [ctrace_from]. rewrite app_nil_r. destruct m as [m|lim|j]; cbn [cgo]; try reflexivity.
  destruct (nth_error (c_clears (after cs)) j) as [[lim st]|]; [|reflexivity]. cbn [c_desk]. rewrite drun_app. reflexivity.
Qed.
Theorem room_pool : forall cs, b_pool (d_bench (c_desk (after cs))) = eafter (csteps secure cs).
Proof. intros cs. rewrite room_desk. apply desk_pool. Qed.
Theorem clears_counted : forall cs k, let w := b_pool (d_bench (c_desk (after cs))) in popitems k (ctrace cs) (c_desk (after cs)) + has w k <= tally (puts_k k) (csteps secure cs) w.
Proof. intros cs k. rewrite room_desk. apply popitems_counted. Qed.
Lemma clears_len : forall cs, length (ccalls cs) = length (c_clears (after cs)).
Proof.
  intros cs. induction cs as [|m cs IH] using rev_ind; [reflexivity|]. rewrite crun_snoc. unfold ccalls in *. rewrite flat_map_app, app_length, IH. cbn [flat_map]. rewrite app_nil_r. destruct m as [m|lim|j]; cbn [cgo c_clears].
  - cbn. lia.
  - rewrite app_length. reflexivity.
  - destruct (nth_error (c_clears (after cs)) j) as [[lim st]|] eqn:E; [|cbn; lia]. cbn [c_clears]. rewrite <- (upd_length _ (c_clears (after cs)) j _ (lim, snd (cnext lim (drun secure (c_desk (after cs)) (cturn st)) st)) E). cbn. lia.
Qed.
Hypothesis keccak_len : forall b, length (keccak b) = 32.
Lemma c_own : forall cs j lim q, nth_error (c_clears (after cs)) j = Some (lim, CItem q) ->
  let w1 := dafter (ctrace cs ++ [DGo q]) in
  ctrace (cs ++ [CGo j]) = (ctrace cs ++ [DGo q]) ++ fst (cnext lim w1 (CItem q)) /\ nth_error (c_clears (after (cs ++ [CGo j]))) j = Some (lim, snd (cnext lim w1 (CItem q))).
Proof.
  intros cs j lim q E w1. split.
  - rewrite ctrace_snoc. cbn [ctrace_from]. rewrite app_nil_r, E, room_desk, <- drun_app, app_assoc. reflexivity.
  - rewrite crun_snoc. cbn [cgo]. rewrite E. cbn [c_clears cturn]. rewrite room_desk, <- drun_app. eapply upd_same, E.
Qed.
Lemma c_idle : forall m cs j lim r, nth_error (c_clears (after cs)) j = Some (lim, CDone r) -> after (cs ++ repeat (CGo j) m) = after cs.
Proof.
  induction m as [|m IH]; intros cs j lim r E; [cbn; rewrite app_nil_r; reflexivity|]. cbn [repeat]. change (CGo j :: repeat (CGo j) m) with ([CGo j] ++ repeat (CGo j) m). rewrite app_assoc.
  assert (X : after (cs ++ [CGo j]) = after cs).
  { rewrite crun_snoc. cbn [cgo]. rewrite E. cbn [cturn cnext fst snd]. unfold drun. cbn [fold_left]. pose proof (upd_id _ _ _ _ E) as U. destruct (after cs) as [p l]. cbn [c_desk c_clears] in *. f_equal. exact U. }
  rewrite (IH _ _ lim r); [exact X|]. rewrite X. exact E.
Qed.
(** When the popitem under way raises KeyError after [n] turns, clear has returned then. *)
Lemma clear_turns : forall n cs j lim q, nth_error (c_clears (after cs)) j = Some (lim, CItem q) -> danswer_of (dafter (ctrace cs)) q = None ->
  danswer_of (dafter (ctrace cs ++ repeat (DGo q) n)) q = Some (Err KeyError) ->
  canswer_of (after (cs ++ repeat (CGo j) n)) j = Some (Ok tt) /\ d_bench (c_desk (after (cs ++ repeat (CGo j) n))) = d_bench (dafter (ctrace cs ++ repeat (DGo q) n)).
Proof.
  induction n as [|n IH]; intros cs j lim q E N A; [cbn in A; rewrite app_nil_r in A; congruence|]. cbn [repeat] in *. change (CGo j :: repeat (CGo j) n) with ([CGo j] ++ repeat (CGo j) n). change (DGo q :: repeat (DGo q) n) with ([DGo q] ++ repeat (DGo q) n) in *.
  rewrite !app_assoc in *. destruct (c_own _ _ _ _ E) as [S1 S2]. cbn [cnext] in S1, S2. destruct (danswer_of (dafter (ctrace cs ++ [DGo q])) q) as [r|] eqn:Er.
  - assert (Dn : exists l o, nth_error (d_items (dafter (ctrace cs ++ [DGo q]))) q = Some (l, IDone o r)).
    { unfold danswer_of in Er. destruct (nth_error (d_items (dafter (ctrace cs ++ [DGo q]))) q) as [[l st]|]; [|discriminate]. destruct st; try discriminate. injection Er as ->. eauto. }
    destruct Dn as (l & o & Dn). assert (r = Err KeyError). { pose proof (d_done secure (repeat (DGo q) n) _ _ _ _ _ Dn) as X. unfold danswer_of in A. rewrite X in A. congruence. }
    subst r. cbn [fst snd] in S1, S2. rewrite app_nil_r in S1. rewrite (c_idle _ _ _ _ _ S2). split; [unfold canswer_of; rewrite S2; reflexivity|]. rewrite room_desk, S1, !desk_bench, (d_idle secure _ _ _ _ _ _ Dn). reflexivity.
  - cbn [fst snd] in S1, S2. rewrite app_nil_r in S1. rewrite <- S1. eapply IH; [exact S2|rewrite S1; exact Er|rewrite S1; exact A].
Qed.
Lemma first_gone : forall lim e k ks e', NoDup (dkeys (e_data e)) -> dkeys (e_data e) = k :: ks -> empt_delete lim false false [] e k = (Ok tt, e') -> dget (e_data e') k = None /\ dkeys (e_data e') = ks.
Proof.
  intros lim [ed et] k ks e' Nd Ke Ed. cbn [e_data] in Nd, Ke. unfold empt_delete in Ed. cbn [e_data e_trie] in Ed. destruct (mpt_contains lim et k) as [[]|]; try discriminate. destruct (dget ed k); [|discriminate]. destruct (mpt_delete lim [] et k) as [r t].
  injection Ed as -> <-. cbn [e_data]. split; [rewrite dget_ddel by exact Nd; destruct (bytes_eqb_spec k k); [reflexivity|congruence]|]. destruct ed as [|[k0 v0] d]; [discriminate|]. cbn [dkeys map fst] in Ke. injection Ke as -> <-.
  cbn [ddel]. destruct (bytes_eqb_spec k k); [|congruence]. reflexivity.
Qed.
Theorem clear_leaves : forall cs lim lim2 k ks e' m, 0 < lim -> 0 < lim2 -> 6 * lim2 + 14 <= m ->
  let e := eobject secure (b_pool (d_bench (c_desk (after cs)))) in let i := length (x_calls (b_pool (d_bench (c_desk (after cs))))) in let j := length (ccalls cs) in
  keys_in (after cs) = k :: ks -> empt_delete lim2 false false [] e k = (Ok tt, e') ->
  let w := after (((cs ++ [CClear lim; CGo j]) ++ map CMove (map DMove (map BMove (ECall lim2 (XDel k) :: repeat (EGo (S i)) m)))) ++ repeat (CGo j) (12 * lim + 28)) in
  canswer_of w j = Some (Ok tt) /\ keys_in w = ks.
Proof.
  intros cs lim lim2 k ks e' m Ll Ll2 Lm e i j Ek Ed w. set (T := ctrace cs). set (q := length (dcalls T)).
  assert (C1 : ctrace (cs ++ [CClear lim]) = T ++ [DPopitem lim]) by (rewrite ctrace_snoc; reflexivity).
  assert (E1 : nth_error (c_clears (after (cs ++ [CClear lim]))) j = Some (lim, CItem q)).
  { rewrite crun_snoc. cbn [cgo c_clears]. rewrite room_desk. fold T. rewrite <- (dcalls_len secure). unfold j. rewrite clears_len. apply nth_snoc_new. }
  destruct (c_own _ _ _ _ E1) as [S1 S2]. rewrite C1 in S1, S2.
  destruct (popitem_first secure T lim [] eq_refl) as (_ & _ & F). fold q in F. cbn zeta in F.
  assert (H0 : here (d_bench (dafter (T ++ [DPopitem lim]))) = k :: ks).
  { rewrite drun_snoc. cbn [dgo d_bench]. unfold T. rewrite <- room_desk. exact Ek. }
  destruct (F k ks) as [F1 F2]; [rewrite drun_snoc; reflexivity|exact H0|]. clear F. cbn [cnext] in S1, S2. rewrite F1 in S1, S2. cbn [fst snd] in S1, S2. rewrite app_nil_r in S1.
  replace ((cs ++ [CClear lim]) ++ [CGo j]) with (cs ++ [CClear lim; CGo j]) in * by (rewrite <- app_assoc; reflexivity). set (cs1 := cs ++ [CClear lim; CGo j]) in *. set (ds1 := (T ++ [DPopitem lim]) ++ [DGo q]) in *.
  (* the bench *)
  set (bs := dtrace T) in *. assert (B1 : dtrace ds1 = bs ++ [BCall lim (PPop k None)] /\ nth_error (d_items (dafter ds1)) q = Some (lim, IPop k (length (bcalls bs)))).
  { pose proof (new_item secure T lim) as Q. fold q in Q. destruct (d_own secure _ _ _ _ Q) as [X1 X2]. pose proof (upd_same _ _ _ _ (lim, inext (bafter (dtrace (T ++ [DPopitem lim]))) (bafter (dtrace (T ++ [DPopitem lim]) ++ iturn lim (bafter (dtrace (T ++ [DPopitem lim]))) (ISize (length (here (bafter (dtrace T))))))) (ISize (length (here (bafter (dtrace T)))))) Q) as X3.
    rewrite <- X2 in X3. rewrite new_trace in X1, X3. fold bs in X1, X3. cbn [iturn inext] in X1, X3. rewrite Nat.eqb_refl in X1, X3. assert (Hb : here (bafter bs) = k :: ks) by (unfold bs; rewrite <- desk_bench; unfold T; rewrite <- room_desk; exact Ek).
    rewrite Hb in X1, X3. rewrite (bcalls_len secure). split; [exact X1|exact X3]. }
  destruct B1 as [B1 B2]. set (jb := length (bcalls bs)) in *. set (ET := btrace secure bs) in *.
  assert (P1 : btrace secure (bs ++ [BCall lim (PPop k None)]) = ET ++ [ECall lim (XGet k)]) by (rewrite btrace_snoc; reflexivity).
  assert (Pi : i = length (ecalls_of ET)) by (unfold i; rewrite room_desk, desk_bench, bench_pool; apply run_calls_len).
  assert (Pe : eobject secure (eafter ET) = e) by (unfold e, ET, bs, T; rewrite room_desk, desk_bench, bench_pool; reflexivity).
  set (ET1 := ET ++ [ECall lim (XGet k)]) in *. assert (Pl : length (ecalls_of ET1) = S i) by (unfold ET1; rewrite ecalls_app, app_length; cbn; lia).
  assert (Pg : nth_error (x_calls (eafter ET1)) i = Some (e_call lim (XGet k))) by (unfold ET1; rewrite erun_snoc; cbn [ego x_calls]; rewrite Pi, <- (run_calls_len secure); apply nth_snoc_new).
  assert (Pe1 : eobject secure (eafter ET1) = e) by (unfold ET1; rewrite erun_snoc; exact Pe).
  (* the delete *)
  set (ms := ECall lim2 (XDel k) :: repeat (EGo (S i)) m) in *. destruct (ealone secure keccak_len ET1 lim2 (XDel k) m Ll2 Lm) as [_ D1]. rewrite Pl, Pe1 in D1. cbn [esingle] in D1. rewrite Ed in D1. cbn [snd] in D1. change (ECall lim2 (XDel k) :: repeat (EGo (S i)) m) with ms in D1.
  set (bs2 := (bs ++ [BCall lim (PPop k None)]) ++ map BMove ms). destruct (bmoves_trace secure ms (bs ++ [BCall lim (PPop k None)])) as [M1 M2]. fold bs2 in M1, M2. rewrite P1 in M1.
  set (ds2 := ds1 ++ map DMove (map BMove ms)). destruct (dmoves secure (map BMove ms) ds1) as [N1 N2]. fold ds2 in N1, N2. rewrite B1 in N1. fold bs2 in N1.
  assert (C2 : forall l c, ctrace (c ++ map CMove l) = ctrace c ++ l /\ c_clears (after (c ++ map CMove l)) = c_clears (after c)).
  { intros l. induction l as [|x l IHl] using rev_ind; intros c; [cbn; rewrite !app_nil_r; auto|]. rewrite map_app. cbn [map]. rewrite app_assoc. destruct (IHl c) as [Y1 Y2]. split.
    - rewrite ctrace_snoc, Y1. cbn [ctrace_from]. rewrite !app_nil_r, app_assoc. reflexivity.
    - rewrite crun_snoc. cbn [cgo c_clears]. exact Y2. }
  destruct (C2 (map DMove (map BMove ms)) cs1) as [O1 O2]. rewrite S1 in O1. fold ds2 in O1. set (cs2 := cs1 ++ map CMove (map DMove (map BMove ms))) in *. rewrite <- O2 in S2. rewrite <- N2 in B2.
  (* the key is gone *)
  assert (Gone : dget (e_data e') k = None /\ dkeys (e_data e') = ks).
  { pose proof (data_nodup secure ET) as Nd. assert (Xe : x_data (eafter ET) = e_data e) by (rewrite <- Pe; reflexivity). rewrite Xe in Nd. eapply first_gone; [exact Nd|exact Ek|exact Ed]. }
  destruct Gone as [G1 G2].
  (* the get of popitem *)
  assert (R0 : nth_error (b_calls (bafter bs2)) jb = Some (lim, PPop k None, SGet i)).
  { rewrite M2, brun_snoc. cbn [bgo b_calls]. rewrite bench_pool. fold ET. rewrite (run_calls_len secure), <- Pi. unfold jb. rewrite (bcalls_len secure). apply nth_snoc_new. }
  destruct (b_resume2 secure keccak_len bs2 jb lim (PPop k None) (SGet i) i (XGet k) R0 eq_refl eq_refl) as (m2 & Q1 & Q2 & Q3 & Q4); [rewrite M1; apply kept_call; [exact Pg|]; constructor; [discriminate|apply not_turns; lia]|exact Ll|].
  cbn zeta in *. rewrite M1 in Q1, Q2, Q3, Q4. rewrite D1 in Q1, Q2. cbn [esingle fst snd] in Q1, Q2. unfold empt_get in Q1. rewrite G1 in Q1. cbn [mnext] in Q3, Q4. rewrite Q1 in Q3, Q4. cbn [fst snd] in Q3, Q4. rewrite app_nil_r in Q3.
  (* popitem *)
  assert (An : danswer_of (dafter (ds2 ++ repeat (DGo q) (12 * lim + 28))) q <> None).
  { eapply (pop_phase secure keccak_len _ _ _ _ _ _ (12 * lim + 28)); [exact B2| |lia|].
    - rewrite N1. unfold bs2. apply bdue_more. apply bdue_new. exact keccak_len.
    - assert (X : forall n, dturns q (repeat (DGo q) n) = n) by (induction n as [|n IHn]; [reflexivity|cbn [repeat]; rewrite dturns_own, IHn; reflexivity]). rewrite X. lia. }
  destruct (pop_alone_turns secure keccak_len (12 * lim + 28) _ _ _ _ _ B2) as [Q|(n' & r0 & L & A & B & D)]; [unfold danswer_of in An; rewrite Q in An; contradiction|]. rewrite N1 in A, B.
  assert (Bi : bafter (bs2 ++ repeat (BGo jb) n') = bafter (bs2 ++ repeat (BGo jb) m2)).
  { unfold banswer_of in B. destruct (nth_error (b_calls (bafter (bs2 ++ repeat (BGo jb) n'))) jb) as [[[l c] st]|] eqn:En; [|discriminate]. destruct st as [| | |i0 r1]; try discriminate. destruct (le_ge_dec n' m2) as [Le|Ge].
    - replace m2 with (n' + (m2 - n')) by lia. rewrite repeat_app, app_assoc. symmetry. eapply b_idle, En.
    - replace n' with (m2 + (n' - m2)) by lia. rewrite repeat_app, app_assoc. eapply b_idle, Q4. }
  assert (r0 = Err KeyError). { rewrite Bi in B. unfold banswer_of in B. rewrite Q4 in B. congruence. } subst r0.
  (* clear *)
  unfold w. fold ms. fold cs2. destruct (clear_turns (12 * lim + 28) cs2 j lim q S2) as [Z1 Z2]; rewrite ?O1.
  - unfold danswer_of. rewrite B2. reflexivity.
  - exact D.
  - split; [exact Z1|]. unfold keys_in. rewrite Z2, O1, desk_bench, A, Bi. unfold here. rewrite bench_pool, Q3. change (x_data ?p) with (e_data (eobject secure p)). rewrite Q2. exact G2.
Qed.
(** ** How it ends *)
Lemma danswer_keeps : forall a b q r, danswer_of (dafter a) q = Some r -> danswer_of (dafter (a ++ b)) q = Some r.
Proof.
  intros a b q r E. unfold danswer_of in *. destruct (nth_error (d_items (dafter a)) q) as [[l st]|] eqn:En; [|discriminate]. destruct st; try discriminate. rewrite (d_done secure b _ _ _ _ _ En). exact E.
Qed.
Lemma ended_more : forall a b r, ended (dafter a) r -> ended (dafter (a ++ b)) r.
Proof. intros a b r (q & x & E & R). exists q, x. split; [apply danswer_keeps, E|exact R]. Qed.
Theorem clear_answer : forall cs j r, canswer_of (after cs) j = Some r -> ended (c_desk (after cs)) r.
Proof.
  intros cs. induction cs as [|m cs IH] using rev_ind; intros j r E; [unfold canswer_of in E; cbn in E; destruct j; discriminate|].
  assert (Old : canswer_of (after cs) j = Some r -> ended (c_desk (after (cs ++ [m]))) r).
  { intros E2. rewrite room_desk, ctrace_snoc. apply ended_more. rewrite <- room_desk. eapply IH, E2. }
  destruct m as [m|lim|q].
  - apply Old. rewrite crun_snoc in E. exact E.
  - apply Old. rewrite crun_snoc in E. unfold canswer_of in *. cbn [cgo c_clears] in E. destruct (Nat.lt_ge_cases j (length (c_clears (after cs)))) as [L|L]; [rewrite nth_error_app1 in E by exact L; exact E|].
    rewrite nth_error_app2 in E by exact L. destruct (j - length (c_clears (after cs))) as [|n]; [discriminate|destruct n; discriminate].
  - destruct (nth_error (c_clears (after cs)) q) as [[lim st]|] eqn:Eq; [|apply Old; rewrite crun_snoc in E; cbn [cgo] in E; rewrite Eq in E; exact E].
    destruct (Nat.eq_dec j q) as [->|Ne].
    + destruct st as [p|r0].
      * destruct (c_own _ _ _ _ Eq) as [S1 S2]. unfold canswer_of in E. rewrite S2 in E. cbn [cnext] in E, S1. rewrite room_desk, S1. apply ended_more. destruct (danswer_of (dafter (ctrace cs ++ [DGo p])) p) as [[a|x]|] eqn:Ed; cbn [snd] in E; try discriminate.
        exists p, x. split; [exact Ed|]. destruct x; cbn [snd] in E; congruence.
      * apply Old. rewrite <- E. change [CGo q] with (repeat (CGo q) 1). rewrite (c_idle 1 _ _ _ _ Eq). reflexivity.
    + apply Old. rewrite crun_snoc in E. unfold canswer_of in *. cbn [cgo] in E. rewrite Eq in E. cbn [c_clears] in E. rewrite (upd_other _ _ _ _ _ _ Eq) in E; [exact E|congruence].
Qed.
(** ** Alone *)
Lemma popitem_fewer : forall lim e kv e', empt_popitem lim e = (Ok kv, e') -> length (e_data e') < length (e_data e).
Proof.
  intros lim [ed et] kv e' E. unfold empt_popitem, empt_keys in E. cbn [e_data] in *. destruct ed as [|[k v] d]; [discriminate|]. cbn [dkeys map fst] in E. destruct (empt_get lim _ k); [|discriminate].
  unfold empt_delete in E. cbn [e_data e_trie] in E. destruct (mpt_contains lim et k) as [[]|]; try discriminate. destruct (dget ((k, v) :: d) k); [|discriminate]. destruct (mpt_delete lim [] et k) as [r t]. destruct r; [|discriminate]. injection E as _ <-. cbn [e_data].
  cbn [ddel]. destruct (bytes_eqb_spec k k); [|congruence]. cbn [length]. lia.
Qed.
Lemma clear_turn_done : forall n cs j lim q r, nth_error (c_clears (after cs)) j = Some (lim, CItem q) -> danswer_of (dafter (ctrace cs)) q = None ->
  danswer_of (dafter (ctrace cs ++ repeat (DGo q) n)) q = Some r ->
  exists m, m <= n /\ let T := ctrace cs ++ repeat (DGo q) m in danswer_of (dafter T) q = Some r /\ d_bench (dafter T) = d_bench (dafter (ctrace cs ++ repeat (DGo q) n)) /\
    ctrace (cs ++ repeat (CGo j) m) = T ++ fst (cnext lim (dafter T) (CItem q)) /\ nth_error (c_clears (after (cs ++ repeat (CGo j) m))) j = Some (lim, snd (cnext lim (dafter T) (CItem q))).
Proof.
  induction n as [|n IH]; intros cs j lim q r E N A; [cbn in A; rewrite app_nil_r in A; congruence|]. cbn [repeat] in *. change (DGo q :: repeat (DGo q) n) with ([DGo q] ++ repeat (DGo q) n) in *.
  rewrite !app_assoc in *. destruct (c_own _ _ _ _ E) as [S1 S2]. destruct (danswer_of (dafter (ctrace cs ++ [DGo q])) q) as [r1|] eqn:Er.
  - assert (Dn : exists l o, nth_error (d_items (dafter (ctrace cs ++ [DGo q]))) q = Some (l, IDone o r1)).
    { unfold danswer_of in Er. destruct (nth_error (d_items (dafter (ctrace cs ++ [DGo q]))) q) as [[l st]|]; [|discriminate]. destruct st; try discriminate. injection Er as ->. eauto. }
    destruct Dn as (l & o & Dn). assert (r1 = r) by (rewrite (danswer_keeps _ _ _ _ Er) in A; congruence). subst r1.
    exists 1. split; [lia|]. cbn [repeat]. split; [exact Er|]. split; [rewrite !desk_bench, (d_idle secure _ _ _ _ _ _ Dn); reflexivity|]. split; [exact S1|exact S2].
  - cbn [cnext] in S1, S2. rewrite Er in S1, S2. cbn [fst snd] in S1, S2. rewrite app_nil_r in S1. destruct (IH (cs ++ [CGo j]) j lim q r S2) as (m & L & R); rewrite ?S1; [exact Er|exact A|].
    exists (S m). split; [lia|]. cbn [repeat]. change (DGo q :: repeat (DGo q) m) with ([DGo q] ++ repeat (DGo q) m). change (CGo j :: repeat (CGo j) m) with ([CGo j] ++ repeat (CGo j) m). rewrite !app_assoc. rewrite S1 in R. exact R.
Qed.
Lemma clear_loop_alone : forall f cs ds j lim, 0 < lim -> ctrace cs = ds ++ [DPopitem lim] -> nth_error (c_clears (after cs)) j = Some (lim, CItem (length (dcalls ds))) ->
  let e := eobject secure (b_pool (d_bench (dafter ds))) in length (e_data e) < f ->
  exists m, m <= f * (12 * lim + 29) /\ let w := after (cs ++ repeat (CGo j) m) in canswer_of w j = Some (fst (clear_loop f lim e)) /\ eobject secure (b_pool (d_bench (c_desk w))) = snd (clear_loop f lim e).
Proof.
  induction f as [|f IH]; intros cs ds j lim L0 Tr E e Lf; [lia|]. set (q := length (dcalls ds)) in *. cbn [clear_loop].
  destruct (popitem_alone secure keccak_len ds lim (12 * lim + 29) L0 (le_n _)) as [P1 P2]. fold q e in P1, P2. change (DPopitem lim :: repeat (DGo q) (12 * lim + 29)) with ([DPopitem lim] ++ repeat (DGo q) (12 * lim + 29)) in P1, P2. rewrite app_assoc, <- Tr in P1, P2.
  assert (N0 : danswer_of (dafter (ctrace cs)) q = None) by (rewrite Tr; unfold danswer_of, q; rewrite new_item; reflexivity).
  destruct (clear_turn_done _ _ _ _ _ _ E N0 P1) as (m & Lm & R1 & R2 & R3 & R4).
  rewrite <- R2 in P2. set (T := ctrace cs ++ repeat (DGo q) m) in *. cbn [cnext] in R3, R4. rewrite R1 in R3, R4. destruct (empt_popitem lim e) as [r e'] eqn:Ep. cbn [fst snd] in *. destruct r as [kv|x].
  - cbn [fst snd] in R3, R4. rewrite <- dcalls_len in R4. assert (Le : length (e_data e') < f) by (pose proof (popitem_fewer _ _ _ _ Ep); lia).
    destruct (IH _ _ _ _ L0 R3 R4) as (m2 & L2 & W1 & W2); [rewrite P2; exact Le|]. rewrite P2 in W1, W2. exists (m + m2). split; [lia|]. rewrite repeat_app, app_assoc. split; [exact W1|exact W2].
  - assert (X : fst (match x with KeyError => ([] : list dmove, CDone (Ok tt)) | _ => ([], CDone (Err x)) end) = []) by (destruct x; reflexivity).
    exists m. split; [lia|]. cbn zeta. split.
    + unfold canswer_of. rewrite R4. destruct x; reflexivity.
    + rewrite room_desk, R3. assert (Y : forall (l : list dmove), l = [] -> eobject secure (b_pool (d_bench (dafter (T ++ l)))) = e') by (intros l ->; rewrite app_nil_r; exact P2). destruct x; cbn [fst snd]; apply Y; reflexivity.
Qed.
Theorem clear_alone : forall cs lim m, 0 < lim ->
  let e := eobject secure (b_pool (d_bench (c_desk (after cs)))) in let j := length (ccalls cs) in S (length (e_data e)) * (12 * lim + 29) <= m ->
  let w := after (cs ++ CClear lim :: repeat (CGo j) m) in canswer_of w j = Some (fst (empt_clear lim e)) /\ eobject secure (b_pool (d_bench (c_desk w))) = snd (empt_clear lim e).
Proof.
  intros cs lim m L0 e j Lm w. assert (C1 : ctrace (cs ++ [CClear lim]) = ctrace cs ++ [DPopitem lim]) by (rewrite ctrace_snoc; reflexivity).
  assert (E1 : nth_error (c_clears (after (cs ++ [CClear lim]))) j = Some (lim, CItem (length (dcalls (ctrace cs))))).
  { rewrite crun_snoc. cbn [cgo c_clears]. rewrite room_desk, <- (dcalls_len secure). unfold j. rewrite clears_len. apply nth_snoc_new. }
  unfold e in *. rewrite room_desk in *. destruct (clear_loop_alone _ _ _ _ _ L0 C1 E1 (Nat.lt_succ_diag_r _)) as (n & Ln & W1 & W2).
  assert (Q : w = after ((cs ++ [CClear lim]) ++ repeat (CGo j) n)).
  { unfold w. change (CClear lim :: repeat (CGo j) m) with ([CClear lim] ++ repeat (CGo j) m). rewrite app_assoc. replace m with (n + (m - n)) by lia. rewrite repeat_app, app_assoc. unfold canswer_of in W1.
    destruct (nth_error (c_clears (after ((cs ++ [CClear lim]) ++ repeat (CGo j) n))) j) as [[l st]|] eqn:En; [|discriminate]. destruct st; [discriminate|]. eapply c_idle, En. }
  rewrite Q. split; [exact W1|exact W2].
Qed.
End S.
