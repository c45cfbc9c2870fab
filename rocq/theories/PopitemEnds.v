(** popitem ends; what it does when no other thread has a turn; it can raise although there are keys. *)
From Coq Require Import List Bool Arith NArith ZArith Lia.
From Verif Require Import Base BaseProofs Rlp NibblePath Node ProofObj Mpt StoreProofs Spec SpecEmpt Empt MptProofs EmptProofs SpecEvery MptPy SpecMptEvery Threads SpecThreads ThreadsSeq ThreadsPool
  ThreadsAlone ThreadsSerial ThreadsRace EThreads SpecEThreads EThreadsRun EThreadsSerial EThreadsAlone EThreadsTrace EThreadsRead SpecETally ETallyProofs Mixins SpecMixins MixinsProofs MixinsMain MixinsTorn MixinsEnds MixinsAlone
  Popitem SpecPopitem PopitemProofs.
Import ListNotations.

Section S.
Context {H : Hash}.
Variable secure : bool.
Hypothesis keccak_len : forall b, length (keccak b) = 32.
Notation after ds := (drun secure (desk_new secure) ds).
Notation bafter bs := (brun secure (bench_new secure) bs).
Notation dtrace := (dtrace secure).

Lemma d_own : forall ds q lim st, nth_error (d_items (after ds)) q = Some (lim, st) ->
  let T := dtrace ds ++ iturn lim (bafter (dtrace ds)) st in
  dtrace (ds ++ [DGo q]) = T /\ d_items (after (ds ++ [DGo q])) = upd q (lim, inext (bafter (dtrace ds)) (bafter T) st) (d_items (after ds)).
Proof.
  intros ds q lim st E T. split.
  - rewrite dtrace_snoc. cbn [dtrace_from]. rewrite app_nil_r, E, desk_bench. reflexivity.
  - rewrite drun_snoc. cbn [dgo]. rewrite E, desk_bench, <- brun_app. reflexivity.
Qed.
Lemma d_other : forall ds q x m, nth_error (d_items (after ds)) q = Some x -> m <> DGo q -> nth_error (d_items (after (ds ++ [m]))) q = Some x.
Proof.
  intros ds q x m E Ne. rewrite drun_snoc. destruct m as [m|lim|p]; cbn [dgo d_items]; [exact E|rewrite nth_snoc_old; [exact E|eapply nth_lt, E]|].
  destruct (nth_error (d_items (after ds)) p) as [[lim st]|] eqn:Ep; [|exact E]. cbn [d_items]. rewrite (upd_other _ _ _ _ _ _ Ep); [exact E|congruence].
Qed.
Lemma d_done : forall b ds q lim o r, nth_error (d_items (after ds)) q = Some (lim, IDone o r) -> nth_error (d_items (after (ds ++ b))) q = Some (lim, IDone o r).
Proof.
  induction b as [|m b IH] using rev_ind; intros ds q lim o r E; [rewrite app_nil_r; exact E|]. specialize (IH _ _ _ _ _ E). rewrite app_assoc. destruct m as [m|l|p]; try (apply d_other; [exact IH|discriminate]).
  destruct (Nat.eq_dec p q) as [->|Ne]; [|apply d_other; [exact IH|congruence]]. rewrite (proj2 (d_own _ _ _ _ IH)). eapply upd_same, IH.
Qed.
Lemma is_turn : forall q m, m = DGo q \/ m <> DGo q.
Proof. intros q [m|l|p]; try (right; discriminate). destruct (Nat.eq_dec p q) as [->|]; [left; reflexivity|right; congruence]. Qed.
Lemma dturns_own : forall q b, dturns q (DGo q :: b) = S (dturns q b).
Proof. intros q b. unfold dturns. cbn [filter]. rewrite Nat.eqb_refl. reflexivity. Qed.
Lemma dturns_other : forall q m b, m <> DGo q -> dturns q (m :: b) = dturns q b.
Proof. intros q m b Ne. unfold dturns. cbn [filter]. destruct m as [m|l|p]; try reflexivity. destruct (p =? q) eqn:E; [apply Nat.eqb_eq in E; congruence|reflexivity]. Qed.

Definition bdue (n j : nat) (T : list bmove) : Prop := forall b, n <= bturns j b -> banswer_of (bafter (T ++ b)) j <> None.
Lemma bturns_app : forall j a b, bturns j (a ++ b) = bturns j a + bturns j b.
Proof. intros j a b. unfold bturns. rewrite filter_app, app_length. reflexivity. Qed.
Lemma bdue_more : forall n j T b, bdue n j T -> bdue n j (T ++ b).
Proof. intros n j T b D b2 L. rewrite <- app_assoc. apply D. rewrite bturns_app. lia. Qed.
Lemma bdue_turn : forall n j T, bdue (S n) j T -> bdue n j (T ++ [BGo j]).
Proof. intros n j T D b L. rewrite <- app_assoc. apply D. rewrite bturns_app. unfold bturns at 1. cbn [filter]. rewrite Nat.eqb_refl. cbn [length]. lia. Qed.
Lemma bdue_new : forall T lim c, bdue (12 * lim + 28) (length (bcalls T)) (T ++ [BCall lim c]).
Proof. intros T lim c b L. rewrite <- app_assoc. cbn [app]. apply mixins_end; [exact keccak_len|exact L]. Qed.

Lemma pop_phase : forall b ds q lim k j n, nth_error (d_items (after ds)) q = Some (lim, IPop k j) -> bdue n j (dtrace ds) -> 0 < n -> n <= dturns q b -> danswer_of (after (ds ++ b)) q <> None.
Proof.
  induction b as [|m b IH]; intros ds q lim k j n E D L0 Ln; [cbn in Ln; lia|]. change (m :: b) with ([m] ++ b). rewrite app_assoc. destruct (is_turn q m) as [->|Ne].
  - rewrite dturns_own in Ln. destruct (d_own _ _ _ _ E) as [S1 S2]. cbn [iturn inext] in S1, S2. assert (S3 := upd_same _ _ _ _ (lim, inext (bafter (dtrace ds)) (bafter (dtrace ds ++ [BGo j])) (IPop k j)) E). cbn [inext] in S3. rewrite <- S2 in S3.
    destruct (banswer_of (bafter (dtrace ds ++ [BGo j])) j) as [[v|x]|] eqn:Eb; try (unfold danswer_of; rewrite (d_done _ _ _ _ _ _ S3); discriminate).
    destruct n as [|[|n]]; [lia| |]; apply bdue_turn in D; [exfalso; apply (D []); [lia|]; rewrite app_nil_r; exact Eb|]. rewrite <- S1 in D. eapply IH; [exact S3|exact D|lia|lia].
  - rewrite dturns_other in Ln by exact Ne. eapply IH; [apply d_other; [exact E|exact Ne]| |exact L0|exact Ln]. rewrite dtrace_snoc. apply bdue_more, D.
Qed.
Lemma size_phase : forall b ds q lim n, nth_error (d_items (after ds)) q = Some (lim, ISize n) -> 12 * lim + 29 <= dturns q b -> danswer_of (after (ds ++ b)) q <> None.
Proof.
  induction b as [|m b IH]; intros ds q lim n E Ln; [cbn in Ln; lia|]. change (m :: b) with ([m] ++ b). rewrite app_assoc. destruct (is_turn q m) as [->|Ne].
  - rewrite dturns_own in Ln. destruct (d_own _ _ _ _ E) as [S1 S2]. cbn [iturn] in S1, S2. assert (S3 := fun x => upd_same _ _ _ _ x E). assert (S4 := S3 (lim, inext (bafter (dtrace ds)) (bafter (dtrace ds ++ iturn lim (bafter (dtrace ds)) (ISize n))) (ISize n))).
    cbn [iturn] in S4. rewrite <- S2 in S4. cbn [inext] in S4. destruct (length (here (bafter (dtrace ds))) =? n); [|unfold danswer_of; rewrite (d_done _ _ _ _ _ _ S4); discriminate].
    destruct (here (bafter (dtrace ds))) as [|k ks]; [unfold danswer_of; rewrite (d_done _ _ _ _ _ _ S4); discriminate|]. rewrite <- (bcalls_len secure) in S4.
    eapply (pop_phase b _ _ _ _ _ (12 * lim + 28)); [exact S4| |lia|lia]. rewrite S1. apply bdue_new.
  - rewrite dturns_other in Ln by exact Ne. eapply IH; [apply d_other; [exact E|exact Ne]|exact Ln].
Qed.
Lemma dcalls_len : forall ds, length (dcalls ds) = length (d_items (after ds)).
Proof. intros ds. rewrite <- (proj1 (desk_run secure ds)), map_length. reflexivity. Qed.
Lemma new_item : forall ds lim, nth_error (d_items (after (ds ++ [DPopitem lim]))) (length (dcalls ds)) = Some (lim, ISize (length (here (bafter (dtrace ds))))).
Proof. intros ds lim. rewrite drun_snoc. cbn [dgo d_items]. rewrite dcalls_len, desk_bench. apply nth_snoc_new. Qed.
Lemma new_trace : forall ds lim, dtrace (ds ++ [DPopitem lim]) = dtrace ds.
Proof. intros ds lim. rewrite dtrace_snoc. apply app_nil_r. Qed.
Theorem popitem_ends : forall ds lim b, 12 * lim + 29 <= dturns (length (dcalls ds)) b -> danswer_of (after (ds ++ DPopitem lim :: b)) (length (dcalls ds)) <> None.
Proof. intros ds lim b L. change (DPopitem lim :: b) with ([DPopitem lim] ++ b). rewrite app_assoc. eapply size_phase; [apply new_item|exact L]. Qed.

(** ** Alone *)
Lemma d_idle : forall m ds q lim o r, nth_error (d_items (after ds)) q = Some (lim, IDone o r) -> dtrace (ds ++ repeat (DGo q) m) = dtrace ds.
Proof.
  induction m as [|m IH]; intros ds q lim o r E; [cbn; rewrite app_nil_r; reflexivity|]. cbn [repeat]. change (DGo q :: repeat (DGo q) m) with ([DGo q] ++ repeat (DGo q) m). rewrite app_assoc.
  rewrite (IH _ q lim o r (d_done _ _ _ _ _ _ E)). rewrite (proj1 (d_own _ _ _ _ E)). apply app_nil_r.
Qed.
Lemma pop_alone_turns : forall n ds q lim k j, nth_error (d_items (after ds)) q = Some (lim, IPop k j) ->
  nth_error (d_items (after (ds ++ repeat (DGo q) n))) q = Some (lim, IPop k j) \/
  exists n' r, n' <= n /\ dtrace (ds ++ repeat (DGo q) n) = dtrace ds ++ repeat (BGo j) n' /\ banswer_of (bafter (dtrace ds ++ repeat (BGo j) n')) j = Some r /\
    danswer_of (after (ds ++ repeat (DGo q) n)) q = Some (match r with Ok v => Ok (k, v) | Err x => Err x end).
Proof.
  induction n as [|n IH]; intros ds q lim k j E; [left; cbn; rewrite app_nil_r; exact E|]. cbn [repeat]. change (DGo q :: repeat (DGo q) n) with ([DGo q] ++ repeat (DGo q) n). rewrite !app_assoc.
  destruct (d_own _ _ _ _ E) as [S1 S2]. cbn [iturn inext] in S1, S2. assert (S3 := upd_same _ _ _ _ (lim, inext (bafter (dtrace ds)) (bafter (dtrace ds ++ [BGo j])) (IPop k j)) E). cbn [inext] in S3. rewrite <- S2 in S3.
  destruct (banswer_of (bafter (dtrace ds ++ [BGo j])) j) as [r|] eqn:Eb.
  - right. exists 1, r. split; [lia|]. assert (S4 : nth_error (d_items (after (ds ++ [DGo q]))) q = Some (lim, IDone (Some j) match r with Ok v => Ok (k, v) | Err x => Err x end)) by (destruct r; exact S3).
    split; [rewrite (d_idle _ _ _ _ _ _ S4); exact S1|]. split; [exact Eb|]. unfold danswer_of. rewrite (d_done _ _ _ _ _ _ S4). reflexivity.
  - destruct (IH _ _ _ _ _ S3) as [Q|(n' & r & L & A & B & D)]; [left; exact Q|right]. rewrite S1 in A, B. exists (S n'), r. cbn [repeat]. change (BGo j :: repeat (BGo j) n') with ([BGo j] ++ repeat (BGo j) n'). rewrite !app_assoc. split; [lia|auto].
Qed.
Theorem popitem_alone : forall ds lim m, 0 < lim -> 12 * lim + 29 <= m ->
  let q := length (dcalls ds) in let w := after (ds ++ DPopitem lim :: repeat (DGo q) m) in
  let r := empt_popitem lim (eobject secure (b_pool (d_bench (after ds)))) in danswer_of w q = Some (fst r) /\ eobject secure (b_pool (d_bench w)) = snd r.
Proof.
  intros ds lim m Ll Lm q w r. destruct m as [|m]; [lia|]. unfold w. cbn [repeat]. change (DPopitem lim :: DGo q :: repeat (DGo q) m) with ([DPopitem lim] ++ [DGo q] ++ repeat (DGo q) m). rewrite !app_assoc.
  pose proof (new_item ds lim) as E. fold q in E. destruct (d_own _ _ _ _ E) as [S1 S2]. assert (S4 := upd_same _ _ _ _ (lim, inext (bafter (dtrace (ds ++ [DPopitem lim]))) (bafter (dtrace (ds ++ [DPopitem lim]) ++ iturn lim (bafter (dtrace (ds ++ [DPopitem lim]))) (ISize (length (here (bafter (dtrace ds))))))) (ISize (length (here (bafter (dtrace ds)))))) E).
  rewrite <- S2 in S4. rewrite new_trace in S1, S4. cbn [iturn inext] in S1, S4. rewrite Nat.eqb_refl in S1, S4. unfold r, empt_popitem. change (empt_keys (eobject secure (b_pool (d_bench (after ds))))) with (here (d_bench (after ds))). rewrite desk_bench.
  set (ds1 := (ds ++ [DPopitem lim]) ++ [DGo q]) in *. destruct (here (bafter (dtrace ds))) as [|k ks] eqn:Eh.
  - rewrite app_nil_r in S1. unfold danswer_of. rewrite (d_done _ _ _ _ _ _ S4). rewrite desk_bench, (d_idle _ _ _ _ _ _ S4), S1. split; reflexivity.
  - rewrite <- (bcalls_len secure) in S4. set (j := length (bcalls (dtrace ds))) in *. assert (An : danswer_of (after (ds1 ++ repeat (DGo q) m)) q <> None).
    { eapply (pop_phase _ _ _ _ _ _ (12 * lim + 28)); [exact S4|rewrite S1; apply bdue_new|lia|]. assert (X : forall n, dturns q (repeat (DGo q) n) = n) by (induction n as [|n IHn]; [reflexivity|cbn [repeat]; rewrite dturns_own, IHn; reflexivity]). rewrite X. lia. }
    destruct (pop_alone_turns m _ _ _ _ _ S4) as [Q|(n' & r0 & L & A & B & D)]; [unfold danswer_of in An; rewrite Q in An; contradiction|].
    destruct (mixin_alone secure keccak_len (dtrace ds) lim (PPop k None) m Ll ltac:(lia)) as [M1 M2]. fold j in M1, M2. rewrite S1 in A, B. rewrite <- app_assoc in A, B. cbn [app] in A, B.
    assert (Bi : bafter (dtrace ds ++ BCall lim (PPop k None) :: repeat (BGo j) m) = bafter (dtrace ds ++ BCall lim (PPop k None) :: repeat (BGo j) n')).
    { replace m with (n' + (m - n')) by lia. rewrite repeat_app. change (dtrace ds ++ BCall lim (PPop k None) :: repeat (BGo j) n' ++ repeat (BGo j) (m - n')) with (dtrace ds ++ (BCall lim (PPop k None) :: repeat (BGo j) n') ++ repeat (BGo j) (m - n')).
      rewrite app_assoc. unfold banswer_of in B. destruct (nth_error (b_calls (bafter (dtrace ds ++ BCall lim (PPop k None) :: repeat (BGo j) n'))) j) as [[[l c] st]|] eqn:En; [|discriminate]. destruct st; try discriminate. eapply b_idle, En. }
    rewrite Bi in M1, M2. rewrite M1 in B. injection B as B. rewrite D, desk_bench, A, M2, <- B. cbn [mixin_single]. unfold empt_pop. destruct (empt_get lim _ k) as [v|x]; [|destruct x; split; reflexivity].
    destruct (empt_delete lim false false [] _ k) as [[u|x] e']; split; reflexivity.
Qed.

(** ** An exception *)
Lemma dmoves : forall ms ds, dtrace (ds ++ map DMove ms) = dtrace ds ++ ms /\ d_items (after (ds ++ map DMove ms)) = d_items (after ds).
Proof.
  induction ms as [|m ms IH] using rev_ind; intros ds; [cbn; rewrite !app_nil_r; auto|]. rewrite map_app. cbn [map]. rewrite app_assoc. destruct (IH ds) as [A B]. split.
  - rewrite dtrace_snoc, A. cbn [dtrace_from]. rewrite !app_nil_r, app_assoc. reflexivity.
  - rewrite drun_snoc. cbn [dgo d_items]. exact B.
Qed.
Lemma dset_longer : forall V (d : dict V) k v, dget d k = None -> length (dset d k v) = S (length d).
Proof. intros V d k v. induction d as [|[k' v'] d IH]; intros E; [reflexivity|]. cbn in *. destruct (bytes_eqb k k'); [discriminate|]. cbn. rewrite IH; auto. Qed.
Theorem popitem_raises : forall ds lim lim2 k v m, 0 < lim2 -> 6 * lim2 + 14 <= m ->
  let e := eobject secure (b_pool (d_bench (after ds))) in let i := length (x_calls (b_pool (d_bench (after ds)))) in let q := length (dcalls ds) in
  dget (e_data e) k = None -> fst (empt_update lim2 [] false e k v) = Ok tt ->
  danswer_of (after (((ds ++ [DPopitem lim]) ++ map DMove (map BMove (ECall lim2 (XPut k v) :: repeat (EGo i) m))) ++ [DGo q])) q = Some (Err RuntimeError).
Proof.
  intros ds lim lim2 k v m Ll Lm e i q Ek Eu. pose proof (new_item ds lim) as E. fold q in E. set (ms := ECall lim2 (XPut k v) :: repeat (EGo i) m). destruct (dmoves (map BMove ms) (ds ++ [DPopitem lim])) as [A B].
  rewrite new_trace in A. set (ds1 := (ds ++ [DPopitem lim]) ++ map DMove (map BMove ms)) in *. rewrite <- B in E. destruct (d_own _ _ _ _ E) as [_ S2]. unfold danswer_of. rewrite S2. erewrite upd_same by exact E. cbn [inext]. rewrite A.
  destruct (bmoves_trace secure ms (dtrace ds)) as [T1 _]. unfold here at 1. rewrite bench_pool, T1.
  assert (Ei : i = length (ecalls_of (btrace secure (dtrace ds)))) by (unfold i; rewrite desk_bench, bench_pool; apply run_calls_len). unfold ms. rewrite Ei.
  destruct (ealone secure keccak_len (btrace secure (dtrace ds)) lim2 (XPut k v) m Ll Lm) as [_ X]. cbn zeta in X. rewrite <- bench_pool, <- desk_bench in X. fold e in X.
  assert (Xd : x_data (erun secure (epool_new secure) (btrace secure (dtrace ds) ++ ECall lim2 (XPut k v) :: repeat (EGo (length (ecalls_of (btrace secure (dtrace ds))))) m)) = dset (e_data e) k v).
  { change (x_data ?p) with (e_data (eobject secure p)). rewrite X. cbn [esingle]. unfold empt_update in *. destruct (bind (update_ref k v) (fun r => ref_encode r)); [|discriminate]. destruct (mpt_update lim2 [] (e_trie e) k _) as [[]]; [reflexivity|discriminate]. }
  rewrite Xd. unfold here, dkeys. rewrite !map_length, dset_longer by exact Ek. unfold e. rewrite desk_bench. cbn [eobject e_data]. destruct (S _ =? _) eqn:Q; [apply Nat.eqb_eq in Q; lia|reflexivity].
Qed.

(** ** The first key *)
Lemma waits : forall b ds q x, nth_error (d_items (after ds)) q = Some x -> dturns q b = 0 -> nth_error (d_items (after (ds ++ b))) q = Some x.
Proof.
  induction b as [|m b IH]; intros ds q x E L; [rewrite app_nil_r; exact E|]. change (m :: b) with ([m] ++ b). rewrite app_assoc. destruct (is_turn q m) as [->|Ne]; [rewrite dturns_own in L; discriminate|].
  rewrite dturns_other in L by exact Ne. apply IH; [apply d_other; assumption|exact L].
Qed.
Theorem popitem_first : forall ds lim b, let q := length (dcalls ds) in let ds' := ds ++ DPopitem lim :: b in dturns q b = 0 ->
  let n := length (here (d_bench (after ds))) in let ks := here (d_bench (after ds')) in let w := after (ds' ++ [DGo q]) in
  (length ks <> n -> danswer_of w q = Some (Err RuntimeError) /\ d_bench w = d_bench (after ds')) /\
  (length ks = n -> ks = [] -> danswer_of w q = Some (Err KeyError) /\ d_bench w = d_bench (after ds')) /\
  (forall k r, length ks = n -> ks = k :: r -> danswer_of w q = None /\ d_bench w = bgo secure (d_bench (after ds')) (BCall lim (PPop k None))).
Proof.
  intros ds lim b q ds' L n ks w. assert (E : nth_error (d_items (after ds')) q = Some (lim, ISize n)).
  { unfold ds'. change (DPopitem lim :: b) with ([DPopitem lim] ++ b). rewrite app_assoc. apply waits; [|exact L]. unfold n. rewrite desk_bench. apply new_item. }
  destruct (d_own _ _ _ _ E) as [S1 S2]. pose proof (upd_same _ _ _ _ (lim, inext (bafter (dtrace ds')) (bafter (dtrace ds' ++ iturn lim (bafter (dtrace ds')) (ISize n))) (ISize n)) E) as S3. rewrite <- S2 in S3. clear S2.
  unfold danswer_of, w. rewrite S3, (desk_bench secure (ds' ++ [DGo q])), S1, (brun_app secure). rewrite <- (desk_bench secure ds') in *. cbn [iturn inext]. fold ks. split; [|split].
  - intros Ne. apply Nat.eqb_neq in Ne. rewrite Ne. split; reflexivity.
  - intros Eq Ek. apply Nat.eqb_eq in Eq. rewrite Eq, Ek. split; reflexivity.
  - intros k r Eq Ek. apply Nat.eqb_eq in Eq. rewrite Eq, Ek. split; reflexivity.
Qed.
End S.
