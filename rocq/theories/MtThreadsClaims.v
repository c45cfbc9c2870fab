(** Claims about calls of several threads on one MerkleTree object that are false. *)
From Coq Require Import List Bool Arith NArith ZArith Lia.
From Verif Require Import Base BaseProofs Spec ProofObj MptEq MerkleTree SpecMt MtProofs ThreadsPool EThreadsRun MtThreads SpecMtThreads MtThreadsRun MtThreadsRace.
Import ListNotations.

Section S.
Context {H : Hash}.
Notation at_ ms := (mrun (mpool_new false) ms).

Theorem prefix_refuted : (forall b, length (keccak b) = 32) ->
  no_collision [va ++ vb; h2 ++ vc; h2 ++ vd; h2 ++ keccak (vc ++ vd)] ->
  ~ (forall ms i r, apart false builds ms -> nth_error (mcalls_of ms) i = Some QRoot -> manswer_of (at_ ms) i = Some (YBytes (Ok r)) ->
     exists n, 1 <= n /\ r = to_hex (merkle_root (firstn n (leaves_of false (placed [] ms))))).
Proof.
  intros Kl NC X. destruct (X late 3 _ late_apart eq_refl (proj1 late_run)) as (n & L & E). rewrite (proj2 late_run) in E. exact (late_wrong Kl NC n L E).
Qed.
Theorem two_roots_refuted : (forall b, length (keccak b) = 32) -> no_collision [va ++ vb; h2 ++ vc] ->
  ~ (forall vs ms i r, Forall (fun c => c = QRoot) (mcalls_of ms) -> length vs <= i ->
     manswer_of (at_ (filled 0 vs ++ ms)) i = Some (YBytes (Ok r)) -> r = to_hex (merkle_root (leaves_of false vs))).
Proof.
  intros Kl NC X. specialize (X [va; vb; vc] (skipn 6 both) 3 (to_hex h2)). apply (both_wrong Kl NC). apply X; [repeat constructor|cbn; lia|exact (proj1 both_run)].
Qed.
Theorem made_again_refuted :
  ~ (forall vs n ms i o, let m1 := filled 0 vs ++ QCall QMake :: repeat (QGo (length vs)) n in vs <> [] ->
     manswer_of (at_ m1) (length vs) = Some (YUnit (Ok tt)) -> Forall (fun c => c = QRoot \/ c = QMake) (mcalls_of ms) ->
     nth_error (mcalls_of (m1 ++ ms)) i = Some QRoot -> manswer_of (at_ (m1 ++ ms)) i = Some o -> exists r, o = YBytes (Ok r)).
Proof.
  intros X. specialize (X [va; vb; vc] 40 (skipn 47 again1) 4 (YBytes (Err ValueError))). destruct X as [r E]; try discriminate; try reflexivity.
  cbn. repeat constructor; tauto.
Qed.
Theorem other_root_refuted : (forall b, length (keccak b) = 32) ->
  ~ (forall vs n ms i r, let m1 := filled 0 vs ++ QCall QMake :: repeat (QGo (length vs)) n in vs <> [] ->
     manswer_of (at_ m1) (length vs) = Some (YUnit (Ok tt)) -> Forall (fun c => c = QRoot \/ c = QMake) (mcalls_of ms) ->
     nth_error (mcalls_of (m1 ++ ms)) i = Some QRoot -> manswer_of (at_ (m1 ++ ms)) i = Some (YBytes (Ok r)) -> r = to_hex (merkle_root (leaves_of false vs))).
Proof.
  intros Kl X. specialize (X [va; vb; vc] 40 (skipn 47 again2) 4 (to_hex va)). apply (again2_wrong Kl). apply X; try discriminate; try reflexivity.
  cbn. repeat constructor; tauto.
Qed.
Theorem ends_refuted :
  ~ (exists bound : nat -> nat, forall m1 m2, let ms := m1 ++ QCall QMake :: m2 in bound (length (placed [] ms)) <= mturns (length (mcalls_of m1)) m2 ->
     manswer_of (at_ ms) (length (mcalls_of m1)) <> None).
Proof.
  intros [bound X]. destruct (never_ends (bound 2)) as (m & T & A & P). specialize (X puts2 m). cbv zeta in X. rewrite P in X. apply (X T), A.
Qed.
Theorem proofs_after_refuted : (forall b, length (keccak b) = 32) -> no_collision [va ++ vb; h2 ++ vc; h3 ++ vc] ->
  ~ (forall vs ms tm v p, Forall (fun c => c = QRoot) (mcalls_of ms) -> let w := at_ (filled 0 vs ++ ms) in
     (forall i, i < length (y_calls w) -> manswer_of w i <> None) -> In v vs -> get_poi (y_obj w) tm (VBytes v) = (Ok p, y_obj w) -> fst (verify_poi (y_obj w) p) = Ok true).
Proof.
  intros Kl NC X. specialize (X [va; vb; vc] (skipn 6 both) [] va (bad_proof [])). cbv zeta in X. change (filled 0 [va; vb; vc] ++ skipn 6 both) with both in X.
  pose proof (both_verify Kl NC []) as V. cbn [msingle] in V. destruct (verify_poi (y_obj (at_ both)) (bad_proof [])) as [r t]. cbn [fst] in V, X.
  assert (E : r = Ok true); [|rewrite E in V; discriminate]. apply X.
  - repeat constructor.
  - intros i L. change (length (y_calls (at_ both))) with 5 in L. destruct i as [|[|[|[|[|i]]]]]; try lia; vm_compute; discriminate.
  - now left.
  - rewrite (proj2 (proj2 both_run)). reflexivity.
Qed.
End S.
