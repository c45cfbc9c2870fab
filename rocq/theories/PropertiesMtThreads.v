(** Properties of calls that several threads make on one MerkleTree object (C239 to C247, C250).  Theorem statements only; proofs are in MtThreadsRun.v
    and the files after it. *)
From Coq Require Import String List Bool Arith NArith ZArith Lia.
From Verif Require Import Base BaseProofs Keccak KeccakProofs Spec ProofObj MptEq MerkleTree SpecMt Examples MtThreads SpecMtThreads MtThreadsExamples
  MtThreadsRun MtThreadsSerial MtThreadsBuild MtThreadsOne MtThreadsKind MtThreadsRace MtThreadsClaims MtThreadsEnds.
Import ListNotations.

(** C239: no put is lost: the leaves are those of the values whose calls had a turn, in the order of the first turns; *)
Theorem C239_no_put_lost : forall (H : Hash) secure ms, t_leaves (y_obj (mrun (mpool_new secure) ms)) = leaves_of secure (placed [] ms).
Proof. exact @puts_kept. Qed.
Print Assumptions C239_no_put_lost.

(** put, get and get_count answer at their first turn, and as a call made at that moment in a program with one thread. *)
Theorem C239_short_calls : forall (H : Hash) secure ms i c, nth_error (mcalls_of ms) i = Some c -> short c = true ->
  (manswer_of (mrun (mpool_new secure) ms) i <> None <-> went i ms) /\
  (forall o, manswer_of (mrun (mpool_new secure) ms) i = Some o -> exists m1 m2, ms = m1 ++ QGo i :: m2 /\ ~ went i m1 /\ i < length (mcalls_of m1) /\
     o = fst (msingle (y_obj (mrun (mpool_new secure) m1)) c) /\
     y_obj (mrun (mpool_new secure) (m1 ++ [QGo i])) = snd (msingle (y_obj (mrun (mpool_new secure) m1)) c)).
Proof. exact @short_calls. Qed.
Print Assumptions C239_short_calls.

Example C239_applies : let H : Hash := toy in
  placed [] ycross = [bs "dog"; bs "horse"; bs "do"] /\
  yanswers false ycross = [Some (YUnit (Ok tt)); Some (YUnit (Ok tt)); Some (YCount 1); Some (YUnit (Ok tt)); Some (YBytes (Ok (bs "646f67"))); None] /\
  Forall (fun c => short c = true) (mcalls_of ycross).
Proof. split; [|split]; [vm_compute; reflexivity..|repeat constructor]. Qed.

(** C240: a call whose steps are not interrupted answers and changes the tree as in a program with one thread, whatever calls have begun before. *)
Theorem C240_alone : forall (H : Hash) secure ms c, exists n,
  let i := length (mcalls_of ms) in let w := mrun (mpool_new secure) (ms ++ QCall c :: repeat (QGo i) n) in
  manswer_of w i = Some (fst (msingle (y_obj (mrun (mpool_new secure) ms)) c)) /\ y_obj w = snd (msingle (y_obj (mrun (mpool_new secure) ms)) c) /\
  (forall j, j < i -> manswer_of w j = manswer_of (mrun (mpool_new secure) ms) j).
Proof. exact @alone. Qed.
Print Assumptions C240_alone.

Example C240_applies : let H : Hash := toy in
  let ms := filled 0 [bs "do"; bs "dog"; bs "horse"] ++ [QCall QMake] ++ repeat (QGo 3) 9 in
  nth_error (y_calls (yrun false ms)) 3 = Some (CFst None 2 [bs "horse"]) /\
  fst (msingle (y_obj (yrun false ms)) QRoot) = YBytes (Ok (to_hex (merkle_root [bs "do"; bs "dog"; bs "horse"]))).
Proof. split; vm_compute; reflexivity. Qed.

(** C241: where every call but get and get_count begins after the earlier ones ended, these calls answer as in a program with one thread, and
    leave the tree they leave there. *)
Theorem C241_in_turn : forall (H : Hash) secure ms, apart secure acts ms ->
  let w := mrun (mpool_new secure) ms in
  (forall n o, nth_error (sanswers acts w ms) n = Some (Some o) -> nth_error (fst (mt_turn (mt_new secure) (filter acts (mcalls_of ms)))) n = Some o) /\
  (~ In None (sanswers acts w ms) ->
   sanswers acts w ms = map Some (fst (mt_turn (mt_new secure) (filter acts (mcalls_of ms)))) /\ y_obj w = snd (mt_turn (mt_new secure) (filter acts (mcalls_of ms)))).
Proof. exact @serially. Qed.
Print Assumptions C241_in_turn.

Example C241_applies : let H : Hash := toy in forall s, apart s acts yturns /\ ~ In None (sanswers acts (yrun s yturns) yturns) /\
  map brief_y (sanswers acts (yrun s yturns) yturns) =
    [Some (YUnit (Ok tt)); Some (YUnit (Ok tt)); Some (YUnit (Ok tt));
     Some (YBytes (Ok (to_hex (merkle_root (leaves_of s [bs "do"; bs "dog"; bs "horse"]))))); Some (YUnit (Ok tt)); Some (YUnit (Ok tt)); Some (YCount 2)].
Proof.
  intros H s. split; [apply apart_b; destruct s; vm_compute; reflexivity|]. split; [|destruct s; vm_compute; reflexivity].
  intros X. assert (E : existsb (fun o => match o with None => true | Some _ => false end) (sanswers acts (yrun s yturns) yturns) = true)
    by (apply existsb_exists; exists None; split; [exact X|reflexivity]). destruct s; vm_compute in E; discriminate.
Qed.

(** C242: the calls that may make the tree come one after the other, while values are put.  A root that is answered after a call of make_tree,
    or by the first of these calls, is over as many leaves as there were when that call began, or more: over the first [n], except that for
    an odd [n] the last one may be a later leaf. *)
Theorem C242_root_while_putting : forall (H : Hash) secure m1 c m2 i o, let ms := m1 ++ QCall c :: m2 in apart secure builds ms ->
  c = QMake \/ (c = QRoot /\ forall c', In c' (mcalls_of m1) -> builds c' = false) -> length (mcalls_of m1) <= i ->
  nth_error (mcalls_of ms) i = Some QRoot -> manswer_of (mrun (mpool_new secure) ms) i = Some o ->
  (placed [] m1 = [] /\ o = YBytes (Err ValueError)) \/
  exists n l, length (placed [] m1) <= n /\ 1 <= n /\ length l = n /\ snapshot (leaves_of secure (placed [] ms)) n l /\ o = YBytes (Ok (to_hex (merkle_root l))).
Proof. exact @root_while_putting. Qed.
Print Assumptions C242_root_while_putting.

(** If nothing was put in the meantime it is the root over all values. *)
Theorem C242_root_quiet : forall (H : Hash) secure m1 c m2 i o, let ms := m1 ++ QCall c :: m2 in apart secure builds ms ->
  c = QMake \/ (c = QRoot /\ forall c', In c' (mcalls_of m1) -> builds c' = false) -> length (mcalls_of m1) <= i ->
  nth_error (mcalls_of ms) i = Some QRoot -> manswer_of (mrun (mpool_new secure) ms) i = Some o -> placed [] ms = placed [] m1 -> placed [] m1 <> [] ->
  o = YBytes (Ok (to_hex (merkle_root (leaves_of secure (placed [] m1))))).
Proof. exact @root_quiet. Qed.
Print Assumptions C242_root_quiet.

(** In every such schedule get_merkle_root gives such a root or raises ValueError. *)
Theorem C242_root_always : forall (H : Hash) secure ms i o, apart secure builds ms ->
  nth_error (mcalls_of ms) i = Some QRoot -> manswer_of (mrun (mpool_new secure) ms) i = Some o ->
  o = YBytes (Err ValueError) \/ exists n l, 1 <= n /\ length l = n /\ snapshot (leaves_of secure (placed [] ms)) n l /\ o = YBytes (Ok (to_hex (merkle_root l))).
Proof. exact @root_always. Qed.
Print Assumptions C242_root_always.

Example C242_applies : let H : Hash := toy in forall s, apart s builds ybusy /\ placed [] ybusy = [bs "do"; bs "dog"; bs "horse"; bs "doge"] /\
  manswer_of (yrun s ybusy) 5 = Some (YBytes (Ok (to_hex (merkle_root (leaves_of s [bs "do"; bs "dog"; bs "doge"]))))).
Proof.
  intros H s. split; [apply apart_b; destruct s; vm_compute; reflexivity|]. split; [vm_compute; reflexivity|destruct s; vm_compute; reflexivity].
Qed.
Example C242_quiet_applies : let H : Hash := toy in
  let m1 := filled 0 [bs "do"; bs "dog"; bs "horse"] in let m2 := repeat (QGo 3) 40 in
  apart false builds (m1 ++ QCall QRoot :: m2) /\ placed [] (m1 ++ QCall QRoot :: m2) = placed [] m1 /\ placed [] m1 <> [] /\
  (forall c', In c' (mcalls_of m1) -> builds c' = false) /\ manswer_of (yrun false (m1 ++ QCall QRoot :: m2)) 3 <> None.
Proof.
  split; [apply apart_b; vm_compute; reflexivity|]. split; [vm_compute; reflexivity|]. split; [vm_compute; discriminate|]. split; [|vm_compute; discriminate].
  cbn. intros c' [<-|[<-|[<-|[]]]]; reflexivity.
Qed.

(** C243 (refuted): the root answered while values are put is the root over the first values put, for some number of them. *)
Theorem C243_prefix_refuted : forall (H : Hash), (forall b, length (keccak b) = 32) ->
  no_collision [va ++ vb; h2 ++ vc; h2 ++ vd; h2 ++ keccak (vc ++ vd)] ->
  ~ (forall ms i r, apart false builds ms -> nth_error (mcalls_of ms) i = Some QRoot -> manswer_of (mrun (mpool_new false) ms) i = Some (YBytes (Ok r)) ->
     exists n, 1 <= n /\ r = to_hex (merkle_root (firstn n (leaves_of false (placed [] ms))))).
Proof. exact @prefix_refuted. Qed.
Print Assumptions C243_prefix_refuted.

(** C244 (refuted): several threads call get_merkle_root of a tree to which nothing is put meanwhile; each gets the root. *)
Theorem C244_two_roots_refuted : forall (H : Hash), (forall b, length (keccak b) = 32) -> no_collision [va ++ vb; h2 ++ vc] ->
  ~ (forall vs ms i r, Forall (fun c => c = QRoot) (mcalls_of ms) -> length vs <= i ->
     manswer_of (mrun (mpool_new false) (filled 0 vs ++ ms)) i = Some (YBytes (Ok r)) -> r = to_hex (merkle_root (leaves_of false vs))).
Proof. exact @two_roots_refuted. Qed.
Print Assumptions C244_two_roots_refuted.

(** C245 (refuted): get_merkle_root of a tree that was made, and to which nothing was put since, gives its root while another thread calls
    make_tree: it can raise ValueError, *)
Theorem C245_made_again_refuted : forall (H : Hash),
  ~ (forall vs n ms i o, let m1 := filled 0 vs ++ QCall QMake :: repeat (QGo (length vs)) n in vs <> [] ->
     manswer_of (mrun (mpool_new false) m1) (length vs) = Some (YUnit (Ok tt)) -> Forall (fun c => c = QRoot \/ c = QMake) (mcalls_of ms) ->
     nth_error (mcalls_of (m1 ++ ms)) i = Some QRoot -> manswer_of (mrun (mpool_new false) (m1 ++ ms)) i = Some o -> exists r, o = YBytes (Ok r)).
Proof. exact @made_again_refuted. Qed.
Print Assumptions C245_made_again_refuted.

(** and it can answer something else. *)
Theorem C245_other_root_refuted : forall (H : Hash), (forall b, length (keccak b) = 32) ->
  ~ (forall vs n ms i r, let m1 := filled 0 vs ++ QCall QMake :: repeat (QGo (length vs)) n in vs <> [] ->
     manswer_of (mrun (mpool_new false) m1) (length vs) = Some (YUnit (Ok tt)) -> Forall (fun c => c = QRoot \/ c = QMake) (mcalls_of ms) ->
     nth_error (mcalls_of (m1 ++ ms)) i = Some QRoot -> manswer_of (mrun (mpool_new false) (m1 ++ ms)) i = Some (YBytes (Ok r)) ->
     r = to_hex (merkle_root (leaves_of false vs))).
Proof. exact @other_root_refuted. Qed.
Print Assumptions C245_other_root_refuted.

(** C246 (refuted): make_tree ends after a number of steps of its own that depends on the number of leaves only, whatever other threads do. *)
Theorem C246_ends_refuted : forall (H : Hash),
  ~ (exists bound : nat -> nat, forall m1 m2, let ms := m1 ++ QCall QMake :: m2 in bound (length (placed [] ms)) <= mturns (length (mcalls_of m1)) m2 ->
     manswer_of (mrun (mpool_new false) ms) (length (mcalls_of m1)) <> None).
Proof. exact @ends_refuted. Qed.
Print Assumptions C246_ends_refuted.

(** C250: where the calls that may make the tree come one after the other, every call ends after a number of its own steps that is logarithmic in
    the number of values, whatever values other threads put. *)
Theorem C250_ends : forall (H : Hash) secure m1 c m2, let ms := m1 ++ QCall c :: m2 in let i := length (mcalls_of m1) in apart secure builds ms ->
  16 * Nat.log2_up (length (placed [] ms)) + 15 <= mturns i m2 -> manswer_of (mrun (mpool_new secure) ms) i <> None.
Proof. exact @ends_soon. Qed.
Print Assumptions C250_ends.

Example C250_applies : let H : Hash := toy in
  let m1 := filled 0 [bs "do"; bs "dog"; bs "horse"] in
  let m2 := List.concat (map (fun i => [QCall (QPut (MerkleTree.VBytes (bs "more"))); QGo 3; QGo 3; QGo (4 + i)]) (List.seq 0 60)) in
  apart true builds (m1 ++ QCall QRoot :: m2) /\ length (placed [] (m1 ++ QCall QRoot :: m2)) = 63 /\ (16 * Nat.log2_up 63 + 15 <=? mturns 3 m2) = true.
Proof. intros H m1 m2. split; [apply apart_b; vm_compute; reflexivity|]. split; vm_compute; reflexivity. Qed.

(** C247 (refuted): after several threads have called get_merkle_root and all calls have ended, the tree gives proofs that it accepts. *)
Theorem C247_proofs_after_refuted : forall (H : Hash), (forall b, length (keccak b) = 32) -> no_collision [va ++ vb; h2 ++ vc; h3 ++ vc] ->
  ~ (forall vs ms tm v p, Forall (fun c => c = QRoot) (mcalls_of ms) -> let w := mrun (mpool_new false) (filled 0 vs ++ ms) in
     (forall i, i < length (y_calls w) -> manswer_of w i <> None) -> In v vs -> get_poi (y_obj w) tm (MerkleTree.VBytes v) = (Ok p, y_obj w) ->
     fst (verify_poi (y_obj w) p) = Ok true).
Proof. exact @proofs_after_refuted. Qed.
Print Assumptions C247_proofs_after_refuted.

(** A call of make_tree that is not interrupted mends the tree, whatever was done before: it is then as one made by a program with one thread. *)
Theorem C247_mended : forall (H : Hash) secure ms, placed [] ms <> [] -> built_over secure (snd (msingle (y_obj (mrun (mpool_new secure) ms)) QMake)) (placed [] ms).
Proof. exact @mended. Qed.
Print Assumptions C247_mended.

Example C247_applies : let H : Hash := toy in no_collision [va ++ vb; h2 ++ vc; h3 ++ vc] /\ no_collision [va ++ vb; h2 ++ vc] /\
  no_collision [va ++ vb; h2 ++ vc; h2 ++ vd; h2 ++ keccak (vc ++ vd)] /\ (forall b, length (keccak b) = 32) /\ placed [] both = [va; vb; vc] /\
  levels (y_obj (yrun false both)) = Some [[h3]; [h2; vc]; [h3]; [h2; vc]; [va; vb; vc]] /\
  levels (snd (msingle (y_obj (yrun false both)) QMake)) = Some [[h3]; [h2; vc]; [va; vb; vc]].
Proof.
  split; [apply no_collision_b_ok; vm_compute; reflexivity|]. split; [apply no_collision_b_ok; vm_compute; reflexivity|]. split; [apply no_collision_b_ok; vm_compute; reflexivity|].
  split; [exact toy_len|]. split; [vm_compute; reflexivity|]. split; vm_compute; reflexivity.
Qed.
