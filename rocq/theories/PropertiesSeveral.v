(** Properties of several MPT objects with a common storage that several threads use (C256, C257).  Theorem statements only; proofs are in
    SeveralProofs.v and SeveralTurns.v. *)
From Coq Require Import String List Bool Arith NArith Lia.
From Verif Require Import Base BaseProofs Keccak KeccakProofs NibblePath ProofObj Mpt Spec SpecShared SpecMptEvery Examples Threads SpecThreads ThreadsExamples
  Several SpecSeveral SeveralExamples SeveralProofs SeveralTurns.
Import ListNotations.

(** C256: the answers of the calls on one object, and its root, are those of the same calls, cut at the same places, on an object that has a
    storage of its own, whatever is done to the other objects; its nodes are in the storage. *)
Theorem C256_objects_apart : forall (H : Hash), (forall b, length (keccak b) = 32) -> forall bs ms j b,
  nth_error bs j = Some b -> keys_ok b (tkeys (part (length bs) j [] ms)) -> tfits b (part (length bs) j [] ms) ->
  let w := vrun bs (several_new bs) ms in let w' := run_moves b (pool_new b) (part (length bs) j [] ms) in
  no_collision (v_log w) ->
  answers_on j w = map answer (p_calls w') /\ nth_error (v_roots w) j = Some (h_root (p_obj w')) /\
  part_of (h_map (p_obj w')) (v_map w) /\ incl (h_log (p_obj w')) (v_log w).
Proof. exact @several_apart. Qed.
Print Assumptions C256_objects_apart.

Example C256_applies : let H : Hash := toy in vok [false; true; false] 0 false trio /\
  answers_on 0 (vrun [false; true; false] (several_new [false; true; false]) trio) =
    [Some (ANone (Ok tt)); Some (ANone (Ok tt)); Some (ANone (Ok tt)); Some (ABool (Ok false)); Some (ABool (Ok true))] /\
  answers_on 2 (vrun [false; true; false] (several_new [false; true; false]) trio) = [Some (ANone (Ok tt)); Some (ABool (Ok true))] /\
  part 3 2 [] trio = MCall 100 (TPut (bs "dog") (bs "puppy")) :: repeat (MGo 0) 40 ++ MCall 100 (TIn (bs "dog")) :: repeat (MGo 1) 40.
Proof. intros H. split; [apply trio_ok|]. vm_compute. repeat split. Qed.

(** C257: a thread that is the only one to use an object gets the answers of a program with one thread, and leaves the root it leaves there. *)
Theorem C257_own_object : forall (H : Hash), (forall b, length (keccak b) = 32) -> forall bs j b, nth_error bs j = Some b -> forall ms,
  keys_ok b (tkeys (part (length bs) j [] ms)) -> tfits b (part (length bs) j [] ms) ->
  no_collision (v_log (vrun bs (several_new bs) ms)) -> (forall lim c, In (lim, c) (ocalls (length bs) j ms) -> 0 < lim) -> by_turns bs j ms ->
  (forall i o, nth_error (answers_on j (vrun bs (several_new bs) ms)) i = Some (Some o) -> nth_error (fst (session (mpt_new b) (ocalls (length bs) j ms))) i = Some o) /\
  (~ In None (answers_on j (vrun bs (several_new bs) ms)) ->
     answers_on j (vrun bs (several_new bs) ms) = map Some (fst (session (mpt_new b) (ocalls (length bs) j ms))) /\
     nth_error (v_roots (vrun bs (several_new bs) ms)) j = Some (m_root (snd (session (mpt_new b) (ocalls (length bs) j ms))))).
Proof. exact @several_turns. Qed.
Print Assumptions C257_own_object.

Example C257_applies : let H : Hash := toy in forall s s',
  (forall j x, nth_error [s; s'] j = Some x -> vok [s; s'] j x duo /\ by_turns [s; s'] j duo) /\
  answers_on 0 (vrun [s; s'] (several_new [s; s']) duo) =
    [Some (ANone (Ok tt)); Some (ANone (Ok tt)); Some (ANone (Ok tt)); Some (AVal (Ok (bs "verb"))); Some (AVal (Ok (bs "puppy")))] /\
  answers_on 1 (vrun [s; s'] (several_new [s; s']) duo) =
    [Some (ANone (Ok tt)); Some (ANone (Ok tt)); Some (ANone (Ok tt)); Some (AVal (Ok (bs "wolf"))); Some (ABool (Ok false))] /\
  ocalls 2 1 duo = map (fun c => (100, c)) [TPut (bs "do") (bs "wolf"); TPut (bs "dog") (bs "puppy"); TDel (bs "dog"); TGet (bs "do"); TIn (bs "dog")].
Proof. intros H s s'. split; [intros j x; apply duo_ok|]. destruct s, s'; vm_compute; repeat split. Qed.
