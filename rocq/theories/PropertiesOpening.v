(** Properties of MPT objects on a common storage that are made while threads use others (C258 to C260).  Theorem statements only; proofs are in
    OpeningProofs.v and OpeningSnap.v. *)
From Coq Require Import String List Bool Arith NArith.
From Verif Require Import Base Keccak NibblePath ProofObj Mpt Spec SpecShared SpecMptEvery Threads SpecThreads Examples Opening SpecOpening OpeningProofs OpeningSnap OpeningExamples.
Import ListNotations.

(** C258: every object, made new or opened on the root that another one has at that moment, and every call on it is as its own life makes it,
    whatever is done with the others. *)
Theorem C258_lives : forall (H : Hash), (forall b, length (keccak b) = 32) -> forall ms, all_fit ms ->
  let w := orun realm0 ms in no_collision (r_log w) ->
  length (r_objs w) = length (fst (tale_of ms)) /\ length (r_calls w) = length (snd (tale_of ms)) /\
  (forall j b l, nth_error (fst (tale_of ms)) j = Some (b, l) -> let w' := run_moves b (pool_new b) l in
     nth_error (r_objs w) j = Some (b, h_root (p_obj w')) /\ part_of (h_map (p_obj w')) (r_map w) /\ incl (h_log (p_obj w')) (r_log w)) /\
  (forall i j r, nth_error (snd (tale_of ms)) i = Some (j, r) -> exists b l, nth_error (fst (tale_of ms)) j = Some (b, l) /\
     oanswer w i = answer_of (run_moves b (pool_new b) l) r).
Proof. exact @lives. Qed.
Print Assumptions C258_lives.

Example C258_applies : let H : Hash := toy in (forall s, ook (before s ++ OOpen 0 :: fork) /\
  oanswers (before s ++ OOpen 0 :: fork) =
    [Some (ANone (Ok tt)); Some (ANone (Ok tt)); Some (ANone (Ok tt)); Some (ANone (Ok tt)); Some (AVal (Ok (bs "puppy"))); Some (AVal (Ok (bs "hound")));
     Some (ABool (Ok true)); Some (ABool (Ok false))]) /\
  ook blank /\ oanswers blank = [Some (ANone (Ok tt)); Some (ANone (Ok tt)); Some (AOpt (Ok None)); Some (AOpt (Ok (Some (keccak [x80])))); Some (ABool (Ok false))].
Proof. intros H. split; [intros s; split; [apply fork_ok|apply fork_says]|]. split; [exact blank_ok|exact blank_says]. Qed.

(** C259: an object opened on the root of another one, through which nobody writes, keeps its root, and every call on it answers as on an object
    opened there in a program with one thread, whatever is written through the others meanwhile. *)
Theorem C259_snapshot : forall (H : Hash), (forall b, length (keccak b) = 32) -> forall m1 m2 j b r,
  nth_error (r_objs (orun realm0 m1)) j = Some (b, r) ->
  let n := length (r_objs (orun realm0 m1)) in let ms := m1 ++ OOpen j :: m2 in let t := mpt_init (r_map (orun realm0 m1)) r b in
  all_fit ms -> no_collision (r_log (orun realm0 ms)) -> only_read n m2 ->
  nth_error (r_objs (orun realm0 ms)) n = Some (b, m_root t) /\
  forall i lim c o, is_call ms i n lim c -> 0 < lim -> oanswer (orun realm0 ms) i = Some o -> o = fst (single lim t c).
Proof. exact @snapshot. Qed.
Print Assumptions C259_snapshot.

Example C259_applies : let H : Hash := toy in forall s, ook (before s ++ OOpen 0 :: beside) /\ length (r_objs (orun realm0 (before s))) = 1 /\ only_read 1 beside /\
  oanswers (before s ++ OOpen 0 :: beside) =
    [Some (ANone (Ok tt)); Some (ANone (Ok tt)); Some (ANone (Ok tt)); Some (AVal (Ok (bs "puppy"))); Some (ANone (Ok tt));
     Some (ABool (Ok false)); Some (ABool (Ok true)); Some (ABool (Ok true)); Some (ABool (Ok false))].
Proof.
  intros H s. split; [apply beside_ok|]. split; [destruct s; vm_compute; reflexivity|]. split; [apply only_b_ok; vm_compute; reflexivity|apply beside_says].
Qed.

(** C260: a root that an object once had can be opened at any later moment, and reads of it answer as they did then. *)
Theorem C260_old_roots : forall (H : Hash), (forall b, length (keccak b) = 32) -> forall m1 m2 j b r l lim c,
  nth_error (r_objs (orun realm0 m1)) j = Some (b, r) -> nth_error (fst (tale_of m1)) j = Some (b, l) ->
  all_fit m1 -> no_collision (r_log (orun realm0 (m1 ++ m2))) -> fit b (l ++ [MCall lim c]) -> is_write c = false -> 0 < lim ->
  fst (single lim (mpt_init (r_map (orun realm0 (m1 ++ m2))) r b) c) = fst (single lim (mpt_init (r_map (orun realm0 m1)) r b) c).
Proof. exact @old_roots. Qed.
Print Assumptions C260_old_roots.

Example C260_applies : let H : Hash := toy in forall s, exists r l, nth_error (r_objs (orun realm0 (before s))) 0 = Some (s, r) /\
  nth_error (fst (tale_of (before s))) 0 = Some (s, l) /\ ook (before s ++ OOpen 0 :: beside) /\ fit s (l ++ [MCall 100 (TGet (bs "dog"))]) /\
  nth_error (r_objs (orun realm0 (before s ++ OOpen 0 :: beside))) 0 <> Some (s, r) /\
  fst (single 100 (mpt_init (r_map (orun realm0 (before s ++ OOpen 0 :: beside))) r s) (TGet (bs "dog"))) = AVal (Ok (bs "puppy")).
Proof.
  intros H s. exists (match nth_error (r_objs (orun realm0 (before s))) 0 with Some x => snd x | None => None end).
  exists (match nth_error (fst (tale_of (before s))) 0 with Some x => snd x | None => [] end).
  split; [destruct s; vm_compute; reflexivity|]. split; [destruct s; vm_compute; reflexivity|]. split; [apply beside_ok|].
  split; [apply fit_b_ok; destruct s; vm_compute; reflexivity|]. split; [destruct s; vm_compute; discriminate|destruct s; vm_compute; reflexivity].
Qed.
