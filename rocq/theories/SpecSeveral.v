(** What calls answer on several MPT objects with a common storage: each object by itself. *)
From Coq Require Import List Bool Arith NArith.
From Verif Require Import Base Mpt MptPy SpecMptEvery Threads SpecThreads Several.
Import ListNotations.

(** The objects of the calls made, in their order. *)
Definition owners (n : nat) (ms : list vmove) : list nat := flat_map (fun m => match m with VCall j _ _ => if j <? n then [j] else [] | _ => [] end) ms.
(** The number of the elements that are [j]. *)
Definition amount (j : nat) (l : list nat) : nat := length (filter (Nat.eqb j) l).
(** The moves for the object of number [j] alone: the calls on it, numbered anew, and their steps.  [own]: the objects of the earlier calls. *)
Fixpoint part (n j : nat) (own : list nat) (ms : list vmove) : list move :=
  match ms with
  | [] => []
  | VCall j' lim c :: ms => (if (j' <? n) && (j' =? j) then [MCall lim c] else []) ++ part n j (own ++ owners n [VCall j' lim c]) ms
  | VGo i :: ms =>
      (match nth_error own i with Some j' => if j' =? j then [MGo (amount j (firstn i own))] else [] | None => [] end) ++ part n j own ms
  end.

(** The calls on the object [j]. *)
Definition ocalls (n j : nat) (ms : list vmove) : list (nat * tcmd) :=
  flat_map (fun m => match m with VCall j' lim c => if (j' <? n) && (j' =? j) then [(lim, c)] else [] | _ => [] end) ms.

Section WithHash.
Context {H : Hash}.
(** What the calls on the object [j] have answered, in their order. *)
Definition answers_on (j : nat) (w : several) : list (option tout) := flat_map (fun x => if fst x =? j then [answer (snd x)] else []) (v_calls w).
(** Each call on the object [j] is made when the earlier ones on it have answered: a thread of its own uses it. *)
Definition by_turns (bs : list bool) (j : nat) (ms : list vmove) : Prop :=
  forall m1 m2 lim c, ms = m1 ++ VCall j lim c :: m2 -> ~ In None (answers_on j (vrun bs (several_new bs) m1)).
(** Calls one after the other on one object in a program with one thread. *)
Fixpoint session (t : mpt) (cs : list (nat * tcmd)) : list tout * mpt :=
  match cs with
  | [] => ([], t)
  | (lim, c) :: cs => let (os, t') := session (snd (single lim t c)) cs in (fst (single lim t c) :: os, t')
  end.
End WithHash.
