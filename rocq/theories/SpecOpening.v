(** What calls answer on MPT objects made while others are used, on a common storage: every object has a life of its own. *)
From Coq Require Import List Bool Arith NArith.
From Verif Require Import Base Mpt Spec MptPy SpecMptEvery Threads SpecThreads Opening.
Import ListNotations.

Section WithHash.
Context {H : Hash}.

(** The moves of each object, as moves of one MPT object that nothing else uses, and for each call its object and its number among the calls of
    that object's life. *)
Definition tale : Type := list (bool * list move) * list (nat * nat).
(** An object opened on another one begins with the life that one has had; if every key has been deleted there, it is a new object. *)
Definition so_far (b : bool) (l : list move) : list move := match h_root (p_obj (run_moves b (pool_new b) l)) with None => [] | Some _ => l end.
Definition tell (T : tale) (m : omove) : tale :=
  match m with
  | ONew b => (fst T ++ [(b, [])], snd T)
  | OOpen j => match nth_error (fst T) j with None => T | Some (b, l) => (fst T ++ [(b, so_far b l)], snd T) end
  | OCall j lim c =>
      match nth_error (fst T) j with
      | None => T
      | Some (b, l) => (set_nth j (b, l ++ [MCall lim c]) (fst T), snd T ++ [(j, length (calls_of l))])
      end
  | OGo i =>
      match nth_error (snd T) i with
      | None => T
      | Some (j, r) => match nth_error (fst T) j with None => T | Some (b, l) => (set_nth j (b, l ++ [MGo r]) (fst T), snd T) end
      end
  end.
Definition tale_of (ms : list omove) : tale := fold_left tell ms ([], []).

(** No two keys of a secure life collide, sizes are bounded, and plain lives have no empty values. *)
Definition fit (b : bool) (l : list move) : Prop := keys_ok b (tkeys l) /\ tfits b l.
Definition all_fit (ms : list omove) : Prop := forall j b l, nth_error (fst (tale_of ms)) j = Some (b, l) -> fit b l.

(** What the call of number [i] has answered. *)
Definition oanswer (w : realm) (i : nat) : option tout := match nth_error (r_calls w) i with Some (_, p) => answer p | None => None end.
(** The call of number [i] is [c], made on the object of number [j] with [lim] frames left. *)
Definition is_call (ms : list omove) (i j lim : nat) (c : tcmd) : Prop :=
  exists m1 m2, ms = m1 ++ OCall j lim c :: m2 /\ j < length (r_objs (orun realm0 m1)) /\ i = length (r_calls (orun realm0 m1)).
(** Nobody writes through the object of number [j]. *)
Definition only_read (j : nat) (ms : list omove) : Prop := forall lim c, In (OCall j lim c) ms -> is_write c = false.
End WithHash.
