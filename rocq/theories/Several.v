(** Several MPT objects with one dict as their storage, used by several threads (/repo/src/pymt/mpt.py).  The calls are cut as in Threads.v;
    each object has an attribute [_root] of its own, and the storage is common. *)
From Coq Require Import List Bool Arith NArith.
From Verif Require Import Base Mpt Threads.
Import ListNotations.

Section WithHash.
Context {H : Hash}.

(** The storage, the roots of the objects and the calls made so far, each with the number of its object and what is left of it. *)
Record several := mkSeveral { v_map : dict bytes; v_log : list bytes; v_roots : list (option bytes); v_calls : list (nat * prog tout) }.

(** mpt.py:54-75: the objects [MPT(storage, secure=b)], one for each element of the list, with one [storage = {}]. *)
Definition several_new (bs : list bool) : several :=
  mkSeveral (m_map (mpt_new false)) (m_log (mpt_new false)) (map (fun b => m_root (mpt_new b)) bs) [].

(** A thread makes a call on the object of number [j], or the call of number [i] goes on to its next access. *)
Inductive vmove := VCall (j lim : nat) (c : tcmd) | VGo (i : nat).
Definition vgo (bs : list bool) (w : several) (m : vmove) : several :=
  match m with
  | VCall j lim c =>
      match nth_error bs j with
      | None => w
      | Some b => mkSeveral (v_map w) (v_log w) (v_roots w) (v_calls w ++ [(j, call_prog b lim c)])
      end
  | VGo i =>
      match nth_error (v_calls w) i with
      | None => w
      | Some (j, p) =>
          let (s, p') := access (mkShared (v_map w) (v_log w) (nth j (v_roots w) None)) p in
          mkSeveral (h_map s) (h_log s) (firstn j (v_roots w) ++ h_root s :: skipn (S j) (v_roots w))
            (firstn i (v_calls w) ++ (j, p') :: skipn (S i) (v_calls w))
      end
  end.
Definition vrun (bs : list bool) (w : several) (ms : list vmove) : several := fold_left (vgo bs) ms w.
End WithHash.
