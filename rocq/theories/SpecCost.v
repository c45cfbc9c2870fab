(** How often a call uses the storage. *)
From Coq Require Import List Bool Arith.
From Verif Require Import Base Mpt.
Import ListNotations.

(** The first [j] entries are the same; a missing one is [false]. *)
Definition alike (j : nat) (a b : list bool) : Prop := forall i, i < j -> nth i a false = nth i b false.

(** A call on the trie [t], given which of its accesses to the storage raise.  It makes at most [a] accesses: whether later
    ones would raise does not matter.  It makes at most [b] writes, whether it returns or raises. *)
Definition bounded (run : list bool -> result unit * mpt) (t : mpt) (a b : nat) : Prop :=
  (forall fl fl', alike a fl fl' -> run fl = run fl') /\
  (forall fl res t', run fl = (res, t') -> length (m_map t') <= length (m_map t) + b /\
     exists w, length w <= b /\ m_log t' = w ++ m_log t).

