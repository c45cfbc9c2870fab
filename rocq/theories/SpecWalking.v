(** What iterators over an EMPT give while other threads use it. *)
From Coq Require Import List Bool Arith NArith.
From Verif Require Import Base Mpt Empt Threads EThreads SpecEThreads Walking.
Import ListNotations.

(** What the other threads do. *)
Definition umoves (us : list umove) : list emove := flat_map (fun m => match m with UMove m => [m] | _ => [] end) us.
(** How many iterators were made, and how often [next] was called on one. *)
Definition uiters (us : list umove) : nat := length (filter (fun m => match m with UIter => true | _ => false end) us).
Definition unexts (j : nat) (us : list umove) : nat := length (filter (fun m => match m with UNext i _ => i =? j | _ => false end) us).
Definition given_of (p : walk) : list bytes := match p with WAt _ _ g | WEnd g | WFail g => g end.
Section WithHash.
Context {H : Hash}.
Variable secure : bool.
Notation after us := (urun secure (tour_new secure) us).
Definition keys_at (us : list umove) : list bytes := dkeys (x_data (erun secure (epool_new secure) (umoves us))).
(** The moments at which the iterator of number [j] was made and not at its end. *)
Definition under_way (us : list umove) (j : nat) (u : list umove) : Prop :=
  exists u2 n calm g, us = u ++ u2 /\ nth_error (u_walks (after u)) j = Some (WAt n calm g).
(** No key is added or removed while the iterator is under way. *)
Definition calm_keys (us : list umove) (j : nat) : Prop := forall u u', under_way us j u -> under_way us j u' -> keys_at u = keys_at u'.
End WithHash.
