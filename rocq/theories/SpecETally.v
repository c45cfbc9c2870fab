(** How often a key of an EMPT is put and deleted when several threads do it at the same time. *)
From Coq Require Import List Bool Arith NArith.
From Verif Require Import Base Rlp ProofObj Mpt Empt Threads EThreads SpecEThreads.
Import ListNotations.

Definition puts_k (k : bytes) (c : ecmd) : bool := match c with XPut k' _ => bytes_eqb k' k | _ => false end.
Definition dels_k (k : bytes) (c : ecmd) : bool := match c with XDel k' => bytes_eqb k' k | _ => false end.
(** The call returned None. *)
Definition went_well (o : option eout) : bool := match o with Some (RNone (Ok _)) => true | _ => false end.
Section WithHash.
Context {H : Hash}.
(** How many calls of the kind [f] have returned None. *)
Definition tally (f : ecmd -> bool) (ms : list emove) (w : epool) : nat :=
  length (filter (fun x => f (snd (fst x)) && went_well (snd x)) (combine (ecalls_of ms) (map eanswer (x_calls w)))).
Definition has (w : epool) (k : bytes) : nat := match dget (x_data w) k with Some _ => 1 | None => 0 end.
End WithHash.
