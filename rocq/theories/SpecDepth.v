(** The recursion limit. *)
From Coq Require Import List Arith.
From Verif Require Import Base.
(** With less room than [d] the call raises RecursionError, with [d] or more it gives [a]. *)
Definition exactly {A} (d : nat) (f : nat -> result A) (a : result A) : Prop := forall n, f n = if n <? d then Err RecursionError else a.
(** More room never changes an answer. *)
Definition stable {A} (f : nat -> A) (deep : A) : Prop := forall n m, n <= m -> f n = deep \/ f m = f n.
