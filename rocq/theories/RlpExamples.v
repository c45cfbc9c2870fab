(** Concrete values for the examples of PropertiesRlp.v. *)
From Coq Require Import List NArith.
From Verif Require Import Base Rlp ProofObj.
Import ListNotations.

(** A branch with one child. *)
Definition ex_nested (i : item) : result bytes := rlp_encode (IList (i :: repeat (IBytes []) 16)).
(** Another bit in the flag byte of the last node. *)
Definition flip_last (l : list pelem) : list pelem :=
  match last l (PB []) with
  | PB (a :: c :: f :: d) => removelast l ++ [PB (a :: c :: nB (N.lxor (bN f) 64) :: d)]
  | _ => l
  end.
