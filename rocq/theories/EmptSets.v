(** Set operations on the view [keys()] that EMPT has from collections.abc.Mapping (/repo/src/pymt/empt.py:93): the methods of
    [collections.abc.Set], which ask [in] of the EMPT and go through its keys. *)
From Coq Require Import List Bool Arith.
From Verif Require Import Base ProofObj Mpt Empt EmptPy EmptViews.
Import ListNotations.

(** The other operand: a Python set (its elements in the order in which it gives them), or [keys()] of an EMPT. *)
Inductive operand := SSet (l : list pykey) | SView (e : empt).
Definition bytes_in (k : bytes) (l : list pykey) : bool := existsb (fun x => match x with KBytes b => bytes_eqb k b | KOther => false end) l.

Section WithHash.
Context {H : Hash}.
Local Open Scope res_scope.

(** [iter] and [len] of the other operand. *)
Definition oiter (o : operand) : list pykey := match o with SSet l => l | SView e => map KBytes (empt_keys e) end.
Definition olen (o : operand) : nat := length (oiter o).
(** [k in other] for bytes. *)
Definition ohas (lim : nat) (o : operand) (k : bytes) : result bool :=
  match o with SSet l => Ok (bytes_in k l) | SView e => keys_has lim e (KBytes k) end.

(** Questions one after the other. *)
Fixpoint all_has {A} (f : A -> result bool) (l : list A) : result bool :=
  match l with [] => Ok true | k :: r => b <- f k ;; if b then all_has f r else Ok false end.
Fixpoint none_has {A} (f : A -> result bool) (l : list A) : result bool :=
  match l with [] => Ok true | k :: r => b <- f k ;; if b then Ok false else none_has f r end.
Fixpoint which (f : pykey -> result bool) (want : bool) (l : list pykey) : result (list pykey) :=
  match l with
  | [] => Ok []
  | k :: r => b <- f k ;; r' <- which f want r ;; Ok (if Bool.eqb b want then k :: r' else r')
  end.

(** [Set.__le__], [__ge__], [__lt__], [__gt__], [__eq__], [isdisjoint]. *)
Definition view_le (lim : nat) (e : empt) (o : operand) : result bool :=
  if olen o <? empt_len e then Ok false else all_has (ohas lim o) (empt_keys e).
Definition view_ge (lim : nat) (e : empt) (o : operand) : result bool :=
  if empt_len e <? olen o then Ok false else all_has (keys_has lim e) (oiter o).
Definition view_lt (lim : nat) (e : empt) (o : operand) : result bool := if empt_len e <? olen o then view_le lim e o else Ok false.
Definition view_gt (lim : nat) (e : empt) (o : operand) : result bool := if olen o <? empt_len e then view_ge lim e o else Ok false.
Definition view_eq (lim : nat) (e : empt) (o : operand) : result bool := if empt_len e =? olen o then view_le lim e o else Ok false.
Definition view_disjoint (lim : nat) (e : empt) (o : operand) : result bool := none_has (keys_has lim e) (oiter o).

(** [Set.__and__], [__or__], [__sub__], [__rsub__], [__xor__]: the elements of the resulting set. *)
Definition view_and (lim : nat) (e : empt) (o : operand) : result (list pykey) := which (keys_has lim e) true (oiter o).
Definition view_or (e : empt) (o : operand) : list pykey := map KBytes (empt_keys e) ++ oiter o.
Definition view_sub (lim : nat) (e : empt) (o : operand) : result (list pykey) :=
  which (fun k => match k with KBytes b => ohas lim o b | KOther => Ok false end) false (map KBytes (empt_keys e)).
Definition view_rsub (lim : nat) (e : empt) (o : operand) : result (list pykey) := which (keys_has lim e) false (oiter o).
Definition view_xor (lim : nat) (e : empt) (o : operand) : result (list pykey) :=
  a <- view_sub lim e o ;; b <- view_rsub lim e o ;; Ok (a ++ b).
End WithHash.
