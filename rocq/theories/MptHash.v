(** Model of the built-in [hash] on a trie and of [==] between a trie and any object (/repo/src/pymt/mpt.py:100-106). *)
From Coq Require Import List ZArith.
From Verif Require Import Base Rlp NibblePath Node ProofObj Mpt MptEq.

(** CPython's slot_tp_hash on 64 bits: the number that [__hash__] returned if it fits 64 bits with a sign, otherwise the hash of
    that number, its remainder modulo 2^61 - 1 with its sign; -1 becomes -2. *)
Definition slot_hash (z : Z) : Z :=
  let h := if ((- 2 ^ 63 <=? z) && (z <? 2 ^ 63))%Z%bool then z else (Z.sgn z * (Z.abs z mod (2 ^ 61 - 1)))%Z in
  if (h =? -1)%Z then (-2)%Z else h.

(** The right-hand side of [==]: a trie or something else. *)
Inductive operand := Trie (t : mpt) | Other.

Section WithHash.
Context {H : Hash}.
Local Open Scope res_scope.
(** mpt.py:100-101 through the built-in [hash]. *)
Definition mpt_builtin_hash (t : mpt) : result Z := z <- mpt_hash t ;; Ok (slot_hash z).
(** mpt.py:103-106. *)
Definition mpt_eq_any (t : mpt) (o : operand) : result bool := match o with Trie t' => mpt_eq t t' | Other => Ok false end.
End WithHash.
