(** What a NibblePath object stands for. *)
From Coq Require Import List ZArith.
From Verif Require Import Base NibblePathPy SpecCodec.
Import ListNotations.

(** The offset is a position of the data. *)
Definition in_range (p : pypath) : Prop := (0 <= py_off p <= 2 * Z.of_nat (length (py_data p)))%Z.
Definition py_nibbles (p : pypath) : list nat := skipn (Z.to_nat (py_off p)) (nibbles (py_data p)).
Definition beyond (p : pypath) : Prop := (2 * Z.of_nat (length (py_data p)) < py_off p)%Z.
(** [c] is the longest common prefix of [a] and [b]. *)
Definition common_part (a b c : list nat) : Prop :=
  (exists x, a = c ++ x) /\ (exists y, b = c ++ y) /\ forall d, (exists x, a = d ++ x) -> (exists y, b = d ++ y) -> length d <= length c.
