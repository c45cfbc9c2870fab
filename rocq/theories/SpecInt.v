(** The texts that Python's [int(b, 16)] takes, and the numbers they are. *)
From Coq Require Import List NArith ZArith.
From Verif Require Import Base SpecJson.
Import ListNotations.

(** Hexadecimal digits with single underscores between them. *)
Inductive hex_number : bytes -> Z -> Prop :=
| num_digit : forall c n, hex_digit (bN c) n -> hex_number [c] (Z.of_N n)
| num_more : forall s v c n, hex_number s v -> hex_digit (bN c) n -> hex_number (s ++ [c]) (16 * v + Z.of_N n)
| num_underscore : forall s v c n, hex_number s v -> hex_digit (bN c) n -> hex_number (s ++ [x5f; c]) (16 * v + Z.of_N n).
Definition white (b : bytes) : Prop := Forall (fun c => In c [x09; x0a; x0b; x0c; x0d; x20]) b.
(** Nothing, 0x or 0X, perhaps with an underscore. *)
Definition base_prefix (p : bytes) : Prop := In p [[]; [x30; x78]; [x30; x58]; [x30; x78; x5f]; [x30; x58; x5f]].
Definition int_text (b : bytes) (z : Z) : Prop := exists w p s v w', white w /\ base_prefix p /\ hex_number s v /\ white w' /\
  ((b = w ++ p ++ s ++ w' /\ z = v) \/ (b = w ++ x2b :: p ++ s ++ w' /\ z = v) \/ (b = w ++ x2d :: p ++ s ++ w' /\ z = (- v)%Z)).
