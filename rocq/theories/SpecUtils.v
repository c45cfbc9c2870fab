(** What the claims about the helpers of utils.py talk about. *)
From Coq Require Import List Bool Arith NArith.
From Verif Require Import Base Json Texts SpecText Keypairs.
Import ListNotations.

(** The time without its microseconds. *)
Definition to_second (t : datetime) : datetime := mkTime (t_year t) (t_month t) (t_day t) (t_hour t) (t_min t) (t_sec t) 0.

(** RFC 4122: the bits of the octets 6 and 8 that are not random; position [i] counts bits of the 128 from the left. *)
Definition bit (b : bytes) (i : nat) : bool := N.testbit (bN (nth (i / 8) b x00)) (N.of_nat (7 - i mod 8)).
Definition fixed_bit (i : nat) : Prop := 48 <= i < 52 \/ 64 <= i < 66.
(** A lower-case hexadecimal digit. *)
Definition hex_digit (c : byte) : Prop := (48 <= bN c <= 57)%N \/ (97 <= bN c <= 102)%N.

(** Unencrypted private keys can be read back. *)
Definition plain_import_ok {C : Crypto} : Prop := forall k b, rsa_private k = true -> rsa_export k [] None = Ok b -> rsa_import b None = Ok k.
