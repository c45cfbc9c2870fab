(** What the claims about interrupted builds talk about. *)
From Coq Require Import List NArith.
From Verif Require Import Base Empt SpecEmpt.
Import ListNotations.

(** A pair of bytes below 2^57. *)
Definition plain_pair (kv : bytes * value) : Prop := eok_op (EPut (fst kv) (snd kv)) /\ exists b, snd kv = VBytes b.

(** The pairs put back one by one. *)
Definition puts (lim : nat) (ds : dict value) : list ecall := map (fun kv => ECall (EPut (fst kv) (snd kv)) lim false false []) ds.
