(** Specification vocabulary: what [MPT.get] answers for an absent key. *)
From Coq Require Import List Bool Arith NArith.
From Verif Require Import Base NibblePath Spec.
Import ListNotations.

(** Two present keys continue [k] with different high nibbles. *)
Definition forks_at (d : kvmap) (k : bytes) : Prop :=
  exists b1 r1 b2 r2, hi b1 <> hi b2 /\ d (k ++ b1 :: r1) <> None /\ d (k ++ b2 :: r2) <> None.

(** Exactly one present key extends [k], with value [v], and either [k] is empty or
    some present key agrees with [k] up to, and not including, the last nibble of [k]. *)
Definition sole_extension (d : kvmap) (k v : bytes) : Prop :=
  (exists r, r <> [] /\ d (k ++ r) = Some v /\ forall r', d (k ++ r') <> None -> r' = r) /\
  (k = [] \/ exists p b b' s, k = p ++ [b] /\ hi b' = hi b /\ b' <> b /\ d (p ++ b' :: s) <> None).

(** The value [get] returns for an absent key of a trie that does not hash its keys. *)
Definition stray_value (d : kvmap) (k v : bytes) : Prop :=
  d k = None /\ ((v = [] /\ forks_at d k) \/ sole_extension d k v).
