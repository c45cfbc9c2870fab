(** Specification vocabulary: which exception a lookup of an absent key raises, told from
    the set of present keys alone. *)
From Coq Require Import List Bool Arith NArith.
From Verif Require Import Base Spec SpecCodec SpecProof.
Import ListNotations.

(** A set of nibble sequences. *)
Definition nibset := list nat -> Prop.

(** The present keys, as the trie sees them, as nibbles. *)
Definition present_keys {H : Hash} (secure : bool) (d : kvmap) : nibset :=
  fun q => exists k v, d k = Some v /\ q = nibbles (trie_key secure k).

Section S.
Variable K : nibset.
(** Some key begins with [p]; exactly one does; two do and do not continue in the same
    way; at least two do and all continue with the same nibble. *)
Definition below (p : list nat) : Prop := exists r, K (p ++ r).
Definition single (p : list nat) : Prop := exists r, forall r', K (p ++ r') <-> r' = r.
Definition forked (p : list nat) : Prop := exists r s, K (p ++ r) /\ K (p ++ s) /\ hd_error r <> hd_error s.
Definition joined (p : list nat) : Prop :=
  (exists r s, r <> s /\ K (p ++ r) /\ K (p ++ s)) /\ exists i, forall r, K (p ++ r) -> exists r', r = i :: r'.

(** [p] is the longest beginning of [q] that some key begins with, [r] is the rest. *)
Definition leaves_at (q p r : list nat) : Prop :=
  q = p ++ r /\ below p /\ forall i r', r = i :: r' -> ~ below (p ++ [i]).

(** A node of the trie starts where [q] ends: [q] is empty, or there is a key that agrees
    with [q] up to the last nibble of [q] and does not go on with that nibble. *)
Definition edge (q : list nat) : Prop :=
  q = [] \/ exists p i r, q = p ++ [i] /\ K (p ++ r) /\ forall r', r <> i :: r'.

(** The exception of [MPT.get] for a key [q] that is not in [K]. *)
Definition get_raises (q : list nat) (e : exn) : Prop :=
  exists p r, leaves_at q p r /\
    ((e = KeyNotFoundError /\ single p /\ (r = [] -> ~ edge q)) \/
     (e = ExtensionPathError /\ joined p /\ (r = [] -> ~ edge q)) \/
     (e = AttributeError /\ joined p /\ r = [] /\ edge q) \/
     (e = BranchPathError /\ forked p /\ r <> [])).

(** The exception of [MPT.delete]. *)
Definition delete_raises (q : list nat) (e : exn) : Prop :=
  exists p r, leaves_at q p r /\
    ((e = LeafPathError /\ single p) \/
     (e = ExtensionPathError /\ joined p) \/
     (e = AssertionError /\ forked p /\ r = []) \/
     (e = BranchPathError /\ forked p /\ r <> [])).

(** The exception of [MPT.get_proof_of_inclusion]. *)
Definition poi_raises (q : list nat) (e : exn) : Prop :=
  exists p r, leaves_at q p r /\
    ((e = LeafPathError /\ single p /\ (r = [] -> ~ edge q)) \/
     (e = ExtensionPathError /\ joined p /\ (r = [] -> ~ edge q)) \/
     (e = BranchPathError /\ forked p /\ r <> [])).

(** [q] does not begin with what all keys begin with. *)
Definition outside (q : list nat) : Prop := exists c, (forall x, K x -> exists r, x = c ++ r) /\ ~ exists r, q = c ++ r.

(** Going down along [q] ends at a leaf whose remaining path is the whole of [q]. *)
Definition own_tail (q : list nat) : Prop := exists p r, q = p ++ r /\ edge p /\ single p /\ K (p ++ q).
End S.
