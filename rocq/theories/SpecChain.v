(** Specification vocabulary: the nodes of an exclusion proof and what they refer to. *)
From Coq Require Import List Bool Arith NArith.
From Verif Require Import Base Node ProofObj Mpt.
Import ListNotations.

(** The references in a node. *)
Definition node_refs (n : node) : list bytes :=
  match n with Leaf _ _ => [] | Extension _ r => [r] | Branch bs _ => bs end.

(** [n] is what [b] decodes to, or what its reference decodes to if that is the node itself, shorter than 32 bytes. *)
Definition reads_as {H : Hash} (b : bytes) (n : node) : Prop :=
  node_decode b = Ok n \/
  exists n0 r, node_decode b = Ok n0 /\ into_reference n0 = Ok r /\ length r < 32 /\ node_decode r = Ok n.

(** The nodes of an exclusion proof: the last element is not one. *)
Definition has_node (p : proof) (b : bytes) : Prop := In (PB b) (removelast (pf_proof p)).
