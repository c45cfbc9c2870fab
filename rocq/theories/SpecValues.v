(** Which values the tries take, and the text of what they store for them; the texts of nodes without data. *)
From Coq Require Import List Bool Arith NArith.
From Verif Require Import Base Rlp NibblePath Node Mpt Empt SpecCodec SpecRlp NodeSkeleton.
Import ListNotations.

(** What EMPT.update raises because of the value. *)
Inductive empt_refuses : value -> exn -> Prop :=
| er_bytearray : forall b, empt_refuses (VBytearray b) TypeError
| er_object : forall he hd b, he = false \/ hd = false -> empt_refuses (VObj he hd b) NotImplementedError.
(** What SparseEMPT.update raises because of the value. *)
Inductive sparse_refuses : value -> exn -> Prop :=
| sr_bytearray : forall b, sparse_refuses (VBytearray b) TypeError
| sr_able : forall hd b, sparse_refuses (VObj true hd b) TypeError
| sr_unable : forall hd b, sparse_refuses (VObj false hd b) AttributeError.
(** What EMPT.get raises because of what it finds in the data storage. *)
Inductive get_refuses : value -> exn -> Prop :=
| gr_bytearray : forall b, get_refuses (VBytearray b) TypeError
| gr_unable : forall hd b, get_refuses (VObj false hd b) AttributeError.

(** The text of a node without its data. *)
Inductive bare_write : node -> bytes -> Prop :=
| bw_leaf : forall p v h b, hex_prefix h (path_nibbles p) true -> rlp_form b (IList [IBytes h]) -> bare_write (Leaf p v) b
| bw_ext : forall p r h i b, hex_prefix h (path_nibbles p) false -> ref_write r i -> rlp_form b (IList [IBytes h]) -> bare_write (Extension p r) b
| bw_branch : forall rs v is b, Forall2 ref_write rs is -> rlp_form b (IList is) -> bare_write (Branch rs v) b.

Section WithHash.
Context {H : Hash}.
(** The text stored for the key [k] and data of the bytes [d]. *)
Definition stored_form (k d b : bytes) : Prop :=
  exists n, rlp_form b (IList [IBytes [x46; x46]; IBytes k; IBytes d; IBytes n]) /\ shortest n (base256 (keccak (k ++ d))).
End WithHash.
