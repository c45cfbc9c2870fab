(** EMPT objects over a data storage that somebody else filled: what get answers, and what build_trie does. *)
From Coq Require Import List Bool Arith NArith.
From Verif Require Import Base ProofObj Mpt Empt Spec SpecCodec SpecProof SpecGet SpecWalk SpecEmpt EmptPy SpecEvery.
Import ListNotations.

(** Values that have bytes to be referred to: bytes, and objects with encode_rlp. *)
Inductive referable : value -> Prop :=
| referable_bytes : forall b, referable (VBytes b)
| referable_object : forall d b, referable (VObj true d b).
(** What the others raise when they are compared with a reference. *)
Inductive incomparable : value -> exn -> Prop :=
| incomparable_array : forall b, incomparable (VBytearray b) TypeError
| incomparable_object : forall d b, incomparable (VObj false d b) AttributeError.

Section WithHash.
Context {H : Hash}.
(** Getting the value of [k] with the data [l], when the references are of the bytes in [r]. *)
Inductive reads_data (secure : bool) (lim : nat) (r : kvmap) (used : bool) (l : list (bytes * value)) (k : bytes) : result value -> Prop :=
| data_none : ~ In k (map fst l) -> reads_data secure lim r used l k (Err KeyError)
| data_no_reference : forall x, In k (map fst l) -> refers secure lim r used k (Err x) -> reads_data secure lim r used l k (Err x)
| data_wrong_kind : forall v x ref, In (k, v) l -> refers secure lim r used k (Ok ref) -> incomparable v x -> reads_data secure lim r used l k (Err x)
| data_same : forall v k' b, In (k, v) l -> refers secure lim r used k (Ok (mkRef k' b)) -> referable v ->
    keccak (k' ++ b) = keccak (k ++ val_bytes v) -> reads_data secure lim r used l k (Ok v)
| data_other : forall v k' b, In (k, v) l -> refers secure lim r used k (Ok (mkRef k' b)) -> referable v ->
    keccak (k' ++ b) <> keccak (k ++ val_bytes v) -> reads_data secure lim r used l k (Err InvalidReferenceError).

(** Updating the entries of [l] one by one, up to the first that fails. *)
Inductive built (lim : nat) : empt -> list (bytes * value) -> result unit -> empt -> Prop :=
| built_all : forall e, built lim e [] (Ok tt) e
| built_next : forall e k b l e1 r e2, empt_update lim [] false e k (VBytes b) = (Ok tt, e1) -> built lim e1 l r e2 ->
    built lim e ((k, VBytes b) :: l) r e2
| built_fails : forall e k b l x e1, empt_update lim [] false e k (VBytes b) = (Err x, e1) -> built lim e ((k, VBytes b) :: l) (Err x) e1
| built_not_bytes : forall e k v l, (forall b, v <> VBytes b) -> built lim e ((k, v) :: l) (Err TypeError) e.
End WithHash.
