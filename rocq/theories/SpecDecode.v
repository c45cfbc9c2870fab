(** What the decoding functions raise, in terms of the items a text stands for. *)
From Coq Require Import List Bool Arith NArith.
From Verif Require Import Base Rlp NibblePath Node SpecCodec SpecRlp.
Import ListNotations.

(** The common ladder: not a text of an item; an item of another shape; an item of the shape [good] that is refused with the exceptions [late]. *)
Inductive decode_fault (good : item -> Prop) (late : item -> exn -> Prop) (b : bytes) : exn -> Prop :=
| df_text : (forall i, ~ rlp_form b i) -> decode_fault good late b DecodingError
| df_shape : forall i, rlp_form b i -> ~ good i -> decode_fault good late b DeserializationError
| df_late : forall i e, rlp_form b i -> good i -> late i e -> decode_fault good late b e.

(** The shapes. *)
Inductive reference_shape : item -> Prop :=
| rs_zero : forall f k d, reference_shape (IList [IBytes f; IBytes k; IBytes d; IBytes []])
| rs_number : forall f k d x n, x <> x00 -> reference_shape (IList [IBytes f; IBytes k; IBytes d; IBytes (x :: n)]).
Inductive trie_shape : item -> Prop :=
| ts_trie : forall r l s, trie_shape (IList [IBytes r; IList (map IBytes l); IBytes (flag_bytes s)]).
Inductive proof_shape : item -> Prop :=
| ps_proof : forall ty tm k r l, proof_shape (IList [IBytes ty; IBytes tm; IBytes k; IBytes r; IList (map IBytes l)]).

(** What is refused afterwards: a reference with another flag or another checksum, a proof of another type. *)
Definition reference_late {H : Hash} (i : item) (e : exn) : Prop :=
  e = ValueError /\ exists f k d n, i = IList [IBytes f; IBytes k; IBytes d; IBytes n] /\ (f <> [x46; x46] \/ base256 n <> base256 (keccak (k ++ d))).
Definition proof_late (i : item) (e : exn) : Prop :=
  e = TypeError /\ exists ty l, i = IList (IBytes ty :: l) /\
    ~ In ty [[x4d; x50; x54; x2d; x50; x4f; x49]; [x4d; x50; x54; x2d; x50; x4f; x45]; [x4d; x54; x2d; x50; x4f; x49]].
Definition never (i : item) (e : exn) : Prop := False.

(** Reading the shape of a node raises what reading the node raises, but the values are not looked at. *)
Inductive shape_fault : bytes -> exn -> Prop :=
| sf_rlp : forall b, (forall i, ~ rlp_form b i) -> shape_fault b DecodingError
| sf_string : forall b s, rlp_form b (IBytes s) -> length s = 2 \/ length s = 17 -> shape_fault b TypeError
| sf_string_length : forall b s, rlp_form b (IBytes s) -> length s <> 2 -> length s <> 17 -> shape_fault b AssertionError
| sf_count : forall b l, rlp_form b (IList l) -> length l <> 2 -> length l <> 17 -> shape_fault b AssertionError
| sf_no_path : forall b a i, rlp_form b (IList [a; i]) -> a = IBytes [] \/ a = IList [] -> shape_fault b IndexError
| sf_path : forall b x l i, rlp_form b (IList [IList (x :: l); i]) -> shape_fault b TypeError.
