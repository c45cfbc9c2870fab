(** Recursive Length Prefix and hex-prefix texts as relations, after appendices B and C of the Ethereum Yellow Paper,
    independently of the coders in Rlp.v and NibblePath.v; what the library's objects look like in them. *)
From Coq Require Import List Bool Arith NArith.
From Verif Require Import Base Rlp NibblePath Node Mpt SpecCodec.
Import ListNotations.

(** [b] is the number [n] in base 256, most significant byte first, without a zero in front. *)
Fixpoint base256 (b : bytes) : N := match b with [] => 0 | x :: r => bN x * 256 ^ N.of_nat (length r) + base256 r end%N.
Definition shortest (b : bytes) (n : N) : Prop := base256 b = n /\ forall x r, b = x :: r -> bN x <> 0%N.

Inductive rlp_form : bytes -> item -> Prop :=
| rlp_byte : forall x, (bN x < 128)%N -> rlp_form [x] (IBytes [x])
| rlp_short : forall t s, (forall x, s = [x] -> (128 <= bN x)%N) -> length s <= 55 -> bN t = (128 + N.of_nat (length s))%N ->
    rlp_form (t :: s) (IBytes s)
| rlp_long : forall t l s, 56 <= length s -> shortest l (N.of_nat (length s)) -> length l <= 8 -> bN t = (183 + N.of_nat (length l))%N ->
    rlp_form (t :: l ++ s) (IBytes s)
| rlp_list : forall t p is, rlp_forms p is -> length p <= 55 -> bN t = (192 + N.of_nat (length p))%N -> rlp_form (t :: p) (IList is)
| rlp_longlist : forall t l p is, rlp_forms p is -> 56 <= length p -> shortest l (N.of_nat (length p)) -> length l <= 8 ->
    bN t = (247 + N.of_nat (length l))%N -> rlp_form (t :: l ++ p) (IList is)
with rlp_forms : bytes -> list item -> Prop :=
| rlp_none : rlp_forms [] []
| rlp_some : forall b i p is, rlp_form b i -> rlp_forms p is -> rlp_forms (b ++ p) (i :: is).

(** The hex-prefix form of a path: a flag nibble (2 for a leaf, plus 1 for an odd path), a zero nibble if the path is even, the path. *)
Inductive hex_prefix : bytes -> list nat -> bool -> Prop :=
| hp_even : forall f d (leaf : bool), bN f = (if leaf then 32 else 0)%N -> hex_prefix (f :: d) (nibbles d) leaf
| hp_odd : forall f d (leaf : bool) n, n < 16 -> bN f = ((if leaf then 48 else 16) + N.of_nat n)%N -> hex_prefix (f :: d) (n :: nibbles d) leaf.
(** What is read as such: the two upper bits do not count, nor does the padding nibble. *)
Inductive hex_read : bytes -> list nat -> bool -> Prop :=
| hr_even : forall f d (leaf : bool) u z, u < 4 -> z < 16 -> bN f = (N.of_nat (64 * u + z) + (if leaf then 32 else 0))%N ->
    hex_read (f :: d) (nibbles d) leaf
| hr_odd : forall f d (leaf : bool) u n, u < 4 -> n < 16 -> bN f = (N.of_nat (64 * u + n) + (if leaf then 48 else 16))%N ->
    hex_read (f :: d) (n :: nibbles d) leaf.

(** A reference inside a node: a string is itself, a list is its own text. *)
Inductive ref_read : item -> bytes -> Prop :=
| ref_string : forall b, ref_read (IBytes b) b
| ref_list : forall l b, rlp_form b (IList l) -> ref_read (IList l) b.

(** [b] is read as the node [n]. *)
Inductive node_read : bytes -> node -> Prop :=
| read_leaf : forall b h p v, rlp_form b (IList [IBytes h; IBytes v]) -> hex_read h (path_nibbles p) true -> node_read b (Leaf p v)
| read_ext : forall b h p i r, rlp_form b (IList [IBytes h; i]) -> hex_read h (path_nibbles p) false -> ref_read i r -> node_read b (Extension p r)
| read_branch : forall b is rs v, rlp_form b (IList (is ++ [IBytes v])) -> length is = 16 -> Forall2 ref_read is rs -> node_read b (Branch rs v).

(** [b] is read as the shape [n], whatever stands in the place of a value; all values are one byte "1". *)
Inductive shape_read : bytes -> node -> Prop :=
| shape_leaf : forall b h p i, rlp_form b (IList [IBytes h; i]) -> hex_read h (path_nibbles p) true -> shape_read b (Leaf p [x31])
| shape_ext : forall b h p i r, rlp_form b (IList [IBytes h; i]) -> hex_read h (path_nibbles p) false -> ref_read i r -> shape_read b (Extension p r)
| shape_branch : forall b is rs i, rlp_form b (IList (is ++ [i])) -> length is = 16 -> Forall2 ref_read is rs -> shape_read b (Branch rs [x31]).

(** A truth value: nothing or one. *)
Definition flag_bytes (s : bool) : bytes := if s then [x01] else [].

(** How a reference is written in a node: a short one is an item itself, others are strings. *)
Inductive ref_write : bytes -> item -> Prop :=
| write_none : ref_write [] (IBytes [])
| write_digest : forall r, 32 <= length r -> ref_write r (IBytes r)
| write_inline : forall r i, 0 < length r < 32 -> rlp_form r i -> ref_write r i.
(** [b] is how the node [n] is written. *)
Inductive node_write : node -> bytes -> Prop :=
| nw_leaf : forall p v h b, hex_prefix h (path_nibbles p) true -> rlp_form b (IList [IBytes h; IBytes v]) -> node_write (Leaf p v) b
| nw_ext : forall p r h i b, hex_prefix h (path_nibbles p) false -> ref_write r i -> rlp_form b (IList [IBytes h; i]) -> node_write (Extension p r) b
| nw_branch : forall rs v is b, Forall2 ref_write rs is -> rlp_form b (IList (is ++ [IBytes v])) -> node_write (Branch rs v) b.

Section WithHash.
Context {H : Hash}.
(** The nodes of a decoded trie: the last one of each digest. *)
Definition keyed_by_digest (d : dict bytes) (l : list bytes) : Prop :=
  forall h e, dget d h = Some e <-> exists l1 l2, l = l1 ++ e :: l2 /\ keccak e = h /\ forall e', In e' l2 -> keccak e' <> h.
(** A trie with this root, mode and nodes. *)
Definition decoded (t : mpt) (r : bytes) (l : list bytes) (s : bool) : Prop := m_root t = Some r /\ m_secure t = s /\ keyed_by_digest (m_map t) l.
End WithHash.

(** Two texts that are read as the same node. *)
Definition same_reading (b b' : bytes) : Prop := exists n, node_read b n /\ node_read b' n.
