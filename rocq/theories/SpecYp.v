(** The Modified Merkle Patricia tree of a set of pairs, after appendix D of the Ethereum Yellow Paper, as relations on the set alone. *)
From Coq Require Import List Bool Arith NArith.
From Verif Require Import Base Rlp NibblePath Mpt SpecCodec SpecRlp Spec.
Import ListNotations.

(** A set of pairs of a nibble sequence and a value. *)
Definition pairs := list nat -> bytes -> Prop.
(** The pairs under a prefix, without it. *)
Definition under (p : list nat) (J : pairs) : pairs := fun q v => J (p ++ q) v.

Definition no_pair (J : pairs) : Prop := forall q v, ~ J q v.
Definition one_pair (J : pairs) (k : list nat) (v : bytes) : Prop := J k v /\ forall q w, J q w -> q = k /\ w = v.
Definition two_keys (J : pairs) : Prop := exists a v b w, J a v /\ J b w /\ a <> b.
(** Every key begins with [p]. *)
Definition common (J : pairs) (p : list nat) : Prop := forall q v, J q v -> exists r, q = p ++ r.
(** [p] is the longest common prefix of at least two keys. *)
Definition longest_common (J : pairs) (p : list nat) : Prop :=
  two_keys J /\ common J p /\ forall p', common J p' -> length p' <= length p.

Section WithHash.
Context {H : Hash}.

(** The item [c(J)] of the root node of a non-empty set, and the item [n(J)] that refers to it. *)
Inductive yp_c : pairs -> item -> Prop :=
| yp_leaf : forall J k v h, one_pair J k v -> hex_prefix h k true -> yp_c J (IList [IBytes h; IBytes v])
| yp_extension : forall J p h r, longest_common J p -> p <> [] -> hex_prefix h p false -> yp_n (under p J) r -> yp_c J (IList [IBytes h; r])
| yp_branch : forall J rs v, longest_common J [] -> length rs = 16 ->
    (forall i r, nth_error rs i = Some r -> yp_n (under [i] J) r) -> (J [] v \/ (v = [] /\ forall w, ~ J [] w)) ->
    yp_c J (IList (rs ++ [IBytes v]))
with yp_n : pairs -> item -> Prop :=
| yp_none : forall J, no_pair J -> yp_n J (IBytes [])
| yp_inline : forall J c b, yp_c J c -> rlp_form b c -> length b < 32 -> yp_n J c
| yp_digest : forall J c b, yp_c J c -> rlp_form b c -> 32 <= length b -> yp_n J (IBytes (keccak b)).

(** The text of the root node. *)
Definition yp_text (J : pairs) (b : bytes) : Prop := exists c, yp_c J c /\ rlp_form b c.

(** TRIE(J): the digest of the text of the root node; of the text of the empty string if there is no pair. *)
Inductive yp_root : pairs -> bytes -> Prop :=
| yp_root_none : forall J, no_pair J -> yp_root J (keccak [x80])
| yp_root_some : forall J b, yp_text J b -> yp_root J (keccak b).

(** The texts of the nodes met on the way to the key [q], from the root down. *)
Inductive yp_way : pairs -> list nat -> list bytes -> Prop :=
| way_leaf : forall J k v b, one_pair J k v -> yp_text J b -> yp_way J k [b]
| way_extension : forall J p q b L, longest_common J p -> p <> [] -> yp_text J b -> yp_way (under p J) q L -> yp_way J (p ++ q) (b :: L)
| way_branch : forall J i q b L, longest_common J [] -> yp_text J b -> yp_way (under [i] J) q L -> yp_way J (i :: q) (b :: L)
| way_value : forall J b, longest_common J [] -> yp_text J b -> yp_way J [] [b].

(** The texts of the nodes met on the way to a key [q] that need not be present, without an extension the key leaves half-way;
    [r] is what is left of the key at the last node met. *)
Inductive yp_trail : pairs -> list nat -> list nat -> list bytes -> Prop :=
| trail_leaf : forall J k v q b, one_pair J k v -> yp_text J b -> yp_trail J q q [b]
| trail_extension : forall J p q r b L, longest_common J p -> p <> [] -> yp_text J b -> yp_trail (under p J) q r L -> yp_trail J (p ++ q) r (b :: L)
| trail_extension_end : forall J p b, longest_common J p -> p <> [] -> yp_text J b -> yp_trail J [] [] [b]
| trail_extension_left : forall J p q, longest_common J p -> p <> [] -> q <> [] -> (forall r, q <> p ++ r) -> yp_trail J q q []
| trail_branch : forall J i q r b L, longest_common J [] -> yp_text J b -> yp_trail (under [i] J) q r L -> yp_trail J (i :: q) r (b :: L)
| trail_branch_left : forall J i q b, longest_common J [] -> yp_text J b -> no_pair (under [i] J) -> yp_trail J (i :: q) (i :: q) [b]
| trail_branch_end : forall J b, longest_common J [] -> yp_text J b -> yp_trail J [] [] [b].

(** [b] is the text of some node of the tree of [J]. *)
Inductive yp_node : pairs -> bytes -> Prop :=
| node_root : forall J b, yp_text J b -> yp_node J b
| node_extension : forall J p b, longest_common J p -> p <> [] -> yp_node (under p J) b -> yp_node J b
| node_branch : forall J i b, longest_common J [] -> yp_node (under [i] J) b -> yp_node J b.

(** The pairs of a dictionary: keys become nibbles, after hashing in secure mode. *)
Definition pairs_of (secure : bool) (d : kvmap) : pairs :=
  fun q v => exists k, d k = Some v /\ q = nibbles (if secure then keccak k else k).

(** The text of the reference to the bytes [d] under the key [k]: "FF", both, and the digest of both as a number. *)
Definition ref_text (k d b : bytes) : Prop :=
  exists s, shortest s (base256 (keccak (k ++ d))) /\ rlp_form b (IList [IBytes [x46; x46]; IBytes k; IBytes d; IBytes s]).
(** The references to the contents of a dictionary. *)
Definition refs_of (secure : bool) (d : kvmap) : pairs :=
  fun q v => exists k b, d k = Some b /\ q = nibbles (if secure then keccak k else k) /\ ref_text k b v.
End WithHash.
