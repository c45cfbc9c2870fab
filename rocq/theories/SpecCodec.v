(** Specification vocabulary for the codecs: sequences of nibbles, nodes compared by
    what they mean. *)
From Coq Require Import List Bool Arith NArith.
From Verif Require Import Base Rlp NibblePath Node.
Import ListNotations.

(** The nibbles of a byte string, high one first. *)
Definition nibbles (b : bytes) : list nat :=
  flat_map (fun x => [N.to_nat (bN x / 16); N.to_nat (bN x mod 16)]) b.
(** What a path object stands for: the nibbles of its bytes after its offset. *)
Definition path_nibbles (p : np) : list nat := skipn (np_off p) (nibbles (np_data p)).

(** [c] is the longest common prefix of [a] and [b]. *)
Definition longest_common_prefix (a b c : list nat) : Prop :=
  exists a' b', a = c ++ a' /\ b = c ++ b' /\
    match a', b' with x :: _, y :: _ => x <> y | _, _ => True end.

(** A reference to a node: none, a digest (32 bytes or more), or a short RLP list. *)
Definition valid_ref (r : bytes) : Prop :=
  r = [] \/ 32 <= length r \/ (length r < 32 /\ exists l, rlp_decode r = Ok (IList l)).
Definition valid_node (n : node) : Prop :=
  match n with
  | Leaf _ _ => True
  | Extension _ r => valid_ref r
  | Branch bs _ => length bs = 16 /\ Forall valid_ref bs
  end.

(** Same kind, same path nibbles, same data, same references. *)
Definition same_node (a b : node) : Prop :=
  match a, b with
  | Leaf p v, Leaf q w => path_nibbles p = path_nibbles q /\ v = w
  | Extension p r, Extension q s => path_nibbles p = path_nibbles q /\ r = s
  | Branch l v, Branch k w => l = k /\ v = w
  | _, _ => False
  end.
