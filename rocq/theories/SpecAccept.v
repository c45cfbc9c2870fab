(** Which proofs a trie accepts, in terms of the texts in the proof alone. *)
From Coq Require Import List Bool Arith NArith.
From Verif Require Import Base Rlp NibblePath Node ProofObj Mpt SpecCodec SpecRlp.
Import ListNotations.

Section WithHash.
Context {H : Hash}.

(** [r] stands for the node [n] in other nodes: its text, or the digest of a text of 32 bytes or more. *)
Definition node_ref (n : node) (r : bytes) : Prop := exists e, node_write n e /\ r = if length e <? 32 then e else keccak e.
(** [b] is read as a node that [r] stands for. *)
Definition text_ref (b r : bytes) : Prop := exists n, node_read b n /\ node_ref n r.
Definition has_ref (b : bytes) : Prop := exists r, text_ref b r.

Section Texts.
Variable l : list bytes.
(** [b] is the last of the texts with reference [r]. *)
Definition filed (r b : bytes) : Prop := exists l1 l2, l = l1 ++ b :: l2 /\ text_ref b r /\ forall b', In b' l2 -> ~ text_ref b' r.
(** The text behind a reference: one of the given ones, or the reference itself if it is not as long as a digest. *)
Definition text (r b : bytes) : Prop := (length r = 32 /\ filed r b) \/ (length r <> 32 /\ b = r).

(** Along [q] one comes from [r], in so many steps, to a leaf with all that is left, or nothing is left at a leaf or branch. *)
Inductive leads : bytes -> list nat -> nat -> Prop :=
| leads_end : forall r b n, text r b -> node_read b n -> (forall p s, n <> Extension p s) -> leads r [] 1
| leads_leaf : forall r b p v, text r b -> node_read b (Leaf p v) -> leads r (path_nibbles p) 1
| leads_ext : forall r b p s q d, text r b -> node_read b (Extension p s) -> path_nibbles p ++ q <> [] -> leads s q d ->
    leads r (path_nibbles p ++ q) (S d)
| leads_branch : forall r b rs v i q d, text r b -> node_read b (Branch rs v) -> nth i rs [] <> [] -> leads (nth i rs []) q d ->
    leads r (i :: q) (S d).

(** The node does not say how to go on along [q]. *)
Definition stops (n : node) (q : list nat) : Prop := q = [] \/
  match n with
  | Leaf _ _ => True
  | Extension p _ => forall z, q <> path_nibbles p ++ z
  | Branch rs _ => forall i z, q = i :: z -> nth i rs [] = []
  end.
(** A text behind [r], which is the reference of a given text and was not met before. *)
Definition fresh (seen : list bytes) (r b : bytes) : Prop := text r b /\ (exists b', filed r b') /\ ~ In r seen.
(** Along [q] one comes from [r], in so many steps, to a node that does not say how to go on, or to a digest of no given text
    that was not met before; the references met are added to [seen]. *)
Inductive ends : list bytes -> bytes -> list nat -> list bytes -> option node -> nat -> Prop :=
| ends_missing : forall seen r q, length r = 32 -> (forall b, filed r b -> In r seen) -> ends seen r q seen None 1
| ends_here : forall seen r q b n, fresh seen r b -> node_read b n -> stops n q -> ends seen r q (r :: seen) (Some n) 1
| ends_ext : forall seen r b p s q seen' o d, fresh seen r b -> node_read b (Extension p s) -> path_nibbles p ++ q <> [] ->
    ends (r :: seen) s q seen' o d -> ends seen r (path_nibbles p ++ q) seen' o (S d)
| ends_branch : forall seen r b rs v i q seen' o d, fresh seen r b -> node_read b (Branch rs v) -> nth i rs [] <> [] ->
    ends (r :: seen) (nth i rs []) q seen' o d -> ends seen r (i :: q) seen' o (S d).
End Texts.

(** The trie has a root and it is not that of the empty trie. *)
Definition has_root (t : mpt) (r : bytes) : Prop := m_root t = Some r /\ r <> EMPTY_HASH.

Definition accepts_inclusion (lim : nat) (t : mpt) (p : proof) : Prop := exists r b l d,
  pf_type p = [x4d; x50; x54; x2d; x50; x4f; x49] /\ has_root t r /\ pf_proof p = map PB (b :: l) /\
  keccak b = root_hash t /\ pf_root p = root_hash t /\ Forall has_ref (b :: l) /\ d <= lim /\ leads (b :: l) r (nibbles (pf_key p)) d.

Definition accepts_exclusion (lim : nat) (t : mpt) (p : proof) : Prop := exists r l e seen o d,
  pf_type p = [x4d; x50; x54; x2d; x50; x4f; x45] /\ has_root t r /\ pf_proof p = map PB (l ++ [e]) /\
  keccak (hd e l) = root_hash t /\
  ((exists q, node_read e (Leaf q [x6e; x75; x6c; x6c])) \/ exists rs, node_read e (Branch rs [x6e; x75; x6c; x6c])) /\
  Forall has_ref l /\ d <= lim /\ ends l [] r (nibbles (pf_key p)) seen o d /\
  (forall x b, filed l x b -> In x seen) /\ (forall q v, o = Some (Leaf q v) -> path_nibbles q <> nibbles (pf_key p)).
End WithHash.
