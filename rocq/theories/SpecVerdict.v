(** What verification of a trie proof answers or raises, in terms of the texts in the proof alone. *)
From Coq Require Import List Bool Arith NArith.
From Verif Require Import Base Rlp NibblePath Node ProofObj Mpt SpecCodec SpecRlp SpecAccept.
Import ListNotations.

(** What reading [b] as a node raises. *)
Inductive node_fault : bytes -> exn -> Prop :=
| fault_rlp : forall b, (forall i, ~ rlp_form b i) -> node_fault b DecodingError
| fault_string : forall b s, rlp_form b (IBytes s) -> length s = 2 \/ length s = 17 -> node_fault b TypeError
| fault_string_length : forall b s, rlp_form b (IBytes s) -> length s <> 2 -> length s <> 17 -> node_fault b AssertionError
| fault_count : forall b l, rlp_form b (IList l) -> length l <> 2 -> length l <> 17 -> node_fault b AssertionError
| fault_branch_value : forall b is l, rlp_form b (IList (is ++ [IList l])) -> length is = 16 -> node_fault b TypeError
| fault_no_path : forall b a i, rlp_form b (IList [a; i]) -> a = IBytes [] \/ a = IList [] -> node_fault b IndexError
| fault_path : forall b x l i, rlp_form b (IList [IList (x :: l); i]) -> node_fault b TypeError
| fault_leaf_value : forall b h q l, rlp_form b (IList [IBytes h; IList l]) -> hex_read h q true -> node_fault b TypeError.

(** The references in a node, and those that cannot be written: short ones that are not texts of items. *)
Definition refs_in (n : node) : list bytes := match n with Leaf _ _ => [] | Extension _ r => [r] | Branch rs _ => rs end.
Definition bad_ref (r : bytes) : Prop := 0 < length r < 32 /\ forall i, ~ rlp_form r i.
(** What reading [b] as a node and writing that node again raises; the last case needs a text of 2^64 bytes. *)
Inductive text_fault : bytes -> exn -> Prop :=
| fault_read : forall b e, node_fault b e -> text_fault b e
| fault_ref : forall b n r, node_read b n -> In r (refs_in n) -> bad_ref r -> text_fault b DecodingError
| fault_size : forall b n, node_read b n -> (forall r, In r (refs_in n) -> ~ bad_ref r) -> (forall e, ~ node_write n e) -> text_fault b ValueError.

Section WithHash.
Context {H : Hash}.

(** Walking along [q] from [r] with at most so many steps. *)
Inductive goes (l : list bytes) : nat -> bytes -> list nat -> result bool -> Prop :=
| goes_deep : forall r q, goes l 0 r q (Err RecursionError)
| goes_missing : forall n r q, length r = 32 -> (forall b, ~ filed l r b) -> goes l (S n) r q (Ok false)
| goes_fault : forall n r q b e, text l r b -> node_fault b e -> goes l (S n) r q (Err e)
| goes_end : forall n r b x, text l r b -> node_read b x -> (forall p s, x <> Extension p s) -> goes l (S n) r [] (Ok true)
| goes_end_ext : forall n r b p s, text l r b -> node_read b (Extension p s) -> goes l (S n) r [] (Ok false)
| goes_leaf : forall n r b p v, text l r b -> node_read b (Leaf p v) -> path_nibbles p <> [] -> goes l (S n) r (path_nibbles p) (Ok true)
| goes_other_leaf : forall n r q b p v, text l r b -> node_read b (Leaf p v) -> q <> [] -> path_nibbles p <> q -> goes l (S n) r q (Ok false)
| goes_ext : forall n r b p s q v, text l r b -> node_read b (Extension p s) -> path_nibbles p ++ q <> [] -> goes l n s q v ->
    goes l (S n) r (path_nibbles p ++ q) v
| goes_off : forall n r b p s q, text l r b -> node_read b (Extension p s) -> q <> [] -> (forall z, q <> path_nibbles p ++ z) ->
    goes l (S n) r q (Err ExtensionPathError)
| goes_branch : forall n r b rs x i q v, text l r b -> node_read b (Branch rs x) -> nth i rs [] <> [] -> goes l n (nth i rs []) q v ->
    goes l (S n) r (i :: q) v
| goes_empty_slot : forall n r b rs x i q, text l r b -> node_read b (Branch rs x) -> nth i rs [] = [] ->
    goes l (S n) r (i :: q) (Err BranchPathError).

(** What an element of a proof raises. *)
Inductive elem_fault : pelem -> exn -> Prop :=
| fault_pair : forall a b, elem_fault (PPair a b) TypeError
| fault_text : forall b e, text_fault b e -> elem_fault (PB b) e.
(** The first faulty element. *)
Definition first_fault (pl : list pelem) (e : exn) : Prop :=
  exists l x rest, pl = map PB l ++ x :: rest /\ Forall has_ref l /\ elem_fault x e.

(** What both verifications do first. *)
Inductive refused (ty : bytes) (t : mpt) (p : proof) : result bool -> Prop :=
| refused_type : pf_type p <> ty -> refused ty t p (Err TypeError)
| refused_empty : pf_type p = ty -> (forall r, ~ has_root t r) -> refused ty t p (Err ValueError)
| refused_no_elements : forall r, pf_type p = ty -> has_root t r -> pf_proof p = [] -> refused ty t p (Err IndexError)
| refused_pair : forall r a b l, pf_type p = ty -> has_root t r -> pf_proof p = PPair a b :: l -> refused ty t p (Err TypeError)
| refused_root : forall r b l, pf_type p = ty -> has_root t r -> pf_proof p = PB b :: l -> keccak b <> root_hash t -> refused ty t p (Ok false).
(** The proof is of this type and its first element has the digest of the root [r]. *)
Definition starts (ty : bytes) (t : mpt) (p : proof) (r : bytes) : Prop :=
  pf_type p = ty /\ has_root t r /\ exists b l, pf_proof p = PB b :: l /\ keccak b = root_hash t.

Inductive inclusion_verdict (lim : nat) (t : mpt) (p : proof) : result bool -> Prop :=
| iv_refused : forall v, refused [x4d; x50; x54; x2d; x50; x4f; x49] t p v -> inclusion_verdict lim t p v
| iv_undecodable : forall r, starts [x4d; x50; x54; x2d; x50; x4f; x49] t p r -> first_fault (pf_proof p) DecodingError -> inclusion_verdict lim t p (Ok false)
| iv_fault : forall r e, starts [x4d; x50; x54; x2d; x50; x4f; x49] t p r -> first_fault (pf_proof p) e -> e <> DecodingError -> inclusion_verdict lim t p (Err e)
| iv_walk : forall r l v, starts [x4d; x50; x54; x2d; x50; x4f; x49] t p r -> pf_proof p = map PB l -> Forall has_ref l ->
    goes l lim r (nibbles (pf_key p)) v -> v <> Ok true -> inclusion_verdict lim t p v
| iv_other_root : forall r l, starts [x4d; x50; x54; x2d; x50; x4f; x49] t p r -> pf_proof p = map PB l -> Forall has_ref l ->
    goes l lim r (nibbles (pf_key p)) (Ok true) -> pf_root p <> root_hash t -> inclusion_verdict lim t p (Ok false)
| iv_accepted : forall r l, starts [x4d; x50; x54; x2d; x50; x4f; x49] t p r -> pf_proof p = map PB l -> Forall has_ref l ->
    goes l lim r (nibbles (pf_key p)) (Ok true) -> pf_root p = root_hash t -> inclusion_verdict lim t p (Ok true).

(** The text behind a reference that was not met before. *)
Definition text_left (l seen : list bytes) (r b : bytes) : Prop := (length r = 32 /\ filed l r b /\ ~ In r seen) \/ (length r <> 32 /\ b = r).
(** The walk of the verification of an exclusion proof raises. *)
Inductive breaks (l : list bytes) : nat -> list bytes -> bytes -> list nat -> exn -> Prop :=
| breaks_deep : forall seen r q, breaks l 0 seen r q RecursionError
| breaks_fault : forall n seen r q b e, text_left l seen r b -> node_fault b e -> breaks l (S n) seen r q e
| breaks_unknown : forall n seen r q b x, text_left l seen r b -> node_read b x -> (forall b', filed l r b' -> In r seen) ->
    breaks l (S n) seen r q PoeError
| breaks_ext : forall n seen r b p s q e, fresh l seen r b -> node_read b (Extension p s) -> path_nibbles p ++ q <> [] ->
    breaks l n (r :: seen) s q e -> breaks l (S n) seen r (path_nibbles p ++ q) e
| breaks_branch : forall n seen r b rs v i q e, fresh l seen r b -> node_read b (Branch rs v) -> nth i rs [] <> [] ->
    breaks l n (r :: seen) (nth i rs []) q e -> breaks l (S n) seen r (i :: q) e.

(** The last element: what reading its value raises, or its value. *)
Inductive last_fault : pelem -> exn -> Prop :=
| last_pair : forall a b, last_fault (PPair a b) TypeError
| last_node : forall b e, node_fault b e -> last_fault (PB b) e
| last_ext : forall b p s, node_read b (Extension p s) -> last_fault (PB b) AttributeError.
Definition last_value (x : pelem) (v : bytes) : Prop :=
  exists b, x = PB b /\ ((exists q, node_read b (Leaf q v)) \/ exists rs, node_read b (Branch rs v)).

Inductive exclusion_verdict (lim : nat) (t : mpt) (p : proof) : result bool -> Prop :=
| ev_refused : forall v, refused [x4d; x50; x54; x2d; x50; x4f; x45] t p v -> exclusion_verdict lim t p v
| ev_last : forall r pl x e, starts [x4d; x50; x54; x2d; x50; x4f; x45] t p r -> pf_proof p = pl ++ [x] -> last_fault x e -> exclusion_verdict lim t p (Err e)
| ev_value : forall r pl x v, starts [x4d; x50; x54; x2d; x50; x4f; x45] t p r -> pf_proof p = pl ++ [x] -> last_value x v -> v <> [x6e; x75; x6c; x6c] ->
    exclusion_verdict lim t p (Ok false)
| ev_fault : forall r pl x e, starts [x4d; x50; x54; x2d; x50; x4f; x45] t p r -> pf_proof p = pl ++ [x] -> last_value x [x6e; x75; x6c; x6c] ->
    first_fault pl e -> exclusion_verdict lim t p (Err e)
| ev_breaks : forall r l x e, starts [x4d; x50; x54; x2d; x50; x4f; x45] t p r -> pf_proof p = map PB l ++ [x] -> last_value x [x6e; x75; x6c; x6c] ->
    Forall has_ref l -> breaks l lim [] r (nibbles (pf_key p)) e -> exclusion_verdict lim t p (Err e)
| ev_unused : forall r l x seen o d y b, starts [x4d; x50; x54; x2d; x50; x4f; x45] t p r -> pf_proof p = map PB l ++ [x] -> last_value x [x6e; x75; x6c; x6c] ->
    Forall has_ref l -> ends l [] r (nibbles (pf_key p)) seen o d -> d <= lim -> filed l y b -> ~ In y seen -> exclusion_verdict lim t p (Ok false)
| ev_present : forall r l x seen q v d, starts [x4d; x50; x54; x2d; x50; x4f; x45] t p r -> pf_proof p = map PB l ++ [x] -> last_value x [x6e; x75; x6c; x6c] ->
    Forall has_ref l -> ends l [] r (nibbles (pf_key p)) seen (Some (Leaf q v)) d -> d <= lim -> (forall y b, filed l y b -> In y seen) ->
    path_nibbles q = nibbles (pf_key p) -> exclusion_verdict lim t p (Ok false)
| ev_accepted : forall r l x seen o d, starts [x4d; x50; x54; x2d; x50; x4f; x45] t p r -> pf_proof p = map PB l ++ [x] -> last_value x [x6e; x75; x6c; x6c] ->
    Forall has_ref l -> ends l [] r (nibbles (pf_key p)) seen o d -> d <= lim -> (forall y b, filed l y b -> In y seen) ->
    (forall q v, o = Some (Leaf q v) -> path_nibbles q <> nibbles (pf_key p)) -> exclusion_verdict lim t p (Ok true).
End WithHash.
