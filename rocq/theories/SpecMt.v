(** Specification vocabulary for the Merkle tree.
    The hash tree is the one of RFC 6962, section 2.1, without the prefixes that tell leaves from inner nodes: a list
    of n > 1 leaves is split at the largest power of two below n. *)
From Coq Require Import List Bool Arith NArith ZArith.
From Verif Require Import Base ProofObj Spec MptEq MerkleTree.
Import ListNotations.

Inductive mtree := Leaf (b : bytes) | Node (l r : mtree).

Fixpoint tree_fuel (n : nat) (l : list bytes) : mtree :=
  match n, l with
  | S n', _ :: _ :: _ =>
      let k := 2 ^ Nat.log2 (length l - 1) in
      Node (tree_fuel n' (firstn k l)) (tree_fuel n' (skipn k l))
  | _, _ => Leaf (hd [] l)
  end.
Definition tree_of (l : list bytes) : mtree := tree_fuel (length l) l.

Fixpoint fringe (t : mtree) : list bytes :=
  match t with Leaf b => [b] | Node l r => fringe l ++ fringe r end.

Section WithHash.
Context {H : Hash}.

Fixpoint thash (t : mtree) : bytes :=
  match t with Leaf b => b | Node l r => keccak (thash l ++ thash r) end.

(** The label of every node, leaves included. *)
Fixpoint nodes (t : mtree) : list bytes :=
  thash t :: match t with Leaf _ => [] | Node l r => nodes l ++ nodes r end.

(** Every byte string hashed for an inner node. *)
Fixpoint hashed (t : mtree) : list bytes :=
  match t with Leaf _ => [] | Node l r => (thash l ++ thash r) :: hashed l ++ hashed r end.

Definition merkle_root (l : list bytes) : bytes := thash (tree_of l).

(** A path: at each step the sibling and whether it is on the left. *)
Definition path := list (bool * bytes).
Definition combine_step (x : bytes) (s : bool * bytes) : bytes := if fst s then snd s ++ x else x ++ snd s.
Fixpoint path_root (x : bytes) (p : path) : bytes :=
  match p with [] => x | s :: p' => path_root (keccak (combine_step x s)) p' end.
(** The byte strings hashed on the way. *)
Fixpoint path_hashed (x : bytes) (p : path) : list bytes :=
  match p with [] => [] | s :: p' => combine_step x s :: path_hashed (keccak (combine_step x s)) p' end.

(** ** Histories of calls on one MerkleTree object *)
Inductive mop :=
  | OPut (v : pyval) | OPutList (vs : list pyval) | OMake | OReset | ORoot
  | OProve (time : bytes) (key : pyval) | OVerify (p : proof) | OGet (i : Z) | OHash.

Inductive mout := RUnit (r : result unit) | RBytes (r : result bytes) | RProof (r : result proof)
  | RBool (r : result bool) | RInt (r : result Z).

Definition mt_call (t : mt) (o : mop) : mout * mt :=
  match o with
  | OPut v => let '(r, t') := put t v in (RUnit r, t')
  | OPutList vs => let '(r, t') := put_list t vs in (RUnit r, t')
  | OMake => let '(r, t') := do_make t in (RUnit r, t')
  | OReset => (RUnit (Ok tt), reset_tree t)
  | ORoot => let '(r, t') := get_root t in (RBytes r, t')
  | OProve time k => let '(r, t') := get_poi t time k in (RProof r, t')
  | OVerify p => let '(r, t') := verify_poi t p in (RBool r, t')
  | OGet i => (RBytes (get t i), t)
  | OHash => let '(r, t') := mt_hash t in (RInt r, t')
  end.

Fixpoint mt_run (t : mt) (h : list mop) : list mout * mt :=
  match h with
  | [] => ([], t)
  | o :: h' => let '(r, t') := mt_call t o in let '(rs, t'') := mt_run t' h' in (r :: rs, t'')
  end.

(** What a client knows it has put: put_list stops at the first element that is not bytes. *)
Fixpoint good_prefix (vs : list pyval) : list bytes :=
  match vs with VBytes b :: r => b :: good_prefix r | _ => [] end.

Definition op_values (o : mop) : list bytes :=
  match o with OPut v => good_prefix [v] | OPutList vs => good_prefix vs | _ => [] end.

Definition values_step (vs : list bytes) (o : mop) : list bytes :=
  match o with OReset => [] | _ => vs ++ op_values o end.
Definition values (h : list mop) : list bytes := fold_left values_step h [].

(** The tree was built by make_tree and nothing was put (and the tree was not reset) since. *)
Definition built_step (b : bool) (o : mop) : bool :=
  match o with
  | OMake => true
  | OReset => false
  | _ => b && match op_values o with [] => true | _ => false end
  end.
Definition built (h : list mop) : bool := fold_left built_step h false.

(** Neither builds nor resets the tree. *)
Definition no_rebuild (o : mop) : bool := match o with OMake | OReset => false | _ => true end.

(** What the tree stores for the values. *)
Definition leaves_of (secure : bool) (vs : list bytes) : list bytes :=
  map (fun v => if secure then keccak v else v) vs.

(** Everything hashed for a list of values: the inner nodes, and the values themselves in secure mode. *)
Definition all_hashed (secure : bool) (vs : list bytes) : list bytes :=
  (if secure then vs else []) ++ hashed (tree_of (leaves_of secure vs)).

(** The tree object [t] after the history [h], built over the values [vs]. *)
Definition built_over (secure : bool) (t : mt) (vs : list bytes) : Prop :=
  exists h outs, mt_run (mt_new secure) h = (outs, t) /\ built h = true /\ values h = vs /\ vs <> [].

End WithHash.

(** The path that a Proof object describes, if all its elements are well-formed. *)
Definition elem_step (e : pelem) : option (bool * bytes) :=
  match e with
  | PB _ => None
  | PPair side sib =>
      match from_hex sib with
      | None => None
      | Some s => if bytes_eqb side s_left then Some (true, s)
                  else if bytes_eqb side s_right then Some (false, s) else None
      end
  end.
Fixpoint proof_path (l : list pelem) : option path :=
  match l with
  | [] => Some []
  | e :: r => match elem_step e, proof_path r with Some s, Some p => Some (s :: p) | _, _ => None end
  end.
