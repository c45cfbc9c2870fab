(** Model of /repo/src/pymt/proof.py. *)
From Coq Require Import List Bool Arith NArith.
From Verif Require Import Base Rlp.
Import ListNotations.

(** Elements of the proof tuple: encoded nodes (MPT proofs) or pairs
    (side, hex sibling) (MerkleTree proofs, mt.py:122-125). *)
Inductive pelem := PB (b : bytes) | PPair (side sib : bytes).

(** proof.py:14-69.  The timestamp is the clock reading, an input here. *)
Record proof := mkProof {
  pf_type : bytes;
  pf_time : bytes;
  pf_key  : bytes;       (* target_key *)
  pf_root : bytes;       (* trie_root *)
  pf_proof : list pelem
}.

(** proof.py:12 accepted_types: b"MPT-POI", b"MPT-POE", b"MT-POI". *)
Definition MPT_POI : bytes := [x4d; x50; x54; x2d; x50; x4f; x49].
Definition MPT_POE : bytes := [x4d; x50; x54; x2d; x50; x4f; x45].
Definition MT_POI  : bytes := [x4d; x54; x2d; x50; x4f; x49].
Definition accepted_types : list bytes := [MPT_POI; MPT_POE; MT_POI].

(** proof.py:14-69 [Proof(...)] on arguments of the right types: only the
    proof type can be refused. *)
Definition new_proof (time key root : bytes) (pr : list pelem) (ty : bytes) : result proof :=
  if existsb (bytes_eqb ty) accepted_types
  then Ok (mkProof ty time key root pr) else Err TypeError.

(** Python's ["MT" in s]. *)
Fixpoint has_MT (s : bytes) : bool :=
  match s with
  | x4d :: ((x54 :: _) as r) => true
  | _ :: r => has_MT r
  | [] => false
  end.

(** proof.py:205-227: an element of a proof as rlp writes it; a tuple is a list of two. *)
Definition pelem_item (e : pelem) : item :=
  match e with PB b => IBytes b | PPair a b => IList [IBytes a; IBytes b] end.

(** proof.py:205-227 [encode_rlp]. *)
Definition proof_encode_rlp (p : proof) : result bytes :=
  if has_MT (pf_type p) then
    rlp_encode (IList [IBytes (pf_type p); IBytes (pf_time p); IBytes (pf_key p);
                       IBytes (pf_root p); IList (map pelem_item (pf_proof p))])
  else Err NotImplementedError.

Local Open Scope res_scope.

(** proof.py:229-268 [decode_rlp]; the sedes list has exactly five entries. *)
Definition proof_decode_rlp (b : bytes) : result proof :=
  i <- rlp_decode b ;;
  match i with
  | IList [a; t; k; r; l] =>
      ty <- d_binary a ;; tm <- d_binary t ;; key <- d_binary k ;; root <- d_binary r ;;
      els <- d_binlist l ;;
      new_proof tm key root (map PB els) ty
  | _ => Err DeserializationError
  end.
