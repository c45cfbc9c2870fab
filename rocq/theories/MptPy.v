(** Calls on an MPT object (/repo/src/pymt/mpt.py). *)
From Coq Require Import List Bool Arith NArith.
From Verif Require Import Base Rlp ProofObj Mpt.
Import ListNotations.

(** One call.  [fl]: the accesses to the storage that raise; [time]: the clock reading. *)
Inductive gcmd :=
| GGet (k : bytes)
| GIn (k : bytes)
| GPut (k v : bytes) (fl : list bool)
| GDel (k : bytes) (fl : list bool)
| GPoi (time k : bytes)
| GPoe (time k : bytes)
| GCheckPoi (p : proof)
| GCheckPoe (p : proof)
| GRoot
| GRootHash.

Inductive gout :=
| OVal (r : result bytes)
| OBool (r : result bool)
| ONone (r : result unit)
| OProof (r : result proof)
| ORoot (r : option bytes)
| OHash (b : bytes).

Section WithHash.
Context {H : Hash}.
(** [lim]: the frames left before RecursionError. *)
Definition mpt_do (lim : nat) (t : mpt) (c : gcmd) : gout * mpt :=
  match c with
  | GGet k => (OVal (mpt_get lim t k), t)
  | GIn k => (OBool (mpt_contains lim t k), t)
  | GPut k v fl => let (r, t') := mpt_update lim fl t k v in (ONone r, t')
  | GDel k fl => let (r, t') := mpt_delete lim fl t k in (ONone r, t')
  | GPoi tm k => (OProof (mpt_get_poi lim tm t k), t)
  | GPoe tm k => (OProof (mpt_get_poe lim tm t k), t)
  | GCheckPoi p => (OBool (mpt_verify_poi lim t p), t)
  | GCheckPoe p => (OBool (mpt_verify_poe lim t p), t)
  | GRoot => (ORoot (m_root t), t)
  | GRootHash => (OHash (root_hash t), t)
  end.
Fixpoint mpt_session (t : mpt) (h : list (nat * gcmd)) : list gout * mpt :=
  match h with
  | [] => ([], t)
  | (lim, c) :: h' => let (o, t1) := mpt_do lim t c in let (os, t2) := mpt_session t1 h' in (o :: os, t2)
  end.
End WithHash.
