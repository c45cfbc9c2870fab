(** Copies of an EMPT that others keep: received as bytes from anyone, brought up to date from a journal of the owner's
    calls, or made of the nodes of a proof. *)
From Coq Require Import List Bool Arith.
From Verif Require Import Base ProofObj Mpt Spec Empt EmptPy SpecShared.
Import ListNotations.

(** A call of the owner that is passed on to the others. *)
Inductive entry := JPut (k : bytes) (v : value) | JDel (k : bytes).
(** What the owner did, and what the others do: the copy is given the bytes of the value. *)
Definition at_owner (x : nat * entry) : nat * ecmd :=
  (fst x, match snd x with JPut k v => QPut (KBytes k) v [] false | JDel k => QDel (KBytes k) false false [] end).
Definition at_copy (x : nat * entry) : nat * scmd :=
  (fst x, match snd x with JPut k v => TPut (KBytes k) (VBytes (val_bytes v)) [] | JDel k => TDel (KBytes k) false [] end).

Section WithHash.
Context {H : Hash}.

(** [t'] has the root and the mode of [t], and texts under their digests, which are not digests of other texts of [t]. *)
Definition claims (t' t : mpt) : Prop := m_root t' = m_root t /\ m_secure t' = m_secure t /\
  exists l, (forall h x, dget (m_map t') h = Some x -> h = keccak x /\ In x l) /\ no_collision (l ++ m_log t).

(** Whatever [t'] answers is what [t] answers. *)
Definition truthful (t' t : mpt) : Prop := forall lim k,
  (forall r, trie_reference lim t' k = Ok r -> trie_reference lim t k = Ok r) /\
  (forall b, mpt_contains lim t' k = Ok b -> mpt_contains lim t k = Ok b) /\
  (forall p, mpt_verify_poi lim t' p = mpt_verify_poi lim t p /\ mpt_verify_poe lim t' p = mpt_verify_poe lim t p).

(** SparseEMPT({keccak_hash(n): n for n in proof.proof}, root=root, secure=secure).get_reference(k). *)
Definition light_reference (lim : nat) (root : option bytes) (secure : bool) (p : proof) (k : bytes) : result dref :=
  trie_reference lim (sparse_new (nodes_as_storage (proof_nodes p)) root secure) k.
End WithHash.
