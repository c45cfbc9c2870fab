(** An owner, a copy sent as bytes with a made-up node in it, a journal, a reader with a proof.  Tests, not proofs. *)
From Coq Require Import List Bool Arith NArith String.
From Verif Require Import Base Rlp Keccak KeccakProofs Node ProofObj Mpt Spec Examples Empt EmptPy SpecEvery EveryExamples SpecShared SpecReplica.
Import ListNotations.
#[local] Instance K : Hash := toy.

Definition owner_calls : list (nat * ecmd) := firstn 4 quiet ++ [(100, QPut (KBytes (bs "horse")) (VBytes (bs "stallion")) [] false)].
Definition owner (s : bool) : empt := snd (empt_session (empt_new s) owner_calls).
Definition sent (s : bool) : bytes :=
  match m_root (e_trie (owner s)) with
  | Some r => renc (IList [IBytes r; IList (map IBytes (bs "no node at all, just some forty bytes of text" :: map snd (m_map (e_trie (owner s))))); e_bool s])
  | None => []
  end.
Definition received (s : bool) : mpt := match sparse_decode (sent s) with Ok t => t | Err _ => mpt_new s end.
Definition journal : list (nat * entry) :=
  [(100, JPut (bs "horse") (VObj true true (bs "mare"))); (100, JDel (bs "dog")); (100, JPut (bs "cat") (VBytes (bs "kitten")))].
Definition owner2 (s : bool) : empt := snd (empt_session (owner s) (map at_owner journal)).
(** The root and the nodes of the proof for "doge". *)
Definition doge_nodes (s : bool) : proof := match mpt_get_poi 100 (bs "now") (e_trie (owner s)) (bs "doge") with Ok p => p | Err _ => mkProof [] [] [] [] [] end.
Definition little (s : bool) : mpt := sparse_new (nodes_as_storage (proof_nodes (doge_nodes s))) (empt_root (owner s)) s.
