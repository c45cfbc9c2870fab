(** Specification vocabulary for proofs of inclusion and exclusion. *)
From Coq Require Import List Bool Arith NArith.
From Verif Require Import Base Rlp NibblePath Node ProofObj Mpt Spec SpecCodec.
Import ListNotations.

Section WithHash.
Context {H : Hash}.

(** The key as the trie sees it, and as [Proof.target_key] holds it. *)
Definition trie_key (secure : bool) (k : bytes) : bytes := if secure then keccak k else k.

(** The byte strings the verifier hashes to file the nodes of a proof: each one
    decoded and encoded again. *)
Definition proof_hashed (l : list pelem) : list bytes :=
  flat_map (fun e => match e with
                     | PB b => match node_decode b with
                               | Ok n => match node_encode n with Ok e => [e] | Err _ => [] end
                               | Err _ => [] end
                     | PPair _ _ => [] end) l.

(** At least two keys are present. *)
Definition two_keys (d : kvmap) : Prop := exists k1 k2 v1 v2, k1 <> k2 /\ d k1 = Some v1 /\ d k2 = Some v2.

(** [k] begins with every nibble sequence that all the (two or more) present keys begin with. *)
Definition shares_prefix (secure : bool) (d : kvmap) (k : bytes) : Prop :=
  two_keys d -> forall c,
    (forall k' v, d k' = Some v -> exists r, nibbles (trie_key secure k') = c ++ r) ->
    exists r, nibbles (trie_key secure k) = c ++ r.

(** Present keys are as long as [k] (as the trie sees them: always so in secure mode). *)
Definition same_length (secure : bool) (d : kvmap) (k : bytes) : Prop :=
  secure = true \/ forall k' v, d k' = Some v -> length k' = length k.

Definition long_values (d : kvmap) : Prop := forall k v, d k = Some v -> 32 <= length v.
End WithHash.

(** An upper bound for the size of the stored nodes in an encoding. *)
Definition storage_size (t : mpt) : N :=
  fold_right (fun e n => (N.of_nat (length e) + 9 + n)%N) 0%N (map snd (m_map t)).

(** The same calls, with the same faults, have the same results on both objects, and all
    reads agree at every point. *)
Definition behave_alike {H : Hash} (t t' : mpt) : Prop :=
  reads_alike t t' /\ forall h,
    fst (mpt_run t' h) = fst (mpt_run t h) /\ reads_alike (snd (mpt_run t h)) (snd (mpt_run t' h)).
