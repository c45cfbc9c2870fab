(** Properties of plain tries in which values may be empty (C182, C183, C184).  Theorem statements only; proofs are in LooseThms.v,
    LoosePoi.v and LooseRefutations.v. *)
From Coq Require Import String List Bool Arith NArith.
From Verif Require Import Base Keccak KeccakProofs NibblePath ProofObj Mpt Spec SpecProof SpecLoose Examples LooseExamples LooseThms
  LoosePoi LooseRefutations.
Import ListNotations.

(** C182: what a plain trie holds and answers after any updates and deletions, empty values included.  An update makes
    the prefixes of its key that hold the empty value disappear, and an empty value itself is dropped where another key
    extends its key; nothing else differs from a dictionary. *)
Theorem C182_contents : forall (H : Hash), (forall b, length (keccak b) = 32) ->
  forall h rs t, outcomes (mpt_new false) h = (rs, t) -> sized h -> no_collision (m_log t) ->
  exists d, plain_run (fun _ => None) h rs d /\ answers t d.
Proof. exact @plain_every. Qed.
Print Assumptions C182_contents.

(** With enough frames and a storage that does not fail, the rule leaves one outcome. *)
Theorem C182_one_outcome : forall h d rs1 rs2 e1 e2, calm h -> plain_run d h rs1 e1 -> plain_run d h rs2 e2 ->
  map raised rs1 = map raised rs2 /\ (forall q, e1 q = e2 q).
Proof. exact plain_unique. Qed.
Print Assumptions C182_one_outcome.

(** The results leave one outcome, whatever fails. *)
Theorem C182_one_contents : forall h d rs e1 e2, plain_run d h rs e1 -> plain_run d h rs e2 -> forall q, e1 q = e2 q.
Proof. exact plain_same_contents. Qed.
Print Assumptions C182_one_contents.

(** Nothing is lost without empty values, nor where no key extends another. *)
Theorem C182_no_loss : forall (d : kvmap) k v d', takes d k v d' ->
  (v <> [] /\ forall q, d q <> Some []) \/ (forall q w, d q = Some w -> ~ below q k /\ ~ below k q) ->
  forall x, d' x = apply_op d (Put k v) x.
Proof. exact takes_plain. Qed.
Print Assumptions C182_no_loss.

Example C182_applies : let H : Hash := toy in
  outcomes (mpt_new false) loose_hist = ([Ok tt; Ok tt; Err RecursionError; Ok tt; Err AssertionError; Ok tt; Ok tt], loose_trie) /\
  sized loose_hist /\ no_collision (m_log loose_trie) /\ calm [put "dog" ""; put "doge" "y"; del "dog"] /\
  map (fun k => mpt_contains 100 loose_trie (bs k)) ["doge"; "dog"; "do"; "cat"]%string = [Ok true; Ok false; Ok false; Ok true] /\
  map (fun k => mpt_get 100 loose_trie (bs k)) ["doge"; "do"; "cat"; "ca"]%string = [Ok (bs "y"); Ok []; Ok []; Err KeyNotFoundError] /\
  m_root (snd (outcomes loose_trie [del "doge"; del "cat"])) = None.
Proof.
  intros H. split; [vm_compute; reflexivity|]. split; [exact loose_sized|]. split; [exact loose_log|].
  split; [repeat constructor; apply Nat.leb_le; reflexivity|]. repeat split; vm_compute; reflexivity.
Qed.

(** C183: that the root depends on the contents only is false of plain tries that were given an empty value. *)
Theorem C183_root_of_contents_refuted : let H : Hash := keccak256 in exists h1 rs1 t1 h2 rs2 t2 d,
  outcomes (mpt_new false) h1 = (rs1, t1) /\ outcomes (mpt_new false) h2 = (rs2, t2) /\ sized h1 /\ sized h2 /\
  no_collision (m_log t1 ++ m_log t2) /\ plain_run (fun _ => None) h1 rs1 d /\ plain_run (fun _ => None) h2 rs2 d /\
  root_hash t1 <> root_hash t2.
Proof. exact root_history_refuted. Qed.
Print Assumptions C183_root_of_contents_refuted.

(** C184: proofs in plain tries that were given empty values.  The proof of a present key is accepted by every trie with the
    same root, if the root is a digest. *)
Theorem C184_inclusion_accepted : forall (H : Hash), (forall b, length (keccak b) = 32) ->
  forall h rs t d, outcomes (mpt_new false) h = (rs, t) -> sized h -> no_collision (m_log t) -> plain_run (fun _ => None) h rs d ->
  forall k v lim lim' time t', d k = Some v -> 2 * length k < lim -> 2 * length k < lim' ->
  length (root_ref t) = 32 -> m_root t' = m_root t ->
  exists p, mpt_get_poi lim time t k = Ok p /\ mpt_verify_poi lim' t' p = Ok true.
Proof. exact @plain_inclusion. Qed.
Print Assumptions C184_inclusion_accepted.

(** An accepted proof, whoever made it, means that the target key or an extension is present. *)
Theorem C184_accepted_inclusion : forall (H : Hash), (forall b, length (keccak b) = 32) ->
  forall h rs t d, outcomes (mpt_new false) h = (rs, t) -> sized h -> no_collision (m_log t) -> plain_run (fun _ => None) h rs d ->
  forall lim p t', m_root t' = m_root t -> no_collision (proof_hashed (pf_proof p) ++ hashed_by t) ->
  mpt_verify_poi lim t' p = Ok true -> exists r v, d (pf_key p ++ r) = Some v.
Proof. exact @plain_inclusion_sound. Qed.
Print Assumptions C184_accepted_inclusion.

(** A proof of exclusion is made unless the trie is empty or contains answers True. *)
Theorem C184_exclusion_made : forall (H : Hash), (forall b, length (keccak b) = 32) ->
  forall h rs t d, outcomes (mpt_new false) h = (rs, t) -> sized h -> no_collision (m_log t) -> plain_run (fun _ => None) h rs d ->
  forall lim time k, 2 * length k < lim -> (blen k < 2 ^ 59)%N ->
  ((forall q, d q = None) /\ mpt_get_poe lim time t k = Err ValueError) \/
  ((d k <> None \/ false_positive d k) /\ mpt_get_poe lim time t k = Err PoeError) \/
  ((exists q, d q <> None) /\ d k = None /\ ~ false_positive d k /\
   exists p, mpt_get_poe lim time t k = Ok p /\ pf_type p = MPT_POE /\ pf_time p = time /\ pf_key p = k /\ pf_root p = root_hash t).
Proof. exact @plain_exclusion. Qed.
Print Assumptions C184_exclusion_made.

Example C184_applies : let H : Hash := toy in exists d p,
  outcomes (mpt_new false) loose_hist = ([Ok tt; Ok tt; Err RecursionError; Ok tt; Err AssertionError; Ok tt; Ok tt], loose_trie) /\
  sized loose_hist /\ no_collision (m_log loose_trie) /\ plain_run (fun _ => None) loose_hist (fst (loose_run_of loose_hist)) d /\
  d (bs "cat") = Some [] /\ d (bs "dog") = None /\ length (root_ref loose_trie) = 32 /\
  mpt_get_poi 100 (bs "now") loose_trie (bs "cat") = Ok p /\ mpt_verify_poi 100 loose_trie p = Ok true /\
  no_collision (proof_hashed (pf_proof p) ++ hashed_by loose_trie) /\
  raised (mpt_get_poe 100 (bs "now") loose_trie (bs "dog")) = false /\
  mpt_get_poe 100 (bs "now") loose_trie (bs "cat") = Err PoeError.
Proof.
  intros H. destruct loose_contents as (d & P & E1 & E2). exists d. eexists. split; [vm_compute; reflexivity|]. split; [exact loose_sized|].
  split; [exact loose_log|]. split; [exact P|]. split; [exact E1|]. split; [exact E2|]. split; [vm_compute; reflexivity|].
  split; [vm_compute; reflexivity|]. split; [vm_compute; reflexivity|]. split; [apply no_collision_b_ok; vm_compute; reflexivity|].
  split; vm_compute; reflexivity.
Qed.
