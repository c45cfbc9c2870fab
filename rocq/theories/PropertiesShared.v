(** Tries with some of the nodes, tries that share a storage, the size of the storage; which proofs are accepted.
    Vocabulary: SpecShared.v, SpecAudit.v, SpecAccept.v, Spec.v, SpecRlp.v, SpecMt.v.  Model: Mpt.v, MerkleTree.v. *)
From Coq Require Import String List Bool Arith NArith ZArith Lia.
From Verif Require Import Base BaseProofs Rlp Keccak KeccakProofs NibblePath Node ProofObj Mpt Spec SpecCodec SpecRlp Examples
  SpecShared SharedProofs StatelessProofs GrowthProofs SharedExamples SpecAccept AcceptProofs.
From Verif Require MerkleTree SpecMt MtExamples SpecAudit AuditProofs.
Import ListNotations.

(** C152: with the root and some of the nodes a trie answers as the whole trie does, or raises KeyError. *)
Theorem C152_partial_reads : forall (H : Hash), (forall b, length (keccak b) = 32) ->
  forall secure l t t', reachable secure l t -> m_root t' = m_root t -> m_secure t' = m_secure t ->
  consistent (m_map t') (m_map t) -> (exists k v, keys_ok secure (k :: map op_key l) /\ dict_after l k = Some v) -> answers_part t' t.
Proof. exact @partial_reads. Qed.
Print Assumptions C152_partial_reads.

Theorem C152_partial_calls : forall (H : Hash), (forall b, length (keccak b) = 32) ->
  forall secure l t t' c r t1 r' t1', reachable secure l t -> m_root t' = m_root t -> m_secure t' = m_secure t ->
  consistent (m_map t') (m_map t) -> ok_op secure (c_op c) -> mpt_call t c = (r, t1) -> no_collision (m_log t1) -> mpt_call t' c = (r', t1') ->
  (r' = Err KeyError /\ m_root t1' = m_root t) \/
  (r' = r /\ m_root t1' = m_root t1 /\ m_secure t1' = m_secure t1 /\ consistent (m_map t1') (m_map t1)).
Proof. exact @partial_call. Qed.
Print Assumptions C152_partial_calls.

Example C152_applies : let H : Hash := toy in forall s,
  reachable s (ex_ops s) (ex_trie s) /\ keys_ok s (bs "doge" :: map op_key (ex_ops s)) /\
  dict_after (ex_ops s) (bs "doge") = Some (bs "coin") /\
  m_root (doge_trie s) = m_root (ex_trie s) /\ m_secure (doge_trie s) = m_secure (ex_trie s) /\
  consistent (m_map (doge_trie s)) (m_map (ex_trie s)) /\
  mpt_get 100 (doge_trie s) (bs "doge") = Ok (bs "coin") /\
  mpt_get 100 (doge_trie true) (bs "horse") = Err KeyError /\ mpt_get 100 (ex_trie s) (bs "horse") = Ok (bs "stallion").
Proof.
  intros H s. split; [apply ex_reachable|]. split; [apply ex_keys_ok1; destruct s; vm_compute; reflexivity|].
  split; [rewrite ex_ops_are; reflexivity|]. split; [reflexivity|]. split; [destruct s; reflexivity|]. split; [apply doge_consistent|].
  split; [destruct s; vm_compute; reflexivity|]. split; [vm_compute; reflexivity|destruct s; vm_compute; reflexivity].
Qed.

(** C153: tries that share a storage do not notice each other. *)
Theorem C153_shared_storage : forall (H : Hash), (forall b, length (keccak b) = 32) ->
  forall mode h outs w, Forall (fun x => ok_op (mode (fst x)) (c_op (snd x))) h ->
  world_run (world_new mode) h = (outs, w) -> no_collision (w_log w) ->
  forall i rs t, run_results (mpt_new (mode i)) (of i h) = (rs, t) ->
  of i outs = rs /\ m_root (view w i) = m_root t /\ root_hash (view w i) = root_hash t /\ reads_alike t (view w i) /\
  exists l, reachable (mode i) l t.
Proof. exact @shared_storage. Qed.
Print Assumptions C153_shared_storage.

Example C153_applies : let H : Hash := toy in
  Forall (fun x => ok_op (modes (fst x)) (c_op (snd x))) shared_hist /\ world_run (world_new modes) shared_hist = (shared_outs, shared_world) /\
  no_collision (w_log shared_world) /\ map returned_of [0; 1; 2] = [[true; true; false; false]; [true; true; true; true]; [true; true]] /\
  mpt_get 100 (view shared_world 0) (bs "dog") = Ok (bs "puppy") /\ mpt_get 100 (view shared_world 1) (bs "dog") = Err ValueError /\
  mpt_get 100 (view shared_world 2) (bs "do") = Ok (bs "verb").
Proof.
  intros H. split; [exact (shared_ok modes)|]. split; [exact shared_runs|]. split; [exact shared_nocoll|]. repeat split; vm_compute; reflexivity.
Qed.

(** C154: the answers about a key depend on at most n+1 entries of the storage, n the nibbles of the key. *)
Theorem C154_entries_read : forall (H : Hash), (forall b, length (keccak b) = 32) ->
  forall secure l t k, reachable secure l t -> exists R, length R <= frames secure k + 1 /\
  forall t', m_root t' = m_root t -> m_secure t' = m_secure t -> (forall h, In h R -> dget (m_map t') h = dget (m_map t) h) ->
  same_answers t t' k.
Proof. exact @reads_look. Qed.
Print Assumptions C154_entries_read.

Example C154_applies : let H : Hash := toy in forall s,
  reachable s (ex_ops s) (ex_trie s) /\ frames s (bs "") + 1 = (if s then 65 else 1) /\ length (m_map (ex_trie s)) = (if s then 14 else 15).
Proof. intros H s. split; [apply ex_reachable|]. split; destruct s; vm_compute; reflexivity. Qed.

(** C155: an inclusion proof is enough of a storage to answer about its key and to write it. *)
Theorem C155_proof_as_storage : forall (H : Hash), (forall b, length (keccak b) = 32) ->
  forall secure l t k v0 lim time p t', reachable secure l t -> keys_ok secure (k :: map op_key l) ->
  dict_after l k = Some v0 -> mpt_get_poi lim time t k = Ok p ->
  m_root t' = m_root t -> m_secure t' = m_secure t -> m_map t' = nodes_as_storage (proof_nodes p) ->
  no_collision (m_log t ++ proof_nodes p) ->
  same_answers t t' k /\ answers_part t' t /\
  forall v lim' fl r t1 r' t1', ok_op secure (Put k v) -> mpt_update lim' fl t k v = (r, t1) -> no_collision (m_log t1) ->
    mpt_update lim' fl t' k v = (r', t1') -> r' = r /\ m_root t1' = m_root t1 /\ consistent (m_map t1') (m_map t1).
Proof. exact @proof_suffices. Qed.
Print Assumptions C155_proof_as_storage.

Example C155_applies : let H : Hash := toy in forall s,
  mpt_get_poi 100 (bs "now") (ex_trie s) (bs "doge") = Ok (doge_proof s) /\
  m_map (doge_trie s) = nodes_as_storage (proof_nodes (doge_proof s)) /\ no_collision (m_log (ex_trie s) ++ proof_nodes (doge_proof s)) /\
  m_root (snd (mpt_update 100 [] (doge_trie s) (bs "doge") (bs "new"))) = m_root (snd (mpt_update 100 [] (ex_trie s) (bs "doge") (bs "new"))) /\
  m_root (snd (mpt_update 100 [] (doge_trie s) (bs "doge") (bs "new"))) <> m_root (ex_trie s).
Proof.
  intros H s. split; [destruct s; vm_compute; reflexivity|]. split; [reflexivity|]. split; [apply doge_nocoll|].
  split; [destruct s; vm_compute; reflexivity|]. destruct s; vm_compute; discriminate.
Qed.

(** C156: the storage has at most as many entries as the calls could write, n+2 for an update and n+1 for a deletion. *)
Theorem C156_storage_size : forall (H : Hash), (forall b, length (keccak b) = 32) ->
  forall secure h l t, ok_history secure h -> mpt_run (mpt_new secure) h = (l, t) -> no_collision (m_log t) ->
  NoDup (dkeys (m_map t)) /\ length (m_map t) <= list_sum (map (may_write secure) h).
Proof. exact @storage_growth. Qed.
Print Assumptions C156_storage_size.

Example C156_applies : let H : Hash := toy in forall s,
  ok_history s ex_hist /\ mpt_run (mpt_new s) ex_hist = (ex_ops s, ex_trie s) /\ no_collision (m_log (ex_trie s)) /\
  list_sum (map (may_write s) ex_hist) = (if s then 658 else 100).
Proof.
  intros H s. split; [exact (ex_ok s)|]. split; [rewrite ex_trie_eq; apply surjective_pairing|]. split; [apply ex_nocoll|destruct s; vm_compute; reflexivity].
Qed.

(** C157: the proofs of a Merkle tree are the audit paths of RFC 6962, no longer than the logarithm of the number of values. *)
Theorem C157_audit_path : forall (H : Hash) s t vs v time, SpecMt.built_over s t vs -> In v vs -> exists i p,
  SpecAudit.first_at (SpecMt.leaves_of s vs) i (if s then keccak v else v) /\ MerkleTree.get_poi t time (MerkleTree.VBytes v) = (Ok p, t) /\
  pf_type p = [x4d; x54; x2d; x50; x4f; x49] /\ pf_time p = time /\ pf_key p = v /\
  SpecAudit.lower_hex (pf_root p) (SpecMt.merkle_root (SpecMt.leaves_of s vs)) /\
  SpecAudit.written (SpecAudit.audit (SpecMt.tree_of (SpecMt.leaves_of s vs)) i) (pf_proof p).
Proof. exact @AuditProofs.poi_written. Qed.
Print Assumptions C157_audit_path.

Theorem C157_length : forall (H : Hash) s t vs v time p, SpecMt.built_over s t vs -> In v vs ->
  MerkleTree.get_poi t time (MerkleTree.VBytes v) = (Ok p, t) -> length (pf_proof p) <= Nat.log2_up (length vs).
Proof. exact @AuditProofs.poi_len. Qed.
Print Assumptions C157_length.

(** Five values, the last put twice: the longest proof has three steps. *)
Example C157_applies : let H : Hash := toy in forall s,
  SpecMt.built_over s (MtExamples.ex_mt s) MtExamples.ex_mt_vals /\ Nat.log2_up (length MtExamples.ex_mt_vals) = 3 /\
  map (fun v => length (pf_proof (MtExamples.ex_poi s v))) MtExamples.ex_mt_vals = [3; 3; 3; 3; 3].
Proof. intros H s. split; [apply MtExamples.ex_mt_built|]. split; [reflexivity|destruct s; vm_compute; reflexivity]. Qed.

(** C158: exactly which inclusion proofs a trie, whatever it holds, accepts. *)
Theorem C158_accepted_inclusion : forall (H : Hash) lim t p, mpt_verify_poi lim t p = Ok true <-> accepts_inclusion lim t p.
Proof. exact @accept_poi. Qed.
Print Assumptions C158_accepted_inclusion.

(** An empty key is accepted with any proof that starts at the root and whose root is a leaf or a branch. *)
Example C158_applies : let H : Hash := toy in forall s,
  accepts_inclusion 100 (ex_trie s) (doge_proof s) /\
  (~ accepts_inclusion 100 (ex_trie s) (with_nodes (doge_proof s) (tl (pf_proof (doge_proof s))))) /\
  (accepts_inclusion 100 (ex_trie s) (mkProof (pf_type (doge_proof s)) [] [] (pf_root (doge_proof s)) (pf_proof (doge_proof s))) <-> s = true).
Proof.
  intros H s. split; [apply accept_poi; destruct s; vm_compute; reflexivity|].
  split; [intros X; apply accept_poi in X; revert X; destruct s; vm_compute; discriminate|].
  split; [|intros ->; apply accept_poi; vm_compute; reflexivity]. intros X. apply accept_poi in X. revert X. destruct s; [reflexivity|vm_compute; discriminate].
Qed.

(** C159: exactly which exclusion proofs it accepts. *)
Theorem C159_accepted_exclusion : forall (H : Hash) lim t p, mpt_verify_poe lim t p = Ok true <-> accepts_exclusion lim t p.
Proof. exact @accept_poe. Qed.
Print Assumptions C159_accepted_exclusion.

(** The second proof lacks the nodes after the first; the third has a node too many. *)
Example C159_applies : let H : Hash := toy in forall s,
  accepts_exclusion 100 (ex_trie s) (hound_proof s) /\
  (let p := with_nodes (hound_proof s) [hd (PB []) (pf_proof (hound_proof s)); last (pf_proof (hound_proof s)) (PB [])] in
   accepts_exclusion 100 (ex_trie s) p) /\
  ~ accepts_exclusion 100 (ex_trie s) (with_nodes (hound_proof s) (hd (PB []) (pf_proof (hound_proof s)) :: pf_proof (doge_proof s) ++ pf_proof (hound_proof s))).
Proof.
  intros H s. split; [apply accept_poe; destruct s; vm_compute; reflexivity|].
  split; [apply accept_poe; destruct s; vm_compute; reflexivity|].
  intros X. apply accept_poe in X. revert X. destruct s; vm_compute; discriminate.
Qed.
