(** Properties of proofs of inclusion and exclusion of MPT.
    Vocabulary: Spec.v, SpecProof.v.  Model: Mpt.v, ProofObj.v. *)
From Coq Require Import String List Bool Arith NArith Lia.
From Verif Require Import Base BaseProofs Keccak KeccakProofs NibblePath Node ProofObj Mpt Spec SpecCodec SpecProof Examples
  PoiProofs PoeProofs ProofRefutations.
Import ListNotations.

(** C15: the proof made for a present key is accepted by every trie object with the same root. *)
Theorem C15_inclusion_proof_accepted : forall (H : Hash), (forall b, length (keccak b) = 32) ->
  forall secure l t k v lim lim' time t', reachable secure l t -> keys_ok secure (k :: map op_key l) ->
  dict_after l k = Some v -> frames secure k < lim -> frames secure k < lim' ->
  length (root_ref t) = 32 -> m_root t' = m_root t ->
  exists p, mpt_get_poi lim time t k = Ok p /\ mpt_verify_poi lim' t' p = Ok true.
Proof. exact @poi_complete. Qed.
Print Assumptions C15_inclusion_proof_accepted.

Example C15_applies : let H : Hash := toy in forall s,
  reachable s (ex_ops s) (ex_trie s) /\ keys_ok s (bs "doge" :: map op_key (ex_ops s)) /\
  dict_after (ex_ops s) (bs "doge") = Some (bs "coin") /\ frames s (bs "doge") < 100 /\
  length (root_ref (ex_trie s)) = 32 /\
  m_root (mpt_init [] (m_root (ex_trie s)) s) = m_root (ex_trie s).
Proof.
  intros H s. split; [apply ex_reachable|]. split; [apply ex_keys_ok1; destruct s; vm_compute; reflexivity|].
  rewrite ex_ops_are. split; [reflexivity|]. split; [destruct s; cbn; lia|].
  split; destruct s; reflexivity.
Qed.

(** C16 is false of the code: a trie whose root node is shorter than 32 bytes. *)
Theorem C16_small_trie_inclusion_refuted : let H : Hash := keccak256 in
  exists l t k v lim time p, reachable false l t /\ keys_ok false (k :: map op_key l) /\
  dict_after l k = Some v /\ frames false k < lim /\ mpt_get_poi lim time t k = Ok p /\ mpt_verify_poi lim t p = Ok false.
Proof. exact poi_small_root_refuted. Qed.
Print Assumptions C16_small_trie_inclusion_refuted.

(** C17: an accepted proof, whoever made it, means that the target key or an extension is present. *)
Theorem C17_accepted_inclusion_means_prefix_present : forall (H : Hash), (forall b, length (keccak b) = 32) ->
  forall secure l t t0 lim p, reachable secure l t -> keys_ok secure (map op_key l) ->
  m_root t0 = m_root t -> no_collision (proof_hashed (pf_proof p) ++ hashed_by t) ->
  mpt_verify_poi lim t0 p = Ok true ->
  exists k v r, dict_after l k = Some v /\ trie_key secure k = pf_key p ++ r.
Proof. exact @poi_sound. Qed.
Print Assumptions C17_accepted_inclusion_means_prefix_present.

(** A proof of "cow" with an unused node in front of the last one and trailing garbage bits in a path. *)
Example C17_applies : let H : Hash := toy in exists p,
  mpt_get_poi 100 (bs "0") pets_trie (bs "cow") = Ok p /\
  reachable false pets_ops pets_trie /\
  let p' := mkProof MPT_POI (bs "9") (bs "co") (pf_root p) (pf_proof p ++ [PB [xc2; x2f; x76]]) in
  no_collision (proof_hashed (pf_proof p') ++ hashed_by pets_trie) /\
  mpt_verify_poi 100 pets_trie p' = Ok true.
Proof.
  intros H. eexists. split; [vm_compute; reflexivity|]. split; [exact pets_reachable|]. cbn zeta.
  split; [apply no_collision_b_ok; vm_compute; reflexivity|vm_compute; reflexivity].
Qed.

(** C18 is false of the code: an absent key that is a prefix of a present one. *)
Theorem C18_accepted_inclusion_exact_refuted : let H : Hash := keccak256 in
  exists l t k lim time p, reachable false l t /\ keys_ok false (k :: map op_key l) /\
  dict_after l k = None /\ mpt_get_poi lim time t k = Ok p /\ pf_key p = k /\ mpt_verify_poi lim t p = Ok true.
Proof. exact poi_exact_refuted. Qed.
Print Assumptions C18_accepted_inclusion_exact_refuted.

(** C56: with keys of one length, or in secure mode, acceptance means presence. *)
Theorem C56_accepted_inclusion_means_present : forall (H : Hash), (forall b, length (keccak b) = 32) ->
  forall secure l t t0 lim p k, reachable secure l t -> keys_ok secure (k :: map op_key l) ->
  m_root t0 = m_root t -> no_collision (proof_hashed (pf_proof p) ++ hashed_by t) ->
  mpt_verify_poi lim t0 p = Ok true -> pf_key p = trie_key secure k -> same_length secure (dict_after l) k ->
  exists v, dict_after l k = Some v.
Proof. exact @poi_sound_exact. Qed.
Print Assumptions C56_accepted_inclusion_means_present.

Example C56_applies : let H : Hash := toy in exists p,
  mpt_get_poi 100 (bs "0") pets_trie (bs "cow") = Ok p /\
  reachable false pets_ops pets_trie /\ same_length false (dict_after pets_ops) (bs "fox") /\
  no_collision (proof_hashed (pf_proof p) ++ hashed_by pets_trie) /\
  mpt_verify_poi 100 pets_trie p = Ok true /\ pf_key p = trie_key false (bs "cow").
Proof.
  intros H. eexists. split; [vm_compute; reflexivity|]. split; [exact pets_reachable|]. split; [exact pets_length|].
  split; [apply no_collision_b_ok; vm_compute; reflexivity|]. split; vm_compute; reflexivity.
Qed.

(** C19: a proof is accepted at its own root only. *)
Theorem C19_accepted_proof_names_the_root : forall (H : Hash) lim t p, mpt_verify_poi lim t p = Ok true ->
  pf_root p = root_hash t /\ exists b l, pf_proof p = PB b :: l /\ keccak b = root_hash t.
Proof. exact @poi_fresh_root. Qed.
Print Assumptions C19_accepted_proof_names_the_root.

Theorem C19_stale_proof_rejected : forall (H : Hash), (forall b, length (keccak b) = 32) ->
  forall secure l t1 lim time k p t2 lim2, reachable secure l t1 ->
  mpt_get_poi lim time t1 k = Ok p -> root_hash t2 <> root_hash t1 -> root_is_empty t2 = false ->
  mpt_verify_poi lim2 t2 p = Ok false.
Proof. exact @poi_stale. Qed.
Print Assumptions C19_stale_proof_rejected.

Example C19_applies : let H : Hash := toy in exists p,
  reachable false pets_ops pets_trie /\ mpt_get_poi 100 (bs "0") pets_trie (bs "cow") = Ok p /\
  let t2 := snd (mpt_call pets_trie (del "hen")) in
  root_hash t2 <> root_hash pets_trie /\ root_is_empty t2 = false.
Proof.
  intros H. eexists. split; [exact pets_reachable|]. split; [vm_compute; reflexivity|]. cbn zeta.
  split; [apply bytes_eqb_neq; vm_compute; reflexivity|vm_compute; reflexivity].
Qed.

(** C20 is false of the code: an absent key that diverges inside the extension at the
    root (proof refused), or inside a small extension (the verifier raises). *)
Theorem C20_exclusion_proof_accepted_refuted : let H : Hash := keccak256 in
  exists l t k lim time p, reachable false l t /\ keys_ok false (k :: map op_key l) /\
  dict_after l k = None /\ frames false k < lim /\ mpt_get_poe lim time t k = Ok p /\ mpt_verify_poe lim t p = Ok false.
Proof. exact poe_complete_refuted. Qed.
Print Assumptions C20_exclusion_proof_accepted_refuted.

Theorem C20_exclusion_proof_inline_refuted : let H : Hash := keccak256 in
  exists l t k lim time p, reachable false l t /\ keys_ok false (k :: map op_key l) /\
  dict_after l k = None /\ frames false k < lim /\ mpt_get_poe lim time t k = Ok p /\ mpt_verify_poe lim t p = Err PoeError.
Proof. exact poe_inline_refuted. Qed.
Print Assumptions C20_exclusion_proof_inline_refuted.

(** C21: exclusion proofs work for keys of one length with values of 32 bytes or more. *)
Theorem C21_exclusion_proof_accepted : forall (H : Hash), (forall b, length (keccak b) = 32) ->
  forall secure l t k lim lim' time t', reachable secure l t -> keys_ok secure (k :: map op_key l) ->
  dict_after l k = None -> (exists k0 v0, dict_after l k0 = Some v0) ->
  long_values (dict_after l) -> same_length secure (dict_after l) k -> shares_prefix secure (dict_after l) k ->
  frames secure k < lim -> frames secure k < lim' -> m_root t' = m_root t ->
  exists p, mpt_get_poe lim time t k = Ok p /\ mpt_verify_poe lim' t' p = Ok true.
Proof. exact @poe_complete. Qed.
Print Assumptions C21_exclusion_proof_accepted.

Example C21_applies : let H : Hash := toy in
  reachable false pets_ops pets_trie /\ keys_ok false (bs "fox" :: map op_key pets_ops) /\
  dict_after pets_ops (bs "fox") = None /\ (exists k0 v0, dict_after pets_ops k0 = Some v0) /\
  long_values (dict_after pets_ops) /\ same_length false (dict_after pets_ops) (bs "fox") /\
  shares_prefix false (dict_after pets_ops) (bs "fox") /\ frames false (bs "fox") < 100.
Proof.
  intros H. split; [exact pets_reachable|]. split; [intros E; discriminate|]. split; [vm_compute; reflexivity|].
  split; [exists (bs "dog"); eexists; vm_compute; reflexivity|]. split; [exact pets_long|].
  split; [exact pets_length|]. split; [exact pets_shares|]. cbn. lia.
Qed.

(** C22 is false of the code: an exclusion proof for a present key is accepted. *)
Theorem C22_accepted_exclusion_means_absent_refuted : let H : Hash := keccak256 in
  exists l t k v lim p, reachable false l t /\ keys_ok false (k :: map op_key l) /\
  dict_after l k = Some v /\ frames false k < lim /\ pf_type p = MPT_POE /\ pf_key p = k /\ mpt_verify_poe lim t p = Ok true.
Proof. exact poe_sound_refuted. Qed.
Print Assumptions C22_accepted_exclusion_means_absent_refuted.

(** The same for every trie with two keys or more and values of 32 bytes or more. *)
Theorem C22_every_present_key_deniable_refuted : forall (H : Hash), (forall b, length (keccak b) = 32) ->
  forall secure l t k v lim time, reachable secure l t -> keys_ok secure (map op_key l) ->
  long_values (dict_after l) -> two_keys (dict_after l) -> dict_after l k = Some v -> 2 <= lim ->
  exists p, pf_type p = MPT_POE /\ pf_time p = time /\ pf_key p = trie_key secure k /\ pf_root p = root_hash t /\
    mpt_verify_poe lim t p = Ok true.
Proof. exact @poe_forgery. Qed.
Print Assumptions C22_every_present_key_deniable_refuted.

Example C22_applies : let H : Hash := toy in
  reachable false pets_ops pets_trie /\ long_values (dict_after pets_ops) /\ two_keys (dict_after pets_ops) /\
  exists v, dict_after pets_ops (bs "hen") = Some v.
Proof.
  intros H. split; [exact pets_reachable|]. split; [exact pets_long|]. split; [exact pets_two|].
  eexists. vm_compute. reflexivity.
Qed.

(** C23: a proof of the wrong type is refused whatever it contains; generated proofs
    carry the type, the time, the key the trie uses, and the root. *)
Theorem C23_inclusion_type_checked : forall (H : Hash) lim t p, pf_type p <> MPT_POI -> mpt_verify_poi lim t p = Err TypeError.
Proof. exact @poi_type. Qed.
Print Assumptions C23_inclusion_type_checked.

Theorem C23_exclusion_type_checked : forall (H : Hash) lim t p, pf_type p <> MPT_POE -> mpt_verify_poe lim t p = Err TypeError.
Proof. exact @poe_type. Qed.
Print Assumptions C23_exclusion_type_checked.

Theorem C23_inclusion_proof_fields : forall (H : Hash) lim time t k p, mpt_get_poi lim time t k = Ok p ->
  pf_type p = MPT_POI /\ pf_time p = time /\ pf_key p = trie_key (m_secure t) k /\ pf_root p = root_ref t.
Proof. exact @poi_made. Qed.
Print Assumptions C23_inclusion_proof_fields.

Theorem C23_exclusion_proof_fields : forall (H : Hash) lim time t k p, mpt_get_poe lim time t k = Ok p ->
  pf_type p = MPT_POE /\ pf_time p = time /\ pf_key p = trie_key (m_secure t) k /\ pf_root p = root_hash t.
Proof. exact @poe_made. Qed.
Print Assumptions C23_exclusion_proof_fields.

Example C23_applies : let H : Hash := toy in exists p q,
  mpt_get_poi 100 (bs "0") pets_trie (bs "cow") = Ok p /\ mpt_get_poe 100 (bs "0") pets_trie (bs "fox") = Ok q /\
  mpt_verify_poe 100 pets_trie p = Err TypeError /\ mpt_verify_poi 100 pets_trie q = Err TypeError.
Proof.
  intros H. eexists. eexists. split; [vm_compute; reflexivity|]. split; [vm_compute; reflexivity|].
  split; vm_compute; reflexivity.
Qed.
