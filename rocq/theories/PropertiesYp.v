(** The trie against the Yellow Paper, and what a call costs.
    Vocabulary: SpecYp.v, SpecCost.v, Spec.v, SpecRlp.v, SpecSparse.v.  Model: Mpt.v, Empt.v. *)
From Coq Require Import String List Bool Arith NArith ZArith Lia.
From Verif Require Import Base BaseProofs Rlp Keccak KeccakProofs NibblePath Node ProofObj Mpt Spec SpecCodec SpecRlp SpecProof SpecWalk Examples
  Empt SpecEmpt SpecSparse SpecYp SpecCost EmptExamples SparseExamples YpProofs YpEmpt CostProofs YpExamples.
Import ListNotations.

(** C145: the root hash is TRIE(J) of appendix D for the pairs of the trie. *)
Theorem C145_root_hash : forall (H : Hash), (forall b, length (keccak b) = 32) ->
  forall secure l t, reachable secure l t -> keys_ok secure (map op_key l) ->
  forall r, yp_root (pairs_of secure (dict_after l)) r <-> root_hash t = r.
Proof. exact @root_is_yp. Qed.
Print Assumptions C145_root_hash.

Theorem C145_root : forall (H : Hash), (forall b, length (keccak b) = 32) ->
  forall secure l t b, reachable secure l t -> keys_ok secure (map op_key l) ->
  yp_text (pairs_of secure (dict_after l)) b -> m_root t = Some (if length b <? 32 then b else keccak b).
Proof. exact @root_reference_is_yp. Qed.
Print Assumptions C145_root.

(** Two keys; the text of the root is derived by hand. *)
Example C145_applies : let H : Hash := toy in
  reachable false two_ops two_trie /\ yp_text (pairs_of false (dict_after two_ops)) (renc root_item) /\
  root_hash two_trie = toy (renc root_item) /\ forall s, reachable s (ex_ops s) (ex_trie s) /\ keys_ok s (map op_key (ex_ops s)).
Proof.
  intros H. split; [exact two_reachable|]. split; [exact J2_text|]. split; [vm_compute; reflexivity|].
  intros s. split; [apply ex_reachable|apply ex_keys0].
Qed.

(** C146: the same for SparseEMPT and EMPT, whose pairs are references. *)
Theorem C146_sparse_root_hash : forall (H : Hash), (forall b, length (keccak b) = 32) ->
  forall secure l t, sreachable secure l t -> keys_ok secure (map op_key l) ->
  forall r, yp_root (refs_of secure (dict_after l)) r <-> root_hash t = r.
Proof. exact @sparse_root_is_yp. Qed.
Print Assumptions C146_sparse_root_hash.

Theorem C146_empt_root_hash : forall (H : Hash), (forall b, length (keccak b) = 32) ->
  forall secure outs e d, ereachable secure outs e -> keys_ok secure (okeys outs) ->
  agrees d (status_after outs) -> forall r, yp_root (refs_of secure d) r <-> empt_root_hash e = r.
Proof. exact @empt_root_is_yp. Qed.
Print Assumptions C146_empt_root_hash.

Example C146_applies : let H : Hash := toy in forall s,
  (sreachable s ex_sops (ex_sparse s) /\ keys_ok s (bs "do" :: map op_key ex_sops)) /\
  (ereachable s ex_couts (ex_clean s) /\ agrees ex_contents (status_after ex_couts)) /\
  ex_contents (bs "do") = Some (bs "noun") /\ root_hash (ex_sparse s) = empt_root_hash (ex_clean s).
Proof.
  intros H s. split; [split; [apply ex_sreachable|apply ex_skeys; destruct s; vm_compute; reflexivity]|].
  split; [split; [apply ex_creachable|exact ex_contents_agree]|]. split; [reflexivity|destruct s; vm_compute; reflexivity].
Qed.

(** C147: an inclusion proof is the texts of the nodes on the way to the key, at most one more than the key has nibbles. *)
Theorem C147_inclusion_proof : forall (H : Hash), (forall b, length (keccak b) = 32) ->
  forall secure l t k v lim time, reachable secure l t -> keys_ok secure (map op_key l) ->
  dict_after l k = Some v -> frames secure k < lim ->
  let J := pairs_of secure (dict_after l) in let q := nibbles (trie_key secure k) in
  exists p L, mpt_get_poi lim time t k = Ok p /\ pf_proof p = map PB L /\
    (forall L', yp_way J q L' <-> L' = L) /\ 1 <= length L <= frames secure k + 1.
Proof. exact @poi_is_way. Qed.
Print Assumptions C147_inclusion_proof.

Example C147_applies : let H : Hash := toy in forall s,
  reachable s (ex_ops s) (ex_trie s) /\ keys_ok s (map op_key (ex_ops s)) /\
  dict_after (ex_ops s) (bs "doge") = Some (bs "coin") /\ frames s (bs "doge") < 100 /\
  length (texts (mpt_get_poi 100 (bs "now") (ex_trie s) (bs "doge"))) = (if s then 2 else 7).
Proof.
  intros H s. split; [apply ex_reachable|]. split; [apply ex_keys0|].
  split; [rewrite ex_ops_are; reflexivity|]. split; [destruct s; cbn; lia|destruct s; vm_compute; reflexivity].
Qed.

(** C148: an exclusion proof is the texts of the nodes on the way to the key and a leaf with the rest of the key. *)
Theorem C148_exclusion_proof : forall (H : Hash), (forall b, length (keccak b) = 32) ->
  forall secure l t k lim time p, reachable secure l t -> keys_ok secure (k :: map op_key l) ->
  frames secure k < lim -> mpt_get_poe lim time t k = Ok p ->
  let J := pairs_of secure (dict_after l) in let q := nibbles (trie_key secure k) in
  exists r L e h, pf_proof p = map PB (L ++ [e]) /\ (forall r' L', yp_trail J q r' L' <-> r' = r /\ L' = L) /\
    length L <= frames secure k + 1 /\ hex_prefix h r true /\ rlp_form e (IList [IBytes h; IBytes null_bytes]).
Proof. exact @poe_is_trail. Qed.
Print Assumptions C148_exclusion_proof.

Example C148_applies : let H : Hash := toy in forall s,
  reachable s (ex_ops s) (ex_trie s) /\ keys_ok s (bs "hound" :: map op_key (ex_ops s)) /\
  frames s (bs "hound") < 100 /\ length (texts (mpt_get_poe 100 (bs "now") (ex_trie s) (bs "hound"))) = (if s then 2 else 4).
Proof.
  intros H s. split; [apply ex_reachable|]. split; [apply ex_keys_ok1; destruct s; vm_compute; reflexivity|].
  split; [destruct s; cbn; lia|destruct s; vm_compute; reflexivity].
Qed.

(** C149: the storage has every node of the tree whose text has at least 32 bytes, under its digest. *)
Theorem C149_storage_complete : forall (H : Hash), (forall b, length (keccak b) = 32) ->
  forall secure l t b, reachable secure l t -> keys_ok secure (map op_key l) ->
  yp_node (pairs_of secure (dict_after l)) b -> 32 <= length b -> dget (m_map t) (keccak b) = Some b.
Proof. exact @storage_has_nodes. Qed.
Print Assumptions C149_storage_complete.

Example C149_applies : let H : Hash := toy in
  reachable false two_ops two_trie /\ yp_node (pairs_of false (dict_after two_ops)) (renc branch_item) /\
  32 <= length (renc branch_item) /\ dget (m_map two_trie) (toy (renc branch_item)) = Some (renc branch_item).
Proof.
  intros H. split; [exact two_reachable|]. split; [exact J2_branch_node|]. split; [vm_compute; lia|vm_compute; reflexivity].
Qed.

(** C150: an update makes at most 2n+3 accesses to the storage, n+2 of them writes, n the nibbles of the key. *)
Theorem C150_update_cost : forall (H : Hash), (forall b, length (keccak b) = 32) ->
  forall secure l t k v lim, reachable secure l t ->
  bounded (fun fl => mpt_update lim fl t k v) t (2 * frames secure k + 3) (frames secure k + 2).
Proof. exact @update_cost. Qed.
Print Assumptions C150_update_cost.

(** The bounds are reached. *)
Example C150_applies : let H : Hash := toy in
  reachable false (map c_op one_hist) one_trie /\ frames false [] = 0 /\
  returned (mpt_update 100 (raises_at 2) one_trie [] (long "none")) = false /\
  returned (mpt_update 100 (raises_at 3) one_trie [] (long "none")) = true /\
  length (m_map (snd (mpt_update 100 [] one_trie [] (long "none")))) = length (m_map one_trie) + 2.
Proof. intros H. split; [exact one_reachable|]. repeat split; vm_compute; reflexivity. Qed.

(** C151: a deletion makes at most 2n+4 accesses, n+1 of them writes. *)
Theorem C151_delete_cost : forall (H : Hash), (forall b, length (keccak b) = 32) ->
  forall secure l t k lim, reachable secure l t ->
  bounded (fun fl => mpt_delete lim fl t k) t (2 * frames secure k + 4) (frames secure k + 1).
Proof. exact @delete_cost. Qed.
Print Assumptions C151_delete_cost.

Example C151_applies : let H : Hash := toy in
  reachable false (map c_op deep_hist) deep_trie /\ frames false [xab] = 2 /\
  returned (mpt_delete 100 (raises_at 7) deep_trie [xab]) = false /\
  returned (mpt_delete 100 (raises_at 8) deep_trie [xab]) = true /\
  length (m_map (snd (mpt_delete 100 [] deep_trie [xab]))) = length (m_map deep_trie) + 3.
Proof. intros H. split; [exact deep_reachable|]. repeat split; vm_compute; reflexivity. Qed.
