(** Properties of copies of an EMPT that others keep (C211-C213).  Theorem statements only; proofs are in ReplicaProofs.v. *)
From Coq Require Import String List Bool Arith NArith.
From Verif Require Import Base Keccak KeccakProofs NibblePath ProofObj Mpt Spec SpecGet SpecEmpt Empt EmptPy SpecEvery SpecShared SpecReplica Examples EveryExamples
  ReplicaProofs ReplicaExamples.
Import ListNotations.

(** C211: a SparseEMPT from bytes of anybody, with the root and the mode of the owner's EMPT, answers as the owner's trie or raises;
    a reference that it returns for a key is the owner's. *)
Theorem C211_received_copy : forall (H : Hash) b t' t, sparse_decode b = Ok t' -> m_root t' = m_root t -> m_secure t' = m_secure t ->
  no_collision (m_log t' ++ m_log t) -> claims t' t.
Proof. exact @decoded_claims. Qed.
Print Assumptions C211_received_copy.

Theorem C211_what_a_copy_answers : forall (H : Hash), (forall b, length (keccak b) = 32) ->
  forall secure h outs e, empt_session (empt_new secure) h = (outs, e) -> efits h -> keys_ok secure (ekeys h) ->
  ekeccak_ok h -> no_collision (m_log (e_trie e)) ->
  exists g, efollows secure (EView [] no_refs false) h outs g /\
  forall t', claims t' (e_trie e) -> truthful t' (e_trie e) /\
  forall lim k, keys_ok secure (k :: ekeys h) -> (blen k < 2 ^ 57)%N ->
    (forall r, trie_reference lim t' k = Ok r -> ev_refs g (r_key r) = Some (r_data r) /\
       (r_key r = k \/ (secure = false /\ ev_refs g k = None /\ sole_extension (ev_refs g) k (r_data r) /\ exists y, r_key r = k ++ y))) /\
    (forall b, mpt_contains lim t' k = Ok b -> (b = true <-> held secure (ev_refs g) k)).
Proof. exact @copy_answers. Qed.
Print Assumptions C211_what_a_copy_answers.

Example C211_applies : let H : Hash := toy in forall s, ok_session s owner_calls /\
  sparse_decode (sent s) = Ok (received s) /\ m_root (received s) = m_root (e_trie (owner s)) /\ m_secure (received s) = m_secure (e_trie (owner s)) /\
  no_collision (m_log (received s) ++ m_log (e_trie (owner s))) /\ length (m_map (received s)) = S (length (m_map (e_trie (owner s)))) /\
  trie_reference 100 (received s) (bs "do") = Ok (mkRef (bs "do") (bs "noun")) /\
  trie_reference 100 (received s) (bs "horse") = Ok (mkRef (bs "horse") (bs "stallion")) /\
  is_ok (trie_reference 100 (received s) (bs "hors")) = false.
Proof.
  intros H s. split; [apply ok_session_b; destruct s; vm_compute; reflexivity|]. split; [destruct s; vm_compute; reflexivity|].
  split; [destruct s; vm_compute; reflexivity|]. split; [destruct s; vm_compute; reflexivity|].
  split; [apply no_collision_b_ok; destruct s; vm_compute; reflexivity|]. destruct s; vm_compute; repeat split.
Qed.

(** C212: a copy on which the acknowledged calls of the owner are repeated has the root of the owner again, or a call raised KeyError. *)
Theorem C212_following_the_owner : forall (H : Hash), (forall b, length (keccak b) = 32) ->
  forall secure h outs e j outs2 e2 t' outs' t2', empt_session (empt_new secure) h = (outs, e) ->
  empt_session e (map at_owner j) = (outs2, e2) -> Forall (eq (ANone (Ok tt))) outs2 ->
  efits (h ++ map at_owner j) -> keys_ok secure (ekeys (h ++ map at_owner j)) -> ekeccak_ok h -> no_collision (m_log (e_trie e2)) ->
  claims t' (e_trie e) -> sparse_session t' (map at_copy j) = (outs', t2') ->
  (Forall (eq (BNone (Ok tt))) outs' /\ m_root t2' = empt_root e2 /\ m_secure t2' = secure /\ truthful t2' (e_trie e2)) \/
  exists n rest, outs' = repeat (BNone (Ok tt)) n ++ BNone (Err KeyError) :: rest.
Proof. exact @copy_follows. Qed.
Print Assumptions C212_following_the_owner.

Example C212_applies : let H : Hash := toy in forall s, ok_session s (owner_calls ++ map at_owner journal) /\
  fst (empt_session (owner s) (map at_owner journal)) = repeat (ANone (Ok tt)) 3 /\
  fst (sparse_session (received s) (map at_copy journal)) = repeat (BNone (Ok tt)) 3 /\
  m_root (snd (sparse_session (received s) (map at_copy journal))) = empt_root (owner2 s) /\ empt_root (owner2 s) <> empt_root (owner s) /\
  nth 0 (fst (sparse_session (little true) (map at_copy journal))) (BNone (Ok tt)) = BNone (Err KeyError).
Proof.
  intros H s. split; [apply ok_session_b; destruct s; vm_compute; reflexivity|]. split; [destruct s; vm_compute; reflexivity|].
  split; [destruct s; vm_compute; reflexivity|]. split; [destruct s; vm_compute; reflexivity|].
  split; [destruct s; vm_compute; discriminate|]. vm_compute. reflexivity.
Qed.

(** C213: who has the root can read the reference of a key from a proof for it, and cannot be deceived by any proof. *)
Theorem C213_any_proof : forall (H : Hash) p root t, m_root t = Some root -> no_collision (proof_nodes p ++ m_log t) ->
  claims (sparse_new (nodes_as_storage (proof_nodes p)) (Some root) (m_secure t)) t.
Proof. exact @light_claims. Qed.
Print Assumptions C213_any_proof.

Theorem C213_reading_a_proof : forall (H : Hash), (forall b, length (keccak b) = 32) ->
  forall secure h outs e, empt_session (empt_new secure) h = (outs, e) -> efits h -> keys_ok secure (ekeys h) ->
  ekeccak_ok h -> no_collision (m_log (e_trie e)) ->
  exists g, efollows secure (EView [] no_refs false) h outs g /\
  forall k b lim0 time p root lim, ev_refs g k = Some b -> mpt_get_poi lim0 time (e_trie e) k = Ok p -> no_collision (m_log (e_trie e) ++ proof_nodes p) ->
    empt_root e = Some root -> frames secure k < lim -> light_reference lim (Some root) secure p k = Ok (mkRef k b).
Proof. exact @light_complete. Qed.
Print Assumptions C213_reading_a_proof.

Example C213_applies : let H : Hash := toy in forall s, ok_session s owner_calls /\
  mpt_get_poi 100 (bs "now") (e_trie (owner s)) (bs "doge") = Ok (doge_nodes s) /\ (exists root, empt_root (owner s) = Some root) /\
  no_collision (m_log (e_trie (owner s)) ++ proof_nodes (doge_nodes s)) /\ no_collision (proof_nodes (doge_nodes s) ++ m_log (e_trie (owner s))) /\
  light_reference 100 (empt_root (owner s)) s (doge_nodes s) (bs "doge") = Ok (mkRef (bs "doge") (bs "coin")) /\
  light_reference 100 (empt_root (owner true)) true (doge_nodes true) (bs "horse") = Err KeyError.
Proof.
  intros H s. split; [apply ok_session_b; destruct s; vm_compute; reflexivity|]. split; [destruct s; vm_compute; reflexivity|].
  split; [destruct s; vm_compute; eexists; reflexivity|]. split; [apply no_collision_b_ok; destruct s; vm_compute; reflexivity|].
  split; [apply no_collision_b_ok; destruct s; vm_compute; reflexivity|]. split; [destruct s; vm_compute; reflexivity|]. vm_compute. reflexivity.
Qed.
