(** Properties of SparseEMPT and RootEMPT on their own, and of the nodes of exclusion proofs.
    Vocabulary: Spec.v, SpecProof.v, SpecEmpt.v, SpecGet.v, SpecSparse.v, SpecChain.v.  Model: Mpt.v, Empt.v. *)
From Coq Require Import String List Bool Arith NArith ZArith Lia.
From Verif Require Import Base BaseProofs Rlp Keccak KeccakProofs NibblePath Node ProofObj Mpt Spec SpecCodec SpecProof Examples
  Empt SpecEmpt EmptProofs EmptRefutations EmptExamples SpecGet SpecSparse SparseProofs SpecChain ChainProofs WalkExamples SparseExamples.
Import ListNotations.

(** C113: a SparseEMPT is a dictionary of references. *)
Theorem C113_present : forall (H : Hash), (forall b, length (keccak b) = 32) ->
  forall secure l t k b lim, sreachable secure l t -> keys_ok secure (k :: map op_key l) ->
  dict_after l k = Some b -> frames secure k < lim ->
  trie_reference lim t k = Ok (mkRef k b) /\ mpt_contains lim t k = Ok true.
Proof. exact @sparse_present. Qed.
Print Assumptions C113_present.

Theorem C113_contains : forall (H : Hash), (forall b, length (keccak b) = 32) ->
  forall secure l t k lim, sreachable secure l t -> keys_ok secure (k :: map op_key l) ->
  frames secure k < lim -> secure = true \/ ~ prefixed_in (dict_after l) k ->
  mpt_contains lim t k = Ok (match dict_after l k with Some _ => true | None => false end).
Proof. exact @sparse_contains. Qed.
Print Assumptions C113_contains.

Theorem C113_update_succeeds : forall (H : Hash), (forall b, length (keccak b) = 32) ->
  forall secure l t k b lim res t', sreachable secure l t ->
  (blen k < 2 ^ 57)%N -> (blen b < 2 ^ 57)%N -> sparse_update lim [] t k (VBytes b) = (res, t') ->
  no_collision (m_log t') -> frames secure k < lim ->
  res = Ok tt /\ sreachable secure (l ++ [Put k b]) t'.
Proof. exact @sparse_update_ok. Qed.
Print Assumptions C113_update_succeeds.

Theorem C113_delete_succeeds : forall (H : Hash), (forall b, length (keccak b) = 32) ->
  forall secure l t k b lim res t', sreachable secure l t ->
  (blen k < 2 ^ 57)%N -> keys_ok secure (k :: map op_key l) -> sparse_delete lim false [] t k = (res, t') ->
  no_collision (m_log t') -> frames secure k < lim -> dict_after l k = Some b ->
  res = Ok tt /\ sreachable secure (l ++ [Del k]) t'.
Proof. exact @sparse_delete_ok. Qed.
Print Assumptions C113_delete_succeeds.

Theorem C113_delete_absent_raises : forall (H : Hash), (forall b, length (keccak b) = 32) ->
  forall secure l t k lim cf fl res t', sreachable secure l t ->
  keys_ok secure (k :: map op_key l) -> sparse_delete lim cf fl t k = (res, t') ->
  no_collision (m_log t') -> dict_after l k = None -> exists e, res = Err e.
Proof. exact @sparse_delete_absent. Qed.
Print Assumptions C113_delete_absent_raises.

Theorem C113_delete_missing : forall (H : Hash), (forall b, length (keccak b) = 32) ->
  forall secure l t k lim fl, sreachable secure l t -> keys_ok secure (k :: map op_key l) ->
  frames secure k < lim -> secure = true \/ ~ prefixed_in (dict_after l) k -> dict_after l k = None ->
  sparse_delete lim false fl t k = (Err KeyNotFoundError, t).
Proof. exact @sparse_delete_missing. Qed.
Print Assumptions C113_delete_missing.

Theorem C113_same_root_as_empt : forall (H : Hash), (forall b, length (keccak b) = 32) ->
  forall secure l t outs e, sreachable secure l t -> ereachable secure outs e ->
  keys_ok secure (map op_key l ++ okeys outs) -> agrees (dict_after l) (status_after outs) ->
  root_hash t = empt_root_hash e.
Proof. exact @sparse_empt_root. Qed.
Print Assumptions C113_same_root_as_empt.

Example C113_applies : let H : Hash := toy in forall s,
  sreachable s ex_sops (ex_sparse s) /\ keys_ok s (bs "do" :: map op_key ex_sops) /\
  dict_after ex_sops (bs "do") = Some (bs "noun") /\ dict_after ex_sops (bs "horse") = Some [] /\
  dict_after ex_sops (bs "doge") = None /\ frames s (bs "do") < 100 /\ ~ prefixed_in (dict_after ex_sops) (bs "cat") /\
  no_collision_b (m_log (snd (sparse_update 100 [] (ex_sparse s) (bs "cat") (VBytes (bs "tom"))))) = true /\
  no_collision_b (m_log (snd (sparse_delete 100 false [] (ex_sparse s) (bs "dog")))) = true /\
  ereachable s ex_couts (ex_clean s) /\ no_collision_b (map op_key ex_sops ++ okeys ex_couts) = true /\
  agrees (dict_after ex_sops) (status_after ex_couts) /\ root_hash (ex_sparse s) = empt_root_hash (ex_clean s).
Proof.
  intros H s. split; [apply ex_sreachable|]. split; [apply ex_skeys; vm_compute; reflexivity|]. split; [reflexivity|].
  split; [reflexivity|]. split; [reflexivity|]. split; [destruct s; cbn; lia|]. split.
  { intros (k' & v & (r & Hr & E) & Ed). unfold dict_after, apply_ops, ex_sops in Ed. cbn [fold_left apply_op] in Ed.
    repeat match type of Ed with context [bytes_eqb k' ?x] => destruct (bytes_eqb_spec k' x) as [->|]; [vm_compute in E; discriminate|] end.
    discriminate. }
  split; [destruct s; vm_compute; reflexivity|]. split; [destruct s; vm_compute; reflexivity|]. split; [apply ex_creachable|].
  split; [vm_compute; reflexivity|]. split; [|destruct s; vm_compute; reflexivity].
  intros k. unfold status_after, ex_couts, ex_outs, dict_after, apply_ops, ex_sops.
  cbn [firstn app fold_left apply_op]. unfold step_status. cbn [fst eop_key storable].
  repeat match goal with |- context [bytes_eqb k ?x] => destruct (bytes_eqb_spec k x); [subst; vm_compute; reflexivity|] end.
  reflexivity.
Qed.

(** C114 is false of the code: for an absent key the reference of another key may be returned. *)
Theorem C114_sparse_reference_refuted : let H : Hash := keccak256 in
  exists l t k r lim, sreachable false l t /\ dict_after l k = None /\
  frames false k < lim /\ mpt_contains lim t k = Ok false /\ trie_reference lim t k = Ok r /\ r_key r <> k.
Proof. exact sparse_reference_refuted. Qed.
Print Assumptions C114_sparse_reference_refuted.

Theorem C114_empt_reference_refuted : let H : Hash := keccak256 in
  exists outs e k r lim, ereachable false outs e /\ status_after outs k = Absent /\
  frames false k < lim /\ empt_contains lim e k = Ok false /\ trie_reference lim (e_trie e) k = Ok r /\ r_key r <> k.
Proof. exact empt_reference_refuted. Qed.
Print Assumptions C114_empt_reference_refuted.

(** C115: exactly which reference is returned. *)
Theorem C115_reference_exact : forall (H : Hash), (forall b, length (keccak b) = 32) ->
  forall secure l t k lim r, sreachable secure l t -> keys_ok secure (k :: map op_key l) ->
  frames secure k < lim ->
  trie_reference lim t k = Ok r <->
  dict_after l (r_key r) = Some (r_data r) /\
  (r_key r = k \/ (secure = false /\ dict_after l k = None /\ sole_extension (dict_after l) k (r_data r) /\
     exists x, r_key r = k ++ x)).
Proof. exact @sparse_reference_exact. Qed.
Print Assumptions C115_reference_exact.

Example C115_applies : let H : Hash := toy in forall s,
  sreachable s ex_sops (ex_sparse s) /\ keys_ok s (bs "h" :: map op_key ex_sops) /\ frames s (bs "h") < 100 /\
  trie_reference 100 (ex_sparse s) (bs "dog") = Ok (mkRef (bs "dog") (bs "puppy")) /\
  trie_reference 100 (ex_sparse false) (bs "h") = Ok (mkRef (bs "horse") []) /\
  is_ok (trie_reference 100 (ex_sparse true) (bs "h")) = false.
Proof.
  intros H s. split; [apply ex_sreachable|]. split; [apply ex_skeys; vm_compute; reflexivity|]. split; [destruct s; cbn; lia|].
  split; [destruct s; vm_compute; reflexivity|]. split; vm_compute; reflexivity.
Qed.

(** C116: encodings of SparseEMPT and RootEMPT. *)
Theorem C116_sparse_round_trip : forall (H : Hash), (forall b, length (keccak b) = 32) ->
  forall secure l t b, sreachable secure l t -> sparse_encode t = Ok b ->
  exists t', sparse_decode b = Ok t' /\ m_map t' = m_map t /\ m_root t' = m_root t /\ m_secure t' = m_secure t /\
    behave_alike t t'.
Proof. exact @sparse_round_trip. Qed.
Print Assumptions C116_sparse_round_trip.

Theorem C116_root_round_trip : forall (H : Hash), (forall b, length (keccak b) = 32) ->
  forall root secure, (forall r, root = Some r -> (blen r < 2 ^ 57)%N) ->
  exists b t', root_encode (root_new root secure) = Ok b /\ root_decode b = Ok t' /\
    m_root t' = m_root (root_new root secure) /\ m_secure t' = secure /\ root_hash t' = root_hash (root_new root secure) /\
    behave_alike (root_new root secure) t'.
Proof. exact @root_round_trip. Qed.
Print Assumptions C116_root_round_trip.

Theorem C116_root_can_be_sent : forall (H : Hash), (forall b, length (keccak b) = 32) ->
  forall secure outs e, ereachable secure outs e ->
  exists b t', root_encode (empt_get_root_trie e) = Ok b /\ root_decode b = Ok t' /\
    root_hash t' = empt_root_hash e /\ m_secure t' = secure /\
    forall lim p, mpt_verify_poi lim t' p = mpt_verify_poi lim (e_trie e) p /\
      mpt_verify_poe lim t' p = mpt_verify_poe lim (e_trie e) p.
Proof. exact @root_sent. Qed.
Print Assumptions C116_root_can_be_sent.

Example C116_applies : let H : Hash := toy in forall s,
  sreachable s ex_sops (ex_sparse s) /\ is_ok (sparse_encode (ex_sparse s)) = true /\
  ereachable s ex_outs (ex_empt s) /\
  match root_encode (empt_get_root_trie (ex_empt s)), mpt_get_poi 100 [] (e_trie (ex_empt s)) (bs "dog") with
  | Ok b, Ok p => match root_decode b with Ok t' => mpt_verify_poi 100 t' p | Err e => Err e end
  | _, _ => Err TypeError
  end = Ok true.
Proof.
  intros H s. split; [apply ex_sreachable|]. split; [destruct s; vm_compute; reflexivity|]. split; [apply ex_ereachable|].
  destruct s; vm_compute; reflexivity.
Qed.

(** C117: every node of an accepted exclusion proof is the root or is referred to by another node of the proof. *)
Theorem C117_exclusion_proof_is_a_chain : forall (H : Hash), (forall b, length (keccak b) = 32) ->
  forall lim t p b n r, mpt_verify_poe lim t p = Ok true ->
  has_node p b -> node_decode b = Ok n -> into_reference n = Ok r ->
  r = root_ref t \/ exists b' n', has_node p b' /\ reads_as b' n' /\ In r (node_refs n').
Proof. exact @exclusion_chain. Qed.
Print Assumptions C117_exclusion_proof_is_a_chain.

(** An accepted proof with five nodes; with a foreign node it is refused. *)
Example C117_applies : let H : Hash := toy in exists p b n r, mpt_get_poe 100 [] walk_trie (bs "houx") = Ok p /\
  length (pf_proof p) = 6 /\ mpt_verify_poe 100 walk_trie p = Ok true /\
  nth 3 (pf_proof p) (PB []) = PB b /\ node_decode b = Ok n /\ into_reference n = Ok r /\
  mpt_verify_poe 100 walk_trie (with_node foreign_node p) = Ok false.
Proof.
  intros H. do 4 eexists. split; [vm_compute; reflexivity|]. split; [reflexivity|]. split; [vm_compute; reflexivity|].
  split; [reflexivity|]. split; [vm_compute; reflexivity|]. split; vm_compute; reflexivity.
Qed.
