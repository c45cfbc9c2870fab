(** What MPT does with keys that are not in it: the answers of get, the exceptions of get,
    delete and get_proof_of_inclusion, exclusion proofs.
    Vocabulary: Spec.v, SpecProof.v, SpecGet.v, SpecWalk.v.  Model: Mpt.v. *)
From Coq Require Import String List Bool Arith NArith Lia.
From Verif Require Import Base BaseProofs Keccak KeccakProofs NibblePath ProofObj Mpt Spec SpecCodec SpecProof SpecGet SpecWalk Examples
  MptGetExact WalkProofs PoeExact WalkExamples.
Import ListNotations.

(** C107: exactly what get returns, for present and absent keys. *)
Theorem C107_get_exact : forall (H : Hash), (forall b, length (keccak b) = 32) ->
  forall secure l t k lim v, reachable secure l t -> keys_ok secure (k :: map op_key l) -> frames secure k < lim ->
  mpt_get lim t k = Ok v <-> dict_after l k = Some v \/ (secure = false /\ stray_value (dict_after l) k v).
Proof. exact @get_exact. Qed.
Print Assumptions C107_get_exact.

Example C107_applies : let H : Hash := toy in
  reachable false walk_ops walk_trie /\ keys_ok false (bs "d" :: map op_key walk_ops) /\ frames false (bs "d") < 100 /\
  reachable false (ex_ops false) (ex_trie false) /\
  mpt_get 100 walk_trie (bs "dog") = Ok (bs "puppy") /\ mpt_get 100 walk_trie (bs "d") = Ok [] /\
  mpt_get 100 (ex_trie false) (bs "h") = Ok (bs "stallion").
Proof.
  intros H. split; [exact walk_reachable|]. split; [intros E; discriminate|]. split; [cbn; lia|].
  split; [exact (ex_reachable false)|]. repeat split; vm_compute; reflexivity.
Qed.

(** C108 is false of the code: no KeyError for an absent key, whatever else is stored. *)
Theorem C108_absent_key_raises_KeyError_refuted : forall (H : Hash), (forall b, length (keccak b) = 32) ->
  forall secure l t k lim, reachable secure l t -> keys_ok secure (k :: map op_key l) ->
  dict_after l k = None -> (exists k0 v0, dict_after l k0 = Some v0) -> frames secure k < lim ->
  mpt_get lim t k <> Err KeyError /\ fst (mpt_delete lim [] t k) <> Err KeyError.
Proof. exact @no_KeyError. Qed.
Print Assumptions C108_absent_key_raises_KeyError_refuted.

(** On an empty trie: get raises KeyError until the first key is put, ValueError after the
    last one was deleted; delete raises ValueError always. *)
Theorem C108_empty_trie : forall (H : Hash), (forall b, length (keccak b) = 32) ->
  forall secure l t k lim, reachable secure l t -> keys_ok secure (k :: map op_key l) ->
  (forall x, dict_after l x = None) -> 0 < lim ->
  mpt_get lim t k = Err (if root_falsy t then ValueError else KeyError) /\
  (root_falsy t = true <-> l <> []) /\ mpt_delete lim [] t k = (Err ValueError, t).
Proof. exact @empty_trie_calls. Qed.
Print Assumptions C108_empty_trie.

Example C108_applies : let H : Hash := toy in
  reachable false walk_ops walk_trie /\ keys_ok false (bs "cat" :: map op_key walk_ops) /\
  dict_after walk_ops (bs "cat") = None /\ (exists k0 v0, dict_after walk_ops k0 = Some v0) /\
  mpt_get 100 (mpt_new false) (bs "a") = Err KeyError /\
  mpt_get 100 (snd (mpt_run (mpt_new false) [put "a" "b"; del "a"])) (bs "a") = Err ValueError /\
  reachable false [Put (bs "a") (bs "b"); Del (bs "a")] (snd (mpt_run (mpt_new false) [put "a" "b"; del "a"])).
Proof.
  intros H. split; [exact walk_reachable|]. split; [intros E; discriminate|]. split; [vm_compute; reflexivity|].
  split; [exists (bs "dog"); eexists; vm_compute; reflexivity|]. split; [vm_compute; reflexivity|]. split; [vm_compute; reflexivity|].
  apply (run_reachable false [put "a" "b"; del "a"]); vm_compute; reflexivity.
Qed.

(** C109: which exception get raises for an absent key, from the present keys alone. *)
Theorem C109_get_exceptions : forall (H : Hash), (forall b, length (keccak b) = 32) ->
  forall secure l t k lim e, reachable secure l t -> keys_ok secure (k :: map op_key l) ->
  dict_after l k = None -> (exists k0 v0, dict_after l k0 = Some v0) -> frames secure k < lim ->
  mpt_get lim t k = Err e <-> get_raises (present_keys secure (dict_after l)) (nibbles (trie_key secure k)) e.
Proof. exact @get_Err_raises. Qed.
Print Assumptions C109_get_exceptions.

(** C110: which exception delete raises; the trie is the same afterwards. *)
Theorem C110_delete_exceptions : forall (H : Hash), (forall b, length (keccak b) = 32) ->
  forall secure l t k lim e, reachable secure l t -> keys_ok secure (k :: map op_key l) ->
  dict_after l k = None -> (exists k0 v0, dict_after l k0 = Some v0) -> frames secure k < lim ->
  mpt_delete lim [] t k = (Err e, t) <-> delete_raises (present_keys secure (dict_after l)) (nibbles (trie_key secure k)) e.
Proof. exact @delete_Err_raises. Qed.
Print Assumptions C110_delete_exceptions.

(** C111: when an inclusion proof is made for an absent key, and which exception is raised otherwise. *)
Theorem C111_inclusion_proof_of_absent_key : forall (H : Hash), (forall b, length (keccak b) = 32) ->
  forall secure l t k lim time, reachable secure l t -> keys_ok secure (k :: map op_key l) ->
  dict_after l k = None -> (exists k0 v0, dict_after l k0 = Some v0) -> frames secure k < lim ->
  let K := present_keys secure (dict_after l) in let q := nibbles (trie_key secure k) in
  (forall e, mpt_get_poi lim time t k = Err e <-> poi_raises K q e) /\
  ((exists p, mpt_get_poi lim time t k = Ok p) <-> below K q /\ (edge K q \/ forked K q)).
Proof. exact @poi_Err_raises. Qed.
Print Assumptions C111_inclusion_proof_of_absent_key.

Example C109_applies : let H : Hash := toy in
  reachable false walk_ops walk_trie /\ keys_ok false (bs "cat" :: map op_key walk_ops) /\
  dict_after walk_ops (bs "cat") = None /\ (exists k0 v0, dict_after walk_ops k0 = Some v0) /\ frames false (bs "cat") < 100 /\
  map (fun k => mpt_get 100 walk_trie (bs k)) ["cat"; "h"; "hp"; "ho"; "dogs"; "d"]%string =
    [Err BranchPathError; Err AttributeError; Err ExtensionPathError; Err ExtensionPathError; Err KeyNotFoundError; Ok []] /\
  map (fun k => fst (mpt_delete 100 [] walk_trie (bs k))) ["cat"; "h"; "hp"; "ho"; "dogs"; "d"]%string =
    [Err BranchPathError; Err ExtensionPathError; Err ExtensionPathError; Err ExtensionPathError; Err LeafPathError; Err AssertionError] /\
  map (fun k => match mpt_get_poi 100 [] walk_trie (bs k) with Ok _ => None | Err e => Some e end)
      ["cat"; "h"; "hp"; "ho"; "dogs"; "d"]%string =
    [Some BranchPathError; None; Some ExtensionPathError; Some ExtensionPathError; Some LeafPathError; None].
Proof.
  intros H. split; [exact walk_reachable|]. split; [intros E; discriminate|]. split; [vm_compute; reflexivity|].
  split; [exists (bs "dog"); eexists; vm_compute; reflexivity|]. split; [cbn; lia|].
  split; [vm_compute; reflexivity|]. split; vm_compute; reflexivity.
Qed.

(** C112: exclusion proofs.  Unless the trie is empty or contains answers True, a proof is
    made; it is accepted, refused, or makes the check raise, in these cases. *)
Theorem C112_exclusion_proof_exact : forall (H : Hash), (forall b, length (keccak b) = 32) ->
  forall secure l t k lim lim' time t', reachable secure l t -> keys_ok secure (k :: map op_key l) ->
  dict_after l k = None -> (exists k0 v0, dict_after l k0 = Some v0) -> (blen k < 2 ^ 59)%N ->
  frames secure k < lim -> frames secure k < lim' -> m_root t' = m_root t -> mpt_contains lim t k = Ok false ->
  let K := present_keys secure (dict_after l) in let q := nibbles (trie_key secure k) in
  exists p, mpt_get_poe lim time t k = Ok p /\
    (get_raises K q ExtensionPathError -> outside K q ->
       no_collision (proof_hashed (pf_proof p) ++ hashed_by t) -> mpt_verify_poe lim' t' p = Ok false) /\
    (get_raises K q ExtensionPathError -> ~ outside K q ->
       mpt_verify_poe lim' t' p = Ok true \/ (mpt_verify_poe lim' t' p = Err PoeError /\ ~ long_values (dict_after l))) /\
    (~ get_raises K q ExtensionPathError -> own_tail K q -> mpt_verify_poe lim' t' p = Ok false) /\
    (~ get_raises K q ExtensionPathError -> ~ own_tail K q -> mpt_verify_poe lim' t' p = Ok true).
Proof. exact @poe_exact. Qed.
Print Assumptions C112_exclusion_proof_exact.

Theorem C112_no_exclusion_proof : forall (H : Hash), (forall b, length (keccak b) = 32) ->
  forall secure l t k lim time, reachable secure l t -> keys_ok secure (k :: map op_key l) -> frames secure k < lim ->
  ((forall x, dict_after l x = None) -> mpt_get_poe lim time t k = Err ValueError) /\
  (mpt_contains lim t k = Ok true -> mpt_get_poe lim time t k = Err PoeError).
Proof. exact @poe_refused. Qed.
Print Assumptions C112_no_exclusion_proof.

Example C112_applies : let H : Hash := toy in
  reachable false walk_ops walk_trie /\ keys_ok false (bs "cat" :: map op_key walk_ops) /\
  dict_after walk_ops (bs "cat") = None /\ (exists k0 v0, dict_after walk_ops k0 = Some v0) /\
  map (check walk_trie) ["cat"; "h"; "hp"; "ho"; "dogs"; "d"; "zoo"; "dog"]%string =
    [Ok true; Ok true; Ok true; Ok true; Ok true; Ok true; Ok false; Err PoeError] /\
  reachable false short_ops short_trie /\ check short_trie "aq"%string = Err PoeError /\
  reachable false tail_ops tail_trie /\ own_tail (present_keys false (dict_after tail_ops)) (nibbles (bs "ab")) /\
  check tail_trie "ab"%string = Ok false.
Proof.
  intros H. split; [exact walk_reachable|]. split; [intros E; discriminate|]. split; [vm_compute; reflexivity|].
  split; [exists (bs "dog"); eexists; vm_compute; reflexivity|]. split; [vm_compute; reflexivity|].
  split; [exact short_reachable|]. split; [vm_compute; reflexivity|].
  split; [exact tail_reachable|]. split; [exact tail_own|]. vm_compute. reflexivity.
Qed.
