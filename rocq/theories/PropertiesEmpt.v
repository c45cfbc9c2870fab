(** Properties of DataReference, EMPT, SparseEMPT and RootEMPT.
    Vocabulary: Spec.v, SpecProof.v, SpecEmpt.v.  Model: Mpt.v, Empt.v, EmptShared.v. *)
From Coq Require Import String List Bool Arith NArith ZArith Lia.
From Verif Require Import Base BaseProofs Rlp Keccak KeccakProofs NibblePath Node ProofObj Mpt Spec SpecCodec SpecProof Examples
  MptRefutations Empt SpecEmpt EmptShared EmptProofs EmptProofs2 EmptRefutations EmptExamples.
Import ListNotations.

(** C31: references survive encoding; what decodes is the encoding of a reference (with the right hash). *)
Theorem C31_reference_round_trip : forall (H : Hash) r b, ref_encode r = Ok b -> ref_decode b = Ok r.
Proof. exact @ref_round_trip. Qed.
Print Assumptions C31_reference_round_trip.

Theorem C31_reference_encodes : forall (H : Hash), (forall b, length (keccak b) = 32) ->
  forall r, (blen (r_key r) < 2 ^ 57)%N -> (blen (r_data r) < 2 ^ 57)%N ->
  exists b, ref_encode r = Ok b /\ b <> [] /\ (blen b < 2 ^ 59)%N.
Proof. exact @ref_encode_total. Qed.
Print Assumptions C31_reference_encodes.

Theorem C31_reference_decode_is_exact : forall (H : Hash) b r, ref_decode b = Ok r -> ref_encode r = Ok b.
Proof. exact @ref_decode_sound. Qed.
Print Assumptions C31_reference_decode_is_exact.

Example C31_applies : let H : Hash := toy in exists b, ref_encode (mkRef (bs "do") (bs "verb")) = Ok b /\
  ref_decode b = Ok (mkRef (bs "do") (bs "verb")) /\ is_ok (ref_decode (b ++ [x00])) = false /\
  is_ok (ref_decode (xcd :: List.tl b)) = false.
Proof. eexists. split; [vm_compute; reflexivity|]. split; [vm_compute; reflexivity|]. split; vm_compute; reflexivity. Qed.

(** C32 is false of the code, whatever the hash: the boundary between key and data is not hashed. *)
Theorem C32_reference_equality_refuted : forall (H : Hash), exists a b,
  r_key a <> r_key b /\ r_data a <> r_data b /\ ref_eq a b = true.
Proof. exact @ref_eq_refuted. Qed.
Print Assumptions C32_reference_equality_refuted.

(** C67: the part that holds, for keys of the same length. *)
Theorem C67_reference_equality_same_key_length : forall (H : Hash), (forall b, length (keccak b) = 32) ->
  forall a b, length (r_key a) = length (r_key b) -> no_collision [r_key a ++ r_data a; r_key b ++ r_data b] ->
  ref_eq a b = true -> a = b.
Proof. exact @ref_eq_same_key_len. Qed.
Print Assumptions C67_reference_equality_same_key_length.

Example C67_applies : let H : Hash := toy in let a := mkRef (bs "do") (bs "verb") in let b := mkRef (bs "do") (bs "verb") in
  length (r_key a) = length (r_key b) /\ no_collision [r_key a ++ r_data a; r_key b ++ r_data b] /\ ref_eq a b = true.
Proof. intros H a b. split; [reflexivity|]. split; [apply no_collision_b_ok; vm_compute; reflexivity|vm_compute; reflexivity]. Qed.

(** C33: what was acknowledged is what is read. *)
Theorem C33_present_key_reads : forall (H : Hash), (forall b, length (keccak b) = 32) ->
  forall secure outs e k v lim, ereachable secure outs e -> keys_ok secure (k :: okeys outs) ->
  status_after outs k = Present v -> frames secure k < lim ->
  empt_get lim e k = Ok v /\ empt_contains lim e k = Ok true.
Proof. exact @present_get. Qed.
Print Assumptions C33_present_key_reads.

Theorem C33_absent_key_raises : forall (H : Hash), (forall b, length (keccak b) = 32) ->
  forall secure outs e k lim, ereachable secure outs e -> status_after outs k = Absent ->
  empt_get lim e k = Err KeyError.
Proof. exact @absent_get. Qed.
Print Assumptions C33_absent_key_raises.

Theorem C33_absent_key_not_contained : forall (H : Hash), (forall b, length (keccak b) = 32) ->
  forall secure outs e k lim, ereachable secure outs e -> keys_ok secure (k :: okeys outs) ->
  status_after outs k = Absent -> frames secure k < lim -> secure = true \/ ~ maybe_prefixed (status_after outs) k ->
  empt_contains lim e k = Ok false.
Proof. exact @absent_contains. Qed.
Print Assumptions C33_absent_key_not_contained.

Theorem C33_keys_and_length : forall (H : Hash), (forall b, length (keccak b) = 32) ->
  forall secure outs e, ereachable secure outs e -> (forall k, status_after outs k <> Unknown) ->
  NoDup (empt_keys e) /\ empt_len e = length (empt_keys e) /\
  forall k, In k (empt_keys e) <-> exists v, status_after outs k = Present v.
Proof. exact @keys_exact. Qed.
Print Assumptions C33_keys_and_length.

Theorem C33_delete_absent_changes_nothing : forall (H : Hash), (forall b, length (keccak b) = 32) ->
  forall secure outs e k lim cf df fl, ereachable secure outs e -> status_after outs k = Absent ->
  exists x, empt_delete lim cf df fl e k = (Err x, e).
Proof. exact @absent_delete. Qed.
Print Assumptions C33_delete_absent_changes_nothing.

Theorem C33_delete_absent_error : forall (H : Hash), (forall b, length (keccak b) = 32) ->
  forall secure outs e k lim fl, ereachable secure outs e -> keys_ok secure (k :: okeys outs) ->
  status_after outs k = Absent -> frames secure k < lim -> secure = true \/ ~ maybe_prefixed (status_after outs) k ->
  empt_delete lim false false fl e k = (Err KeyNotFoundError, e).
Proof. exact @absent_delete_knf. Qed.
Print Assumptions C33_delete_absent_error.

Theorem C33_update_succeeds : forall (H : Hash), (forall b, length (keccak b) = 32) ->
  forall secure outs e k v lim r e', ereachable secure outs e -> eok_op (EPut k v) -> storable v = true ->
  frames secure k < lim -> empt_update lim [] false e k v = (r, e') -> no_collision (m_log (e_trie e')) ->
  r = Ok tt /\ ereachable secure (outs ++ [(EPut k v, true)]) e'.
Proof. exact @put_succeeds. Qed.
Print Assumptions C33_update_succeeds.

Theorem C33_delete_succeeds : forall (H : Hash), (forall b, length (keccak b) = 32) ->
  forall secure outs e k v lim r e', ereachable secure outs e -> (blen k < 2 ^ 57)%N ->
  keys_ok secure (k :: okeys outs) -> status_after outs k = Present v -> frames secure k < lim ->
  empt_delete lim false false [] e k = (r, e') -> no_collision (m_log (e_trie e')) ->
  r = Ok tt /\ ereachable secure (outs ++ [(EDel k, true)]) e'.
Proof. exact @del_succeeds. Qed.
Print Assumptions C33_delete_succeeds.

Example C33_applies : let H : Hash := toy in forall s,
  ereachable s ex_outs (ex_empt s) /\ keys_ok s (bs "dog" :: okeys ex_outs) /\
  status_after ex_outs (bs "dog") = Present (VObj true true (bs "puppy")) /\
  status_after ex_outs (bs "horse") = Present (VBytes []) /\ status_after ex_outs (bs "doge") = Absent /\
  status_after ex_outs (bs "hen") = Unknown /\
  ereachable s ex_couts (ex_clean s) /\ (forall k, status_after ex_couts k <> Unknown) /\
  no_collision_b (m_log (e_trie (snd (empt_update 100 [] false (ex_empt s) (bs "hen") (VBytes (bs "egg")))))) = true /\
  no_collision_b (m_log (e_trie (snd (empt_delete 100 false false [] (ex_empt s) (bs "dog"))))) = true.
Proof.
  intros H s. split; [apply ex_ereachable|]. split; [apply ex_ekeys; vm_compute; reflexivity|].
  split; [reflexivity|]. split; [reflexivity|]. split; [reflexivity|]. split; [reflexivity|].
  split; [apply ex_creachable|]. split; [exact ex_cknown|]. split; destruct s; vm_compute; reflexivity.
Qed.
(** Nothing that may be present is a prefix of "cat". *)
Example C33_applies_prefix : ~ maybe_prefixed (status_after ex_outs) (bs "cat").
Proof.
  intros (k' & (r & Hr & E) & Hs). apply Hs. clear Hs. unfold bs in E. cbn in E.
  destruct k' as [|a [|b [|c [|]]]]; cbn in E; [reflexivity| | | |].
  - injection E as <- _. reflexivity.
  - injection E as <- <- _. reflexivity.
  - injection E as <- <- <- E. destruct r; [contradiction|discriminate].
  - discriminate.
Qed.

(** C63 is false of the code: membership of absent keys, and the error of deleting them. *)
Theorem C63_absent_key_not_contained_refuted : let H : Hash := keccak256 in
  exists outs e k lim, ereachable false outs e /\ status_after outs k = Absent /\ frames false k < lim /\
  empt_contains lim e k = Ok true /\ empt_delete lim false false [] e k = (Err KeyError, e).
Proof. exact delete_absent_keyerror. Qed.
Print Assumptions C63_absent_key_not_contained_refuted.

(** C34: data changed behind the back of the EMPT is not returned. *)
Theorem C34_tampered_data_detected : forall (H : Hash), (forall b, length (keccak b) = 32) ->
  forall secure outs e k v lim ds w, ereachable secure outs e -> keys_ok secure (k :: okeys outs) ->
  status_after outs k = Present v -> frames secure k < lim -> empt_get lim (mkEmpt ds (e_trie e)) k = Ok w ->
  no_collision [k ++ val_bytes v; k ++ val_bytes w] -> dget ds k = Some w /\ val_bytes w = val_bytes v.
Proof. exact @tamper_detected. Qed.
Print Assumptions C34_tampered_data_detected.

(** The object replaced by its bytes is accepted; other bytes are not. *)
Example C34_applies : let H : Hash := toy in forall s,
  empt_get 100 (mkEmpt [(bs "dog", VBytes (bs "puppy"))] (e_trie (ex_empt s))) (bs "dog") = Ok (VBytes (bs "puppy")) /\
  empt_get 100 (mkEmpt [(bs "dog", VBytes (bs "kitten"))] (e_trie (ex_empt s))) (bs "dog") = Err InvalidReferenceError /\
  no_collision_b [bs "dog" ++ bs "puppy"; bs "dog" ++ bs "puppy"] = true.
Proof. intros H s. destruct s; split; [|split| |split]; vm_compute; reflexivity. Qed.

(** C35: after any failures, a read returns what was acknowledged last, or raises. *)
Theorem C35_reads_are_acknowledged : forall (H : Hash) secure outs e lim k v, ereachable secure outs e ->
  empt_get lim e k = Ok v -> acked_after outs k = Some v.
Proof. exact @get_is_acked. Qed.
Print Assumptions C35_reads_are_acknowledged.

Theorem C35_other_keys_unaffected : forall (H : Hash), (forall b, length (keccak b) = 32) ->
  forall secure outs e c r e' k v lim, ereachable secure outs e -> eok_op (ec_op c) -> empt_call e c = (r, e') ->
  no_collision (m_log (e_trie e')) -> k <> eop_key (ec_op c) -> keys_ok secure (k :: eop_key (ec_op c) :: okeys outs) ->
  frames secure k < lim ->
  (status_after outs k = Present v -> empt_get lim e' k = Ok v /\ empt_contains lim e' k = Ok true) /\
  (status_after outs k = Absent -> empt_get lim e' k = Err KeyError).
Proof. exact @other_keys. Qed.
Print Assumptions C35_other_keys_unaffected.

Example C35_applies : let H : Hash := toy in forall s,
  let c := ECall (EPut (bs "do") (VBytes (bs "adverb"))) 100 false true [] in
  let e' := snd (empt_call (ex_empt s) c) in
  is_ok (fst (empt_call (ex_empt s) c)) = false /\ no_collision_b (m_log (e_trie e')) = true /\
  no_collision_b (bs "dog" :: bs "do" :: okeys ex_outs) = true /\
  empt_get 100 (ex_empt s) (bs "do") = Ok (VBytes (bs "noun")) /\ acked_after ex_outs (bs "do") = Some (VBytes (bs "noun")).
Proof.
  intros H s c e'. split; [destruct s; vm_compute; reflexivity|]. split; [destruct s; vm_compute; reflexivity|].
  split; [vm_compute; reflexivity|]. split; [destruct s; vm_compute; reflexivity|reflexivity].
Qed.

(** C36 is false of the code. *)
Theorem C36_update_atomic_refuted : let H : Hash := keccak256 in
  exists outs e k v w lim e', ereachable false outs e /\ status_after outs k = Present v /\
  empt_get lim e k = Ok v /\ empt_update lim [] true e k w = (Err StorageFault, e') /\
  empt_get lim e' k = Err InvalidReferenceError.
Proof. exact update_not_atomic. Qed.
Print Assumptions C36_update_atomic_refuted.

Theorem C36_delete_atomic_refuted : let H : Hash := keccak256 in
  exists outs e k v lim fl e', ereachable false outs e /\ status_after outs k = Present v /\
  empt_get lim e k = Ok v /\ empt_delete lim false false fl e k = (Err StorageFault, e') /\
  empt_get lim e' k = Err KeyError /\ empt_contains lim e' k = Ok true.
Proof. exact delete_not_atomic. Qed.
Print Assumptions C36_delete_atomic_refuted.

Theorem C36_failed_insertion_stuck_refuted : let H : Hash := keccak256 in
  exists outs e k lim, ereachable false outs e /\ acked_after outs k = None /\
  empt_contains lim e k = Ok true /\ empt_get lim e k = Err KeyError /\ fst (empt_delete lim false false [] e k) = Err KeyError.
Proof. exact stuck_key. Qed.
Print Assumptions C36_failed_insertion_stuck_refuted.

(** C37: build_trie on an empty trie is updating the keys one by one. *)
Theorem C37_build_trie : forall (H : Hash), (forall b, length (keccak b) = 32) ->
  forall secure lim ds r e', NoDup (dkeys ds) ->
  Forall (fun kv => eok_op (EPut (fst kv) (snd kv)) /\ frames secure (fst kv) < lim /\ exists b, snd kv = VBytes b) ds ->
  empt_build lim (mkEmpt ds (mpt_new secure)) = (r, e') -> no_collision (m_log (e_trie e')) ->
  r = Ok tt /\ e_data e' = ds /\ ereachable secure (map put_out ds) e' /\
  (keys_ok secure (dkeys ds) -> forall k v, dget ds k = Some v -> empt_get lim e' k = Ok v).
Proof. exact @build_trie_ok. Qed.
Print Assumptions C37_build_trie.

Definition C37_ds : dict value := map (fun kv => (bs (fst kv), VBytes (bs (snd kv))))
  [("do", "verb"); ("dog", "puppy"); ("doge", ""); ("horse", "stallion")]%string.
Example C37_applies : let H : Hash := toy in forall s, NoDup (dkeys C37_ds) /\
  Forall (fun kv => eok_op (EPut (fst kv) (snd kv)) /\ frames s (fst kv) < 100 /\ exists b, snd kv = VBytes b) C37_ds /\
  no_collision_b (m_log (e_trie (snd (empt_build 100 (mkEmpt C37_ds (mpt_new s)))))) = true /\
  no_collision_b (dkeys C37_ds) = true.
Proof.
  intros H s. split; [|split; [|split; [destruct s; vm_compute; reflexivity|vm_compute; reflexivity]]].
  - repeat constructor; cbn; intuition discriminate.
  - repeat (apply Forall_cons; [split; [split; vm_compute; reflexivity|split; [destruct s; cbn; lia|eexists; reflexivity]]|]).
    apply Forall_nil.
Qed.

(** C38 is false of the code: rebuilding raises and destroys data. *)
Theorem C38_rebuild_refuted : let H : Hash := keccak256 in
  exists outs e k v lim e', ereachable false outs e /\ status_after outs k = Present v /\
  empt_get lim e k = Ok v /\ empt_build lim e = (Err RuntimeError, e') /\ empt_get lim e' k = Err KeyError.
Proof. exact rebuild_refuted. Qed.
Print Assumptions C38_rebuild_refuted.

(** C64 is false of the code: build_trie does not encode objects, which update accepts. *)
Theorem C64_build_trie_objects_refuted : let H : Hash := keccak256 in
  exists lim k v e1 e', storable v = true /\ empt_update lim [] false (empt_new false) k v = (Ok tt, e1) /\
  empt_build lim (mkEmpt (e_data e1) (mpt_new false)) = (Err TypeError, e').
Proof. exact build_objects. Qed.
Print Assumptions C64_build_trie_objects_refuted.

(** C39: the root view and the sparse copy. *)
Theorem C39_root_view : forall (H : Hash), (forall b, length (keccak b) = 32) -> forall e,
  let r := empt_get_root_trie e in
  root_hash r = empt_root_hash e /\ m_secure r = m_secure (e_trie e) /\
  forall lim p, mpt_verify_poi lim r p = mpt_verify_poi lim (e_trie e) p /\
                mpt_verify_poe lim r p = mpt_verify_poe lim (e_trie e) p.
Proof. exact @root_view. Qed.
Print Assumptions C39_root_view.

Theorem C39_sparse_view : forall (H : Hash), (forall b, length (keccak b) = 32) ->
  forall secure outs e, ereachable secure outs e -> let s := empt_get_sparse_trie e in
  root_hash s = empt_root_hash e /\ m_secure s = secure /\ m_map s = m_map (e_trie e) /\
  (forall lim k, mpt_contains lim s k = empt_contains lim e k) /\
  (forall lim p, mpt_verify_poi lim s p = mpt_verify_poi lim (e_trie e) p /\
                 mpt_verify_poe lim s p = mpt_verify_poe lim (e_trie e) p) /\
  (empt_root e <> None -> behave_alike (e_trie e) s).
Proof. exact @sparse_view. Qed.
Print Assumptions C39_sparse_view.

Theorem C39_sparse_follows_updates : forall (H : Hash), (forall b, length (keccak b) = 32) ->
  forall secure outs e k b lim, ereachable secure outs e -> empt_root e <> None ->
  let '(r, e') := empt_update lim [] false e k (VBytes b) in
  let '(r', s') := sparse_update lim [] (empt_get_sparse_trie e) k (VBytes b) in
  r' = r /\ root_hash s' = empt_root_hash e' /\ m_root s' = empt_root e' /\ behave_alike (e_trie e') s'.
Proof. exact @sparse_follows. Qed.
Print Assumptions C39_sparse_follows_updates.

Example C39_applies : let H : Hash := toy in forall s, ereachable s ex_outs (ex_empt s) /\ empt_root (ex_empt s) <> None.
Proof. intros H s. split; [apply ex_ereachable|]. destruct s; discriminate. Qed.

(** C40 is false of the code. *)
Theorem C40_sparse_get_root_trie_refuted : forall (H : Hash) s, sparse_get_root_trie s = Err TypeError.
Proof. exact (fun H s => eq_refl). Qed.
Print Assumptions C40_sparse_get_root_trie_refuted.

(** C65 is false of the code: SparseEMPT.update refuses the objects that EMPT.update takes. *)
Theorem C65_sparse_update_objects_refuted : forall (H : Hash) lim fl t k b,
  storable (VObj true true b) = true /\ sparse_update lim fl t k (VObj true true b) = (Err TypeError, t).
Proof. exact (fun H lim fl t k b => conj eq_refl eq_refl). Qed.
Print Assumptions C65_sparse_update_objects_refuted.

Theorem C65_sparse_update_no_object : forall (H : Hash) lim fl t k e d b,
  sparse_update lim fl t k (VObj e d b) = (Err (if e then TypeError else AttributeError), t).
Proof. exact (fun H lim fl t k e d b => match e with true => eq_refl | false => eq_refl end). Qed.
Print Assumptions C65_sparse_update_no_object.

(** C66 is false of the code: the sparse copy holds every value. *)
Theorem C66_sparse_holds_no_data_refuted : forall (H : Hash), (forall b, length (keccak b) = 32) ->
  forall secure outs e k v lim, ereachable secure outs e -> keys_ok secure (k :: okeys outs) ->
  status_after outs k = Present v -> frames secure k < lim ->
  trie_reference lim (empt_get_sparse_trie e) k = Ok (mkRef k (val_bytes v)).
Proof. exact @sparse_reference. Qed.
Print Assumptions C66_sparse_holds_no_data_refuted.

Example C66_applies : let H : Hash := toy in forall s,
  ereachable s ex_outs (ex_empt s) /\ keys_ok s (bs "dog" :: okeys ex_outs) /\
  status_after ex_outs (bs "dog") = Present (VObj true true (bs "puppy")) /\ frames s (bs "dog") < 100.
Proof.
  intros H s. split; [apply ex_ereachable|]. split; [apply ex_ekeys; vm_compute; reflexivity|].
  split; [reflexivity|destruct s; cbn; lia].
Qed.

(** C41 is false of the code. *)
Theorem C41_default_objects_independent_refuted : let H : Hash := keccak256 in
  exists a b w a', default_empt world0 false = Ok a /\ default_empt world0 false = Ok b /\
  shared_call world0 a (eput "do" "verb") = (Ok tt, w, a') /\
  empt_len (view world0 b) = 0 /\ empt_len (view w b) = 1 /\ default_empt w false = Err ValueError.
Proof. exact defaults_shared. Qed.
Print Assumptions C41_default_objects_independent_refuted.

Theorem C41_default_objects_clobber_refuted : let H : Hash := keccak256 in
  exists a b w a' w' b', default_empt world0 false = Ok a /\ default_empt world0 false = Ok b /\
  shared_call world0 a (eput "do" "verb") = (Ok tt, w, a') /\ empt_get 100 (view w a') (bs "do") = Ok (VBytes (bs "verb")) /\
  shared_call w b (eput "do" "noun") = (Ok tt, w', b') /\ empt_get 100 (view w' a') (bs "do") = Err InvalidReferenceError.
Proof. exact defaults_clobbered. Qed.
Print Assumptions C41_default_objects_clobber_refuted.

(** C60: the root hash depends on the content only, and determines it. *)
Theorem C60_root_depends_on_content_only : forall (H : Hash), (forall b, length (keccak b) = 32) ->
  forall secure o1 e1 o2 e2, ereachable secure o1 e1 -> ereachable secure o2 e2 ->
  keys_ok secure (okeys o1 ++ okeys o2) ->
  (forall k, same_content (status_after o1 k) (status_after o2 k)) -> empt_root_hash e1 = empt_root_hash e2.
Proof. exact @empt_root_content. Qed.
Print Assumptions C60_root_depends_on_content_only.

Theorem C60_root_commits_to_content : forall (H : Hash), (forall b, length (keccak b) = 32) ->
  forall secure o1 e1 o2 e2, ereachable secure o1 e1 -> ereachable secure o2 e2 ->
  no_collision (hashed_by (e_trie e1) ++ hashed_by (e_trie e2)) -> keys_ok secure (okeys o1 ++ okeys o2) ->
  empt_root_hash e1 = empt_root_hash e2 ->
  forall k, status_after o1 k <> Unknown -> status_after o2 k <> Unknown ->
    same_content (status_after o1 k) (status_after o2 k).
Proof. exact @empt_root_commits. Qed.
Print Assumptions C60_root_commits_to_content.

Example C60_applies : let H : Hash := toy in forall s,
  ereachable s ex_couts (ex_clean s) /\ ereachable s ex_douts (ex_other s) /\
  no_collision_b (okeys ex_couts ++ okeys ex_douts) = true /\
  no_collision_b (hashed_by (e_trie (ex_clean s)) ++ hashed_by (e_trie (ex_other s))) = true /\
  empt_root_hash (ex_clean s) = empt_root_hash (ex_other s) /\
  (forall k, same_content (status_after ex_couts k) (status_after ex_douts k)).
Proof.
  intros H s. split; [apply ex_creachable|]. split; [apply ex_dreachable|]. split; [vm_compute; reflexivity|].
  split; [destruct s; vm_compute; reflexivity|]. split; [destruct s; vm_compute; reflexivity|]. intros x.
  unfold status_after, ex_couts, ex_douts, ex_outs, dhist. cbn [firstn app fold_left map ec_op eput edel]. unfold step_status. cbn [fst eop_key storable].
  repeat match goal with |- context [bytes_eqb x ?k] => destruct (bytes_eqb_spec x k); [subst; vm_compute; exact I || reflexivity|] end.
  exact I.
Qed.

(** C61: inclusion proofs of an EMPT, checked against its root. *)
Theorem C61_empt_inclusion_proof_accepted : forall (H : Hash), (forall b, length (keccak b) = 32) ->
  forall secure outs e k v lim lim' time, ereachable secure outs e ->
  keys_ok secure (k :: okeys outs) -> status_after outs k = Present v ->
  frames secure k < lim -> frames secure k < lim' -> length (root_ref (e_trie e)) = 32 ->
  exists p, mpt_get_poi lim time (e_trie e) k = Ok p /\ mpt_verify_poi lim' (empt_get_root_trie e) p = Ok true.
Proof. exact @empt_poi_complete. Qed.
Print Assumptions C61_empt_inclusion_proof_accepted.

Theorem C61_empt_inclusion_proof_sound : forall (H : Hash), (forall b, length (keccak b) = 32) ->
  forall secure outs e lim p k, ereachable secure outs e -> keys_ok secure (k :: okeys outs) ->
  no_collision (proof_hashed (pf_proof p) ++ hashed_by (e_trie e)) ->
  mpt_verify_poi lim (empt_get_root_trie e) p = Ok true -> pf_key p = trie_key secure k ->
  secure = true \/ (forall k', status_after outs k' <> Absent -> length k' = length k) ->
  status_after outs k <> Absent.
Proof. exact @empt_poi_sound. Qed.
Print Assumptions C61_empt_inclusion_proof_sound.

Example C61_applies : let H : Hash := toy in exists p,
  mpt_get_poi 100 (bs "0") (e_trie (ex_empt true)) (bs "dog") = Ok p /\ length (root_ref (e_trie (ex_empt true))) = 32 /\
  no_collision_b (proof_hashed (pf_proof p) ++ hashed_by (e_trie (ex_empt true))) = true /\
  mpt_verify_poi 100 (empt_get_root_trie (ex_empt true)) p = Ok true /\ pf_key p = trie_key true (bs "dog").
Proof.
  intros H. eexists. split; [vm_compute; reflexivity|]. split; [reflexivity|]. split; [vm_compute; reflexivity|].
  split; vm_compute; reflexivity.
Qed.

(** C62: the methods EMPT inherits behave as those of a dictionary. *)
Theorem C62_pop_present : forall (H : Hash), (forall b, length (keccak b) = 32) ->
  forall secure outs e k v d lim r e', ereachable secure outs e -> (blen k < 2 ^ 57)%N ->
  keys_ok secure (k :: okeys outs) -> status_after outs k = Present v -> frames secure k < lim ->
  empt_pop lim e k d = (r, e') -> no_collision (m_log (e_trie e')) ->
  r = Ok v /\ ereachable secure (outs ++ [(EDel k, true)]) e'.
Proof. exact @pop_present. Qed.
Print Assumptions C62_pop_present.

Theorem C62_pop_absent : forall (H : Hash), (forall b, length (keccak b) = 32) ->
  forall secure outs e k d lim, ereachable secure outs e -> status_after outs k = Absent ->
  empt_pop lim e k d = (match d with Some x => Ok x | None => Err KeyError end, e).
Proof. exact @pop_absent. Qed.
Print Assumptions C62_pop_absent.

Theorem C62_setdefault_present : forall (H : Hash), (forall b, length (keccak b) = 32) ->
  forall secure outs e k v d lim, ereachable secure outs e ->
  keys_ok secure (k :: okeys outs) -> status_after outs k = Present v -> frames secure k < lim ->
  empt_setdefault lim e k d = (Ok v, e).
Proof. exact @setdefault_present. Qed.
Print Assumptions C62_setdefault_present.

Theorem C62_setdefault_absent : forall (H : Hash), (forall b, length (keccak b) = 32) ->
  forall secure outs e k d lim r e', ereachable secure outs e ->
  status_after outs k = Absent -> frames secure k < lim -> eok_op (EPut k d) -> storable d = true ->
  empt_setdefault lim e k d = (r, e') -> no_collision (m_log (e_trie e')) ->
  r = Ok d /\ ereachable secure (outs ++ [(EPut k d, true)]) e'.
Proof. exact @setdefault_absent. Qed.
Print Assumptions C62_setdefault_absent.

Theorem C62_items : forall (H : Hash), (forall b, length (keccak b) = 32) ->
  forall secure outs e lim, ereachable secure outs e -> (forall x, status_after outs x <> Unknown) ->
  keys_ok secure (okeys outs) -> (forall k, In k (okeys outs) -> frames secure k < lim) ->
  exists l, empt_items lim e = Ok l /\ NoDup (map fst l) /\
    forall k v, In (k, v) l <-> status_after outs k = Present v.
Proof. exact @items_exact. Qed.
Print Assumptions C62_items.

Theorem C62_popitem : forall (H : Hash), (forall b, length (keccak b) = 32) ->
  forall secure outs e lim r e' k0 v0, ereachable secure outs e ->
  (forall x, status_after outs x <> Unknown) -> status_after outs k0 = Present v0 ->
  keys_ok secure (okeys outs) -> (forall k, In k (okeys outs) -> frames secure k < lim /\ (blen k < 2 ^ 57)%N) ->
  empt_popitem lim e = (r, e') -> no_collision (m_log (e_trie e')) ->
  exists k v, r = Ok (k, v) /\ status_after outs k = Present v /\ ereachable secure (outs ++ [(EDel k, true)]) e' /\
    empt_len e = S (empt_len e').
Proof. exact @popitem_some. Qed.
Print Assumptions C62_popitem.

Theorem C62_popitem_empty : forall (H : Hash), (forall b, length (keccak b) = 32) ->
  forall secure outs e lim, ereachable secure outs e -> (forall x, status_after outs x = Absent) ->
  empt_popitem lim e = (Err KeyError, e).
Proof. exact @popitem_empty. Qed.
Print Assumptions C62_popitem_empty.

Theorem C62_clear : forall (H : Hash), (forall b, length (keccak b) = 32) ->
  forall secure outs e lim r e', ereachable secure outs e ->
  (forall x, status_after outs x <> Unknown) ->
  keys_ok secure (okeys outs) -> (forall k, In k (okeys outs) -> frames secure k < lim /\ (blen k < 2 ^ 57)%N) ->
  empt_clear lim e = (r, e') -> no_collision (m_log (e_trie e')) ->
  r = Ok tt /\ empt_keys e' = [] /\ empt_root_hash e' = EMPTY_HASH /\ (forall x lim, empt_get lim e' x = Err KeyError).
Proof. exact @clear_ok. Qed.
Print Assumptions C62_clear.

Example C62_applies : let H : Hash := toy in forall s,
  ereachable s ex_couts (ex_clean s) /\ (forall x, status_after ex_couts x <> Unknown) /\
  status_after ex_couts (bs "dog") = Present (VObj true true (bs "puppy")) /\ status_after ex_couts (bs "cat") = Absent /\
  no_collision_b (okeys ex_couts) = true /\
  (forall k, In k (okeys ex_couts) -> frames s k < 100 /\ (blen k < 2 ^ 57)%N) /\
  empt_len (ex_clean s) = 3 /\ no_collision_b (m_log (e_trie (snd (empt_clear 100 (ex_clean s))))) = true.
Proof.
  intros H s. split; [apply ex_creachable|]. split; [exact ex_cknown|]. split; [reflexivity|]. split; [reflexivity|].
  split; [vm_compute; reflexivity|]. split; [apply ex_cframes|]. split; destruct s; vm_compute; reflexivity.
Qed.
