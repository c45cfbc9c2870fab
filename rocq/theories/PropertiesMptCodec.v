(** Properties of MPT.encode, MPT.decode, reopening a storage, and equality of tries.
    Vocabulary: Spec.v, SpecProof.v.  Model: Mpt.v, MptEq.v. *)
From Coq Require Import String List Bool Arith NArith ZArith Lia.
From Verif Require Import Base BaseProofs Rlp Keccak KeccakProofs NibblePath Node ProofObj Mpt MptEq Spec SpecCodec SpecProof Examples
  MptRefutations MptCodecProofs MptCodecRefutations.
Import ListNotations.

(** C24: decoding the encoding gives a trie that cannot be told apart from the original. *)
Theorem C24_encode_decode : forall (H : Hash), (forall b, length (keccak b) = 32) ->
  forall secure l t b, reachable secure l t -> mpt_encode t = Ok b ->
  exists t', mpt_decode b = Ok t' /\ m_map t' = m_map t /\ m_root t' = m_root t /\ m_secure t' = m_secure t /\
    behave_alike t t'.
Proof. exact @mpt_round_trip_reads. Qed.
Print Assumptions C24_encode_decode.

Theorem C24_encode_succeeds : forall (H : Hash), (forall b, length (keccak b) = 32) ->
  forall secure l t r, reachable secure l t -> m_root t = Some r -> (storage_size t < 2 ^ 63)%N ->
  exists b, mpt_encode t = Ok b.
Proof. exact @mpt_encode_total. Qed.
Print Assumptions C24_encode_succeeds.

Example C24_applies : let H : Hash := toy in forall s,
  reachable s (ex_ops s) (ex_trie s) /\ (exists r, m_root (ex_trie s) = Some r) /\
  (storage_size (ex_trie s) < 2 ^ 63)%N.
Proof.
  intros H s. split; [apply ex_reachable|]. split; destruct s; vm_compute; try reflexivity; eexists; reflexivity.
Qed.

(** C25 is false of the code: a trie that became empty cannot be encoded. *)
Theorem C25_every_trie_encodable_refuted : let H : Hash := keccak256 in
  exists l t, reachable false l t /\ (forall k, dict_after l k = None) /\ (storage_size t < 2 ^ 63)%N /\
    mpt_encode t = Err TypeError.
Proof. exact encode_emptied_refuted. Qed.
Print Assumptions C25_every_trie_encodable_refuted.

(** C26: reads of a trie decoded from untrusted bytes are correct or raise, if the root and the mode are the trusted ones. *)
Theorem C26_decoded_reads_cannot_be_forged : forall (H : Hash), (forall b, length (keccak b) = 32) ->
  forall secure l t b t' k v lim, reachable secure l t -> keys_ok secure (k :: map op_key l) ->
  mpt_decode b = Ok t' -> m_root t' = m_root t -> m_secure t' = secure ->
  no_collision (m_log t' ++ hashed_by t) -> mpt_get lim t' k = Ok v ->
  (secure = true \/ ~ extended_in (dict_after l) k) -> dict_after l k = Some v.
Proof. exact @decode_cannot_forge. Qed.
Print Assumptions C26_decoded_reads_cannot_be_forged.

(** The honest nodes, a made-up node in front of them. *)
Example C26_applies : let H : Hash := toy in exists b t',
  mpt_decode b = Ok t' /\ m_root t' = m_root (ex_trie false) /\ m_secure t' = false /\
  no_collision_b (m_log t' ++ hashed_by (ex_trie false)) = true /\
  mpt_get 100 t' (bs "doge") = Ok (bs "coin") /\ length (m_map t') = S (length (m_map (ex_trie false))) /\
  ~ extended_in (dict_after (ex_ops false)) (bs "dogs").
Proof.
  intros H. eexists. eexists. split.
  { instantiate (2 := match m_root (ex_trie false) with
      | Some r => renc (IList [IBytes r; IList (map IBytes (bs "no node at all, just some forty bytes of text" :: map snd (m_map (ex_trie false)))); e_bool false])
      | None => [] end). vm_compute. reflexivity. }
  split; [vm_compute; reflexivity|]. split; [reflexivity|]. split; [vm_compute; reflexivity|].
  split; [vm_compute; reflexivity|]. split; [vm_compute; reflexivity|]. rewrite ex_ops_are. exact dogs_not_extended.
Qed.

(** C57 is false of the code: the root does not determine the mode. *)
Theorem C57_root_alone_protects_reads_refuted : let H : Hash := keccak256 in
  exists l t b t' k v lim, reachable true l t /\ keys_ok true (k :: map op_key l) /\
  mpt_decode b = Ok t' /\ m_root t' = m_root t /\ no_collision (m_log t' ++ hashed_by t) /\
  mpt_get lim t' k = Ok v /\ dict_after l k = None.
Proof. exact flag_refuted. Qed.
Print Assumptions C57_root_alone_protects_reads_refuted.

(** C58 is false of the code: comparing a trie with itself raises. *)
Theorem C58_equal_to_itself_refuted : let H : Hash := keccak256 in
  exists l t, reachable false l t /\ mpt_eq t t = Err ValueError.
Proof. exact eq_refuted. Qed.
Print Assumptions C58_equal_to_itself_refuted.

Theorem C58_equality_raises_on_other_than_hex_text_refuted : forall (H : Hash) t t' r, m_root t = Some r ->
  forallb hexish (keccak r) = false -> mpt_eq t t' = Err ValueError.
Proof. exact @mpt_eq_raises. Qed.
Print Assumptions C58_equality_raises_on_other_than_hex_text_refuted.

Example C58_applies : let H : Hash := keccak256 in exists r, m_root dog_trie = Some r /\ forallb hexish (keccak r) = false.
Proof. intros H. eexists. split; [reflexivity|vm_compute; reflexivity]. Qed.

(** C59: a trie object opened on the storage of another one with its root and mode is as good as the other one. *)
Theorem C59_reopened_trie_is_the_same : forall (H : Hash) t, m_root t <> None ->
  behave_alike t (mpt_init (m_map t) (m_root t) (m_secure t)).
Proof. exact @mpt_reopen. Qed.
Print Assumptions C59_reopened_trie_is_the_same.

Example C59_applies : let H : Hash := toy in forall s, m_root (ex_trie s) <> None.
Proof. intros H []; discriminate. Qed.
