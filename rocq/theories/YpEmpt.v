(** The root hash of a trie of references. *)
From Coq Require Import List Bool Arith NArith ZArith Lia.
From Verif Require Import Base BaseProofs Rlp RlpProofs NibblePath Node ProofObj Mpt Tree TreeEnc Spec SpecCodec SpecRlp RlpExact
  MptRefine MptProofs Empt SpecEmpt EmptProofs EmptProofs2 SpecSparse SparseProofs SpecYp YpProofs.
Import ListNotations.

Section Y.
Context {H : Hash}.
Hypothesis keccak_len : forall b, length (keccak b) = 32.

Lemma ref_text_encode : forall k d b, ref_text k d b <-> ref_encode (mkRef k d) = Ok b.
Proof.
  intros k d b. unfold ref_text, ref_encode. rewrite encode_form. unfold e_int, ref_hash. cbn [r_key r_data]. rewrite base_unbe. split.
  - intros (s & S & F). apply shortest_be in S. subst s. exact F.
  - intros F. exists (be (unbe (keccak (k ++ d)))). split; [apply shortest_be; reflexivity|exact F].
Qed.

Lemma root_of_pairs : forall secure l t J, reachable secure l t -> keys_ok secure (map op_key l) ->
  (forall q v, J q v <-> pairs_of secure (dict_after l) q v) -> forall r, yp_root J r <-> root_hash t = r.
Proof.
  intros secure l t J R Hk E r. destruct (reach_held keccak_len _ _ _ R Hk) as (_ & tr & Rt & Hj).
  rewrite (root_hash_tenc keccak_len t tr Rt). destruct Rt as (Hw & Hs & _).
  assert (Hj' : held J tr) by (intros q v; rewrite (E q v); apply Hj). split.
  - intros Y. symmetry. eapply root_unique; eauto.
  - intros <-. apply held_root; auto.
Qed.

Theorem sparse_root_is_yp : forall secure l t, sreachable secure l t -> keys_ok secure (map op_key l) ->
  forall r, yp_root (refs_of secure (dict_after l)) r <-> root_hash t = r.
Proof.
  intros secure l t R Hk. destruct (sreach_inv keccak_len _ _ _ R) as (l' & R' & Rf & Ki). apply (root_of_pairs secure l'); auto.
  - eapply keys_ok_incl; [|exact Hk]. intros x Hx. apply Ki. exact Hx.
  - intros q v. split.
    + intros (k & b & Ek & Eq & T). exists k. split; [|exact Eq]. apply ref_text_encode in T.
      specialize (Rf k). rewrite Ek in Rf. destruct Rf as (rb & E & ->). congruence.
    + intros (k & Ek & Eq). destruct (refs_some _ _ _ _ Rf Ek) as (b & Eb & T). exists k, b.
      split; [exact Eb|]. split; [exact Eq|]. apply ref_text_encode. exact T.
Qed.

Theorem empt_root_is_yp : forall secure outs e d, ereachable secure outs e -> keys_ok secure (okeys outs) ->
  agrees d (status_after outs) -> forall r, yp_root (refs_of secure d) r <-> empt_root_hash e = r.
Proof.
  intros secure outs e d R Hk Ha. destruct (ereach_inv keccak_len _ _ _ R) as (l' & (R' & _ & T) & Ki).
  apply (root_of_pairs secure l'); auto.
  - eapply keys_ok_incl; [|exact Hk]. intros x Hx. apply Ki. exact Hx.
  - intros q v. split.
    + intros (k & b & Ek & Eq & Tx). exists k. split; [|exact Eq]. apply ref_text_encode in Tx.
      pose proof (content_dict _ _ _ k T) as C. specialize (Ha k). destruct (status_after outs k) as [w| |]; [|congruence|contradiction].
      destruct C as (rb & E & ->). rewrite Ha in Ek. injection Ek as <-. unfold ref_of in E. congruence.
    + intros (k & Ek & Eq). pose proof (content_dict _ _ _ k T) as C. specialize (Ha k).
      destruct (status_after outs k) as [w| |]; [|congruence|contradiction].
      destruct C as (rb & E & C). exists k, (val_bytes w). split; [exact Ha|]. split; [exact Eq|]. apply ref_text_encode.
      unfold ref_of in E. congruence.
Qed.
End Y.
