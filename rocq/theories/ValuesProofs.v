(** Proofs about the values the tries take and the texts of nodes without data. *)
From Coq Require Import List Bool Arith NArith ZArith Lia.
From Verif Require Import Base BaseProofs Rlp RlpProofs NibblePath Node ProofObj Mpt Empt SpecEmpt EmptProofs SpecCodec SpecRlp RlpExact DecodeExact NodeSkeleton SpecValues.
Import ListNotations.

Lemma bare_encode_exact : forall n b, node_encode_bare n = Ok b <-> bare_write n b.
Proof.
  intros n b. destruct n as [p v|p r|rs v]; cbn [node_encode_bare].
  - rewrite encode_form. split.
    + intros F. apply bw_leaf with (h := np_encode p true); [now apply encode_path_form|exact F].
    + intros X. inversion X as [? ? h ? Hh F| |]; subst. apply encode_path_form in Hh. now subst h.
  - split.
    + intros E. destruct (prep_encoding r) as [i|] eqn:P; [|discriminate]. cbn [bind] in E.
      apply bw_ext with (h := np_encode p false) (i := i); [now apply encode_path_form|now apply prep_encoding_write|now apply encode_form].
    + intros X. inversion X as [|? ? h i ? Hh W F|]; subst. apply encode_path_form in Hh. subst h. apply prep_encoding_write in W. rewrite W. cbn [bind].
      now apply encode_form.
  - split.
    + intros E. destruct (mapM prep_encoding rs) as [is|] eqn:P; [|discriminate]. cbn [bind] in E.
      apply bw_branch with (is := is); [now apply mapM_write|now apply encode_form].
    + intros X. inversion X as [| |? ? is ? W F]; subst. apply mapM_write in W. rewrite W. cbn [bind]. now apply encode_form.
Qed.

Section WithHash.
Context {H : Hash}.
Lemma stored_encode : forall k d b, ref_encode (mkRef k d) = Ok b <-> stored_form k d b.
Proof.
  intros k d b. refine (iff_trans _ (ref_decode_exact b (mkRef k d))). split; [apply ref_round_trip|apply ref_decode_sound].
Qed.
Lemma stored_exists : (forall b, length (keccak b) = 32) -> forall k d, (blen k < 2 ^ 57)%N -> (blen d < 2 ^ 57)%N -> exists b, stored_form k d b.
Proof. intros L k d K D. destruct (ref_encode_total L (mkRef k d) K D) as [b [E _]]. exists b. now apply stored_encode. Qed.
Lemma stored_unique : forall k d b b', stored_form k d b -> stored_form k d b' -> b = b'.
Proof. intros k d b b' E E'. apply stored_encode in E, E'. congruence. Qed.
Lemma stored_one : (forall b, length (keccak b) = 32) -> forall k d, (blen k < 2 ^ 57)%N -> (blen d < 2 ^ 57)%N ->
  exists b, forall b', stored_form k d b' <-> b' = b.
Proof. intros L k d K D. destruct (stored_exists L k d K D) as [b F]. exists b. intros b'. split; [intros F'; exact (stored_unique k d b' b F' F)|intros ->; exact F]. Qed.
Lemma bound_ok : forall r rb, ref_encode r = Ok rb -> bind (Ok r) (fun r => ref_encode r) = Ok rb.
Proof. intros r rb E. exact E. Qed.
Lemma bound_err : forall x, bind (Err x) (fun r => ref_encode r) = Err x.
Proof. reflexivity. Qed.

Lemma empt_refused : forall v x, empt_refuses v x -> forall lim fl df e k, empt_update lim fl df e k v = (Err x, e).
Proof.
  intros v x X lim fl df e k. unfold empt_update. assert (E : update_ref k v = Err x).
  { destruct X as [b|he hd b O]; [reflexivity|]. destruct he, hd; destruct O; try discriminate; reflexivity. }
  rewrite E, bound_err. reflexivity.
Qed.
Lemma empt_taken : forall v, ~ (exists x, empt_refuses v x) -> forall lim fl e k b, stored_form k (val_bytes v) b ->
  empt_update lim fl false e k v = let (r, t) := mpt_update lim fl (e_trie e) k b in
    (r, mkEmpt (match r with Ok _ => dset (e_data e) k v | Err _ => e_data e end) t).
Proof.
  intros v N lim fl e k b F. apply stored_encode in F. assert (E : update_ref k v = Ok (mkRef k (val_bytes v))).
  { destruct v as [d|d|[] [] d]; try reflexivity; exfalso; apply N; eexists; constructor; auto. }
  rewrite (update_eq _ _ _ _ _ _ _ _ E F). destruct (mpt_update lim fl (e_trie e) k b) as [[[]|x] t]; reflexivity.
Qed.
Lemma sparse_refused_exact : forall v x, sparse_refuses v x -> forall lim fl t k, sparse_update lim fl t k v = (Err x, t).
Proof.
  intros v x X lim fl t k. unfold sparse_update. assert (E : sparse_ref k v = Err x) by (destruct X; reflexivity). rewrite E, bound_err. reflexivity.
Qed.
Lemma sparse_taken : forall v, ~ (exists x, sparse_refuses v x) -> forall lim fl t k b, stored_form k (val_bytes v) b ->
  sparse_update lim fl t k v = mpt_update lim fl t k b.
Proof.
  intros v N lim fl t k b F. apply stored_encode in F. unfold sparse_update. assert (E : sparse_ref k v = Ok (mkRef k (val_bytes v))).
  { destruct v as [d|d|[] hd d]; try reflexivity; exfalso; apply N; eexists; constructor. }
  rewrite E, (bound_ok _ _ F). reflexivity.
Qed.
Lemma get_decides : forall lim e k v b r, dget (e_data e) k = Some v -> mpt_get lim (e_trie e) k = Ok b -> ref_decode b = Ok r ->
  (forall x, get_refuses v x -> empt_get lim e k = Err x) /\
  (~ (exists x, get_refuses v x) -> empt_get lim e k =
     if N.eqb (base256 (keccak (r_key r ++ r_data r))) (base256 (keccak (k ++ val_bytes v))) then Ok v else Err InvalidReferenceError).
Proof.
  intros lim e k v b r Ed Eg Er. unfold empt_get. rewrite Ed, Eg. cbn [bind]. rewrite Er. cbn [bind]. split.
  - intros x X. destruct X; reflexivity.
  - intros N. assert (E : expected_ref k v = Ok (mkRef k (val_bytes v))).
    { destruct v as [d|d|[] hd d]; try reflexivity; exfalso; apply N; eexists; constructor. }
    rewrite E. cbn [bind]. unfold ref_eq, ref_hash. cbn [r_key r_data]. rewrite !base_unbe. reflexivity.
Qed.
End WithHash.
