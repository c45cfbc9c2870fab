(** Additions to C06, C73, C82, C113 and C119. *)
From Coq Require Import String.
From Coq Require Import List Bool Arith NArith ZArith.
From Verif Require Import Base ProofObj Mpt Spec MptProofs Empt SpecEmpt SpecSparse Examples Keccak MerkleTree SpecMt SpecAudit MtExamples SpecJson ProofJson MoreProofs.
Import ListNotations.

(** C06: deleting an absent key changes nothing at all, not even the storage. *)
Theorem C06_delete_absent_unchanged : forall (H : Hash), (forall b, length (keccak b) = 32) ->
  forall secure l t k lim fl, reachable secure l t -> keys_ok secure (k :: map op_key l) -> dict_after l k = None ->
  exists e, mpt_delete lim fl t k = (Err e, t).
Proof. exact @delete_absent_same. Qed.
Print Assumptions C06_delete_absent_unchanged.

(** C113: the same for SparseEMPT. *)
Theorem C113_delete_absent_unchanged : forall (H : Hash), (forall b, length (keccak b) = 32) ->
  forall secure l t k lim cf fl, sreachable secure l t -> keys_ok secure (k :: map op_key l) -> dict_after l k = None ->
  exists e, sparse_delete lim cf fl t k = (Err e, t).
Proof. exact @sparse_delete_absent_same. Qed.
Print Assumptions C113_delete_absent_unchanged.

(** C82: questions leave the values alone. *)
Theorem C82_values_kept : forall (H : Hash) t o, op_values o = [] -> o <> OReset -> o <> OMake ->
  t_leaves (snd (mt_call t o)) = t_leaves t.
Proof. exact @question_keeps_values. Qed.
Print Assumptions C82_values_kept.

(** C73: two proofs made by one tree have the same sides exactly if they are for the same position. *)
Theorem C73_same_sides : forall (H : Hash) s t vs v w time time' p q, built_over s t vs -> In v vs -> In w vs ->
  get_poi t time (VBytes v) = (Ok p, t) -> get_poi t time' (VBytes w) = (Ok q, t) ->
  let sides := map (fun e => match e with PPair s _ => s | PB b => b end) in
  (sides (pf_proof p) = sides (pf_proof q) <->
   exists i, first_at (leaves_of s vs) i (if s then keccak v else v) /\ first_at (leaves_of s vs) i (if s then keccak w else w)).
Proof. exact @same_sides. Qed.
Print Assumptions C73_same_sides.

(** C119: encode_json writes printable ASCII only. *)
Theorem C119_printable : forall p s, pf_type p = MT_POI -> proof_encode_json p = Ok s -> Forall (fun c => (32 <= c <= 126)%N) s.
Proof. exact encode_json_plain. Qed.
Print Assumptions C119_printable.

(** The hypotheses hold for some trees. *)
Example C73_sides_example : let H : Hash := toy in built_over false (ex_mt false) ex_mt_vals /\ In (bs "doge") ex_mt_vals /\ In (bs "horse") ex_mt_vals /\
  (exists p, get_poi (ex_mt false) [] (VBytes (bs "doge")) = (Ok p, ex_mt false)) /\
  (exists p, get_poi (ex_mt false) [] (VBytes (bs "horse")) = (Ok p, ex_mt false)).
Proof.
  intros H. split; [exact (ex_mt_built false)|]. split; [cbn; tauto|]. split; [cbn; tauto|].
  split; eexists; vm_compute; reflexivity.
Qed.
