(** Properties of the JSON codec, equality and iteration of proofs (C84-C92). Theorem statements only; proofs are in JsonProofs.v and
    ProofJsonProofs.v. *)
From Coq Require Import String List Bool Arith NArith ZArith Lia.
From Verif Require Import Base BaseProofs Keccak KeccakProofs ProofObj Spec Node Mpt MptEq Examples MerkleTree SpecMt MtProofs MtExamples Json JsonProofs
  ProofJson ProofJsonProofs.
Import ListNotations.

Definition ex_flat : proof :=
  mkProof MT_POI (bs "2024-01-01") (bs "k'\") [xc3; xa9; x0a] [PB (bs "a"); PB []; PB [xf0; x9f; x98; x80]].

(** C84: what encode_json returns is read back as the same proof, time included. *)
Theorem C84_json_round_trip : forall p s, pf_type p = MT_POI -> proof_encode_json p = Ok s -> proof_decode_json s = Ok p.
Proof. exact json_round_trip. Qed.
Print Assumptions C84_json_round_trip.

Example C84_example : pf_type ex_flat = MT_POI /\ (match proof_encode_json ex_flat with Ok s => length s | Err _ => 0 end) = 134.
Proof. split; vm_compute; reflexivity. Qed.

(** C85: encode_json succeeds exactly if all fields are text and the elements are byte strings. *)
Theorem C85_json_encodes_text_only : forall p, pf_type p = MT_POI -> (exists s, proof_encode_json p = Ok s) <->
  text (pf_time p) /\ text (pf_key p) /\ text (pf_root p) /\ exists bl, pf_proof p = map PB bl /\ Forall text bl.
Proof. exact json_encodes. Qed.
Print Assumptions C85_json_encodes_text_only.

Example C85_example : match proof_encode_json (mkProof MT_POI [] [xff] [] []) with Err UnicodeDecodeError => true | _ => false end = true /\
  match proof_encode_json ex_flat with Ok _ => true | _ => false end = true.
Proof. split; vm_compute; reflexivity. Qed.

(** C86: trie proofs are refused. *)
Theorem C86_json_refuses_trie_proofs : forall p, pf_type p = MPT_POI \/ pf_type p = MPT_POE ->
  (forall s, proof_encode_json p <> Ok s) /\
  (text (pf_time p) -> text (pf_key p) -> text (pf_root p) -> proof_encode_json p = Err NotImplementedError).
Proof. intros p T. split; [intros s; exact (json_mpt_never p s T)|exact (json_mpt p T)]. Qed.
Print Assumptions C86_json_refuses_trie_proofs.

Example C86_example : match proof_encode_json (mkProof MPT_POE (bs "t") (bs "k") (bs "r") [PB [xff]]) with
  | Err NotImplementedError => true | _ => false end = true.
Proof. vm_compute. reflexivity. Qed.

(** C87: decode_json accepts only proofs of a Merkle tree, all text, and they encode again to something that gives the same proof. *)
Theorem C87_json_accepts : forall s p, proof_decode_json s = Ok p ->
  (pf_type p = MT_POI /\ text (pf_time p) /\ text (pf_key p) /\ text (pf_root p) /\ exists bl, pf_proof p = map PB bl /\ Forall text bl) /\
  exists s', proof_encode_json p = Ok s' /\ proof_decode_json s' = Ok p.
Proof. intros s p E. split; [exact (decode_json_accepts s p E)|exact (decode_json_reencodes s p E)]. Qed.
Print Assumptions C87_json_accepts.

Example C87_example : let s := ascii (bs "{""proof"": ""xy"", ""proof_type"":""MT-POI"", ""target_key"":""\u00e9"",""root_hash"":"""", ""timestamp"" : ""1"",""timestamp"":""2""} ") in
  match proof_decode_json s with
  | Ok p => bytes_eqb (pf_key p) [xc3; xa9] && bytes_eqb (pf_time p) (bs "2") && (length (pf_proof p) =? 2)
  | Err _ => false end = true.
Proof. vm_compute. reflexivity. Qed.

(** C88 is false of the code: the steps of a proof made by a MerkleTree are pairs, which encode_json cannot encode. *)
Theorem C88_merkle_proofs_encode_refuted : forall (H : Hash) s t vs v time p, built_over s t vs -> In v vs -> 2 <= length vs ->
  get_poi t time (VBytes v) = (Ok p, t) -> (forall j, proof_encode_json p <> Ok j) /\
  (text time -> text v -> proof_encode_json p = Err AttributeError).
Proof.
  intros H s t vs v time p Hb Hi L E. split; [intros j; exact (mt_json_fails s t vs v time p j Hb Hi L E)|].
  intros Tt Tv. exact (mt_json_error s t vs v time p Hb Hi L Tt Tv E).
Qed.
Print Assumptions C88_merkle_proofs_encode_refuted.

Theorem C88_only_a_single_value_encodes : forall (H : Hash) s t v time p, built_over s t [v] -> text time ->
  get_poi t time (VBytes v) = (Ok p, t) ->
  (text v <-> exists j, proof_encode_json p = Ok j) /\ (forall j, proof_encode_json p = Ok j -> proof_decode_json j = Ok p).
Proof. exact @mt_json_single. Qed.
Print Assumptions C88_only_a_single_value_encodes.

Definition ex_one : mt := snd (@mt_run toy (mt_new true) [OPut (VBytes (bs "one")); OMake]).
Example C88_example : let H : Hash := toy in
  @built_over H true (ex_mt true) ex_mt_vals /\ 2 <= length ex_mt_vals /\
  match proof_encode_json (ex_poi true (bs "doge")) with Err AttributeError => true | _ => false end = true /\
  @built_over H true ex_one [bs "one"] /\
  match fst (get_poi ex_one (bs "now") (VBytes (bs "one"))) with
  | Ok p => match proof_encode_json p with Ok _ => true | _ => false end
  | Err _ => false end = true.
Proof.
  intros H. split; [exact (ex_mt_built true)|]. split; [cbn; lia|]. split; [vm_compute; reflexivity|]. split; [|vm_compute; reflexivity].
  exists [OPut (VBytes (bs "one")); OMake]. eexists. split; [apply surjective_pairing|]. split; [reflexivity|]. split; [reflexivity|discriminate].
Qed.

(** C89: == compares all five fields, up to a hash collision. *)
Theorem C89_equality_exact : forall (H : Hash) d, (forall b, length (keccak b) = d) -> forall p q,
  no_collision [proof_str p; proof_str q] -> (proof_eq p q = true <-> p = q).
Proof. exact @proof_eq_exact. Qed.
Print Assumptions C89_equality_exact.

(** The text that is hashed determines the proof, so only a collision can confuse two proofs. *)
Theorem C89_text_determines_proof : forall p q, proof_str p = proof_str q -> p = q.
Proof. exact proof_str_inj. Qed.
Print Assumptions C89_text_determines_proof.

Example C89_example : let H : Hash := toy in (forall b, length (keccak b) = 32) /\
  no_collision [proof_str ex_flat; proof_str (ex_poi true (bs "doge"))] /\
  proof_eq ex_flat ex_flat = true /\ proof_eq ex_flat (ex_poi true (bs "doge")) = false.
Proof.
  intros H. split; [exact toy_len|]. split; [apply no_collision_b_ok; vm_compute; reflexivity|]. split; vm_compute; reflexivity.
Qed.

(** C90 is false of the code: the clock reading is part of the comparison, so two proofs of one key from one tree or trie differ. *)
Theorem C90_same_key_equal_proofs_refuted : forall (H : Hash) d, (forall b, length (keccak b) = d) ->
  forall s t vs v t1 t2 p q, built_over s t vs -> In v vs -> t1 <> t2 ->
  get_poi t t1 (VBytes v) = (Ok p, t) -> get_poi t t2 (VBytes v) = (Ok q, t) -> no_collision [proof_str p; proof_str q] ->
  proof_eq p q = false.
Proof. exact @mt_time_eq. Qed.
Print Assumptions C90_same_key_equal_proofs_refuted.

Theorem C90_same_key_equal_trie_proofs_refuted : forall (H : Hash) d, (forall b, length (keccak b) = d) -> forall lim t k t1 t2 p q,
  t1 <> t2 -> mpt_get_poi lim t1 t k = Ok p -> mpt_get_poi lim t2 t k = Ok q -> no_collision [proof_str p; proof_str q] ->
  proof_eq p q = false.
Proof. exact @mpt_time_eq. Qed.
Print Assumptions C90_same_key_equal_trie_proofs_refuted.

Example C90_example : let H : Hash := toy in
  match get_poi (ex_mt true) (bs "1") (VBytes (bs "dog")), get_poi (ex_mt true) (bs "2") (VBytes (bs "dog")) with
  | (Ok p, _), (Ok q, _) => no_collision_b [proof_str p; proof_str q]
  | _, _ => false end = true /\
  match mpt_get_poi 100 (bs "1") (ex_trie false) (bs "dog"), mpt_get_poi 100 (bs "2") (ex_trie false) (bs "dog") with
  | Ok p, Ok q => no_collision_b [proof_str p; proof_str q]
  | _, _ => false end = true.
Proof. intros H. split; vm_compute; reflexivity. Qed.

(** C91: iterating gives the five fields in order, whatever iteration was in progress. *)
Theorem C91_iteration : forall p c fuel, 5 < fuel -> fst (proof_list fuel p c) =
  Ok [(ascii (bs "proof_type"), FB (pf_type p)); (ascii (bs "timestamp"), FB (pf_time p)); (ascii (bs "target_key"), FB (pf_key p));
      (ascii (bs "root_hash"), FB (pf_root p)); (ascii (bs "proof"), FT (pf_proof p))].
Proof. exact list_items. Qed.
Print Assumptions C91_iteration.

Example C91_example : match fst (proof_list 6 ex_flat (Some ([], 7))) with Ok l => length l | Err _ => 0 end = 5.
Proof. vm_compute. reflexivity. Qed.

(** C92 is false of the code: the proof is its own iterator, and an inner loop ends the outer one. *)
Theorem C92_nested_iteration_refuted : forall p c fuel, 5 < fuel ->
  fst (proof_pairs fuel p c) = Ok (map (pair (ascii (bs "proof_type"), FB (pf_type p))) (proof_items p)) /\
  length (map (pair (ascii (bs "proof_type"), FB (pf_type p))) (proof_items p)) = 5.
Proof. intros p c fuel L. split; [exact (nested_items p c fuel L)|reflexivity]. Qed.
Print Assumptions C92_nested_iteration_refuted.

Example C92_example : match fst (proof_pairs 6 ex_flat None) with Ok l => length l | Err _ => 0 end = 5.
Proof. vm_compute. reflexivity. Qed.
