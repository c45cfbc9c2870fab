(** What reading a node and verifying a trie proof answers or raises.
    Vocabulary: SpecVerdict.v, SpecAccept.v, SpecRlp.v.  Model: Node.v, Mpt.v. *)
From Coq Require Import String List Bool Arith NArith ZArith.
From Verif Require Import Base Rlp Keccak NibblePath Node ProofObj Mpt Spec SpecCodec SpecRlp SpecAccept Examples SharedExamples SpecVerdict VerdictProofs.
Import ListNotations.

(** C170: what Node.decode raises, exactly. *)
Theorem C170_decode_raises : forall b e, node_decode b = Err e <-> node_fault b e.
Proof. exact decode_raises. Qed.
Print Assumptions C170_decode_raises.

(** C171: what verify_proof_of_inclusion answers or raises, exactly. *)
Theorem C171_inclusion : forall (H : Hash) lim t p v, mpt_verify_poi lim t p = v <-> inclusion_verdict lim t p v.
Proof. exact @inclusion_exact. Qed.
Print Assumptions C171_inclusion.

Theorem C171_exceptions : forall (H : Hash) lim t p e, mpt_verify_poi lim t p = Err e ->
  In e [TypeError; ValueError; IndexError; AssertionError; DecodingError; RecursionError; ExtensionPathError; BranchPathError].
Proof. exact @inclusion_kinds. Qed.
Print Assumptions C171_exceptions.

(** C172: what verify_proof_of_exclusion answers or raises, exactly. *)
Theorem C172_exclusion : forall (H : Hash) lim t p v, mpt_verify_poe lim t p = v <-> exclusion_verdict lim t p v.
Proof. exact @exclusion_exact. Qed.
Print Assumptions C172_exclusion.

Theorem C172_exceptions : forall (H : Hash) lim t p e, mpt_verify_poe lim t p = Err e ->
  In e [TypeError; ValueError; IndexError; AssertionError; DecodingError; RecursionError; PoeError; AttributeError].
Proof. exact @exclusion_kinds. Qed.
Print Assumptions C172_exceptions.

(** C173 is false of the code: verification raises for every accepted proof with one more element. *)
Theorem C173_verification_returns_a_bool_refuted : forall (H : Hash) lim t p,
  let p' := mkProof (pf_type p) (pf_time p) (pf_key p) (pf_root p) (pf_proof p ++ [PB [x80]]) in
  (mpt_verify_poi lim t p = Ok true -> mpt_verify_poi lim t p' = Err AssertionError) /\
  (mpt_verify_poe lim t p = Ok true -> mpt_verify_poe lim t p' = Err AssertionError).
Proof. exact @appended. Qed.
Print Assumptions C173_verification_returns_a_bool_refuted.

(** Cases. *)
Example C170_applies : node_decode (bs "dog") = Err DecodingError /\ node_decode [x82; x61; x62] = Err TypeError /\
  node_decode [x83; x61; x62; x63] = Err AssertionError /\ node_decode [xc0] = Err AssertionError /\ node_decode [xc2; x80; x61] = Err IndexError /\
  node_decode [xc3; xc1; x61; x62] = Err TypeError /\ node_decode [xc2; x20; xc0] = Err TypeError /\
  node_decode (xd1 :: repeat x80 16 ++ [xc0]) = Err TypeError /\ exists n, node_decode (xd1 :: repeat x80 16 ++ [x61]) = Ok n.
Proof. vm_compute. repeat split. eexists. reflexivity. Qed.

Definition with_key (p : proof) (k : bytes) : proof := mkProof (pf_type p) (pf_time p) k (pf_root p) (pf_proof p).
Definition with_root (p : proof) (r : bytes) : proof := mkProof (pf_type p) (pf_time p) (pf_key p) r (pf_proof p).
Example C171_applies : let H : Hash := toy in let t := ex_trie false in let p := doge_proof false in
  mpt_verify_poi 100 t p = Ok true /\ mpt_verify_poi 100 t (with_root p []) = Ok false /\
  mpt_verify_poi 100 t (with_nodes p []) = Err IndexError /\ mpt_verify_poi 100 t (hound_proof false) = Err TypeError /\
  mpt_verify_poi 2 t p = Err RecursionError /\ mpt_verify_poi 100 t (with_nodes p (pf_proof p ++ [PPair [] []])) = Err TypeError /\
  mpt_verify_poi 100 t (with_nodes p (pf_proof p ++ [PB (bs "dog")])) = Ok false /\ mpt_verify_poi 100 (mpt_new false) p = Err ValueError /\
  map (fun k => mpt_verify_poi 100 t (with_key p k)) [[x00]; bs "e"; bs "dogs"] = [Err ExtensionPathError; Err BranchPathError; Err BranchPathError].
Proof. vm_compute. repeat split. Qed.
Example C172_applies : let H : Hash := toy in let t := ex_trie false in let p := hound_proof false in
  mpt_verify_poe 100 t p = Ok true /\ mpt_verify_poe 100 t (with_nodes p (firstn 1 (pf_proof p))) = Err AttributeError /\
  mpt_verify_poe 100 t (with_nodes p []) = Err IndexError /\ mpt_verify_poe 100 t (doge_proof false) = Err TypeError /\
  mpt_verify_poe 1 t p = Err RecursionError /\ mpt_verify_poe 100 t (with_key p []) = Ok false /\
  mpt_verify_poe 100 t (with_nodes p (pf_proof p ++ [PB (bs "dog")])) = Err DecodingError /\ mpt_verify_poe 100 (mpt_new false) p = Err ValueError.
Proof. vm_compute. repeat split. Qed.
Example C173_applies : let H : Hash := toy in forall s,
  mpt_verify_poi 100 (ex_trie s) (doge_proof s) = Ok true /\ mpt_verify_poe 100 (ex_trie s) (hound_proof s) = Ok true.
Proof. intros H s. split; destruct s; vm_compute; reflexivity. Qed.
