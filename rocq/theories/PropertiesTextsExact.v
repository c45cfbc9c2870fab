(** The texts of proofs and time stamps, character by character (C248, C249).  Theorem statements only; proofs are in TextsExact.v. *)
From Coq Require Import String List Bool Arith NArith Lia.
From Verif Require Import Base ProofObj Keccak ProofJson Texts SpecText SpecTexts TextsExact.
Import ListNotations.

(** C248: the text of bytes, of a tuple of a proof, and of a proof. *)
Theorem C248_bytes_text : forall b t, bytes_repr b = t <-> bytes_text b t.
Proof. exact bytes_text_exact. Qed.
Print Assumptions C248_bytes_text.
Theorem C248_tuple_text : forall l t, tuple_repr l = t <-> tuple_text l t.
Proof. exact tuple_text_exact. Qed.
Print Assumptions C248_tuple_text.
Theorem C248_proof_repr : forall p t, proof_repr p = t <-> exists u, fields_text repr_names p u /\ t = (u ++ bs ")")%list.
Proof. exact repr_text_exact. Qed.
Print Assumptions C248_proof_repr.
Theorem C248_proof_str : forall p t, proof_str p = t <-> exists u, fields_text dict_names p u /\ t = (u ++ bs "}")%list.
Proof. exact str_text_exact. Qed.
Print Assumptions C248_proof_str.
Example C248_applies : let l := [PB (bs "a'""\"); PPair (bs "left") [x00; x0a; xff]] in
  tuple_text l (bs "(b'a\'""\\', (b'left', b'\x00\n\xff'))") /\ tuple_text [] (bs "()") /\ tuple_text [PB (bs "it's")] (bs "(b""it's"",)") /\
  proof_str (mkProof MT_POI (bs "t") (bs "k") (bs "r") l) =
    bs "{'proof_type': b'MT-POI', 'timestamp': b't', 'target_key': b'k', 'root_hash': b'r', 'proof': (b'a\'""\\', (b'left', b'\x00\n\xff'))}".
Proof.
  split; [apply C248_tuple_text; vm_compute; reflexivity|]. split; [apply C248_tuple_text; vm_compute; reflexivity|]. split; [apply C248_tuple_text; vm_compute; reflexivity|].
  vm_compute; reflexivity.
Qed.

(** C249: the time stamp of a proof is the moment in digits. *)
Theorem C249_time_text : forall t s, valid_time t -> (time_str t = s <-> time_text t s).
Proof. exact time_text_exact. Qed.
Print Assumptions C249_time_text.
Example C249_applies : let t := mkTime 2024 2 9 7 5 0 10203 in valid_time t /\ time_text t (bs "2024-02-09 07:05:00.010203") /\
  time_text (mkTime 2024 2 9 7 5 0 0) (bs "2024-02-09 07:05:00").
Proof.
  assert (V : forall u, (u < 1000000)%N -> valid_time (mkTime 2024 2 9 7 5 0 u)) by (unfold valid_time; cbn; intros; lia).
  split; [apply V; lia|]. split; (apply C249_time_text; [apply V; lia|vm_compute; reflexivity]).
Qed.
