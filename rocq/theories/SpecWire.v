(** What the library writes and reads as text: proofs, encrypted messages. *)
From Coq Require Import String List NArith.
From Verif Require Import Base ProofObj Json Keccak ProofJson SpecJson.
Import ListNotations.

(** [s] is the text of the proof [p]: an object with these entries (others are ignored), everything in UTF-8. *)
Definition proof_text (s : list N) (p : proof) : Prop :=
  exists d time key root l items els, json_text s (JObj d) /\
  entry d (txt "proof_type") (JStr (txt "MT-POI")) /\ entry d (txt "timestamp") (JStr time) /\ entry d (txt "target_key") (JStr key) /\
  entry d (txt "root_hash") (JStr root) /\ entry d (txt "proof") l /\ loop_strings l items /\
  utf8_form time (pf_time p) /\ utf8_form key (pf_key p) /\ utf8_form root (pf_root p) /\ Forall2 utf8_form items els /\
  pf_type p = bs "MT-POI" /\ pf_proof p = map PB els.

(** [e] is an encrypted message with these parts. *)
Definition message (e esk nonce tag ct sig : bytes) : Prop :=
  exists s d h1 h2 h3 h4 h5, utf8_form s e /\ json_text s (JObj d) /\
  entry d (txt "enc_session_key") (JStr h1) /\ entry d (txt "nonce") (JStr h2) /\ entry d (txt "tag") (JStr h3) /\
  entry d (txt "ciphertext") (JStr h4) /\ entry d (txt "signature") (JStr h5) /\
  hex_text h1 esk /\ hex_text h2 nonce /\ hex_text h3 tag /\ hex_text h4 ct /\ hex_text h5 sig.
