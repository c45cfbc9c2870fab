(** Properties of the exceptions of decrypt and of loading keys (C227-C229). Theorem statements only; proofs are in ErrorsProofs.v. *)
From Coq Require Import String List Bool NArith.
From Verif Require Import Base Json ProofJson Keccak MerkleTree Keypairs SpecJson SpecKeys SpecWire SpecErrors ErrorsProofs KeysExamples.
Import ListNotations.

(** C227: exactly when [decrypt] raises which exception. *)
Theorem C227_decrypt_raises : forall (C : Crypto) b m pk e, decrypt b m pk = Err e <-> decrypt_fails b m pk e.
Proof. exact @decrypt_errors. Qed.
Print Assumptions C227_decrypt_raises.

(** Bytes are a message or one of the exceptions is raised for them, not both. *)
Theorem C227_message_or_not : forall m, ((exists esk nonce tag ct sig, message m esk nonce tag ct sig) \/ exists e, unreadable m e) /\
  (forall esk nonce tag ct sig e, message m esk nonce tag ct sig -> ~ unreadable m e).
Proof. exact (fun m => conj (readable_or_not m) (readable_not_both m)). Qed.
Print Assumptions C227_message_or_not.

Definition ex_raises (a : @kp toyc) (m pk : bytes) : option exn := match @decrypt toyc a m pk with Ok _ => None | Err e => Some e end.
Definition ex_part (k v : string) : bytes := bs """" ++ bs k ++ bs """:" ++ bs v.
Definition ex_obj (v : string) : bytes :=
  bs "{" ++ ex_part "enc_session_key" """00""" ++ bs "," ++ ex_part "nonce" """ab cd""" ++ bs "," ++ ex_part "tag" v ++ bs "," ++ ex_part "ciphertext" "0" ++ bs "}".
Example C227_example : let C : Crypto := toyc in
  map (fun m => ex_raises bob m (pk_of alice))
    [[xff]; bs "{"; bs "7"; bs "{""nonce"":""00""}"; ex_obj "null"; ex_obj """0"""; ex_obj """00"""; ex_env] =
    [Some UnicodeDecodeError; Some JSONDecodeError; Some TypeError; Some KeyError; Some TypeError; Some ValueError; Some TypeError; None] /\
  ex_raises bob ex_env (pk_of carol) = Some ValueError /\ ex_raises (mkKp Base (JStr []) None) ex_env (pk_of alice) = Some AttributeError /\
  ex_raises (mkKp Auth (JStr []) None) [xff] (pk_of alice) = Some NotImplementedError /\ ex_raises (mkKp Enc (JStr []) None) [xff] (pk_of alice) = Some UnicodeDecodeError /\
  ex_raises (mkKp Enc (JStr []) None) ex_env (pk_of alice) = Some NotImplementedError.
Proof. repeat split; vm_compute; reflexivity. Qed.

(** C228 is false of the code: messages that are refused with KeyError and TypeError. *)
Theorem C228_refused_with_ValueError_refuted : forall (C : Crypto) b pk, kp_cls b <> Auth -> decrypt b (bs "{}") pk = Err KeyError /\ decrypt b (bs "[]") pk = Err TypeError /\
  decrypt b (bs "{""enc_session_key"": 1}") pk = Err TypeError.
Proof. exact @decrypt_other_errors. Qed.
Print Assumptions C228_refused_with_ValueError_refuted.

(** What is true: it is one of these, whatever the keys. *)
Theorem C228_malformed : forall (C : Crypto) b m pk e, kp_cls b <> Auth -> unreadable m e ->
  decrypt b m pk = Err e /\ In e [UnicodeDecodeError; JSONDecodeError; TypeError; KeyError; ValueError].
Proof. exact @decrypt_malformed. Qed.
Print Assumptions C228_malformed.
Example C228_example : unreadable (bs "{}") KeyError /\ @kp_cls toyc bob <> Auth.
Proof. split; [apply open_bad; vm_compute; reflexivity|discriminate]. Qed.

(** C229: exactly when loading a key raises which exception. *)
Theorem C229_key_string_raises : forall (C : Crypto) c s pass e, from_key_string c s pass = Err e <-> key_string_fails s pass e.
Proof. exact @key_string_errors. Qed.
Print Assumptions C229_key_string_raises.
Theorem C229_key_file_raises : forall (C : Crypto) fs c file pass e, from_key_file fs c file pass = Err e <->
  (fget fs file = None /\ e = FileNotFoundError) \/ exists s, fget fs file = Some s /\ key_string_fails s pass e.
Proof. exact @key_file_errors. Qed.
Print Assumptions C229_key_file_raises.

Example C229_example : let C : Crypto := toyc in
  map (fun s => match from_key_string Base (txt s) (txt "pw") with Ok _ => None | Err e => Some e end)
    ["{"; "null"; "{}"; "{""nickname"":""n""}"; "{""nickname"":""n"",""private_key"":[]}"; "{""nickname"":""n"",""private_key"":""0""}"; "{""nickname"":""n"",""private_key"":""00""}";
     "{""private_key"":""50 61 70 77"",""nickname"":""n""}"]%string =
    [Some JSONDecodeError; Some TypeError; Some KeyError; Some KeyError; Some TypeError; Some ValueError; Some ValueError; None] /\
  match from_key_file [(txt "f", txt "{}")] Base (txt "g") (txt "pw"), from_key_file [(txt "f", txt "{}")] Base (txt "f") (txt "pw") with
  | Err FileNotFoundError, Err KeyError => true | _, _ => false end = true.
Proof. split; vm_compute; reflexivity. Qed.
