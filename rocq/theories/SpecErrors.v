(** Which exceptions reading an encrypted message or a key string ends with. *)
From Coq Require Import String List Bool NArith.
From Verif Require Import Base Json ProofJson Keypairs SpecJson SpecKeys SpecWire.
Import ListNotations.

(** The first of the named entries that cannot be used, and the exception for it.  [true]: the entry must be a hexadecimal text. *)
Inductive bad_entry (d : list (list N * json)) : list (list N * bool) -> exn -> Prop :=
| entry_missing : forall k x r, (forall v, ~ entry d k v) -> bad_entry d ((k, x) :: r) KeyError
| entry_no_text : forall k r v, entry d k v -> (forall s, v <> JStr s) -> bad_entry d ((k, true) :: r) TypeError
| entry_no_hex : forall k r s, entry d k (JStr s) -> (forall b, ~ hex_text s b) -> bad_entry d ((k, true) :: r) ValueError
| entry_hex_fine : forall k r s b e, entry d k (JStr s) -> hex_text s b -> bad_entry d r e -> bad_entry d ((k, true) :: r) e
| entry_fine : forall k r v e, entry d k v -> bad_entry d r e -> bad_entry d ((k, false) :: r) e.

(** A text that is not an object with these entries. *)
Inductive bad_text (s : list N) (l : list (list N * bool)) : exn -> Prop :=
| text_no_json : (forall v, ~ json_text s v) -> bad_text s l JSONDecodeError
| text_no_object : forall v, json_text s v -> (forall d, v <> JObj d) -> bad_text s l TypeError
| text_entry : forall d e, json_text s (JObj d) -> bad_entry d l e -> bad_text s l e.

(** Bytes that are not an encrypted message. *)
Inductive unreadable (m : bytes) : exn -> Prop :=
| bytes_no_text : (forall s, ~ utf8_form s m) -> unreadable m UnicodeDecodeError
| bytes_bad_text : forall s e, utf8_form s m ->
    bad_text s [(txt "enc_session_key", true); (txt "nonce", true); (txt "tag", true); (txt "ciphertext", true); (txt "signature", true)] e -> unreadable m e.

(** ValueError and the classes below it. *)
Definition value_errors : list exn := [ValueError; UnicodeDecodeError; UnicodeEncodeError; JSONDecodeError].

Section WithCrypto.
Context {C : Crypto}.

(** How [decrypt] fails: an Auth pair refuses, then the message is read, then an Enc pair refuses to check the signature, then the sender's
    key is read, the signature checked, the session key and the text decrypted. *)
Inductive decrypt_fails (b : kp) (m pk : bytes) : exn -> Prop :=
| d_auth : kp_cls b = Auth -> decrypt_fails b m pk NotImplementedError
| d_unreadable : forall e, kp_cls b <> Auth -> unreadable m e -> decrypt_fails b m pk e
| d_enc : forall esk nonce tag ct sig, kp_cls b = Enc -> message m esk nonce tag ct sig -> decrypt_fails b m pk NotImplementedError
| d_sender : forall esk nonce tag ct sig e, kp_cls b = Base -> message m esk nonce tag ct sig -> rsa_import pk None = Err e -> decrypt_fails b m pk e
| d_signature : forall esk nonce tag ct sig k e, kp_cls b = Base -> message m esk nonce tag ct sig -> rsa_import pk None = Ok k ->
    pkcs_verify k (sha256d ct) sig = Err e -> In e (TypeError :: value_errors) -> decrypt_fails b m pk ValueError
| d_verify_raises : forall esk nonce tag ct sig k e, kp_cls b = Base -> message m esk nonce tag ct sig -> rsa_import pk None = Ok k ->
    pkcs_verify k (sha256d ct) sig = Err e -> ~ In e (TypeError :: value_errors) -> decrypt_fails b m pk e
| d_no_key : forall esk nonce tag ct sig k, kp_cls b = Base -> message m esk nonce tag ct sig -> rsa_import pk None = Ok k ->
    pkcs_verify k (sha256d ct) sig = Ok tt -> kp_key b = None -> decrypt_fails b m pk AttributeError
| d_session_key : forall esk nonce tag ct sig k kb e, kp_cls b = Base -> message m esk nonce tag ct sig -> rsa_import pk None = Ok k ->
    pkcs_verify k (sha256d ct) sig = Ok tt -> kp_key b = Some kb -> oaep_dec kb esk = Err e -> decrypt_fails b m pk e
| d_text : forall esk nonce tag ct sig k kb sk e, kp_cls b = Base -> message m esk nonce tag ct sig -> rsa_import pk None = Ok k ->
    pkcs_verify k (sha256d ct) sig = Ok tt -> kp_key b = Some kb -> oaep_dec kb esk = Ok sk -> eax_dec sk nonce ct tag = Err e -> decrypt_fails b m pk e.

(** How reading a key string fails. *)
Inductive key_string_fails (s pass : list N) : exn -> Prop :=
| k_bad_text : forall e, bad_text s [(txt "nickname", false); (txt "private_key", true)] e -> key_string_fails s pass e
| k_import : forall d h priv e, json_text s (JObj d) -> (exists nick, entry d (txt "nickname") nick) -> entry d (txt "private_key") (JStr h) -> hex_text h priv ->
    rsa_import priv (Some pass) = Err e -> key_string_fails s pass e.
End WithCrypto.
