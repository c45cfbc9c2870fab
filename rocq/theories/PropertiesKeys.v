(** Properties of key pairs and of the cryptographic helpers (C51-C53, C93-C106). Theorem statements only; proofs are in
    KeysProofs.v. *)
From Coq Require Import String List Bool Arith NArith Lia.
From Verif Require Import Base BaseProofs Keccak ProofObj Examples MerkleTree Json JsonProofs ProofJson Keypairs SpecKeys KeysProofs KeysExamples.
Import ListNotations.

(** C51: messages and signatures come back, for every message and all random choices of the right sizes. *)
Theorem C51_encrypt_decrypt : forall (C : Crypto), crypto_ok -> forall sk seed nonce a ka b kb m, can_all a ka -> can_all b kb ->
  length sk = 16 -> length seed = 20 -> length nonce = 16 ->
  exists pka pkb e, public_key a = Ok pka /\ public_key b = Ok pkb /\ encrypt sk seed nonce a m pkb = Ok e /\ decrypt b e pka = Ok m.
Proof. exact @round_trip. Qed.
Print Assumptions C51_encrypt_decrypt.

Theorem C51_sign_verify : forall (C : Crypto), crypto_ok -> forall a k d b, kp_cls a <> Enc -> kp_cls b <> Enc -> kp_key a = Some k -> good_key k ->
  exists s pk, sign a d = Ok s /\ public_key a = Ok pk /\ signature_valid a d s None = Ok true /\ signature_valid b d s (Some pk) = Ok true.
Proof. exact @sign_valid. Qed.
Print Assumptions C51_sign_verify.

(** decrypt returns only if the ciphertext in the message carries a signature valid under the key of the claimed sender. *)
Theorem C51_decrypt_needs_signature : forall (C : Crypto), crypto_ok -> forall b e pk m, decrypt b e pk = Ok m ->
  exists esk nonce tag ct sig k kb sk,
  open_envelope e = Ok (esk, nonce, tag, ct, sig) /\ rsa_import pk None = Ok k /\ pkcs_verify k (sha256d ct) sig = Ok tt /\
  kp_key b = Some kb /\ oaep_dec kb esk = Ok sk /\ eax_enc sk nonce m = Ok (ct, tag).
Proof. exact @decrypt_signed. Qed.
Print Assumptions C51_decrypt_needs_signature.

(** A message with a signature that does not verify raises ValueError. *)
Theorem C51_unsigned_raises : forall (C : Crypto) b e pk k esk nonce tag ct sig x, kp_cls b = Base ->
  open_envelope e = Ok (esk, nonce, tag, ct, sig) -> rsa_import pk None = Ok k -> pkcs_verify k (sha256d ct) sig = Err x ->
  x = ValueError \/ x = TypeError -> decrypt b e pk = Err ValueError.
Proof. exact @decrypt_unsigned. Qed.
Print Assumptions C51_unsigned_raises.

Example C51_example : let C : Crypto := toyc in @crypto_ok C /\ can_all alice (Eq, true) /\ can_all bob (Lt, true) /\
  length ex_sk = 16 /\ length ex_seed = 20 /\ length ex_nonce = 16 /\ okb (decrypt bob ex_env (pk_of alice)) ex_msg = true /\
  okb (decrypt bob ex_env (pk_of carol)) ex_msg = false.
Proof.
  intros C. split; [exact toyc_ok|]. split; [apply good_all; reflexivity|]. split; [apply good_all; reflexivity|].
  repeat (split; [reflexivity|]). split; vm_compute; reflexivity.
Qed.
(** C52 is false of the code: both methods go through sign and signature_valid, which the class disables. *)
Theorem C52_encryption_key_pair_works_refuted : forall (C : Crypto) sk seed nonce a data pk e x, kp_cls a = Enc ->
  encrypt sk seed nonce a data pk <> Ok e /\ decrypt a data pk <> Ok x.
Proof. exact @enc_useless. Qed.
Print Assumptions C52_encryption_key_pair_works_refuted.

(** On good arguments the exception is NotImplementedError. *)
Theorem C52_encrypt_raises_refuted : forall (C : Crypto), crypto_ok -> forall sk seed nonce a b kb m pkb, kp_cls a = Enc ->
  kp_key b = Some kb -> good_key kb -> length sk = 16 -> length seed = 20 -> length nonce = 16 -> public_key b = Ok pkb ->
  encrypt sk seed nonce a m pkb = Err NotImplementedError.
Proof. exact @enc_error. Qed.
Print Assumptions C52_encrypt_raises_refuted.

Theorem C52_decrypt_raises_refuted : forall (C : Crypto), crypto_ok -> forall sk seed nonce a ka b kb m pkb e pk, can_all a ka ->
  kp_key b = Some kb -> good_key kb -> length sk = 16 -> length seed = 20 -> length nonce = 16 -> public_key b = Ok pkb ->
  encrypt sk seed nonce a m pkb = Ok e -> kp_cls b = Enc -> decrypt b e pk = Err NotImplementedError.
Proof. exact @enc_decrypt_error. Qed.
Print Assumptions C52_decrypt_raises_refuted.

Example C52_example : let C : Crypto := toyc in
  match encrypt ex_sk ex_seed ex_nonce (as_cls Enc alice) ex_msg (pk_of bob), decrypt (as_cls Enc bob) ex_env (pk_of alice) with
  | Err NotImplementedError, Err NotImplementedError => true | _, _ => false end = true.
Proof. vm_compute. reflexivity. Qed.

(** C53: password encryption, for every text without surrogates. *)
Theorem C53_password_round_trip : forall (C : Crypto), crypto_ok -> forall nonce data pw, Forall scalar pw -> length nonce = 16 ->
  exists b, pw_encrypt nonce data pw = Ok b /\ pw_decrypt b pw = Ok data /\ length b = 32 + length data.
Proof. exact @pw_round_trip. Qed.
Print Assumptions C53_password_round_trip.

Example C53_example : let C : Crypto := toyc in Forall scalar [8364; 120]%N /\
  match pw_encrypt ex_nonce ex_msg [8364; 120]%N with
  | Ok b => okb (pw_decrypt b [8364; 120]%N) ex_msg && negb (okb (pw_decrypt b [120]%N) ex_msg) | Err _ => false end = true.
Proof. intros C. split; [repeat (constructor; [unfold scalar; lia|]); constructor|vm_compute; reflexivity]. Qed.

(** C93 is false of the code: the receiver can pass a message on, and it still counts as sent by the first sender. *)
Theorem C93_message_is_for_the_receiver_refuted : forall (C : Crypto), crypto_ok ->
  forall sk seed nonce seed' a ka b kb c kc m pka pkb pkc e, can_all a ka -> can_all b kb -> can_all c kc ->
  length sk = 16 -> length seed = 20 -> length nonce = 16 -> length seed' = 20 ->
  public_key a = Ok pka -> public_key b = Ok pkb -> public_key c = Ok pkc -> encrypt sk seed nonce a m pkb = Ok e ->
  exists e', forward seed' kb e pkc = Ok e' /\ decrypt c e' pka = Ok m.
Proof. exact @forwarding. Qed.
Print Assumptions C93_message_is_for_the_receiver_refuted.

Example C93_example : let C : Crypto := toyc in can_all carol (Gt, true) /\
  match forward ex_seed ((Lt, true) : rsa) ex_env (pk_of carol) with
  | Ok e => okb (decrypt carol e (pk_of alice)) ex_msg && negb (okb (decrypt carol ex_env (pk_of alice)) ex_msg) | Err _ => false end = true.
Proof. intros C. split; [apply good_all; reflexivity|vm_compute; reflexivity]. Qed.

(** C94 is false of the code: the session key is not signed. From a signature on any byte string anybody makes a message that
    counts as sent by the signer. *)
Theorem C94_message_is_from_the_sender_refuted : forall (C : Crypto), crypto_ok -> eax_onto ->
  forall sk seed nonce a ka b kb d sig pka pkb, kp_cls a <> Enc -> kp_key a = Some ka -> can_all b kb ->
  length sk = 16 -> length seed = 20 -> length nonce = 16 ->
  public_key a = Ok pka -> public_key b = Ok pkb -> sign a d = Ok sig ->
  exists tag e m, eax_enc sk nonce m = Ok (d, tag) /\ forge sk seed nonce tag d sig pkb = Ok e /\ decrypt b e pka = Ok m.
Proof. exact @forging. Qed.
Print Assumptions C94_message_is_from_the_sender_refuted.

Example C94_example : let C : Crypto := toyc in @eax_onto C /\
  match sign (as_cls Auth alice) (bs "hello"), eax_dec ex_sk ex_nonce (bs "hello") (t_tag ex_sk ex_nonce (xor x11 (bs "hello"))) with
  | Ok sig, Ok m =>
      match forge ex_sk ex_seed ex_nonce (t_tag ex_sk ex_nonce m) (bs "hello") sig (pk_of bob) with
      | Ok e => okb (decrypt bob e (pk_of alice)) m && negb (bytes_eqb m (bs "hello")) | Err _ => false end
  | _, _ => false end = true.
Proof. intros C. split; [exact toyc_onto|vm_compute; reflexivity]. Qed.

(** C95: a restricted key pair raises NotImplementedError on everything outside its purpose, whatever the arguments. *)
Theorem C95_restricted_classes : forall (C : Crypto) sk seed nonce a d s pk,
  (kp_cls a = Auth -> encrypt sk seed nonce a d pk = Err NotImplementedError /\ decrypt a d pk = Err NotImplementedError) /\
  (kp_cls a = Enc -> sign a d = Err NotImplementedError /\ signature_valid a d s (Some pk) = Err NotImplementedError /\
                     signature_valid a d s None = Err NotImplementedError).
Proof. exact @restricted. Qed.
Print Assumptions C95_restricted_classes.

Example C95_example : let C : Crypto := toyc in kp_cls (as_cls Auth alice) = Auth /\ kp_cls (as_cls Enc alice) = Enc.
Proof. split; reflexivity. Qed.

(** C96: a key pair saved as a string is loaded with the same passphrase as the same key and nickname. *)
Theorem C96_key_string_round_trip : forall (C : Crypto), crypto_ok -> forall salt a k nick pass s c, kp_key a = Some k -> rsa_private k = true ->
  kp_nick a = JStr nick -> Forall scalar nick -> to_key_string salt a pass = Ok s -> from_key_string c s pass = Ok (mkKp c (JStr nick) (Some k)).
Proof. exact @string_round_trip. Qed.
Print Assumptions C96_key_string_round_trip.

Theorem C96_key_string_exists : forall (C : Crypto), crypto_ok -> forall salt a k pass priv, kp_key a = Some k ->
  rsa_export k salt (Some pass) = Ok priv -> exists s, to_key_string salt a pass = Ok s.
Proof. exact @string_total. Qed.
Print Assumptions C96_key_string_exists.

Example C96_example : let C : Crypto := toyc in kp_nick alice = JStr (txt "alice") /\ Forall scalar (txt "alice") /\
  match to_key_string [] alice (txt "pw") with
  | Ok s => match from_key_string Auth s (txt "pw"), from_key_string Auth s (txt "pW") with
            | Ok a, Err ValueError => nick_eqb (kp_nick a) (JStr (txt "alice")) | _, _ => false end
  | Err _ => false end = true.
Proof. intros C. split; [reflexivity|]. split; [repeat (constructor; [unfold scalar; cbn; lia|]); constructor|vm_compute; reflexivity]. Qed.

(** C97: files. Saving and loading gives the key back; no other file is touched; if exporting fails nothing is. *)
Theorem C97_key_file_round_trip : forall (C : Crypto), crypto_ok -> forall salt fs fs' a k nick file pass c, kp_key a = Some k ->
  rsa_private k = true -> kp_nick a = JStr nick -> Forall scalar nick -> to_key_file salt None fs a file pass = (Ok tt, fs') ->
  from_key_file fs' c file pass = Ok (mkKp c (JStr nick) (Some k)).
Proof. exact @file_round_trip. Qed.
Print Assumptions C97_key_file_round_trip.

Theorem C97_other_files_unchanged : forall (C : Crypto) salt crash fs a file pass other, other <> file ->
  fget (snd (to_key_file salt crash fs a file pass)) other = fget fs other.
Proof. exact @file_others. Qed.
Print Assumptions C97_other_files_unchanged.

Theorem C97_failed_export_changes_nothing : forall (C : Crypto) salt crash fs a file pass e, to_key_string salt a pass = Err e ->
  to_key_file salt crash fs a file pass = (Err e, fs).
Proof. exact @file_unchanged. Qed.
Print Assumptions C97_failed_export_changes_nothing.

Theorem C97_missing_file : forall (C : Crypto) fs c file pass, fget fs file = None -> from_key_file fs c file pass = Err FileNotFoundError.
Proof. exact @file_missing. Qed.
Print Assumptions C97_missing_file.

Example C97_example : let C : Crypto := toyc in
  match to_key_file [] None [(txt "o", txt "old")] alice (txt "f") (txt "pw") with
  | (Ok tt, fs) => match from_key_file fs Base (txt "f") (txt "pw"), fget fs (txt "o") with
                   | Ok a, Some t => nick_eqb (kp_nick a) (JStr (txt "alice")) && ustr_eqb t (txt "old") | _, _ => false end
  | _ => false end = true /\
  match to_key_file [] None [] alice (txt "f") [55296%N] with (Err UnicodeEncodeError, []) => true | _ => false end = true.
Proof. split; vm_compute; reflexivity. Qed.

(** C98 is false of the code: a save that fails while writing has already emptied the file; the old key is gone. *)
Theorem C98_failed_save_keeps_the_file_refuted : forall (C : Crypto) salt fs a k file pass s c, kp_key a = Some k ->
  to_key_string salt a pass = Ok s ->
  fst (to_key_file salt (Some 0) fs a file pass) = Err StorageFault /\
  from_key_file (snd (to_key_file salt (Some 0) fs a file pass)) c file pass = Err JSONDecodeError.
Proof. exact @file_lost. Qed.
Print Assumptions C98_failed_save_keeps_the_file_refuted.

Example C98_example : let C : Crypto := toyc in
  match to_key_file [] None [] alice (txt "f") (txt "pw") with
  | (Ok tt, fs) => match from_key_file fs Base (txt "f") (txt "pw"),
                         from_key_file (snd (to_key_file [] (Some 0) fs alice (txt "f") (txt "pw"))) Base (txt "f") (txt "pw") with
                   | Ok _, Err JSONDecodeError => true | _, _ => false end
  | _ => false end = true.
Proof. vm_compute. reflexivity. Qed.

(** C99 is false of the code: the public key in a key string is not looked at. *)
Theorem C99_wrong_public_key_refused_refuted : forall (C : Crypto) c nick pub priv pass k, Forall scalar nick -> Forall scalar pub ->
  rsa_import priv (Some pass) = Ok k ->
  from_key_string c (dumps (JObj [(txt "nickname", JStr nick); (txt "public_key", JStr pub); (txt "private_key", JStr (hex_str priv))])) pass =
  Ok (mkKp c (JStr nick) (Some k)).
Proof. exact @from_string. Qed.
Print Assumptions C99_wrong_public_key_refused_refuted.

Example C99_example : let C : Crypto := toyc in
  match from_key_string Base (dumps (JObj [(txt "nickname", JStr (txt "n")); (txt "public_key", JStr (txt "nonsense"));
          (txt "private_key", JStr (hex_str [x51; x61]))])) (txt "pw") with Ok a => true | Err _ => false end = true.
Proof. vm_compute. reflexivity. Qed.

(** C100: == on key pairs that have keys: same class, nickname and public key; it is symmetric and does not raise. *)
Theorem C100_equality : forall (C : Crypto), crypto_ok -> forall a b ka kb na nb, kp_key a = Some ka -> kp_key b = Some kb ->
  kp_nick a = JStr na -> kp_nick b = JStr nb ->
  (kp_eqb a b = Ok true <-> kp_cls a = kp_cls b /\ kp_nick a = kp_nick b /\ rsa_public ka = rsa_public kb) /\
  kp_eqb b a = kp_eqb a b /\ exists r, kp_eqb a b = Ok r.
Proof. exact @eqb_exact. Qed.
Print Assumptions C100_equality.

Example C100_example : let C : Crypto := toyc in
  match kp_eqb alice alice, kp_eqb alice (as_cls Auth alice), kp_eqb (as_cls Enc alice) alice, kp_eqb alice bob with
  | Ok true, Ok false, Ok false, Ok false => true | _, _, _, _ => false end = true.
Proof. vm_compute. reflexivity. Qed.

(** C101 is false of the code: hash() of a key pair raises, so it cannot be in a set or be a key. *)
Theorem C101_hashable_refuted : forall (C : Crypto), crypto_ok -> forall a k, kp_key a = Some k -> kp_hash a = Err TypeError.
Proof. exact @hash_fails. Qed.
Print Assumptions C101_hashable_refuted.

Example C101_example : let C : Crypto := toyc in kp_key alice = Some (Eq, true).
Proof. reflexivity. Qed.

(** C102: with a public key that can be loaded signature_valid answers exactly; one that cannot makes it raise. *)
Theorem C102_signature_valid_exact : forall (C : Crypto) a d s pk k, kp_cls a <> Enc -> rsa_import pk None = Ok k ->
  (signature_valid a d s (Some pk) = Ok true <-> pkcs_verify k (sha256d d) s = Ok tt) /\
  (signature_valid a d s (Some pk) = Ok false <-> exists e, pkcs_verify k (sha256d d) s = Err e /\ In e (TypeError :: value_errors)) /\
  (forall e, signature_valid a d s (Some pk) = Err e <-> pkcs_verify k (sha256d d) s = Err e /\ ~ In e (TypeError :: value_errors)) /\
  (public_key a = Ok pk -> signature_valid a d s None = signature_valid a d s (Some pk)).
Proof. exact @valid_exact. Qed.
Print Assumptions C102_signature_valid_exact.

Theorem C102_unloadable_key_raises : forall (C : Crypto) a d s pk e, kp_cls a <> Enc -> rsa_import pk None = Err e ->
  signature_valid a d s (Some pk) = Err e.
Proof. exact @valid_bad_key. Qed.
Print Assumptions C102_unloadable_key_raises.

Example C102_example : let C : Crypto := toyc in
  match signature_valid alice (bs "d") (bs "s") (Some (pk_of bob)), signature_valid alice (bs "d") (bs "s") (Some (bs "?")) with
  | Ok false, Err ValueError => true | _, _ => false end = true.
Proof. vm_compute. reflexivity. Qed.

(** C103: Utils.decrypt accepts exactly what Utils.encrypt makes with the same password. *)
Theorem C103_password_decrypt_exact : forall (C : Crypto), crypto_ok -> forall b pw data, pw_decrypt b pw = Ok data ->
  pw_encrypt (firstn 16 b) data pw = Ok b /\ 32 <= length b.
Proof. exact @pw_exact. Qed.
Print Assumptions C103_password_decrypt_exact.

(** Different passwords use different keys, up to a collision of SHA-256. *)
Theorem C103_password_keys : forall (C : Crypto) p q a b, utf8_encode p = Ok a -> utf8_encode q = Ok b ->
  (sha256d a = sha256d b -> a = b) -> sha256d a = sha256d b -> p = q.
Proof. exact @pw_keys. Qed.
Print Assumptions C103_password_keys.

Example C103_example : let C : Crypto := toyc in
  match pw_encrypt ex_nonce ex_msg (txt "pw") with
  | Ok b => okb (pw_decrypt b (txt "pw")) ex_msg &&
            match pw_decrypt (b ++ [x00]) (txt "pw"), pw_decrypt (firstn 20 b) (txt "pw") with Err ValueError, Err ValueError => true | _, _ => false end
  | Err _ => false end = true.
Proof. vm_compute. reflexivity. Qed.

(** C104: rsa_key_valid is True exactly for keys that load and are of the kind asked for. *)
Theorem C104_key_valid_exact : forall (C : Crypto) key (private r : bool),
  rsa_key_valid key (if private then txt "private" else txt "public") r = Ok true <->
  exists k, rsa_import key None = Ok k /\ rsa_private k = private.
Proof. exact @key_valid_exact. Qed.
Print Assumptions C104_key_valid_exact.

Theorem C104_unloadable_key : forall (C : Crypto) key (private raise_ex : bool) e, rsa_import key None = Err e ->
  (In e value_errors -> rsa_key_valid key (if private then txt "private" else txt "public") raise_ex = if raise_ex then Err KeyError else Ok false) /\
  (~ In e value_errors -> rsa_key_valid key (if private then txt "private" else txt "public") raise_ex = Err e).
Proof. exact @key_valid_unloadable. Qed.
Print Assumptions C104_unloadable_key.

Example C104_example : let C : Crypto := toyc in
  match rsa_key_valid (pk_of alice) (txt "public") true, rsa_key_valid [x51; x61] (txt "private") false, rsa_key_valid [] (txt "public") true with
  | Ok true, Ok true, Err KeyError => true | _, _, _ => false end = true.
Proof. vm_compute. reflexivity. Qed.

(** C105 is false of the code: with raise_exeptions=True a key of the wrong kind is invalid but nothing is raised. *)
Theorem C105_invalid_key_raises_refuted : forall (C : Crypto) key (private : bool) k, rsa_import key None = Ok k -> rsa_private k = negb private ->
  rsa_key_valid key (if private then txt "private" else txt "public") true = Ok false.
Proof. exact @key_valid_wrong_kind. Qed.
Print Assumptions C105_invalid_key_raises_refuted.

Example C105_example : let C : Crypto := toyc in rsa_key_valid (pk_of alice) (txt "private") true = Ok false.
Proof. vm_compute. reflexivity. Qed.

(** C106: hash_data gives the hexadecimal digest of the chosen function and refuses other names. *)
Theorem C106_hash_data : forall (C : Crypto), crypto_ok ->
  (forall b, exists h, hash_data b (txt "sha256") = Ok h /\ from_hex h = Some (sha256d b) /\ length h = 64) /\
  (forall b, exists h, hash_data b (txt "sha512") = Ok h /\ from_hex h = Some (sha512d b)) /\
  (forall b ty, ty <> txt "sha256" -> ty <> txt "sha512" -> hash_data b ty = Err ValueError).
Proof. exact @hash_data_all. Qed.
Print Assumptions C106_hash_data.

Example C106_example : let C : Crypto := toyc in
  match hash_data (bs "x") (txt "sha256"), hash_data (bs "x") (txt "sha512"), hash_data (bs "x") (txt "md5") with
  | Ok a, Ok b, Err ValueError => (length a =? 64) && (length b =? 128) | _, _, _ => false end = true.
Proof. vm_compute. reflexivity. Qed.
