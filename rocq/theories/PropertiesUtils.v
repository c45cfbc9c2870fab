(** Properties of the helpers in utils.py (C190-C193). Theorem statements only; proofs are in UtilsProofs.v. *)
From Coq Require Import String List Bool Arith NArith ZArith Lia.
From Verif Require Import Base ProofObj Json Keccak ProofJson MerkleTree Keypairs SpecKeys KeysExamples JsonProofs Texts SpecText UtilsMisc KeyCalls UtilsPy SpecUtils UtilsProofs.
Import ListNotations.

(** C190, refuted: without Django from_timstamp_string raises on every argument.  The texts themselves tell times apart, and order them, to the second. *)
Theorem C190_time_stamps_can_be_read_refuted : forall now, from_timestamp_string (AStr (ascii (timestamp_string now))) = Err AttributeError /\
  forall a, from_timestamp_string a = Err AttributeError.
Proof. exact (fun _ => conj eq_refl (fun _ => eq_refl)). Qed.
Print Assumptions C190_time_stamps_can_be_read_refuted.
Theorem C190_time_stamps_in_order : forall t u, valid_time t -> valid_time u ->
  (bytes_less (timestamp_string t) (timestamp_string u) <-> earlier (to_second t) (to_second u)) /\
  (timestamp_string t = timestamp_string u <-> to_second t = to_second u).
Proof. exact stamp_order. Qed.
Print Assumptions C190_time_stamps_in_order.
Theorem C190_length : forall t, length (timestamp_string t) = 20.
Proof. exact stamp_length. Qed.
Print Assumptions C190_length.
Definition ex_now (s us : N) : datetime := mkTime 2024 12 28 9 5 s us.
Example C190_example : timestamp_string (ex_now 7 123) = bs "2024-12-28 09:05:07 " /\ timestamp_string (ex_now 7 0) = timestamp_string (ex_now 7 123) /\
  valid_time (ex_now 7 123) /\ earlier (to_second (ex_now 7 123)) (to_second (ex_now 8 0)).
Proof. split; [reflexivity|]. split; [reflexivity|]. split; [cbv; repeat split; reflexivity|]. repeat (apply fl_same || apply fl_less); reflexivity. Qed.

(** C191: an id is 32 lower-case hexadecimal digits, version 4 of RFC 4122; it shows all random bits but six. *)
Theorem C191_id_form : forall r, length r = 16 ->
  length (get_id r) = 32 /\ Forall hex_digit (get_id r) /\ nth 12 (get_id r) x00 = x34 /\ In (nth 16 (get_id r) x00) [x38; x39; x61; x62].
Proof. exact id_shape. Qed.
Print Assumptions C191_id_form.
Theorem C191_same_id : forall r s, length r = 16 -> length s = 16 -> (get_id r = get_id s <-> forall i, i < 128 -> ~ fixed_bit i -> bit r i = bit s i).
Proof. exact id_same. Qed.
Print Assumptions C191_same_id.
Example C191_example : get_id (repeat xff 16) = bs "ffffffffffff4fffbfffffffffffffff" /\ get_id (repeat x00 16) = bs "00000000000040008000000000000000" /\
  get_id (repeat x00 6 ++ xf0 :: repeat x00 9) = get_id (repeat x00 16).
Proof. repeat split; vm_compute; reflexivity. Qed.

(** C192: arguments of wrong types raise TypeError, wrong names ValueError, before anything is hashed, encrypted or loaded. *)
Theorem C192_hash_data : forall (C : Crypto) data fin ty, (forall b, data <> ABytes b) -> py_hash_data data fin ty = Err TypeError.
Proof. exact @hash_data_types. Qed.
Print Assumptions C192_hash_data.
Theorem C192_hash_names : forall (C : Crypto) d fin ty, ty <> AStr (txt "sha256") -> ty <> AStr (txt "sha512") -> py_hash_data (ABytes d) fin ty = Err ValueError.
Proof. exact @hash_data_names. Qed.
Print Assumptions C192_hash_names.
Theorem C192_passwords : forall (C : Crypto) nonce data pw, (forall b, data <> ABytes b) \/ (forall s, pw <> AStr s) ->
  py_pw_encrypt nonce data pw = Err TypeError /\ py_pw_decrypt data pw = Err TypeError.
Proof. exact @password_types. Qed.
Print Assumptions C192_passwords.
Theorem C192_right_passwords : forall (C : Crypto), crypto_ok -> forall nonce data pw, Forall scalar pw -> length nonce = 16 ->
  exists b, py_pw_encrypt nonce (ABytes data) (AStr pw) = Ok b /\ py_pw_decrypt (ABytes b) (AStr pw) = Ok data.
Proof. exact @password_round_trip. Qed.
Print Assumptions C192_right_passwords.
Theorem C192_key_valid : forall (C : Crypto) key ty r, (forall b, key <> ABytes b) \/ (forall s, ty <> AStr s) -> py_key_valid key ty r = Err TypeError.
Proof. exact @key_valid_types. Qed.
Print Assumptions C192_key_valid.
Theorem C192_key_kinds : forall (C : Crypto) key t r, t <> txt "public" -> t <> txt "private" -> py_key_valid (ABytes key) (AStr t) r = Err ValueError.
Proof. exact @key_valid_names. Qed.
Print Assumptions C192_key_kinds.
Theorem C192_raise_exeptions : forall (C : Crypto) key t, t = txt "public" \/ t = txt "private" -> py_key_valid (ABytes key) (AStr t) None = Err TypeError.
Proof. exact @key_valid_raise. Qed.
Print Assumptions C192_raise_exeptions.
Theorem C192_names_of_files : forall is cwd name, (forall s, name <> AStr s) -> py_exists is cwd name = Err TypeError.
Proof. exact exists_types. Qed.
Print Assumptions C192_names_of_files.
Example C192_example : let C : Crypto := toyc in
  py_hash_data (AStr []) true (AInt 5) = Err TypeError /\ py_hash_data (ABytes []) true (AStr (txt "SHA256")) = Err ValueError /\
  py_pw_encrypt [] (ABytes []) (ABytes []) = Err TypeError /\ py_key_valid (ABytes []) (AStr (txt "Public")) None = Err ValueError /\
  py_key_valid (ABytes []) (AStr (txt "public")) (Some true) = Err KeyError.
Proof. repeat split; vm_compute; reflexivity. Qed.

(** C193: the text of a digest is the hexadecimal form of the digest of the hash object; a new RSA key is a valid private key and no public key. *)
Theorem C193_hash_objects : forall (C : Crypto) d, exists a b, py_hash_data (ABytes d) true (AStr (txt "sha256")) = Ok (HText a) /\ from_hex a = Some (sha256d d) /\
  py_hash_data (ABytes d) false (AStr (txt "sha256")) = Ok (HObject (txt "sha256") (sha256d d)) /\
  py_hash_data (ABytes d) true (AStr (txt "sha512")) = Ok (HText b) /\ from_hex b = Some (sha512d d) /\
  py_hash_data (ABytes d) false (AStr (txt "sha512")) = Ok (HObject (txt "sha512") (sha512d d)).
Proof. exact @hash_data_forms. Qed.
Print Assumptions C193_hash_objects.
Theorem C193_new_keys : forall (C : Crypto), plain_import_ok -> forall k b r, rsa_private k = true -> generate_rsa_keypair k = Ok b ->
  py_key_valid (ABytes b) (AStr (txt "private")) (Some r) = Ok true /\ py_key_valid (ABytes b) (AStr (txt "public")) (Some r) = Ok false.
Proof. exact @new_keys_valid. Qed.
Print Assumptions C193_new_keys.
Example C193_example : @plain_import_ok toyc /\ @generate_rsa_keypair toyc (Lt, true) = Ok [x51; x62].
Proof.
  split; [|reflexivity]. intros [c p] b P E. cbn in P. subst p. injection E as <-. cbn [toyc rsa_import]. unfold t_import. rewrite key_id_of. reflexivity.
Qed.
