(** Properties of the texts that the library writes and reads (C98, C104, C118-C124). Theorem statements only; proofs are in JsonGrammar.v and
    JsonExact.v and PathIndex.v. *)
From Coq Require Import String List Bool Arith NArith ZArith Lia.
From Verif Require Import Base ProofObj Keccak Json JsonProofs SpecJson JsonGrammar ProofJson ProofJsonProofs SpecWire MerkleTree Keypairs SpecKeys KeysExamples JsonExact NibblePath SpecCodec PathIndex.
Import ListNotations.

(** C118: decode_json accepts exactly the JSON texts (RFC 8259, and NaN and Infinity) of an object with these entries. *)
Theorem C118_decode_json_exact : forall s p, proof_decode_json s = Ok p <-> proof_text s p.
Proof. exact decode_json_exact. Qed.
Print Assumptions C118_decode_json_exact.

Theorem C118_not_json : forall s, (forall v, ~ json_text s v) <-> proof_decode_json s = Err JSONDecodeError.
Proof. exact decode_json_not_json. Qed.
Print Assumptions C118_not_json.

(** A text has at most one value. *)
Theorem C118_one_value : forall s v v', json_text s v -> json_text s v' -> v = v'.
Proof. exact json_value_unique. Qed.
Print Assumptions C118_one_value.

Definition ex_proof_text (extra : string) : list N :=
  ascii (bs "{""proof"": {""a"":1,""b"":-0.5e+7,""a"":[NaN]}, ""proof_type"":""MT-POI"", ""target_key"":""\ud83d\ude00"",""root_hash"":""\/"",""timestamp"":""2""" ++ bs extra ++ bs "}").
Example C118_example :
  match proof_decode_json (ex_proof_text "") with
  | Ok p => bytes_eqb (pf_key p) [xf0; x9f; x98; x80] && (length (pf_proof p) =? 2)
  | Err _ => false end = true /\
  forallb (fun e => match proof_decode_json (ex_proof_text e) with Err JSONDecodeError => true | _ => false end)
    [","; ",""x"":01"; ",""x"":1."; ",""x"":""	"""; ",""x"":""\x"""; ",'x':1"; "}"]%string = true /\
  match proof_decode_json (ex_proof_text ",""timestamp"":""\ud800""") with Err UnicodeEncodeError => true | _ => false end = true.
Proof. repeat split; vm_compute; reflexivity. Qed.

(** C119: what encode_json writes is a JSON object with the five fields; text is UTF-8. *)
Theorem C119_encode_json_text : forall p s, pf_type p = MT_POI -> proof_encode_json p = Ok s -> exists time key root els bl,
  json_text s (JObj [(txt "proof_type", JStr (txt "MT-POI")); (txt "timestamp", JStr time); (txt "target_key", JStr key);
    (txt "root_hash", JStr root); (txt "proof", JArr (map JStr els))]) /\
  utf8_form time (pf_time p) /\ utf8_form key (pf_key p) /\ utf8_form root (pf_root p) /\ Forall2 utf8_form els bl /\ pf_proof p = map PB bl.
Proof. exact encode_json_text. Qed.
Print Assumptions C119_encode_json_text.

Theorem C119_text_is_utf8 : forall b, text b <-> exists s, utf8_form s b.
Proof. exact text_form. Qed.
Print Assumptions C119_text_is_utf8.

Example C119_example : match proof_encode_json (mkProof MT_POI (bs "t") [xc3; xa9] (bs "r") [PB [xf0; x9f; x98; x80]]) with
  | Ok s => ustr_eqb s (ascii (bs "{""proof_type"": ""MT-POI"", ""timestamp"": ""t"", ""target_key"": ""\u00e9"", ""root_hash"": ""r"", ""proof"": [""\ud83d\ude00""]}"))
  | Err _ => false end = true /\
  utf8_form [233%N] [xc3; xa9].
Proof.
  split; [vm_compute; reflexivity|]. change [xc3; xa9] with ([xc3; xa9] ++ []). constructor; [|constructor].
  exact (utf8_2 xc3 xa9 3 41 eq_refl eq_refl eq_refl eq_refl ltac:(discriminate)).
Qed.

(** C120: decrypt returns a message exactly in this case. *)
Theorem C120_decrypt_exact : forall (C : Crypto), crypto_ok -> forall b e pk m, decrypt b e pk = Ok m <-> kp_cls b = Base /\
  exists esk nonce tag ct sig k kb sk, message e esk nonce tag ct sig /\ rsa_import pk None = Ok k /\ pkcs_verify k (sha256d ct) sig = Ok tt /\
  kp_key b = Some kb /\ oaep_dec kb esk = Ok sk /\ eax_enc sk nonce m = Ok (ct, tag).
Proof. exact @decrypt_exact. Qed.
Print Assumptions C120_decrypt_exact.

Theorem C120_encrypt_sends : forall (C : Crypto) sk seed nonce a data receiver e, encrypt sk seed nonce a data receiver = Ok e ->
  kp_cls a = Base /\ exists rk ka esk ct tag sig, rsa_import receiver None = Ok rk /\ oaep_enc rk seed sk = Ok esk /\
  eax_enc sk nonce data = Ok (ct, tag) /\ kp_key a = Some ka /\ pkcs_sign ka (sha256d ct) = Ok sig /\ message e esk nonce tag ct sig.
Proof. exact @encrypt_exact. Qed.
Print Assumptions C120_encrypt_sends.

(** White space and capitals in the hexadecimal texts, and other entries, make no difference; another key of the receiver does. *)
Definition ex_spaced : bytes :=
  match open_envelope ex_env with
  | Ok (esk, nonce, tag, ct, sig) =>
      bs "{""enc_session_key"":"" " ++ to_hex esk ++ bs """,""nonce"":""" ++ flat_map (fun b => x20 :: to_hex [b]) nonce ++
      bs """,""x"":null,""tag"":""" ++ to_hex tag ++ bs """,""ciphertext"":""" ++ to_hex ct ++ bs """,""signature"":""" ++ to_hex sig ++ bs """}"
  | Err _ => []
  end.
Example C120_example : let C : Crypto := toyc in
  okb (decrypt bob ex_spaced (pk_of alice)) ex_msg = true /\ okb (decrypt bob ex_env (pk_of alice)) ex_msg = true /\
  match decrypt carol ex_spaced (pk_of alice) with Err _ => true | _ => false end = true.
Proof. repeat split; vm_compute; reflexivity. Qed.

(** C121: what from_key_string loads and to_key_string writes. *)
Theorem C121_from_key_string_exact : forall (C : Crypto) c s pass a, from_key_string c s pass = Ok a <->
  exists d nick h priv k, json_text s (JObj d) /\ entry d (txt "nickname") nick /\ entry d (txt "private_key") (JStr h) /\
  hex_text h priv /\ rsa_import priv (Some pass) = Ok k /\ a = mkKp c nick (Some k).
Proof. exact @key_string_exact. Qed.
Print Assumptions C121_from_key_string_exact.

Theorem C121_to_key_string_text : forall (C : Crypto) salt a n pass s, kp_nick a = JStr n -> python_str n -> to_key_string salt a pass = Ok s ->
  exists k pub pubs priv h nick, kp_key a = Some k /\ rsa_export (rsa_public k) [] None = Ok pub /\ utf8_form pubs pub /\
  rsa_export k salt (Some pass) = Ok priv /\ hex_text h priv /\ joined n nick /\
  value_text s (JObj [(txt "nickname", JStr nick); (txt "public_key", JStr pubs); (txt "private_key", JStr h)]).
Proof. exact @key_string_text. Qed.
Print Assumptions C121_to_key_string_text.

Example C121_example : let C : Crypto := toyc in
  match from_key_string Auth (ascii (bs "{""private_key"":""50 61 70 77"",""nickname"":""n""}")) (txt "pw"),
        from_key_string Auth (ascii (bs "{""private_key"":""5 0617077"",""nickname"":""n""}")) (txt "pw") with
  | Ok a, Err ValueError => nick_eqb (kp_nick a) (JStr (txt "n")) | _, _ => false end = true /\ kp_nick alice = JStr (txt "alice") /\ python_str (txt "alice").
Proof. split; [vm_compute; reflexivity|]. split; [reflexivity|]. repeat (constructor; [reflexivity|]). constructor. Qed.

(** C122 is false of the code: a nickname with a low surrogate after a high one comes back changed, and only such a nickname. *)
Theorem C122_nickname_kept_refuted : forall (C : Crypto), crypto_ok -> forall salt a k n pass s c, kp_key a = Some k -> rsa_private k = true ->
  kp_nick a = JStr n -> python_str n -> to_key_string salt a pass = Ok s ->
  (from_key_string c s pass = Ok (mkKp c (JStr n) (Some k)) <-> forall l u w r, n = l ++ u :: w :: r -> ~ (high u /\ low w)).
Proof. exact @key_string_nick. Qed.
Print Assumptions C122_nickname_kept_refuted.

(** The key itself is always kept. *)
Theorem C122_key_kept : forall (C : Crypto), crypto_ok -> forall salt a k n pass s c, kp_key a = Some k -> rsa_private k = true ->
  kp_nick a = JStr n -> python_str n -> to_key_string salt a pass = Ok s ->
  exists nick, joined n nick /\ from_key_string c s pass = Ok (mkKp c (JStr nick) (Some k)).
Proof. exact @key_string_loaded. Qed.
Print Assumptions C122_key_kept.

Definition ex_halves : kp := @mkKp toyc Base (JStr [55357; 56832]%N) (kp_key alice).
Example C122_example : let C : Crypto := toyc in python_str [55357; 56832]%N /\
  match to_key_string [] ex_halves (txt "pw") with
  | Ok s => match from_key_string Base s (txt "pw") with Ok a => nick_eqb (kp_nick a) (JStr [128512]%N) | Err _ => false end
  | Err _ => false end = true /\
  match to_key_string [] (mkKp Base (JStr [56832; 55357]%N) (kp_key alice)) (txt "pw") with
  | Ok s => match from_key_string Base s (txt "pw") with Ok a => nick_eqb (kp_nick a) (JStr [56832; 55357]%N) | Err _ => false end
  | Err _ => false end = true.
Proof. split; [repeat (constructor; [reflexivity|]); constructor|]. split; vm_compute; reflexivity. Qed.

(** C98, for every point at which writing may fail. *)
Theorem C98_interrupted_save_refuted : forall (C : Crypto) salt fs a nk file pass s c n, kp_nick a = JStr nk -> python_str nk ->
  to_key_string salt a pass = Ok s -> n < length s ->
  fst (to_key_file salt (Some n) fs a file pass) = Err StorageFault /\
  from_key_file (snd (to_key_file salt (Some n) fs a file pass)) c file pass = Err JSONDecodeError.
Proof. exact @file_lost_any. Qed.
Print Assumptions C98_interrupted_save_refuted.

Example C98_example_any : let C : Crypto := toyc in
  match to_key_string [] alice (txt "pw") with
  | Ok s => forallb (fun n => match from_key_file (snd (to_key_file [] (Some n) [] alice (txt "f") (txt "pw"))) Base (txt "f") (txt "pw") with
              | Err JSONDecodeError => true | _ => false end) [0; 1; 20; length s - 1]
  | Err _ => false end = true.
Proof. vm_compute. reflexivity. Qed.

(** C104: another kind of key than "public" or "private" raises. *)
Theorem C104_unknown_kind : forall (C : Crypto) key ty re, ty <> txt "public" -> ty <> txt "private" -> rsa_key_valid key ty re = Err ValueError.
Proof. exact @key_type_unknown. Qed.
Print Assumptions C104_unknown_kind.

Example C104_example_kind : let C : Crypto := toyc in
  match rsa_key_valid (pk_of alice) (txt "Public") false with Err ValueError => true | _ => false end = true.
Proof. vm_compute. reflexivity. Qed.

(** C123: NibblePath.at of every integer, on the nibbles of the bytes that the path was made from and the number of nibbles consumed. *)
Theorem C123_at_exact : forall p i,
  let all := nibbles (np_data p) in let j := (i + Z.of_nat (np_off p))%Z in let n := Z.of_nat (length all) in
  ((0 <= j < n)%Z -> np_at_py p i = Ok (nth (Z.to_nat j) all 0)) /\
  ((- n <= j < 0)%Z -> np_at_py p i = Ok (nth (Z.to_nat (j + n)) all 0)) /\
  ((j < - n \/ n <= j)%Z -> np_at_py p i = Err IndexError).
Proof. exact at_cases. Qed.
Print Assumptions C123_at_exact.

(** False of the code: negative positions do not count from the end of a path of which nibbles were consumed; they return consumed nibbles. *)
Theorem C123_negative_from_end_refuted : forall p i, 0 < i <= np_off p -> np_off p <= length (nibbles (np_data p)) ->
  np_at_py p (- Z.of_nat i) = Ok (nth (np_off p - i) (nibbles (np_data p)) 0).
Proof. exact at_consumed. Qed.
Print Assumptions C123_negative_from_end_refuted.

Example C123_example : let p := mkNp [x12; x34] 1 in
  map (np_at_py p) [0; 2; 3; -1; -2; -5; -6]%Z = [Ok 2; Ok 4; Err IndexError; Ok 1; Ok 4; Ok 1; Err IndexError].
Proof. reflexivity. Qed.

(** C124 is false of the code: the nickname of a loaded key pair can be any JSON value, which the constructor refuses. *)
Theorem C124_nickname_is_string_refuted : forall (C : Crypto) c pass priv k t v, rsa_import priv (Some pass) = Ok k -> value_text t v ->
  from_key_string c (ascii (bs "{""private_key"":""") ++ hex_str priv ++ ascii (bs """,""nickname"":") ++ t ++ ascii (bs "}")) pass = Ok (mkKp c v (Some k)).
Proof. exact @any_nickname. Qed.
Print Assumptions C124_nickname_is_string_refuted.

Example C124_example : let C : Crypto := toyc in
  match from_key_string Auth (ascii (bs "{""private_key"":""50617077"",""nickname"":null}")) (txt "pw") with
  | Ok a => match kp_nick a with JNull => true | _ => false end | Err _ => false end = true.
Proof. vm_compute. reflexivity. Qed.
