(** Model of /repo/src/pymt/keypairs.py and of the cryptographic part of /repo/src/pymt/utils/utils.py.
    The primitives of PyCryptodome are the fields of the class [Crypto]: any functions.  What the theorems assume of them is
    in SpecKeys.v.  Random choices are arguments. *)
From Coq Require Import String List Bool Arith NArith.
From Verif Require Import Base ProofObj Json ProofJson MerkleTree.
Import ListNotations.
Local Open Scope res_scope.

(** A [str]. *)
Notation ustr := (list N) (only parsing).

Class Crypto := {
  rsa : Type;                                             (* RsaKey objects, public or private *)
  rsa_public : rsa -> rsa;                                (* key.publickey() *)
  rsa_private : rsa -> bool;                              (* key.has_private() *)
  rsa_bits : rsa -> N;                                    (* key.size_in_bits() *)
  rsa_export : rsa -> bytes -> option ustr -> result bytes;        (* key.export_key(passphrase=...), with its salt *)
  rsa_import : bytes -> option ustr -> result rsa;        (* RSA.import_key(data, passphrase=...) *)
  pkcs_sign : rsa -> bytes -> result bytes;               (* pkcs1_15.new(key).sign(h), h a digest *)
  pkcs_verify : rsa -> bytes -> bytes -> result unit;     (* pkcs1_15.new(key).verify(h, sig) *)
  oaep_enc : rsa -> bytes -> bytes -> result bytes;       (* PKCS1_OAEP.new(key).encrypt(m), with its seed *)
  oaep_dec : rsa -> bytes -> result bytes;
  eax_enc : bytes -> bytes -> bytes -> result (bytes * bytes);     (* AES.new(key, MODE_EAX, nonce).encrypt_and_digest(m) *)
  eax_dec : bytes -> bytes -> bytes -> bytes -> result bytes;      (* ... .decrypt_and_verify(c, tag) *)
  sha256d : bytes -> bytes;                               (* SHA256.new(data).digest() *)
  sha512d : bytes -> bytes
}.

Section WithCrypto.
Context {C : Crypto}.

(** RsaKeyPair, RsaAuthKeyPair, RsaEncKeyPair. *)
Inductive cls := Base | Auth | Enc.

(** keypairs.py:20-50; the key is None after [_generate_keys=False].  The nickname is a string, or any value read from JSON
    (from_key_string does not test it). *)
Record kp := mkKp { kp_cls : cls; kp_nick : json; kp_key : option rsa }.

(** [self._key_pair.method(...)]: None has no such attribute. *)
Definition key_of (a : kp) : result rsa := match kp_key a with Some k => Ok k | None => Err AttributeError end.

(** keypairs.py:82-84 [public_key] (a public key is exported without passphrase and salt). *)
Definition public_key (a : kp) : result bytes := k <- key_of a ;; rsa_export (rsa_public k) [] None.

(** keypairs.py:59-60 [__hash__]: a [bytes] object, which [hash()] refuses. *)
Definition kp_hash (a : kp) : result N := _ <- public_key a ;; Err TypeError.

(** [==] of nicknames.  Simplification: values other than strings are compared by their JSON text. *)
Definition nick_eqb (x y : json) : bool :=
  match x, y with JStr a, JStr b => ustr_eqb a b | _, _ => ustr_eqb (dumps x) (dumps y) end.
(** keypairs.py:62-67 [__eq__], called as a method. *)
Definition isinstance (b : cls) (a : cls) : bool :=
  match a, b with Base, _ => true | Auth, Auth => true | Enc, Enc => true | _, _ => false end.
Definition kp_eq_method (a b : kp) : result bool :=
  if isinstance (kp_cls b) (kp_cls a) then
    x <- public_key a ;; y <- public_key b ;;
    Ok (bytes_eqb x y && nick_eqb (kp_nick a) (kp_nick b))
  else Ok false.
(** The operator [a == b]: Python asks the right operand first if its class is a proper subclass. *)
Definition kp_eqb (a b : kp) : result bool :=
  match kp_cls a, kp_cls b with
  | Base, Auth | Base, Enc => kp_eq_method b a
  | _, _ => kp_eq_method a b
  end.

(** keypairs.py:132-149 [sign]; 434-435 for RsaEncKeyPair. *)
Definition sign (a : kp) (data : bytes) : result bytes :=
  match kp_cls a with
  | Enc => Err NotImplementedError
  | _ => k <- key_of a ;; pkcs_sign k (sha256d data)
  end.

(** [except ValueError] also catches its subclasses. *)
Definition value_error (e : exn) : bool :=
  match e with ValueError | UnicodeDecodeError | UnicodeEncodeError | JSONDecodeError => true | _ => false end.

(** keypairs.py:151-187 [signature_valid]; 437-440. *)
Definition signature_valid (a : kp) (data sig : bytes) (pub : option bytes) : result bool :=
  match kp_cls a with
  | Enc => Err NotImplementedError
  | _ =>
      pk <- match pub with Some p => Ok p | None => public_key a end ;;
      k <- rsa_import pk None ;;
      match pkcs_verify k (sha256d data) sig with
      | Ok _ => Ok true
      | Err TypeError => Ok false
      | Err e => if value_error e then Ok false else Err e
      end
  end.

(** [b.hex()]. *)
Definition hex_str (b : bytes) : ustr := ascii (to_hex b).
(** [bytes.fromhex(v)]. *)
Definition unhex_json (v : json) : result bytes :=
  match v with
  | JStr s => if forallb (fun c => (c <? 128)%N) s
              then match from_hex (map nB s) with Some b => Ok b | None => Err ValueError end
              else Err ValueError
  | _ => Err TypeError
  end.

(** The names of the fields of a message (keypairs.py:223-227). *)
Definition k_esk : ustr := txt "enc_session_key".
Definition k_nonce : ustr := txt "nonce".
Definition k_tag : ustr := txt "tag".
Definition k_ct : ustr := txt "ciphertext".
Definition k_sig : ustr := txt "signature".

(** keypairs.py:221-229: the message as text, encoded. *)
Definition envelope (esk nonce tag ct sig : bytes) : result bytes :=
  utf8_encode (dumps (JObj [(k_esk, JStr (hex_str esk)); (k_nonce, JStr (hex_str nonce)); (k_tag, JStr (hex_str tag));
                            (k_ct, JStr (hex_str ct)); (k_sig, JStr (hex_str sig))])).

(** keypairs.py:189-231 [encrypt]; 415-416.  [sk], [seed], [nonce]: the random choices. *)
Definition encrypt (sk seed nonce : bytes) (a : kp) (data receiver : bytes) : result bytes :=
  match kp_cls a with
  | Auth => Err NotImplementedError
  | _ =>
      rk <- rsa_import receiver None ;;
      esk <- oaep_enc rk seed sk ;;
      '(ct, tag) <- eax_enc sk nonce data ;;
      sig <- sign a ct ;;
      envelope esk nonce tag ct sig
  end.

(** keypairs.py:261-266: reading the message. *)
Definition open_envelope (data : bytes) : result (bytes * bytes * bytes * bytes * bytes) :=
  s <- utf8_decode data ;;
  v <- loads s ;;
  x <- jindex v k_esk ;; esk <- unhex_json x ;;
  x <- jindex v k_nonce ;; nonce <- unhex_json x ;;
  x <- jindex v k_tag ;; tag <- unhex_json x ;;
  x <- jindex v k_ct ;; ct <- unhex_json x ;;
  x <- jindex v k_sig ;; sig <- unhex_json x ;;
  Ok (esk, nonce, tag, ct, sig).

(** keypairs.py:233-277 [decrypt]; 418-419. *)
Definition decrypt (a : kp) (data sender : bytes) : result bytes :=
  match kp_cls a with
  | Auth => Err NotImplementedError
  | _ =>
      '(esk, nonce, tag, ct, sig) <- open_envelope data ;;
      ok <- signature_valid a ct sig (Some sender) ;;
      if (ok : bool) then
        k <- key_of a ;;
        sk <- oaep_dec k esk ;;
        eax_dec sk nonce ct tag
      else Err ValueError
  end.

Definition k_nick : ustr := txt "nickname".
Definition k_pub : ustr := txt "public_key".
Definition k_priv : ustr := txt "private_key".

(** keypairs.py:377-400 [to_key_string]. *)
Definition to_key_string (salt : bytes) (a : kp) (pass : ustr) : result ustr :=
  k <- key_of a ;;
  pub <- rsa_export (rsa_public k) [] None ;;
  pubs <- utf8_decode pub ;;
  priv <- rsa_export k salt (Some pass) ;;
  Ok (dumps (JObj [(k_nick, kp_nick a); (k_pub, JStr pubs); (k_priv, JStr (hex_str priv))])).

(** keypairs.py:345-375 [from_key_string].  The nickname may be any value. *)
Definition from_key_string (c : cls) (s pass : ustr) : result kp :=
  v <- loads s ;;
  n <- jindex v k_nick ;;
  x <- jindex v k_priv ;; priv <- unhex_json x ;;
  k <- rsa_import priv (Some pass) ;;
  Ok (mkKp c n (Some k)).

(** ** Files: from names to text *)
Definition files := list (ustr * ustr).
Fixpoint fget (fs : files) (n : ustr) : option ustr :=
  match fs with [] => None | (m, t) :: r => if ustr_eqb n m then Some t else fget r n end.
Definition fset (fs : files) (n t : ustr) : files := (n, t) :: fs.

(** keypairs.py:315-343 [to_key_file].  The text is built first; opening truncates the file; [crash] is the number of
    characters written when writing fails. *)
Definition to_key_file (salt : bytes) (crash : option nat) (fs : files) (a : kp) (file pass : ustr) : result unit * files :=
  match to_key_string salt a pass with
  | Err e => (Err e, fs)
  | Ok t => match crash with
            | None => (Ok tt, fset fs file t)
            | Some n => (Err StorageFault, fset fs file (firstn n t))
            end
  end.
(** keypairs.py:280-313 [from_key_file]. *)
Definition from_key_file (fs : files) (c : cls) (file pass : ustr) : result kp :=
  match fget fs file with None => Err FileNotFoundError | Some t => from_key_string c t pass end.

(** ** utils.py *)

(** utils.py:267-297 [encrypt]. *)
Definition pw_encrypt (nonce data : bytes) (password : ustr) : result bytes :=
  p <- utf8_encode password ;;
  '(ct, tag) <- eax_enc (sha256d p) nonce data ;;
  Ok (nonce ++ tag ++ ct).
(** utils.py:299-331 [decrypt]. *)
Definition pw_decrypt (data : bytes) (password : ustr) : result bytes :=
  p <- utf8_encode password ;;
  eax_dec (sha256d p) (firstn 16 data) (skipn 32 data) (firstn 16 (skipn 16 data)).

(** utils.py:333-393 [rsa_key_valid] on arguments of the right types. *)
Definition rsa_key_valid (key : bytes) (key_type : ustr) (raise_ex : bool) : result bool :=
  if negb (ustr_eqb key_type (txt "public") || ustr_eqb key_type (txt "private")) then Err ValueError
  else match rsa_import key None with
       | Err e => if value_error e then (if raise_ex then Err KeyError else Ok false) else Err e
       | Ok k => Ok (if ustr_eqb key_type (txt "public") then negb (rsa_private k) else rsa_private k)
       end.

(** utils.py:128-161, 184-186, 211-213 [hash_data] with finalize=True. *)
Definition hash_data (data : bytes) (ty : ustr) : result bytes :=
  if ustr_eqb ty (txt "sha256") then Ok (to_hex (sha256d data))
  else if ustr_eqb ty (txt "sha512") then Ok (to_hex (sha512d data))
  else Err ValueError.
End WithCrypto.
