(** More of /repo/src/pymt/utils/utils.py: time stamps, random ids, new keys, and the tests of argument types. *)
From Coq Require Import String List Bool Arith NArith ZArith.
From Verif Require Import Base ProofObj Json Keccak ProofJson MerkleTree Keypairs Texts UtilsMisc KeyCalls.
Import ListNotations.
Local Open Scope res_scope.

(** utils.py:22, 24-35 [get_timestamp_string], without Django: [strftime] with "%Y-%m-%d %H:%M:%S %z" on a time without zone, for which %z
    is empty (four-digit years); 48-59 [get_timestamp] is the same as bytes. *)
Definition timestamp_string (now : datetime) : bytes :=
  (fixed 4 (t_year now) ++ bs "-" ++ fixed 2 (t_month now) ++ bs "-" ++ fixed 2 (t_day now) ++ bs " " ++
   fixed 2 (t_hour now) ++ bs ":" ++ fixed 2 (t_min now) ++ bs ":" ++ fixed 2 (t_sec now) ++ bs " ")%list.
(** utils.py:61-75 [from_timstamp_string], without Django: [datetime] is the class, which has no attribute [datetime]; this is looked up before
    the argument is. *)
Definition from_timestamp_string (text : parg) : result datetime := Err AttributeError.

(** CPython's uuid4: 16 random bytes in which the version and the variant are set. *)
Definition uuid4 (random : bytes) : bytes :=
  firstn 6 random ++ [nB (bN (nth 6 random x00) mod 16 + 64)] ++ firstn 1 (skipn 7 random) ++
  [nB (bN (nth 8 random x00) mod 64 + 128)] ++ skipn 9 random.
(** utils.py:77-93 [get_id_string], [get_id]: [UUID.hex]. *)
Definition get_id (random : bytes) : bytes := to_hex (uuid4 random).

Section WithCrypto.
Context {C : Crypto}.

(** utils.py:95-106 [generate_rsa_keypair]; [k]: what RSA.generate(2048) returns. *)
Definition generate_rsa_keypair (k : rsa) : result bytes := rsa_export k [] None.

(** A digest as text, or a hash object. *)
Inductive hashed := HText (b : bytes) | HObject (name : list N) (digest : bytes).
(** utils.py:128-161 [hash_data], 163-188 [sha256], 190-215 [sha512].  [ty]: any argument. *)
Definition py_hash_data (data : parg) (finalize : bool) (ty : parg) : result hashed :=
  match data with
  | ABytes d =>
      match ty with
      | AStr t => if ustr_eqb t (txt "sha256") then Ok (if finalize then HText (to_hex (sha256d d)) else HObject t (sha256d d))
                  else if ustr_eqb t (txt "sha512") then Ok (if finalize then HText (to_hex (sha512d d)) else HObject t (sha512d d))
                  else Err ValueError
      | _ => Err ValueError
      end
  | _ => Err TypeError
  end.
(** utils.py:267-297 [encrypt], 299-331 [decrypt]. *)
Definition py_pw_encrypt (nonce : bytes) (data password : parg) : result bytes :=
  match data, password with ABytes d, AStr p => pw_encrypt nonce d p | _, _ => Err TypeError end.
Definition py_pw_decrypt (data password : parg) : result bytes :=
  match data, password with ABytes d, AStr p => pw_decrypt d p | _, _ => Err TypeError end.
(** utils.py:333-393 [rsa_key_valid]; [raise_exeptions]: a bool or something else, tested after the name of the kind. *)
Definition py_key_valid (key key_type : parg) (raise_ex : option bool) : result bool :=
  match key, key_type with
  | ABytes k, AStr t =>
      if negb (ustr_eqb t (txt "public") || ustr_eqb t (txt "private")) then Err ValueError
      else match raise_ex with Some r => rsa_key_valid k t r | None => Err TypeError end
  | _, _ => Err TypeError
  end.
End WithCrypto.

(** utils.py:218-240 [file_exists], 243-265 [dir_exists]. *)
Definition py_exists (is : list N -> bool) (cwd : list N) (name : parg) : result bool :=
  match name with AStr n => Ok (exists_ is cwd n) | _ => Err TypeError end.
