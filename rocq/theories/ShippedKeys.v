(** The scripts /repo/src/pymt/examples/sign_and_verify.py, encrypted_com.py, example_rsa_tools.py and mt_create_and_proof.py.
    Random choices (nicknames, keys, session keys, seeds, nonces) and the clock are inputs; what the scripts print is the result. *)
From Coq Require Import String List Bool Arith NArith ZArith.
From Verif Require Import Base Keccak ProofObj Json ProofJson MptEq MerkleTree SpecMt Keypairs KeyCalls.
Import ListNotations.
Local Open Scope res_scope.

Section WithCrypto.
Context {C : Crypto}.
(** [RsaKeyPair(nickname)] *)
Definition new_pair (nick : json) (uuid : list N) (gen : result rsa) : result kobj := create Base (NJson nick) true uuid gen.

(** sign_and_verify.py: the signature and both answers. *)
Definition sign_script (u1 u2 : list N) (g1 g2 : result rsa) : result (bytes * bool * bool) :=
  keyring <- new_pair JNull u1 g1 ;;
  let message := bs "Hello World" in
  signature <- py_sign keyring (ABytes message) ;;
  pk <- public_key (plain keyring) ;;
  valid <- py_valid keyring (ABytes message) (ABytes signature) (ABytes pk) ;;
  new_keyring <- new_pair JNull u2 g2 ;;
  pk <- public_key (plain keyring) ;;
  valid2 <- py_valid new_keyring (ABytes message) (ABytes signature) (ABytes pk) ;;
  Ok (signature, valid, valid2).

(** encrypted_com.py: both public keys, the message and the decrypted message. *)
Definition com_script (u1 u2 : list N) (g1 g2 : result rsa) (sk seed nonce : bytes) : result (bytes * bytes * bytes * bytes) :=
  sender <- new_pair JNull u1 g1 ;;
  receiver <- new_pair JNull u2 g2 ;;
  spk <- public_key (plain sender) ;;
  rpk <- public_key (plain receiver) ;;
  let message := bs "Hello World" in
  encrypted <- py_encrypt sk seed nonce sender (ABytes message) (ABytes rpk) ;;
  decrypted <- py_decrypt receiver (ABytes encrypted) (ABytes spk) ;;
  Ok (spk, rpk, message, decrypted).

(** example_rsa_tools.py: the answer about the signature, the decrypted data and the comparison of the last line. *)
Definition tools_script (u : list N) (g1 g2 : result rsa) (sk seed nonce : bytes) : result (bool * bytes * bool) :=
  pair <- new_pair (JStr (txt "TestKeyPair")) u g1 ;;
  pair <- py_generate pair (AInt 4096) g2 ;;
  let data := bs "Test data for signing" in
  signature <- py_sign pair (ABytes data) ;;
  valid <- py_valid pair (ABytes data) (ABytes signature) ANone ;;
  receiver <- public_key (plain pair) ;;
  encrypted <- py_encrypt sk seed nonce pair (ABytes data) (ABytes receiver) ;;
  pk <- public_key (plain pair) ;;
  decrypted <- py_decrypt pair (ABytes encrypted) (ABytes pk) ;;
  a <- utf8_decode decrypted ;;
  b <- utf8_decode data ;;
  Ok (valid, decrypted, if list_eq_dec N.eq_dec a b then true else false).
End WithCrypto.

(** mt_create_and_proof.py:5-18: the tree is secure, which is the default (mt.py:7). *)
Definition mt_script (time : bytes) : list mop :=
  map (fun v => OPut (VBytes v)) [bs "hello"; bs "world"; bs "here"; bs "i"; bs "am"] ++
  [OMake; OGet 2; ORoot; OProve time (VBytes (bs "world"))].

Section WithHash.
Context {H : Hash}.
(** The root of the tree of the script, and its proof. *)
Definition mt_script_root : bytes :=
  keccak (keccak (keccak (keccak (bs "hello") ++ keccak (bs "world")) ++ keccak (keccak (bs "here") ++ keccak (bs "i"))) ++ keccak (bs "am")).
Definition mt_script_proof (time : bytes) : proof :=
  mkProof MT_POI time (bs "world") (to_hex mt_script_root)
    [PPair (bs "left") (to_hex (keccak (bs "hello"))); PPair (bs "right") (to_hex (keccak (keccak (bs "here") ++ keccak (bs "i"))));
     PPair (bs "right") (to_hex (keccak (bs "am")))].
Definition mt_script_answers (time : bytes) : list mout :=
  repeat (RUnit (Ok tt)) 6 ++ [SpecMt.RBytes (Ok (to_hex (keccak (bs "here")))); SpecMt.RBytes (Ok (to_hex mt_script_root)); RProof (Ok (mt_script_proof time))].
Definition mt_script_path : path :=
  [(true, keccak (bs "hello")); (false, keccak (keccak (bs "here") ++ keccak (bs "i"))); (false, keccak (bs "am"))].
End WithHash.
