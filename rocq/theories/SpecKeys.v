(** What is assumed of RSA, OAEP, PKCS#1 v1.5 signatures, AES-EAX and SHA-2, and the programs of attackers. *)
From Coq Require Import List Bool Arith NArith.
From Verif Require Import Base ProofObj Json JsonProofs Keypairs.
Import ListNotations.
Local Open Scope res_scope.

(** ValueError and the subclasses of it that occur here. *)
Definition value_errors : list exn := [ValueError; UnicodeDecodeError; UnicodeEncodeError; JSONDecodeError].

Section WithCrypto.
Context {C : Crypto}.

(** A private key of a size that RSA.generate allows. *)
Definition good_key (k : rsa) : Prop := rsa_private k = true /\ (1024 <= rsa_bits k)%N.

(** The primitives are correct: what is made with one key is undone with its counterpart. Nothing about secrecy. *)
Record crypto_ok : Prop := {
  ok_pub_export : forall k, exists b, rsa_export (rsa_public k) [] None = Ok b;
  ok_pub_text : forall k b, rsa_export (rsa_public k) [] None = Ok b -> exists s, utf8_decode b = Ok s;
  ok_pub_import : forall k b, rsa_export (rsa_public k) [] None = Ok b -> rsa_import b None = Ok (rsa_public k);
  ok_priv_import : forall k salt pass b, rsa_private k = true -> rsa_export k salt (Some pass) = Ok b -> rsa_import b (Some pass) = Ok k;
  ok_sign : forall k h, good_key k -> length h = 32 -> exists s, pkcs_sign k h = Ok s;
  ok_verify : forall k h s, pkcs_sign k h = Ok s -> pkcs_verify (rsa_public k) h s = Ok tt;
  ok_oaep : forall k seed m, good_key k -> length seed = 20 -> length m = 16 ->
    exists c, oaep_enc (rsa_public k) seed m = Ok c /\ oaep_dec k c = Ok m;
  ok_eax : forall key nonce m, length key = 16 \/ length key = 32 -> length nonce = 16 ->
    exists c t, eax_enc key nonce m = Ok (c, t);
  ok_eax_tag : forall key nonce m c t, eax_enc key nonce m = Ok (c, t) -> length t = 16 /\ length c = length m;
  ok_eax_exact : forall key nonce m c t, eax_dec key nonce c t = Ok m <-> eax_enc key nonce m = Ok (c, t);
  ok_sha256 : forall b, length (sha256d b) = 32
}.

(** EAX encrypts with a stream cipher: every byte string is the ciphertext of some message under every key and nonce. *)
Definition eax_onto : Prop := forall key nonce c, length key = 16 -> length nonce = 16 -> exists m t, eax_enc key nonce m = Ok (c, t).

(** A key pair that can do everything. *)
Definition can_all (a : kp) (k : rsa) : Prop := kp_cls a = Base /\ kp_key a = Some k /\ good_key k.

(** The receiver [b] of a message passes it on to the owner of [other], without the key of the sender. *)
Definition forward (seed : bytes) (b : rsa) (msg other : bytes) : result bytes :=
  '(esk, nonce, tag, ct, sig) <- open_envelope msg ;;
  sk <- oaep_dec b esk ;;
  rk <- rsa_import other None ;;
  esk' <- oaep_enc rk seed sk ;;
  envelope esk' nonce tag ct sig.

(** Anybody who has a signature [sig] of a byte string [ct] makes a message for the owner of [other]. *)
Definition forge (sk seed nonce tag : bytes) (ct sig other : bytes) : result bytes :=
  rk <- rsa_import other None ;;
  esk <- oaep_enc rk seed sk ;;
  envelope esk nonce tag ct sig.
End WithCrypto.
