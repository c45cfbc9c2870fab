(** The texts of key pairs, character by character. *)
From Coq Require Import String Ascii List Bool Arith NArith Lia.
From Verif Require Import Base BaseProofs Json Keccak ProofJson Keypairs Texts SpecText.
Import ListNotations.
Local Open Scope list_scope.

(** The characters of a name. *)
Fixpoint codes (s : string) : list N := match s with EmptyString => [] | String c s => N_of_ascii c :: codes s end.
Inductive class_name : cls -> string -> Prop :=
| cn_base : class_name Base "RsaKeyPair" | cn_auth : class_name Auth "RsaAuthKeyPair" | cn_enc : class_name Enc "RsaEncKeyPair".
Section WithCrypto.
Context {C : Crypto}.
Variable str_of : json -> list N.
Inductive str_text (a : kp) : list N -> Prop :=
| st_text : forall n, class_name (kp_cls a) n -> str_text a (codes n ++ codes "(nickname=" ++ str_of (kp_nick a) ++ codes ")").
Inductive repr_text (a : kp) : list N -> Prop :=
| re_text : forall n p s, class_name (kp_cls a) n -> public_key a = Ok p -> utf8_decode p = Ok s ->
    repr_text a (codes n ++ codes "(nickname=" ++ str_of (kp_nick a) ++ codes ", public_key=" ++ s ++ codes ")").
End WithCrypto.
