(** The texts of key pairs, character by character (C261).  Theorem statements only; proofs are in KeyTexts.v. *)
From Coq Require Import String List Bool Arith NArith.
From Verif Require Import Base Json ProofJson Keypairs Texts SpecText Keccak Examples KeysExamples TextsExamples SpecKeyTexts KeyTexts.
Import ListNotations.

(** C261: [str] and [repr] of a key pair; *)
Theorem C261_str : forall (C : Crypto) str_of a t, kp_str str_of a = t <-> str_text str_of a t.
Proof. exact @str_exact. Qed.
Print Assumptions C261_str.
Theorem C261_repr : forall (C : Crypto) str_of a t, kp_repr str_of a = Ok t <-> repr_text str_of a t.
Proof. exact @repr_exact. Qed.
Print Assumptions C261_repr.
(** they tell the classes apart, and [str] the nicknames. *)
Theorem C261_str_apart : forall (C : Crypto) str_of a b,
  kp_str str_of a = kp_str str_of b <-> kp_cls a = kp_cls b /\ str_of (kp_nick a) = str_of (kp_nick b).
Proof. exact @str_apart. Qed.
Print Assumptions C261_str_apart.
Theorem C261_repr_apart : forall (C : Crypto) str_of a b t, kp_repr str_of a = Ok t -> kp_repr str_of b = Ok t -> kp_cls a = kp_cls b.
Proof. exact @repr_apart. Qed.
Print Assumptions C261_repr_apart.
Example C261_applies : let named c := @mkKp toyc c (kp_nick alice) (kp_key alice) in
  @str_text toyc ex_str (named Auth) (codes "RsaAuthKeyPair(nickname=alice)") /\ @str_text toyc ex_str (named Enc) (codes "RsaEncKeyPair(nickname=alice)") /\
  exists t, @repr_text toyc ex_str (named Auth) t /\ firstn 42 t = codes "RsaAuthKeyPair(nickname=alice, public_key=" /\ 43 < List.length t.
Proof.
  split; [apply C261_str; vm_compute; reflexivity|]. split; [apply C261_str; vm_compute; reflexivity|].
  exists (match @kp_repr toyc ex_str (@mkKp toyc Auth (kp_nick alice) (kp_key alice)) with Ok t => t | Err _ => [] end).
  split; [apply C261_repr; vm_compute; reflexivity|]. split; [vm_compute; reflexivity|apply Nat.ltb_lt; vm_compute; reflexivity].
Qed.
