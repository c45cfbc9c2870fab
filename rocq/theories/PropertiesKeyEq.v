(** More about the equality of key pairs (C100).  Theorem statements only; proofs are in KeyEq.v. *)
From Coq Require Import String List Bool Arith NArith.
From Verif Require Import Base Json Keccak ProofJson Keypairs SpecKeys KeysProofs Examples KeysExamples SpecKeyEq KeyEq.
Import ListNotations.

(** [a.__eq__(b)] called as a method, with nicknames that are strings: an RsaKeyPair also takes key pairs of the subclasses for equal; *)
Theorem C100_as_method : forall (C : Crypto), crypto_ok -> forall a b ka kb na nb, kp_key a = Some ka -> kp_key b = Some kb -> kp_nick a = JStr na -> kp_nick b = JStr nb ->
  (kp_eq_method a b = Ok true <-> (kp_cls a = Base \/ kp_cls a = kp_cls b) /\ na = nb /\ rsa_public ka = rsa_public kb) /\ exists r, kp_eq_method a b = Ok r.
Proof. exact @method_exact. Qed.
Print Assumptions C100_as_method.

(** key pairs whose nicknames, read from a key string, are of different kinds are not equal. *)
Theorem C100_kinds_apart : forall (C : Crypto) a b p q, kind_of (kp_nick a) = Some p -> kind_of (kp_nick b) = Some q -> p <> q -> kp_eqb a b <> Ok true.
Proof. exact @eqb_kinds. Qed.
Print Assumptions C100_kinds_apart.

Example C100_more_example : let C : Crypto := toyc in let nobody := mkKp Base JNull (kp_key alice) in
  match kp_eq_method alice (as_cls Auth alice), kp_eq_method (as_cls Auth alice) alice, kp_eqb alice nobody, kp_eqb (mkKp Base JTrue (kp_key alice)) nobody, kp_eqb nobody nobody with
  | Ok true, Ok false, Ok false, Ok false, Ok true => true | _, _, _, _, _ => false end = true.
Proof. vm_compute. reflexivity. Qed.
