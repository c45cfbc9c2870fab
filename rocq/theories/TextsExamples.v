(** Concrete cases for PropertiesTexts.v. *)
From Coq Require Import String List Bool Arith NArith ZArith.
From Verif Require Import Base Json ProofJson NibblePathPy Keypairs KeysExamples Texts UtilsMisc SpecText.
Import ListNotations.
Definition ex_p1 : pypath := mkPy [x12; x34] false 1.
Definition ex_p2 : pypath := mkPy [x23; x56] false 0.
Definition ex_str (v : json) : list N := match v with JStr s => s | _ => [] end.
Definition alice_public : @kp toyc := @mkKp toyc Base (JStr (txt "alice")) (match @kp_key toyc alice with Some k => Some (@rsa_public toyc k) | None => None end).
Definition ex_fs (p : list (list N) * bool) : bool :=
  match p with ([a; b; c], false) => ustr_eqb a (txt "w") && ustr_eqb b (txt "a") && ustr_eqb c (txt "b") | _ => false end.
Definition ex_isfile (name : list N) : bool := exists_ (fun n => ex_fs (place (txt "/w") n)) (txt "/w") name.
Definition ex_t1 : datetime := mkTime 2024 1 9 23 59 59 0.
Definition ex_t2 : datetime := mkTime 2024 1 9 23 59 59 40.
