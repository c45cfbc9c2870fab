(** Properties of [hash] and [==] of tries.  Vocabulary: SpecInt.v.  Model: MptEq.v, MptHash.v. *)
From Coq Require Import String List Bool Arith NArith ZArith.
From Verif Require Import Base Rlp Keccak NibblePath Node ProofObj Mpt MptEq MptHash SpecJson SpecInt IntProofs.
Import ListNotations.
Local Open Scope Z_scope.

(** C168: the number of a trie is what the digest of its root reference writes, read as hexadecimal text. *)
Theorem C168_number : forall b z, py_int16 b = Some z <-> int_text b z.
Proof. exact int_exact. Qed.
Print Assumptions C168_number.

Theorem C168_hash : forall (H : Hash) t,
  (forall z, mpt_hash t = Ok z <-> exists r, m_root t = Some r /\ int_text (keccak r) z) /\
  (mpt_hash t = Err TypeError <-> m_root t = None) /\
  (mpt_hash t = Err ValueError <-> exists r, m_root t = Some r /\ forall z, ~ int_text (keccak r) z) /\
  (forall e, mpt_hash t = Err e -> e = TypeError \/ e = ValueError).
Proof. exact @hash_exact. Qed.
Print Assumptions C168_hash.

Theorem C168_equality : forall (H : Hash) t t' (b : bool),
  (mpt_eq t t' = Ok b <-> exists r r' z z', m_root t = Some r /\ m_root t' = Some r' /\
    int_text (keccak r) z /\ int_text (keccak r') z' /\ (b = true <-> z = z')) /\
  (forall e, mpt_eq t t' = Err e <-> mpt_hash t = Err e \/ ((exists z, mpt_hash t = Ok z) /\ mpt_hash t' = Err e)).
Proof. exact @eq_exact. Qed.
Print Assumptions C168_equality.

(** C169: the built-in [hash], and [==] with any object. *)
Theorem C169_slot : forall z h, slot_hash z = h <->
  (z <> -1 /\ - 2 ^ 63 <= z < 2 ^ 63 /\ h = z) \/ (z = -1 /\ h = -2) \/
  (2 ^ 63 <= z /\ exists q, z = q * (2 ^ 61 - 1) + h /\ 0 <= h < 2 ^ 61 - 1) \/
  (z < - 2 ^ 63 /\ exists q r, - z = q * (2 ^ 61 - 1) + r /\ 0 <= r < 2 ^ 61 - 1 /\ ((r <> 1 /\ h = - r) \/ (r = 1 /\ h = -2))).
Proof. exact slot_hash_exact. Qed.
Print Assumptions C169_slot.

Theorem C169_builtin : forall (H : Hash) t h,
  mpt_builtin_hash t = Ok h <-> exists r z, m_root t = Some r /\ int_text (keccak r) z /\ slot_hash z = h.
Proof. exact @builtin_exact. Qed.
Print Assumptions C169_builtin.

Theorem C169_builtin_raises : forall (H : Hash) t e, mpt_builtin_hash t = Err e <-> mpt_hash t = Err e.
Proof. exact @builtin_raises. Qed.
Print Assumptions C169_builtin_raises.

Theorem C169_equal_tries_equal_hashes : forall (H : Hash) t t', mpt_eq t t' = Ok true ->
  exists h, mpt_builtin_hash t = Ok h /\ mpt_builtin_hash t' = Ok h.
Proof. exact @equal_hash. Qed.
Print Assumptions C169_equal_tries_equal_hashes.

Theorem C169_any_operand : forall (H : Hash) t o (b : bool),
  (mpt_eq_any t o = Ok b <-> (o = Other /\ b = false) \/ exists t', o = Trie t' /\ mpt_eq t t' = Ok b) /\
  (forall e, mpt_eq_any t o = Err e -> exists t', o = Trie t').
Proof. exact @any_exact. Qed.
Print Assumptions C169_any_operand.

(** Cases: digests that are text, and ones that are not. *)
Definition texts : Hash := fun b => match b with
  | [x01] => bs "  -0x_1_F" | [x02] => bs "-1f" ++ [x0a] | [x03] => bs "ffffffffffffffff" | [x04] => bs "1__f" | _ => [xff] end.
Definition at_ (r : byte) : mpt := mkMpt [] [] (Some [r]) false.
Example C168_number_applies : int_text (bs "  -0x_1_F") (-31).
Proof.
  exists (bs "  "), (bs "0x_"), (bs "1_F"), 31, []. split; [repeat (constructor; [cbn; tauto|]); constructor|]. split; [cbn; tauto|].
  split; [|split; [constructor|right; right; split; reflexivity]].
  apply (num_underscore (bs "1") 1 x46 15%N); [apply (num_digit x31 1%N); apply (hex_09 1); reflexivity|].
  apply (hex_AF 5). reflexivity.
Qed.
Example C168_applies : let H : Hash := texts in
  mpt_hash (at_ x01) = Ok (-31) /\ mpt_eq (at_ x01) (at_ x02) = Ok true /\ mpt_eq (at_ x01) (at_ x03) = Ok false /\
  mpt_hash (at_ x04) = Err ValueError /\ mpt_eq (at_ x01) (at_ x05) = Err ValueError /\ mpt_eq (mkMpt [] [] None false) (at_ x05) = Err TypeError.
Proof. vm_compute. repeat split. Qed.
Example C169_applies : let H : Hash := texts in
  mpt_builtin_hash (at_ x01) = Ok (-31) /\ mpt_builtin_hash (at_ x03) = Ok 7 /\ mpt_eq_any (at_ x04) Other = Ok false /\ slot_hash (-1) = -2 /\
  slot_hash (- 2 ^ 61 * 8) = -8 /\ slot_hash (2 ^ 61) = 2 ^ 61.
Proof. vm_compute. repeat split. Qed.
