(** What set operations on the keys of EMPTs give. *)
From Coq Require Import List Bool Arith.
From Verif Require Import Base ProofObj Mpt Empt EmptPy EmptSets Spec SpecEvery.
Import ListNotations.

Section WithHash.
Context {H : Hash}.
(** One side of an operation: a set of bytes, or keys() of an EMPT of mode [secure] that holds [g]. *)
Inductive side := SideSet (l : list bytes) | SideKeys (secure : bool) (g : eview).
Definition listed (s : side) : list bytes := match s with SideSet l => l | SideKeys _ g => map fst (ev_vals g) end.
Definition has (s : side) (k : bytes) : Prop := match s with SideSet l => In k l | SideKeys m g => held m (ev_refs g) k end.
(** No key of [ks] is a false positive of [in]. *)
Definition exact_in (m : bool) (g : eview) (ks : list bytes) : Prop := m = true \/ forall k, In k ks -> ~ false_positive (ev_refs g) k.

Definition says (r : result bool) (P : Prop) : Prop := exists b, r = Ok b /\ (b = true <-> P).
Definition gives (r : result (list pykey)) (P : bytes -> Prop) : Prop := exists l, r = Ok (map KBytes l) /\ forall k, In k l <-> P k.

(** All operations of keys() of the EMPT [e] with [o]; [a] and [b]: what they hold. *)
Definition set_answers (lim : nat) (e : empt) (o : operand) (a b : side) : Prop :=
  let na := length (listed a) in let nb := length (listed b) in
  let a_in_b := forall k, In k (listed a) -> has b k in let b_in_a := forall k, In k (listed b) -> has a k in
  says (view_le lim e o) (na <= nb /\ a_in_b) /\ says (view_lt lim e o) (na < nb /\ a_in_b) /\
  says (view_ge lim e o) (nb <= na /\ b_in_a) /\ says (view_gt lim e o) (nb < na /\ b_in_a) /\
  says (view_eq lim e o) (na = nb /\ a_in_b) /\
  says (view_disjoint lim e o) (forall k, In k (listed b) -> ~ has a k) /\
  gives (view_and lim e o) (fun k => In k (listed b) /\ has a k) /\
  gives (Ok (view_or e o)) (fun k => In k (listed a) \/ In k (listed b)) /\
  gives (view_sub lim e o) (fun k => In k (listed a) /\ ~ has b k) /\
  gives (view_rsub lim e o) (fun k => In k (listed b) /\ ~ has a k) /\
  gives (view_xor lim e o) (fun k => (In k (listed a) /\ ~ has b k) \/ (In k (listed b) /\ ~ has a k)).

(** The same of two sets of bytes. *)
Definition set_algebra (lim : nat) (e : empt) (o : operand) (a b : list bytes) : Prop :=
  says (view_le lim e o) (incl a b) /\ says (view_ge lim e o) (incl b a) /\
  says (view_lt lim e o) (incl a b /\ ~ incl b a) /\ says (view_gt lim e o) (incl b a /\ ~ incl a b) /\
  says (view_eq lim e o) (incl a b /\ incl b a) /\ says (view_disjoint lim e o) (forall k, In k b -> ~ In k a) /\
  gives (view_and lim e o) (fun k => In k a /\ In k b) /\ gives (Ok (view_or e o)) (fun k => In k a \/ In k b) /\
  gives (view_sub lim e o) (fun k => In k a /\ ~ In k b) /\ gives (view_rsub lim e o) (fun k => In k b /\ ~ In k a) /\
  gives (view_xor lim e o) (fun k => (In k a /\ ~ In k b) \/ (In k b /\ ~ In k a)).
(** Setting two keys. *)
Definition two (lim : nat) (k1 : bytes) (v1 : value) (k2 : bytes) (v2 : value) : list (nat * ecmd) :=
  [(lim, QPut (KBytes k1) v1 [] false); (lim, QPut (KBytes k2) v2 [] false)].
End WithHash.
