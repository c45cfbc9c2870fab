(** Properties of set operations on keys() of an EMPT (C217, C218).  Theorem statements only; proofs are in SetsProofs.v. *)
From Coq Require Import String List Bool Arith NArith.
From Verif Require Import Base Keccak KeccakProofs NibblePath ProofObj Mpt Spec SpecEmpt Empt EmptPy SpecEvery EmptViews EmptSets SpecSets Examples EveryExamples
  SetsProofs.
Import ListNotations.

(** C217: [<=], [<], [>=], [>], [==], [isdisjoint], [&], [|], [-] both ways and [^] of keys() and a set of bytes. *)
Theorem C217_with_a_set : forall (H : Hash), (forall b, length (keccak b) = 32) ->
  forall secure h outs e, empt_session (empt_new secure) h = (outs, e) -> efits h -> keys_ok secure (ekeys h) ->
  ekeccak_ok h -> no_collision (m_log (e_trie e)) ->
  exists g, efollows secure (EView [] no_refs false) h outs g /\
  forall lim ks, keys_ok secure (ks ++ ekeys h) -> (forall k, In k ks -> frames secure k < lim) ->
    set_answers lim e (SSet (map KBytes ks)) (SideKeys secure g) (SideSet ks).
Proof. exact @with_a_set. Qed.
Print Assumptions C217_with_a_set.

(** The same of keys() of two EMPTs, each after calls of its own. *)
Theorem C217_with_keys : forall (H : Hash), (forall b, length (keccak b) = 32) -> forall m1 h1 outs1 e1 m2 h2 outs2 e2,
  empt_session (empt_new m1) h1 = (outs1, e1) -> efits h1 -> ekeccak_ok h1 -> no_collision (m_log (e_trie e1)) ->
  empt_session (empt_new m2) h2 = (outs2, e2) -> efits h2 -> ekeccak_ok h2 -> no_collision (m_log (e_trie e2)) ->
  keys_ok m1 (ekeys h1 ++ ekeys h2) -> keys_ok m2 (ekeys h1 ++ ekeys h2) ->
  exists g1 g2, efollows m1 (EView [] no_refs false) h1 outs1 g1 /\ efollows m2 (EView [] no_refs false) h2 outs2 g2 /\
  forall lim, (forall k, In k (map fst (ev_vals g2)) -> frames m1 k < lim) -> (forall k, In k (map fst (ev_vals g1)) -> frames m2 k < lim) ->
    set_answers lim e1 (SView e2) (SideKeys m1 g1) (SideKeys m2 g2).
Proof. exact @with_keys. Qed.
Print Assumptions C217_with_keys.

(** Where nothing failed and [in] has no false positive among the keys asked for, these are the operations on sets. *)
Theorem C217_set_is_set : forall (H : Hash) m h outs g lim e ks, equiet m h -> efollows m (EView [] no_refs false) h outs g -> NoDup ks -> exact_in m g ks ->
  set_answers lim e (SSet (map KBytes ks)) (SideKeys m g) (SideSet ks) -> set_algebra lim e (SSet (map KBytes ks)) (map fst (ev_vals g)) ks.
Proof. exact @set_is_set. Qed.
Print Assumptions C217_set_is_set.

Theorem C217_keys_are_sets : forall (H : Hash) m1 h1 outs1 g1 m2 h2 outs2 g2 lim e o, equiet m1 h1 -> efollows m1 (EView [] no_refs false) h1 outs1 g1 ->
  equiet m2 h2 -> efollows m2 (EView [] no_refs false) h2 outs2 g2 -> exact_in m1 g1 (map fst (ev_vals g2)) -> exact_in m2 g2 (map fst (ev_vals g1)) ->
  set_answers lim e o (SideKeys m1 g1) (SideKeys m2 g2) -> set_algebra lim e o (map fst (ev_vals g1)) (map fst (ev_vals g2)).
Proof. exact @keys_are_sets. Qed.
Print Assumptions C217_keys_are_sets.

(** After calls in which nothing failed, the keys that have references are those that are listed. *)
Theorem C217_quiet_domain : forall (H : Hash) secure h outs g, equiet secure h -> efollows secure (EView [] no_refs false) h outs g ->
  NoDup (map fst (ev_vals g)) /\ forall k, ev_refs g k <> None <-> In k (map fst (ev_vals g)).
Proof. exact @quiet_domain. Qed.
Print Assumptions C217_quiet_domain.

(** The operations that ask only the set, on every EMPT object and with every set, of bytes or not. *)
Theorem C217_any_set : forall (H : Hash) lim e l,
  says (view_le lim e (SSet l)) (empt_len e <= length l /\ forall k, In k (empt_keys e) -> In (KBytes k) l) /\
  says (view_lt lim e (SSet l)) (empt_len e < length l /\ forall k, In k (empt_keys e) -> In (KBytes k) l) /\
  says (view_eq lim e (SSet l)) (empt_len e = length l /\ forall k, In k (empt_keys e) -> In (KBytes k) l) /\
  gives (view_sub lim e (SSet l)) (fun k => In k (empt_keys e) /\ ~ In (KBytes k) l) /\
  (forall x, In x (view_or e (SSet l)) <-> In x l \/ exists k, x = KBytes k /\ In k (empt_keys e)).
Proof. exact @any_set. Qed.
Print Assumptions C217_any_set.

(** Elements that are not bytes. *)
Theorem C217_not_bytes : forall (H : Hash), (forall b, length (keccak b) = 32) ->
  forall secure h outs e, empt_session (empt_new secure) h = (outs, e) -> efits h -> keys_ok secure (ekeys h) ->
  ekeccak_ok h -> no_collision (m_log (e_trie e)) ->
  forall lim ks more, keys_ok secure (ks ++ ekeys h) -> (forall k, In k ks -> frames secure k < lim) ->
  let o := SSet (map KBytes ks ++ KOther :: more) in
  view_and lim e o = Err TypeError /\ view_rsub lim e o = Err TypeError /\ view_xor lim e o = Err TypeError.
Proof. exact @not_bytes. Qed.
Print Assumptions C217_not_bytes.

Definition put_all (ks : list string) : list (nat * ecmd) := map (fun k => (100, QPut (KBytes (bs k)) (VBytes (bs "x")) [] false)) ks.
Definition words : list (nat * ecmd) := put_all ["cat"; "do"; "horse"; "ant"]%string ++ [(100, QDel (KBytes (bs "ant")) false false [])].
Definition others : list (nat * ecmd) := put_all ["horse"; "bee"; "do"]%string.
Local Notation k s := (KBytes (bs s)).
Example C217_applies : let H : Hash := toy in forall s, ok_session s words /\ ok_session s others /\ equiet s words /\ equiet s others /\
  keys_ok s (ekeys words ++ ekeys others) /\
  let e1 := snd (empt_session (empt_new s) words) in let e2 := snd (empt_session (empt_new s) others) in
  let l := SSet [k "do"; k "cat"; k "horse"; k "owl"] in
  view_and 100 e1 (SView e2) = Ok [k "horse"; k "do"] /\ view_sub 100 e1 (SView e2) = Ok [k "cat"] /\ view_rsub 100 e1 (SView e2) = Ok [k "bee"] /\
  view_xor 100 e1 (SView e2) = Ok [k "cat"; k "bee"] /\ view_eq 100 e1 (SView e2) = Ok false /\ view_disjoint 100 e1 (SView e2) = Ok false /\
  view_le 100 e1 l = Ok true /\ view_lt 100 e1 l = Ok true /\ view_ge 100 e1 l = Ok false /\ view_gt 100 e1 (SSet [k "do"]) = Ok true /\
  view_eq 100 e1 (SSet [k "do"; k "cat"; k "horse"]) = Ok true /\ view_and 100 e1 (SSet [k "do"; KOther]) = Err TypeError /\
  view_sub 100 e1 (SSet [k "do"; KOther]) = Ok [k "cat"; k "horse"] /\ view_and 1 e1 l = Err RecursionError.
Proof.
  intros H s. split; [apply ok_session_b; destruct s; vm_compute; reflexivity|]. split; [apply ok_session_b; destruct s; vm_compute; reflexivity|].
  split; [apply quiet_b_ok; destruct s; vm_compute; reflexivity|]. split; [apply quiet_b_ok; destruct s; vm_compute; reflexivity|].
  split; [intros _; apply no_collision_b_ok; vm_compute; reflexivity|]. intros e1 e2 l. destruct s; vm_compute; repeat split.
Qed.

(** C218 (refuted): keys() of two EMPTs are equal only when they have the same keys.  In plain mode they are equal, and the difference of either is empty,
    with one key that differs: [p] in both, and a longer key in each, whose next nibbles differ. *)
Theorem C218_equal_keys_refuted : forall (H : Hash), (forall b, length (keccak b) = 32) ->
  forall p b r b' r' v v1 v2 lim outs1 e1 outs2 e2, let h1 := two lim p v (p ++ b :: r) v1 in let h2 := two lim p v (p ++ b' :: r') v2 in
  hi b <> hi b' -> storable v = true -> storable v1 = true -> storable v2 = true ->
  2 * length (p ++ b :: r) < lim -> 2 * length (p ++ b' :: r') < lim ->
  empt_session (empt_new false) h1 = (outs1, e1) -> efits h1 -> ekeccak_ok h1 -> no_collision (m_log (e_trie e1)) ->
  empt_session (empt_new false) h2 = (outs2, e2) -> efits h2 -> ekeccak_ok h2 -> no_collision (m_log (e_trie e2)) ->
  empt_keys e1 = [p; p ++ b :: r] /\ empt_keys e2 = [p; p ++ b' :: r'] /\ p ++ b :: r <> p ++ b' :: r' /\
  view_eq lim e1 (SView e2) = Ok true /\ view_le lim e1 (SView e2) = Ok true /\ view_sub lim e1 (SView e2) = Ok [] /\ view_xor lim e1 (SView e2) = Ok [] /\
  view_and lim e1 (SSet [KBytes (p ++ b' :: r')]) = Ok [KBytes (p ++ b' :: r')] /\ view_disjoint lim e1 (SSet [KBytes (p ++ b' :: r')]) = Ok false.
Proof. exact @alike. Qed.
Print Assumptions C218_equal_keys_refuted.

Example C218_applies : let H : Hash := toy in
  let h1 := two 100 (bs "do") (VBytes (bs "verb")) (bs "dog") (VBytes (bs "puppy")) in
  let h2 := two 100 (bs "do") (VBytes (bs "verb")) (bs "dot") (VBytes (bs "point")) in
  ok_session false h1 /\ ok_session false h2 /\ hi "g"%byte <> hi "t"%byte /\
  let e1 := snd (empt_session (empt_new false) h1) in let e2 := snd (empt_session (empt_new false) h2) in
  empt_keys e1 = [bs "do"; bs "dog"] /\ empt_keys e2 = [bs "do"; bs "dot"] /\ view_eq 100 e1 (SView e2) = Ok true /\
  let s1 := snd (empt_session (empt_new true) h1) in let s2 := snd (empt_session (empt_new true) h2) in view_eq 100 s1 (SView s2) = Ok false.
Proof.
  intros H h1 h2. split; [apply ok_session_b; vm_compute; reflexivity|]. split; [apply ok_session_b; vm_compute; reflexivity|].
  split; [vm_compute; discriminate|]. vm_compute. repeat split.
Qed.
