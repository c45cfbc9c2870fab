(** Properties of calls on EMPT and SparseEMPT objects (C174-C176).  Theorem statements only; proofs are in EveryProofs2.v. *)
From Coq Require Import String List Bool Arith NArith.
From Verif Require Import Base Keccak NibblePath ProofObj Mpt Spec SpecEmpt Empt SpecYp EmptPy SpecEvery Examples EveryExamples EveryProofs2.
Import ListNotations.

(** C174: what every call on an EMPT does, after any calls, whether or not they raised.  [g]: what the object holds at the end. *)
Theorem C174_every_call : forall (H : Hash), (forall b, length (keccak b) = 32) ->
  forall secure h outs e, empt_session (empt_new secure) h = (outs, e) -> efits h -> keys_ok secure (ekeys h) ->
  ekeccak_ok h -> no_collision (m_log (e_trie e)) ->
  exists g, efollows secure (EView [] no_refs false) h outs g /\ forall r, yp_root (refs_of secure (ev_refs g)) r <-> empt_root_hash e = r.
Proof. exact @empt_every_call. Qed.
Print Assumptions C174_every_call.

Theorem C174_only_answer : forall (H : Hash), (forall b, length (keccak b) = 32) ->
  forall secure h outs e, empt_session (empt_new secure) h = (outs, e) -> efits h -> keys_ok secure (ekeys h) ->
  ekeccak_ok h -> no_collision (m_log (e_trie e)) -> equiet secure h ->
  forall outs' g, efollows secure (EView [] no_refs false) h outs' g ->
  outs' = outs /\ forall r, yp_root (refs_of secure (ev_refs g)) r <-> empt_root_hash e = r.
Proof. exact @empt_only_call. Qed.
Print Assumptions C174_only_answer.

Example C174_applies : let H : Hash := toy in
  (forall s, ok_session s loud /\ ok_session s quiet /\ equiet s quiet) /\
  fst (empt_session (empt_new false) loud) =
    [ANone (Ok tt); ANone (Ok tt); ANone (Err StorageFault); AVal (Err KeyError); ABool (Ok true); ANone (Err KeyError);
     ANone (Err StorageFault); AVal (Err InvalidReferenceError); ARef (Ok (mkRef (bs "do") (bs "noun"))); AItems (Err InvalidReferenceError);
     ANone (Err TypeError); ANone (Err NotImplementedError); ANone (Err TypeError);
     ANone (Err StorageFault); ANone (Err StorageFault); AKeys [bs "do"];
     AVal (Ok (VBytes (bs "none"))); AVal (Err KeyError); ANone (Ok tt);
     AVal (Ok (VBytes (bs "verb"))); AVal (Ok (VBytes (bs "egg"))); AVal (Err RecursionError); AItem (Ok (bs "do", VBytes (bs "verb")));
     AVals (Ok [VBytes (bs "egg")]); ANone (Ok tt); ALen 0; ARef (Err ExtensionPathError); AItem (Err KeyError)].
Proof.
  intros H. split; [intros s; split; [apply loud_ok|split; [apply quiet_ok|apply quiet_quiet]]|vm_compute; reflexivity].
Qed.

(** C175: the same for SparseEMPT. *)
Theorem C175_every_call : forall (H : Hash), (forall b, length (keccak b) = 32) ->
  forall secure h outs t, sparse_session (sparse_new [] None secure) h = (outs, t) -> sfits h -> keys_ok secure (skeys h) ->
  no_collision (m_log t) ->
  (exists r used, sfollows secure no_refs false h outs r used /\ forall x, yp_root (refs_of secure r) x <-> root_hash t = x) /\
  (squiet secure h -> forall outs' r used, sfollows secure no_refs false h outs' r used -> outs' = outs).
Proof. exact @sparse_every_call. Qed.
Print Assumptions C175_every_call.

Example C175_applies : let H : Hash := toy in
  (forall s, sok_session s sloud /\ sok_session s squiet_h /\ squiet s squiet_h) /\
  fst (sparse_session (sparse_new [] None false) sloud) =
    [BNone (Ok tt); BNone (Err StorageFault); BNone (Ok tt); BRef (Ok (mkRef (bs "do") (bs "verb"))); BBool (Ok false);
     BVal (Err TypeError); BTrie (Err TypeError); BNone (Err TypeError); BNone (Err TypeError); BNone (Err AttributeError); BNone (Err TypeError);
     BNone (Err StorageFault); BNone (Err StorageFault); BNone (Ok tt); BNone (Err KeyNotFoundError);
     BBool (Ok true); BRef (Err TypeError)].
Proof.
  intros H. split; [intros s; split; [apply sloud_ok|split; [apply squiet_ok|apply squiet_quiet]]|vm_compute; reflexivity].
Qed.

(** C176: comparing two EMPTs. *)
Theorem C176_equality : forall (H : Hash), (forall b, length (keccak b) = 32) ->
  forall s1 s2 h1 h2 outs1 outs2 e1 e2 veq lim a,
  empt_session (empt_new s1) h1 = (outs1, e1) -> efits h1 -> keys_ok s1 (ekeys h1) -> ekeccak_ok h1 -> no_collision (m_log (e_trie e1)) ->
  empt_session (empt_new s2) h2 = (outs2, e2) -> efits h2 -> keys_ok s2 (ekeys h2) -> ekeccak_ok h2 -> no_collision (m_log (e_trie e2)) ->
  empt_eq veq lim e1 e2 = a ->
  exists g1 g2, efollows s1 (EView [] no_refs false) h1 outs1 g1 /\ efollows s2 (EView [] no_refs false) h2 outs2 g2 /\
    compares s1 s2 veq lim g1 g2 a /\
    ((forall k, In k (ekeys h1) -> frames s1 k < lim) -> (forall k, In k (ekeys h2) -> frames s2 k < lim) ->
     forall b, compares s1 s2 veq lim g1 g2 b -> b = a).
Proof. exact @empt_eq_exact. Qed.
Print Assumptions C176_equality.

Definition by_bytes (a b : value) : bool := bytes_eqb (val_bytes a) (val_bytes b).
Example C176_applies : let H : Hash := toy in
  (forall s, ok_session s loud /\ ok_session s quiet /\ ok_session s quiet2) /\
  (forall s1 s2, empt_eq by_bytes 100 (snd (empt_session (empt_new s1) quiet)) (snd (empt_session (empt_new s2) quiet2)) = Ok true) /\
  (forall s1 s2, empt_eq by_bytes 100 (snd (empt_session (empt_new s1) quiet)) (snd (empt_session (empt_new s2) loud)) = Ok false) /\
  (forall s, empt_eq by_bytes 100 (snd (empt_session (empt_new s) quiet)) (snd (empt_session (empt_new s) (firstn 8 loud))) = Err InvalidReferenceError).
Proof.
  intros H. split; [intros s; split; [apply loud_ok|split; [apply quiet_ok|apply quiet2_ok]]|].
  split; [intros [] []; vm_compute; reflexivity|]. split; [intros [] []; vm_compute; reflexivity|]. intros []; vm_compute; reflexivity.
Qed.
