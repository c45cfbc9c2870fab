(** The views of an EMPT and rebuilding over a storage with a list of keys (C199, C200).
    Vocabulary: SpecViews.v, SpecEvery.v.  Model: EmptViews.v, EmptPy.v, Empt.v. *)
From Coq Require Import String List Bool Arith NArith.
From Verif Require Import Base Keccak ProofObj Mpt Spec SpecEmpt Empt EmptPy EmptViews SpecEvery SpecViews Examples EveryExamples ViewsProofs.
Import ListNotations.

(** C199: membership in the views items() and values(), after any calls. *)
Theorem C199_views : forall (H : Hash), (forall b, length (keccak b) = 32) ->
  forall secure h outs e, empt_session (empt_new secure) h = (outs, e) -> efits h -> keys_ok secure (ekeys h) -> ekeccak_ok h ->
  no_collision (m_log (e_trie e)) -> forall veq lim v,
  exists g, efollows secure (EView [] no_refs false) h outs g /\
  (forall k, in_items secure veq lim g k v (items_has veq lim e (KBytes k) v)) /\ in_values secure veq lim g v (values_has veq lim e v) /\
  ((forall k, In k (ekeys h) -> frames secure k < lim) ->
   (forall k a, in_items secure veq lim g k v a -> items_has veq lim e (KBytes k) v = a) /\
   (forall a, in_values secure veq lim g v a -> values_has veq lim e v = a)).
Proof. exact @views_sound. Qed.
Print Assumptions C199_views.

(** [in] on keys() is [in] on the object; keys that are not bytes raise TypeError. *)
Theorem C199_keys : forall (H : Hash) lim e k, ABool (keys_has lim e k) = fst (empt_do lim e (QIn k)).
Proof. exact @keys_view. Qed.
Print Assumptions C199_keys.
Theorem C199_other_key : forall (H : Hash) veq lim e v, items_has veq lim e KOther v = Err TypeError.
Proof. exact @items_other. Qed.
Print Assumptions C199_other_key.

Definition same_bytes (a b : value) : bool := bytes_eqb (val_bytes a) (val_bytes b).
Example C199_applies : let H : Hash := toy in (forall s, ok_session s loud /\ ok_session s quiet) /\
  (forall s, let e := snd (empt_session (empt_new s) (firstn 3 quiet)) in
    empt_items 100 e = Ok [(bs "do", VBytes (bs "verb")); (bs "dog", VObj true true (bs "puppy")); (bs "doge", VBytes (bs "coin"))] /\
    items_has same_bytes 100 e (KBytes (bs "dog")) (VBytes (bs "puppy")) = Ok true /\
    items_has same_bytes 100 e (KBytes (bs "dog")) (VBytes (bs "coin")) = Ok false /\
    items_has same_bytes 100 e (KBytes (bs "d")) (VBytes (bs "coin")) = Ok false /\
    values_has same_bytes 100 e (VBytes (bs "coin")) = Ok true /\ values_has same_bytes 100 e (VBytes (bs "egg")) = Ok false) /\
  (forall s, let e := snd (empt_session (empt_new s) (firstn 8 loud)) in
    items_has same_bytes 100 e (KBytes (bs "do")) (VBytes (bs "verb")) = Err InvalidReferenceError /\
    items_has same_bytes 100 e (KBytes (bs "dog")) (VBytes (bs "verb")) = Ok false).
Proof.
  intros H. split; [intros s; split; [apply loud_ok|apply quiet_ok]|]. split; intros [|]; vm_compute; repeat split.
Qed.

(** C200 (refuted): build_trie rebuilds the trie when keys() of its storage is a list, as the documentation asks for.  It deletes all nodes and
    raises KeyError; the object cannot be used again. *)
Theorem C200_rebuild_list_refuted : forall (H : Hash), (forall b, length (keccak b) = 32) ->
  forall lim e r, 0 < lim -> m_root (e_trie e) = Some r -> length r = 32 -> r <> Node.EMPTY_HASH ->
  (forall k v, In (k, v) (e_data e) -> (blen k < 2 ^ 57)%N /\ (blen (val_bytes v) < 2 ^ 57)%N) ->
  exists e', empt_build_list lim e = (rebuilding (e_data e), e') /\ nodeless e' /\ e_data e' = e_data e /\
    m_root (e_trie e') = Some r /\ m_secure (e_trie e') = m_secure (e_trie e).
Proof. exact @rebuild_list. Qed.
Print Assumptions C200_rebuild_list_refuted.

Theorem C200_lost_for_good : forall (H : Hash), (forall b, length (keccak b) = 32) ->
  forall e h outs, nodeless e -> Forall modest h ->
  (fst (empt_session e h) = outs <-> Forall2 (fun c o => barren (e_data e) (snd c) o) h outs) /\ snd (empt_session e h) = e.
Proof. exact @barren_session. Qed.
Print Assumptions C200_lost_for_good.

(** Without nodes in the storage it is the build_trie of C37 and C179. *)
Theorem C200_first_build : forall (H : Hash) lim e, m_map (e_trie e) = [] -> empt_build_list lim e = empt_build lim e.
Proof. exact @rebuild_list_empty. Qed.
Print Assumptions C200_first_build.

Example C200_applies : let H : Hash := toy in forall s, let e := snd (empt_session (empt_new s) (firstn 3 quiet)) in
  (exists r, m_root (e_trie e) = Some r /\ length r = 32 /\ r <> Node.EMPTY_HASH) /\ length (m_map (e_trie e)) > 3 /\
  let e' := snd (empt_build_list 100 e) in
  fst (empt_build_list 100 e) = Err KeyError /\ nodeless e' /\
  Forall modest [(100, QGet (KBytes (bs "dog"))); (100, QPop (KBytes (bs "dog")) (Some (VBytes [])));
    (100, QPut (KBytes (bs "dog")) (VBytes (bs "puppy")) [] false); (100, QClear); (100, QLen)] /\
  fst (empt_session e' [(100, QGet (KBytes (bs "dog"))); (100, QPop (KBytes (bs "dog")) (Some (VBytes [])));
    (100, QPut (KBytes (bs "dog")) (VBytes (bs "puppy")) [] false); (100, QClear); (100, QLen)]) =
  [AVal (Err KeyError); AVal (Ok (VBytes [])); ANone (Err KeyError); ANone (Ok tt); ALen 3].
Proof.
  intros H s e. assert (R : exists r, m_root (e_trie e) = Some r /\ length r = 32 /\ r <> Node.EMPTY_HASH).
  { destruct s; vm_compute; eexists; (split; [reflexivity|split; [reflexivity|discriminate]]). }
  split; [exact R|]. split; [destruct s; vm_compute; repeat constructor|]. cbv zeta. split; [destruct s; vm_compute; reflexivity|]. split.
  - destruct s; (split; [vm_compute; reflexivity|]); vm_compute; eexists; (split; [reflexivity|split; [reflexivity|discriminate]]).
  - split; [|destruct s; vm_compute; reflexivity]. repeat constructor.
Qed.
