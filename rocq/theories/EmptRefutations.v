(** Executions under the real Keccak-256 refuting properties of EMPT, SparseEMPT and DataReference. *)
From Coq Require Import List Bool Arith NArith ZArith String Lia.
From Verif Require Import Base BaseProofs Rlp Keccak KeccakProofs NibblePath Node ProofObj Mpt Spec SpecProof Examples
  MptProofs ProofRefutations MptCodecRefutations Empt SpecEmpt EmptShared EmptProofs.
Import ListNotations.

Definition eput (k v : string) : ecall := ECall (EPut (bs k) (VBytes (bs v))) 100 false false [].
Definition edel (k : string) : ecall := ECall (EDel (bs k)) 100 false false [].
Definition eok_op_b (o : eop) : bool :=
  (N.ltb (blen (eop_key o)) (2 ^ 57) && match o with EPut _ v => N.ltb (blen (val_bytes v)) (2 ^ 57) | EDel _ => true end)%bool.
Lemma eok_op_b_ok : forall h, forallb (fun c => eok_op_b (ec_op c)) h = true -> Forall (fun c => eok_op (ec_op c)) h.
Proof.
  intros h E. rewrite forallb_forall in E. apply Forall_forall. intros c Hc. specialize (E c Hc). unfold eok_op_b in E.
  apply andb_prop in E. destruct E as [E1 E2]. apply N.ltb_lt in E1. split; auto. destruct (ec_op c); auto. apply N.ltb_lt. auto.
Qed.
Lemma erun_reachable : forall (H : Hash) s h l e, empt_run (empt_new s) h = (l, e) ->
  forallb (fun c => eok_op_b (ec_op c)) h = true -> no_collision_b (m_log (e_trie e)) = true -> ereachable s l e.
Proof.
  intros H s h l e E H1 H2. exists h. split; auto. split; [apply eok_op_b_ok|apply no_collision_b_ok]; auto.
Qed.

(** References whose key and data concatenate to the same string. *)
Lemma ref_eq_refuted : forall (H : Hash), exists a b, r_key a <> r_key b /\ r_data a <> r_data b /\ ref_eq a b = true.
Proof.
  intros H. exists (mkRef (bs "a") (bs "bc")), (mkRef (bs "ab") (bs "c")).
  split; [discriminate|]. split; [discriminate|]. unfold ref_eq. apply N.eqb_refl.
Qed.

#[local] Instance K : Hash := keccak256.

(** One entry. *)
Definition one : empt := Eval vm_compute in snd (empt_run (empt_new false) [eput "do" "verb"]).
Definition one_outs : list outcome := [(EPut (bs "do") (VBytes (bs "verb")), true)].
Lemma one_reachable : ereachable false one_outs one.
Proof. apply (erun_reachable K false [eput "do" "verb"]); [vm_compute; reflexivity|reflexivity|vm_compute; reflexivity]. Qed.

Definition one_failed_put : empt := Eval vm_compute in snd (empt_update 100 [] true one (bs "do") (VBytes (bs "noun"))).
Definition one_failed_del : empt := Eval vm_compute in snd (empt_delete 100 false false [true] one (bs "do")).

Lemma update_not_atomic : exists outs e k v w lim e', ereachable false outs e /\ status_after outs k = Present v /\
  empt_get lim e k = Ok v /\ empt_update lim [] true e k w = (Err StorageFault, e') /\
  empt_get lim e' k = Err InvalidReferenceError.
Proof.
  exists one_outs, one, (bs "do"), (VBytes (bs "verb")), (VBytes (bs "noun")), 100, one_failed_put.
  split; [exact one_reachable|]. split; [reflexivity|]. split; [vm_compute; reflexivity|].
  split; vm_compute; reflexivity.
Qed.
Lemma delete_not_atomic : exists outs e k v lim fl e', ereachable false outs e /\ status_after outs k = Present v /\
  empt_get lim e k = Ok v /\ empt_delete lim false false fl e k = (Err StorageFault, e') /\
  empt_get lim e' k = Err KeyError /\ empt_contains lim e' k = Ok true.
Proof.
  exists one_outs, one, (bs "do"), (VBytes (bs "verb")), 100, [true], one_failed_del.
  split; [exact one_reachable|]. split; [reflexivity|]. split; [vm_compute; reflexivity|].
  split; [vm_compute; reflexivity|]. split; vm_compute; reflexivity.
Qed.

(** A key whose insertion failed can neither be read nor deleted. *)
Definition half : empt := Eval vm_compute in snd (empt_update 100 [] true (empt_new false) (bs "do") (VBytes (bs "verb"))).
Lemma stuck_key : exists outs e k lim, ereachable false outs e /\ acked_after outs k = None /\
  empt_contains lim e k = Ok true /\ empt_get lim e k = Err KeyError /\ fst (empt_delete lim false false [] e k) = Err KeyError.
Proof.
  exists [(EPut (bs "do") (VBytes (bs "verb")), false)], half, (bs "do"), 100.
  split; [apply (erun_reachable K false [ECall (EPut (bs "do") (VBytes (bs "verb"))) 100 false true []]);
          [vm_compute; reflexivity|reflexivity|vm_compute; reflexivity]|].
  split; [reflexivity|]. split; [vm_compute; reflexivity|]. split; vm_compute; reflexivity.
Qed.

(** "dogs" is reported present because of "dog" (next to "doge"). *)
Definition dogs_hist : list ecall := [eput "dog" "puppy"; eput "doge" "coin"].
Definition dogs : empt := Eval vm_compute in snd (empt_run (empt_new false) dogs_hist).
Definition dogs_outs : list outcome := map (fun c => (ec_op c, true)) dogs_hist.
Lemma delete_absent_keyerror : exists outs e k lim, ereachable false outs e /\ status_after outs k = Absent /\
  frames false k < lim /\ empt_contains lim e k = Ok true /\ empt_delete lim false false [] e k = (Err KeyError, e).
Proof.
  exists dogs_outs, dogs, (bs "dogs"), 100.
  split; [apply (erun_reachable K false dogs_hist); [vm_compute; reflexivity|reflexivity|vm_compute; reflexivity]|].
  split; [reflexivity|]. split; [cbn; lia|]. split; vm_compute; reflexivity.
Qed.

(** build_trie on a trie that exists. *)
Definition rebuilt : empt := Eval vm_compute in snd (empt_build 100 one).
Lemma rebuild_refuted : exists outs e k v lim e', ereachable false outs e /\ status_after outs k = Present v /\
  empt_get lim e k = Ok v /\ empt_build lim e = (Err RuntimeError, e') /\ empt_get lim e' k = Err KeyError.
Proof.
  exists one_outs, one, (bs "do"), (VBytes (bs "verb")), 100, rebuilt.
  split; [exact one_reachable|]. split; [reflexivity|]. split; [vm_compute; reflexivity|].
  split; vm_compute; reflexivity.
Qed.

(** build_trie over a value that [update] accepts. *)
Definition obj : value := VObj true true (bs "v").
Definition obj_e1 : empt := Eval vm_compute in snd (empt_update 100 [] false (empt_new false) (bs "k") obj).
Definition obj_e2 : empt := Eval vm_compute in snd (empt_build 100 (mkEmpt (e_data obj_e1) (mpt_new false))).
Lemma build_objects : exists lim k v e1 e', storable v = true /\
  empt_update lim [] false (empt_new false) k v = (Ok tt, e1) /\
  empt_build lim (mkEmpt (e_data e1) (mpt_new false)) = (Err TypeError, e').
Proof.
  exists 100, (bs "k"), obj, obj_e1, obj_e2. split; [reflexivity|]. split; vm_compute; reflexivity.
Qed.

(** Two objects without storages of their own. *)
Definition w1 : world := Eval vm_compute in
  let '(_, w, _) := shared_call world0 (mkHandle (Some EMPTY_HASH) false) (eput "do" "verb") in w.
Definition h1 : handle := Eval vm_compute in
  let '(_, _, h) := shared_call world0 (mkHandle (Some EMPTY_HASH) false) (eput "do" "verb") in h.
Lemma defaults_shared : exists a b w a', default_empt world0 false = Ok a /\ default_empt world0 false = Ok b /\
  shared_call world0 a (eput "do" "verb") = (Ok tt, w, a') /\
  empt_len (view world0 b) = 0 /\ empt_len (view w b) = 1 /\ default_empt w false = Err ValueError.
Proof.
  exists (mkHandle (Some EMPTY_HASH) false), (mkHandle (Some EMPTY_HASH) false), w1, h1.
  split; [reflexivity|]. split; [reflexivity|]. split; [vm_compute; reflexivity|]. split; [reflexivity|]. split; reflexivity.
Qed.
(** A write through the second object destroys a value of the first. *)
Definition w2 : world := Eval vm_compute in
  let '(_, w, _) := shared_call w1 (mkHandle (Some EMPTY_HASH) false) (eput "do" "noun") in w.
Definition h2 : handle := Eval vm_compute in
  let '(_, _, h) := shared_call w1 (mkHandle (Some EMPTY_HASH) false) (eput "do" "noun") in h.
Lemma defaults_clobbered : exists a b w a' w' b', default_empt world0 false = Ok a /\ default_empt world0 false = Ok b /\
  shared_call world0 a (eput "do" "verb") = (Ok tt, w, a') /\ empt_get 100 (view w a') (bs "do") = Ok (VBytes (bs "verb")) /\
  shared_call w b (eput "do" "noun") = (Ok tt, w', b') /\ empt_get 100 (view w' a') (bs "do") = Err InvalidReferenceError.
Proof.
  exists (mkHandle (Some EMPTY_HASH) false), (mkHandle (Some EMPTY_HASH) false), w1, h1, w2, h2.
  split; [reflexivity|]. split; [reflexivity|]. split; [vm_compute; reflexivity|]. split; [vm_compute; reflexivity|].
  split; vm_compute; reflexivity.
Qed.
