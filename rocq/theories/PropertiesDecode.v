(** Properties of decoding, of the recursion limit, and of EMPTs over foreign data (C177-C180).  Theorem statements only; proofs are in
    DecodeProofs.v, DepthProofs.v, DataProofs.v and DataRefutations.v. *)
From Coq Require Import String List Bool Arith NArith.
From Verif Require Import Base Rlp Keccak NibblePath Node NodeSkeleton ProofObj Mpt Spec SpecEmpt SpecRlp Empt EmptPy SpecEvery SpecDecode SpecDepth SpecData
  Examples EveryExamples DecodeProofs DepthProofs DataProofs DataRefutations.
Import ListNotations.

(** C177: what decoding raises, exactly. *)
Theorem C177_trie : forall (H : Hash) b e, mpt_decode b = Err e <-> decode_fault trie_shape never b e.
Proof. exact trie_raises. Qed.
Print Assumptions C177_trie.

Theorem C177_reference : forall (H : Hash) b e, ref_decode b = Err e <-> decode_fault reference_shape reference_late b e.
Proof. exact reference_raises. Qed.
Print Assumptions C177_reference.

Theorem C177_proof : forall b e, proof_decode_rlp b = Err e <-> decode_fault proof_shape proof_late b e.
Proof. exact proof_raises. Qed.
Print Assumptions C177_proof.

Theorem C177_bare_node : forall b e, node_decode_bare b = Err e <-> shape_fault b e.
Proof. exact shape_raises. Qed.
Print Assumptions C177_bare_node.

Example C177_applies : let H : Hash := toy in
  (mpt_decode [x81] = Err DecodingError /\ mpt_decode [xc2; x80; xc0] = Err DeserializationError /\ mpt_decode [xc4; x80; xc1; xc0; x01] = Err DeserializationError /\
   mpt_decode [xc3; x80; xc0; x02] = Err DeserializationError /\ exists t, mpt_decode [xc3; x80; xc0; x01] = Ok t) /\
  (ref_decode [xc3] = Err DecodingError /\ ref_decode [xc0] = Err DeserializationError /\ ref_decode [xc6; x82; x46; x46; x61; x62; x00] = Err DeserializationError /\
   ref_decode [xc4; x46; x61; x62; x01] = Err ValueError /\ ref_decode [xc6; x82; x46; x46; x61; x62; x01] = Err ValueError) /\
  (proof_decode_rlp [x61; x62] = Err DecodingError /\ proof_decode_rlp [x61] = Err DeserializationError /\ proof_decode_rlp [xc5; x61; x62; x63; x64; x65] = Err DeserializationError /\
   proof_decode_rlp [xc5; x61; x62; x63; x64; xc0] = Err TypeError) /\
  (node_decode_bare [xc3; x20; xc0; x80] = Err AssertionError /\ node_decode_bare [xc2; x80; x61] = Err IndexError /\ node_decode_bare [xc3; xc1; x61; x62] = Err TypeError /\
   node_decode_bare [x82; x61; x62] = Err TypeError /\ exists n, node_decode_bare [xc2; x20; xc0] = Ok n).
Proof. vm_compute. repeat split; eexists; reflexivity. Qed.

(** C178: more room never changes an answer, and a call that runs out of room changes nothing. *)
Theorem C178_more_room : forall (H : Hash) fl tm t k v p,
  stable (fun n => mpt_get n t k) (Err RecursionError) /\ stable (fun n => mpt_contains n t k) (Err RecursionError) /\
  stable (fun n => mpt_get_poi n tm t k) (Err RecursionError) /\ stable (fun n => mpt_get_poe n tm t k) (Err RecursionError) /\
  stable (fun n => mpt_verify_poi n t p) (Err RecursionError) /\ stable (fun n => mpt_verify_poe n t p) (Err RecursionError) /\
  stable (fun n => mpt_update n fl t k v) (Err RecursionError, t) /\ stable (fun n => mpt_delete n fl t k) (Err RecursionError, t).
Proof. exact @all_stable. Qed.
Print Assumptions C178_more_room.

Theorem C178_update_deep : forall (H : Hash) lim fl t k v t', mpt_update lim fl t k v = (Err RecursionError, t') -> t' = t.
Proof. exact @update_deep. Qed.
Print Assumptions C178_update_deep.

Theorem C178_delete_deep : forall (H : Hash) lim fl t k t', mpt_delete lim fl t k = (Err RecursionError, t') -> t' = t.
Proof. exact @delete_deep. Qed.
Print Assumptions C178_delete_deep.

(** As many frames as there are nodes in the proof are needed, no more and no less. *)
Theorem C178_inclusion : forall (H : Hash) lim tm t k p, mpt_get_poi lim tm t k = Ok p -> exists a c, pf_proof p <> [] /\
  exactly (length (pf_proof p)) (fun n => mpt_get_poi n tm t k) (Ok p) /\
  exactly (length (pf_proof p)) (fun n => mpt_get n t k) a /\ exactly (length (pf_proof p)) (fun n => mpt_contains n t k) (Ok c).
Proof. exact @inclusion_room. Qed.
Print Assumptions C178_inclusion.

Theorem C178_exclusion : forall (H : Hash) lim tm t k p, mpt_get_poe lim tm t k = Ok p ->
  exists d, (d = length (pf_proof p) \/ S d = length (pf_proof p)) /\ 0 < d /\
  exactly d (fun n => mpt_get_poe n tm t k) (Ok p) /\ exactly d (fun n => mpt_contains n t k) (Ok false).
Proof. exact @exclusion_room. Qed.
Print Assumptions C178_exclusion.

Theorem C178_no_room : forall (H : Hash) t tm k, root_falsy t = false -> root_is_empty t = false ->
  mpt_get 0 t k = Err RecursionError /\ mpt_contains 0 t k = Err RecursionError /\
  mpt_get_poi 0 tm t k = Err RecursionError /\ mpt_get_poe 0 tm t k = Err RecursionError.
Proof. exact @no_room. Qed.
Print Assumptions C178_no_room.

Example C178_applies : let H : Hash := toy in let t := ex_trie false in
  (exists p, mpt_get_poi 100 (bs "now") t (bs "doge") = Ok p /\ 2 < length (pf_proof p) /\
    mpt_get (length (pf_proof p) - 1) t (bs "doge") = Err RecursionError /\ exists v, mpt_get (length (pf_proof p)) t (bs "doge") = Ok v) /\
  (exists p, mpt_get_poe 100 (bs "now") t (bs "hound") = Ok p) /\
  fst (mpt_update 1 [] t (bs "doge") (bs "x")) = Err RecursionError /\ fst (mpt_delete 1 [] t (bs "doge")) = Err RecursionError /\
  root_falsy t = false /\ root_is_empty t = false.
Proof.
  intros H t. split; [|split].
  - destruct (mpt_get_poi 100 (bs "now") t (bs "doge")) as [p|] eqn:E; [|vm_compute in E; discriminate E]. exists p. split; [reflexivity|].
    vm_compute in E. injection E as <-. vm_compute. split; [repeat constructor|]. split; [reflexivity|]. eexists. reflexivity.
  - destruct (mpt_get_poe 100 (bs "now") t (bs "hound")) as [p|] eqn:E; [exists p; reflexivity|vm_compute in E; discriminate E].
  - vm_compute. repeat split.
Qed.

(** C179: build_trie updates the entries of the data storage one by one, up to the first that fails; it does nothing but damage if there are nodes already. *)
Theorem C179_build : forall (H : Hash) lim ds t r e', m_map t = [] ->
  (empt_build lim (mkEmpt ds t) = (r, e') <-> exists e2, built lim (mkEmpt [] t) ds r e2 /\ e' = mkEmpt ds (e_trie e2)).
Proof. exact @build_exact. Qed.
Print Assumptions C179_build.

Theorem C179_rebuild : forall (H : Hash) lim ds t x m, m_map t = x :: m -> exists e', empt_build lim (mkEmpt ds t) = (Err RuntimeError, e') /\
  e_data e' = ds /\ m_map (e_trie e') = m /\ m_root (e_trie e') = m_root t /\ m_secure (e_trie e') = m_secure t.
Proof. exact @rebuild_exact. Qed.
Print Assumptions C179_rebuild.

(** What get answers over any data, after any calls. *)
Theorem C179_foreign_data : forall (H : Hash), (forall b, length (keccak b) = 32) ->
  forall secure h outs e, empt_session (empt_new secure) h = (outs, e) -> efits h -> keys_ok secure (ekeys h) ->
  ekeccak_ok h -> no_collision (m_log (e_trie e)) ->
  exists g, efollows secure (EView [] no_refs false) h outs g /\
  forall ds k lim, NoDup (map fst ds) -> In k (ekeys h) ->
    (forall a, empt_get lim (mkEmpt ds (e_trie e)) k = a -> reads_data secure lim (ev_refs g) (ev_used g) ds k a) /\
    (frames secure k < lim -> forall a, reads_data secure lim (ev_refs g) (ev_used g) ds k a -> empt_get lim (mkEmpt ds (e_trie e)) k = a).
Proof. exact @foreign_data. Qed.
Print Assumptions C179_foreign_data.

Example C179_applies : let H : Hash := toy in
  (let d := [(bs "do", VBytes (bs "verb")); (bs "dog", VBytes (bs "puppy")); (bs "x", VBytearray []); (bs "y", VBytes [])] in
   fst (empt_build 100 (mkEmpt d (mpt_new false))) = Err TypeError /\ fst (empt_build 0 (mkEmpt d (mpt_new false))) = Err RecursionError /\
   fst (empt_build 100 (mkEmpt (firstn 2 d) (mpt_new false))) = Ok tt /\
   let e := snd (empt_build 100 (mkEmpt d (mpt_new false))) in
   empt_get 100 e (bs "do") = Ok (VBytes (bs "verb")) /\ empt_get_reference 100 e (bs "dog") = Ok (mkRef (bs "dog") (bs "puppy"))) /\
  (forall s, ok_session s EveryExamples.quiet) /\ In (bs "do") (ekeys EveryExamples.quiet) /\
  (let e := snd (empt_session (empt_new false) EveryExamples.quiet) in
   let over v := empt_get 100 (mkEmpt [(bs "do", v)] (e_trie e)) (bs "do") in
   over (VBytes (bs "noun")) = Ok (VBytes (bs "noun")) /\ over (VObj true false (bs "noun")) = Ok (VObj true false (bs "noun")) /\
   over (VObj false true (bs "noun")) = Err AttributeError /\ over (VBytearray (bs "noun")) = Err TypeError /\
   over (VBytes (bs "verb")) = Err InvalidReferenceError).
Proof.
  intros H. split; [vm_compute; repeat split|]. split; [apply quiet_ok|]. split; [left; reflexivity|]. vm_compute. repeat split.
Qed.

(** C180 is false of the code: data put into the data storage by somebody else can be returned by get for a key that was never stored. *)
Theorem C180_injected_data_detected_refuted : let H : Hash := keccak256 in
  exists outs e k ds v lim, ereachable false outs e /\ status_after outs k = Absent /\ frames false k < lim /\
  NoDup (map fst ds) /\ empt_get lim e k = Err KeyError /\ empt_get lim (mkEmpt ds (e_trie e)) k = Ok v.
Proof. exact injected_accepted. Qed.
Print Assumptions C180_injected_data_detected_refuted.

(** It is detected where keys are hashed or all of one length. *)
Theorem C180_injected_data_detected : forall (H : Hash), (forall b, length (keccak b) = 32) ->
  forall secure h outs e, empt_session (empt_new secure) h = (outs, e) -> efits h -> keys_ok secure (ekeys h) ->
  ekeccak_ok h -> no_collision (m_log (e_trie e)) ->
  exists g, efollows secure (EView [] no_refs false) h outs g /\
  forall ds k lim v, NoDup (map fst ds) -> In k (ekeys h) -> (secure = true \/ forall x, ev_refs g x <> None -> length x = length k) ->
    empt_get lim (mkEmpt ds (e_trie e)) k = Ok v -> exists b, ev_refs g k = Some b /\ keccak (k ++ b) = keccak (k ++ val_bytes v).
Proof. exact @injected_detected. Qed.
Print Assumptions C180_injected_data_detected.

Definition C180_calls : list (nat * ecmd) := [(100, QPut (KBytes (bs "ab")) (VBytes (bs "c")) [] false); (100, QPut (KBytes (bs "b")) (VBytes (bs "x")) [] false); (100, QGet (KBytes (bs "a")))].
Example C180_applies : let H : Hash := toy in ok_session true C180_calls /\
  (let e s := snd (empt_session (empt_new s) C180_calls) in
   let over s := empt_get 100 (mkEmpt [(bs "a", VBytes (bs "bc"))] (e_trie (e s))) (bs "a") in
   over false = Ok (VBytes (bs "bc")) /\ exists x, over true = Err x).
Proof. intros H. split; [apply ok_session_b; vm_compute; reflexivity|]. vm_compute. split; [reflexivity|]. eexists. reflexivity. Qed.
