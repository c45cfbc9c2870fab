(** Properties of making proofs of exclusion and checking proofs while other threads use the same MPT object (C251 to C255).  Theorem statements
    only; proofs are in WatchScene.v, WatchRoots.v and WatchRace.v. *)
From Coq Require Import String List Bool Arith NArith Lia.
From Verif Require Import Base BaseProofs Keccak KeccakProofs NibblePath Node ProofObj Mpt Spec SpecProof SpecMptEvery Examples Threads SpecThreads ThreadsExamples
  Watch SpecWatch WatchExamples WatchProofs WatchScene WatchRoots WatchRace.
Import ListNotations.

(** C251: a proof of exclusion has the nodes that the call returns on one trie of its time, and a root that root_hash may answer then; an
    exception is that of such a trie, or the trie was emptied meanwhile; while the root stays the same the answer is that of a trie of the time. *)
Theorem C251_exclusion_beside_others : forall (H : Hash), (forall b, length (keccak b) = 32) -> forall secure ws, keys_ok secure (wkeys ws) -> wfits secure ws ->
  no_collision (h_log (p_obj (sc_pool (run_scene secure (scene_new secure) ws)))) ->
  forall i lim tm k o, nth_error (wcalls ws) i = Some (lim, WPoe tm k) -> wanswer_of (run_scene secure (scene_new secure) ws) i = Some o ->
  exists r, o = WProof r /\ poe_stems (wduring secure ws i) lim tm k r /\
    (steady (wduring secure ws i) -> exists t, wduring secure ws i t /\ mpt_get_poe lim tm t k = r).
Proof. exact @poe_beside. Qed.
Print Assumptions C251_exclusion_beside_others.

Example C251_applies : let H : Hash := toy in forall s, wok s (three s) /\ wok s (calm s) /\
  nth_error (wanswers_in s (three s)) 0 = Some (Some (Ok true)) /\
  wanswers_in s (calm s) = [Some (Ok true); Some (Ok true); Some (Ok true); Some (Err PoeError)].
Proof. intros H s. split; [apply three_fine|]. split; [apply calm_fine|]. destruct s; vm_compute; split; reflexivity. Qed.

(** C252: while the root stays the same and is not b'', a proof is checked as by the call alone. *)
Theorem C252_steady_check : forall (H : Hash), (forall b, length (keccak b) = 32) -> forall secure ws, keys_ok secure (wkeys ws) -> wfits secure ws ->
  no_collision (h_log (p_obj (sc_pool (run_scene secure (scene_new secure) ws)))) ->
  forall i lim c o t, nth_error (wcalls ws) i = Some (lim, c) -> wanswer_of (run_scene secure (scene_new secure) ws) i = Some o -> (forall tm k, c <> WPoe tm k) ->
  m_root t <> Some [] -> (forall t', wduring secure ws i t' -> m_root t' = m_root t) -> o = wsingle lim t c.
Proof. exact @check_steady. Qed.
Print Assumptions C252_steady_check.

(** Whatever happens meanwhile, if a proof of inclusion is accepted then some trie of the time has the key. *)
Theorem C252_accepted_key : forall (H : Hash), (forall b, length (keccak b) = 32) -> forall secure ws, keys_ok secure (wkeys ws) -> wfits secure ws ->
  no_collision (h_log (p_obj (sc_pool (run_scene secure (scene_new secure) ws)))) ->
  forall i lim p, nth_error (wcalls ws) i = Some (lim, WCheckPoi p) -> wanswer_of (run_scene secure (scene_new secure) ws) i = Some (WBool (Ok true)) ->
  no_collision (proof_hashed (pf_proof p) ++ h_log (p_obj (sc_pool (run_scene secure (scene_new secure) ws)))) ->
  exists t, wduring secure ws i t /\ has_key secure t (pf_key p).
Proof. exact @check_means. Qed.
Print Assumptions C252_accepted_key.

(** An accepted proof is of the kind asked for; the hash of its first node, and for inclusion also its root, are what [root_hash] may answer
    meanwhile. *)
Theorem C252_accepted_roots : forall (H : Hash), (forall b, length (keccak b) = 32) -> forall secure ws, keys_ok secure (wkeys ws) -> wfits secure ws ->
  no_collision (h_log (p_obj (sc_pool (run_scene secure (scene_new secure) ws)))) ->
  forall i lim c, nth_error (wcalls ws) i = Some (lim, c) -> wanswer_of (run_scene secure (scene_new secure) ws) i = Some (WBool (Ok true)) ->
  match c with
  | WPoe _ _ => False
  | WCheckPoi p => pf_type p = MPT_POI /\ exists h, hash_first p = Ok h /\
      stems (wduring secure ws i) lim THash (AOpt (Ok (Some h))) /\ stems (wduring secure ws i) lim THash (AOpt (Ok (Some (pf_root p))))
  | WCheckPoe p => pf_type p = MPT_POE /\ exists h, hash_first p = Ok h /\ stems (wduring secure ws i) lim THash (AOpt (Ok (Some h)))
  end.
Proof. exact @roots_of_accepted. Qed.
Print Assumptions C252_accepted_roots.

Example C252_applies : let H : Hash := toy in forall s, wok s (calm s) /\
  no_collision (proof_hashed (pf_proof (incl_of s (t_base s) (bs "dog"))) ++ h_log (p_obj (sc_pool (run_scene s (scene_new s) (calm s))))) /\
  nth_error (wanswers_in s (calm s)) 1 = Some (Some (Ok true)) /\ m_root (t_base s) <> Some [] /\
  nth_error (wanswers_in s (three s)) 1 = Some (Some (Ok false)).
Proof.
  intros H s. split; [apply calm_fine|]. split; [apply no_collision_b_ok; destruct s; vm_compute; reflexivity|].
  split; [destruct s; vm_compute; reflexivity|]. split; [destruct s; vm_compute; discriminate|]. destruct s; vm_compute; reflexivity.
Qed.

(** C253, refuted: that the root of a proof of exclusion is the root of the trie its nodes are of. *)
Theorem C253_mixed_exclusion_refuted : forall (H : Hash), forall secure, (forall b, length (keccak b) = 32) -> forall w lim tm k p lim' c',
  let t := object secure (sc_pool w) in let t' := snd (single lim' t c') in
  0 < lim' -> mpt_get_poe lim tm t k = Ok p ->
  exists n0 n, forall m n1, n <= m -> 3 <= n1 ->
    wanswer_of (run_scene secure w (meanwhile w lim (WPoe tm k) n0 lim' c' m n1)) (length (sc_calls w)) = Some (WProof (Ok (with_root p (root_hash t')))).
Proof. exact @poe_race. Qed.
Print Assumptions C253_mixed_exclusion_refuted.

Example C253_applies : let H : Hash := toy in forall s,
  wanswer_of (run_scene s (s_base s) (mixed s (if s then 8 else 12))) 0 = Some (WProof (Ok (with_root (excl_of s (t_base s) (bs "cat")) (root_hash (t_after s))))) /\
  hash_first (excl_of s (t_base s) (bs "cat")) = Ok (root_hash (t_base s)) /\ root_hash (t_base s) <> root_hash (t_after s).
Proof. intros H s. split; [destruct s; vm_compute; reflexivity|]. split; [destruct s; vm_compute; reflexivity|]. destruct s; vm_compute; discriminate. Qed.

(** C254, refuted: that a proof of inclusion is accepted only if the call alone accepts it on some trie of the time.  Whenever the root changes
    between two calls, the proof [p] of a key in the new trie, with the root node of the old one put in front, is accepted by some schedule; *)
Theorem C254_mixed_check_refuted : forall (H : Hash), forall secure, (forall b, length (keccak b) = 32) -> forall w lim p b n lim' c',
  let t := object secure (sc_pool w) in let t' := snd (single lim' t c') in
  let p' := mkProof MPT_POI (pf_time p) (pf_key p) (pf_root p) (PB b :: pf_proof p) in
  0 < lim' -> root_is_empty t = false -> keccak b = root_hash t -> node_decode b = Ok n -> (exists r, into_reference n = Ok r) ->
  mpt_verify_poi lim t' p = Ok true ->
  exists n0 n, forall m n1, n <= m -> 4 <= n1 ->
    wanswer_of (run_scene secure w (meanwhile w lim (WCheckPoi p') n0 lim' c' m n1)) (length (sc_calls w)) = Some (WBool (Ok true)).
Proof. exact @check_race. Qed.
Print Assumptions C254_mixed_check_refuted.

(** no trie accepts it when the call is alone. *)
Theorem C254_never_accepted : forall (H : Hash) lim t p b, keccak b <> pf_root p ->
  mpt_verify_poi lim t (mkProof MPT_POI (pf_time p) (pf_key p) (pf_root p) (PB b :: pf_proof p)) <> Ok true.
Proof. exact @check_race_never. Qed.
Print Assumptions C254_never_accepted.

Example C254_applies : let H : Hash := toy in forall s,
  wanswer_of (run_scene s (s_base s) (fooled s 5)) 0 = Some (WBool (Ok true)) /\ keccak (root_node s) <> pf_root (forged s) /\
  mpt_verify_poi 100 (t_base s) (forged s) = Ok false /\ mpt_verify_poi 100 (t_after s) (forged s) = Ok false.
Proof. intros H s. split; [destruct s; vm_compute; reflexivity|]. split; [destruct s; vm_compute; discriminate|]. destruct s; vm_compute; split; reflexivity. Qed.

(** C255: these calls change nothing for the others; *)
Theorem C255_others_unchanged : forall (H : Hash) secure ws,
  sc_pool (run_scene secure (scene_new secure) ws) = run_moves secure (pool_new secure) (moves_of ws).
Proof. exact @pool_apart. Qed.
Print Assumptions C255_others_unchanged.

(** alone they answer as in a program with one thread, whatever calls are under way; *)
Theorem C255_alone : forall (H : Hash) secure w lim c m, wbound lim c <= m ->
  let w' := run_scene secure w (WCall lim c :: repeat (WGo (length (sc_calls w))) m) in
  wanswer_of w' (length (sc_calls w)) = Some (wsingle lim (object secure (sc_pool w)) c) /\ sc_pool w' = sc_pool w /\ firstn (length (sc_calls w)) (sc_calls w') = sc_calls w.
Proof. exact @watch_alone. Qed.
Print Assumptions C255_alone.

(** and they answer after a bounded number of their own steps, whatever the others do. *)
Theorem C255_bounded : forall (H : Hash) secure w1 lim c w2, wbound lim c <= wturns (length (wcalls w1)) w2 ->
  wanswer_of (run_scene secure (scene_new secure) (w1 ++ WCall lim c :: w2)) (length (wcalls w1)) <> None.
Proof. exact @watch_bounded. Qed.
Print Assumptions C255_bounded.

Example C255_applies : let H : Hash := toy in forall s,
  wanswer_of (run_scene s (s_base s) (WCall 3 (WPoe (bs "now") (bs "cat")) :: repeat (WGo 0) 20)) 0 = Some (wsingle 3 (t_base s) (WPoe (bs "now") (bs "cat"))) /\
  wsingle 100 (t_base s) (WCheckPoi (incl_of s (t_base s) (bs "dog"))) = WBool (Ok true) /\
  map pf_type [incl_of s (t_base s) (bs "dog"); excl_of s (t_base s) (bs "cat")] = [MPT_POI; MPT_POE].
Proof. intros H s. destruct s; vm_compute; repeat split; reflexivity. Qed.
