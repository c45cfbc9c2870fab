(** Proofs about SpecWatch.v, continued: the roots of accepted proofs. *)
From Coq Require Import List Bool Arith NArith ZArith Lia.
From Verif Require Import Base BaseProofs Rlp RlpProofs NibblePath NibbleProofs Node ProofObj Mpt Tree TreeEnc StoreProofs ReadProofs Spec SpecCodec SpecProof
  MptRefine MptProofs PoiProofs PoeProofs SpecShared SimProofs SharedProofs SpecEmpt EmptFaultProofs SpecWalk SpecGet SpecEvery MptPy SpecMptEvery MptEveryProofs
  Threads SpecThreads ThreadsSeq ThreadsProofs ThreadsPool Watch SpecWatch WatchProofs WatchScene.
Import ListNotations.

Section W.
Context {H : Hash}.
Variable secure : bool.
Notation said l lim h := (stems (seen secure l) lim THash (AOpt (Ok (Some h)))).
Lemma same_some : forall a h, same_hash a h = true -> a = Some h.
Proof. intros [x|] h E; cbn [same_hash] in E; [|discriminate]. destruct (bytes_eqb_spec x h); [congruence|discriminate]. Qed.
Lemma unless_ok : forall A (p : prog A) l a, watch (unless_empty p) l = PRet (Ok a) -> exists l0 l1, l = l0 ++ l1 /\ watch p l1 = PRet (Ok a).
Proof.
  intros A p l a E. unfold unless_empty in E. cbn [proot pbind] in E. apply watch_root in E. destruct E as (s & l1 & -> & E).
  destruct (h_root s) as [b|]; cbn [pbind] in E; [|unfold praise in E; rewrite watch_ret in E; discriminate].
  apply watch_root in E. destruct E as (s1 & l2 & -> & E). destruct (is_empty_hash (h_root s1)); [unfold praise in E; rewrite watch_ret in E; discriminate|].
  exists [s; s1], l2. auto.
Qed.
Lemma said_more : forall l l' lim h, incl l l' -> said l lim h -> said l' lim h.
Proof. intros l l' lim h Hi. apply stems_more. intros t (s & Hs & E). exists s. auto. Qed.
Section L.
Variables (lim : nat) (p : proof) (l : list shared).
Hypothesis Nn : forall s, In s l -> h_root s <> Some [].
Lemma said_by : forall l' h, incl l' l -> watch call_hash l' = PRet (Ok (Some h)) -> said l lim h.
Proof. intros l' h Hi E. apply (said_more l'); [exact Hi|]. apply hash_watch; auto. Qed.
Lemma poi_roots : watch (call_check_poi lim p) l = PRet (Ok true) ->
  pf_type p = MPT_POI /\ exists h, hash_first p = Ok h /\ said l lim h /\ said l lim (pf_root p).
Proof.
  intros E. unfold call_check_poi in E. destruct (bytes_eqb_spec (pf_type p) MPT_POI) as [Et|]; cbn [negb] in E.
  2: { unfold praise in E. rewrite watch_ret in E. discriminate. }
  split; [exact Et|]. apply unless_ok in E. destruct E as (l0 & l1 & El & E).
  apply watch_bind in E. destruct E as [(la & lb & h & E0 & E1 & E)|(la & lb & e & E0 & E1 & E)]; [|discriminate].
  destruct (hash_first p) as [h0|x]; cbn [pbind] in E; [|rewrite watch_ret in E; discriminate].
  destruct (same_hash h h0) eqn:Es; cbn [negb] in E; [|unfold pret in E; rewrite watch_ret in E; discriminate]. apply same_some in Es. subst h.
  exists h0. split; [reflexivity|]. split.
  { apply (said_by la); [|exact E1]. intros s Hs. rewrite El, E0. apply in_or_app. right. apply in_or_app. auto. }
  destruct (poi_storage (pf_proof p) []) as [[ps|]|x]; cbn [pbind] in E; [|unfold pret in E; rewrite watch_ret in E; discriminate|rewrite watch_ret in E; discriminate].
  cbn [proot pbind] in E. apply watch_root in E. destruct E as (s & lc & Eb & E).
  destruct (from_root _ _ _) as [v|x]; cbn [pbind] in E; [|rewrite watch_ret in E; discriminate].
  destruct v; [|unfold pret in E; rewrite watch_ret in E; discriminate].
  apply watch_bind in E. destruct E as [(ld & le & h & Ec & E2 & E)|(ld & le & e & Ec & E2 & E)]; [|discriminate].
  unfold pret in E. rewrite watch_ret in E. injection E as Es. apply same_some in Es. subst h.
  apply (said_by ld); [|exact E2]. intros s' Hs. rewrite El, E0, Eb, Ec. apply in_or_app. right. apply in_or_app. right. right. apply in_or_app. auto.
Qed.
Lemma poe_roots : watch (call_check_poe lim p) l = PRet (Ok true) -> pf_type p = MPT_POE /\ exists h, hash_first p = Ok h /\ said l lim h.
Proof.
  intros E. unfold call_check_poe in E. destruct (bytes_eqb_spec (pf_type p) MPT_POE) as [Et|]; cbn [negb] in E.
  2: { unfold praise in E. rewrite watch_ret in E. discriminate. }
  split; [exact Et|]. apply unless_ok in E. destruct E as (l0 & l1 & El & E).
  apply watch_bind in E. destruct E as [(la & lb & h & E0 & E1 & E)|(la & lb & e & E0 & E1 & E)]; [|discriminate].
  destruct (hash_first p) as [h0|x]; cbn [pbind] in E; [|rewrite watch_ret in E; discriminate].
  destruct (same_hash h h0) eqn:Es; cbn [negb] in E; [|unfold pret in E; rewrite watch_ret in E; discriminate]. apply same_some in Es. subst h.
  exists h0. split; [reflexivity|]. apply (said_by la); [|exact E1]. intros s Hs. rewrite El, E0. apply in_or_app. right. apply in_or_app. auto.
Qed.
End L.
End W.

Section Main.
Context {H : Hash}.
Hypothesis keccak_len : forall b, length (keccak b) = 32.
Variables (secure : bool) (ws : list wmove).
Hypothesis keys : keys_ok secure (wkeys ws).
Hypothesis fit : wfits secure ws.
Notation w := (run_scene secure (scene_new secure) ws).
Hypothesis N : no_collision (h_log (p_obj (sc_pool w))).
Notation said i lim h := (stems (wduring secure ws i) lim THash (AOpt (Ok (Some h)))).
Theorem roots_of_accepted : forall i lim c, nth_error (wcalls ws) i = Some (lim, c) -> wanswer_of w i = Some (WBool (Ok true)) ->
  match c with
  | WPoe _ _ => False
  | WCheckPoi p => pf_type p = MPT_POI /\ exists h, hash_first p = Ok h /\ said i lim h /\ said i lim (pf_root p)
  | WCheckPoe p => pf_type p = MPT_POE /\ exists h, hash_first p = Ok h /\ said i lim h
  end.
Proof.
  intros i lim c Ec Ea. destruct (answered keccak_len secure ws keys fit N _ _ _ _ Ec Ea) as (l & E & [C Q]).
  assert (Nn : forall s, In s l -> h_root s <> Some []).
  { intros s Hs. apply (sound_nonnil keccak_len secure (wkeys ws) keys s). eapply chain_in; [exact C|exact Hs]. }
  assert (Up : forall h, stems (seen secure l) lim THash (AOpt (Ok (Some h))) -> said i lim h).
  { intros h. apply stems_more. intros t (s & Hs & <-). apply (Q s Hs). }
  destruct c as [tm k|p|p]; cbn [watch_prog] in E; apply ends_no_err in E; destruct E as (r & E & X); [discriminate| |]; injection X as <-.
  - destruct (poi_roots secure lim p l Nn E) as (Et & h & Eh & S1 & S2). split; [exact Et|]. exists h. auto.
  - destruct (poe_roots secure lim p l Nn E) as (Et & h & Eh & S1). split; [exact Et|]. exists h. auto.
Qed.
End Main.
