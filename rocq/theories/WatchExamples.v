(** Concrete schedules of making and checking proofs beside other calls on one MPT object.  Tests, not proofs. *)
From Coq Require Import String List Bool Arith NArith Lia.
From Verif Require Import Base BaseProofs Keccak KeccakProofs NibblePath Node ProofObj Mpt Spec SpecProof Examples SpecMptEvery Threads SpecThreads ThreadsExamples Watch SpecWatch.
Import ListNotations.
#[local] Instance K : Hash := toy.
Local Notation b s := (bs s).
Notation scene_of s ws := (run_scene s (scene_new s) ws).
Definition wok (s : bool) (ws : list wmove) : Prop := keys_ok s (wkeys ws) /\ wfits s ws /\ no_collision (h_log (p_obj (sc_pool (scene_of s ws)))).
Definition wok_b (s : bool) (ws : list wmove) : bool :=
  forallb (fun x => (blen x <? 2 ^ 59)%N) (wkeys ws) && tfits_b s (moves_of ws) && no_collision_b (wkeys ws) && no_collision_b (h_log (p_obj (sc_pool (scene_of s ws)))).
Lemma wok_b_ok : forall s ws, wok_b s ws = true -> wok s ws.
Proof.
  intros s ws E. unfold wok_b in E. rewrite !andb_true_iff in E. destruct E as (((E0 & E1) & E2) & E3).
  split; [intros _; apply no_collision_b_ok; assumption|]. split; [|apply no_collision_b_ok; assumption].
  split; [|apply tfits_b_ok; exact E1]. intros x Hx. rewrite forallb_forall in E0. apply N.ltb_lt. auto.
Qed.
Definition moves (l : list move) : list wmove := map WMove l.
Definition p_base : list wmove := moves base.
Definition t_base (s : bool) : mpt := object s (sc_pool (scene_of s p_base)).
Definition incl_of (s : bool) (t : mpt) (k : bytes) : proof := match mpt_get_poi 100 (b "now") t k with Ok p => p | Err _ => mkProof [] [] [] [] [] end.
Definition excl_of (s : bool) (t : mpt) (k : bytes) : proof := match mpt_get_poe 100 (b "now") t k with Ok p => p | Err _ => mkProof [] [] [] [] [] end.
(** One proof of exclusion is made and two proofs are checked while a key is stored and another is read. *)
Definition wturn : list wmove := [WGo 0; WMove (MGo 3); WGo 1; WMove (MGo 4); WGo 2; WGo 0].
Definition three (s : bool) : list wmove :=
  p_base ++ [WCall 100 (WPoe (b "now") (b "cat")); WCall 100 (WCheckPoi (incl_of s (t_base s) (b "dog"))); WCall 100 (WCheckPoe (excl_of s (t_base s) (b "dogs")));
    WMove (MCall 100 (TPut (b "horses") (b "mares"))); WMove (MCall 100 (TGet (b "do")))] ++ List.concat (repeat wturn 40).
Definition wbrief (o : option wout) : option (result bool) :=
  match o with Some (WProof (Ok _)) => Some (Ok true) | Some (WProof (Err x)) => Some (Err x) | Some (WBool r) => Some r | None => None end.
Definition wanswers_in (s : bool) (ws : list wmove) : list (option (result bool)) := map (fun i => wbrief (wanswer_of (scene_of s ws) i)) (List.seq 0 (List.length (wcalls ws))).
Example three_fine : forall s, wok s (three s).
Proof. intros s. apply wok_b_ok. destruct s; vm_compute; reflexivity. Qed.

(** The trie does not change while the calls are under way: another thread only reads. *)
Definition calm (s : bool) : list wmove :=
  p_base ++ [WCall 100 (WPoe (b "now") (b "cat")); WCall 100 (WCheckPoi (incl_of s (t_base s) (b "dog"))); WCall 100 (WCheckPoe (excl_of s (t_base s) (b "dogs")));
    WCall 100 (WPoe (b "now") (b "dog")); WMove (MCall 100 (TGet (b "dog"))); WMove (MCall 100 (TGet (b "do")))] ++ List.concat (repeat (WGo 3 :: wturn) 40).
Example calm_fine : forall s, wok s (calm s).
Proof. intros s. apply wok_b_ok. destruct s; vm_compute; reflexivity. Qed.

(** A proof of exclusion is made while a key is stored. *)
Definition s_base (s : bool) : scene := scene_of s p_base.
Definition mixed (s : bool) (n0 : nat) : list wmove := meanwhile (s_base s) 100 (WPoe (b "now") (b "cat")) n0 100 (TPut (b "horses") (b "mares")) 60 5.
Definition t_after (s : bool) : mpt := snd (single 100 (t_base s) (TPut (b "horses") (b "mares"))).
(** A proof is checked while a key is stored; its first node is the root of the trie before. *)
Definition root_node (s : bool) : bytes := match dget (m_map (t_base s)) (root_hash (t_base s)) with Some e => e | None => [] end.
Definition forged (s : bool) : proof := let p := incl_of s (t_after s) (b "dog") in mkProof MPT_POI (pf_time p) (pf_key p) (pf_root p) (PB (root_node s) :: pf_proof p).
Definition fooled (s : bool) (n0 : nat) : list wmove := meanwhile (s_base s) 100 (WCheckPoi (forged s)) n0 100 (TPut (b "horses") (b "mares")) 60 5.
