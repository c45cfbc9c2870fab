(** What making a proof of exclusion and checking proofs answer while other threads use the same MPT object. *)
From Coq Require Import List Bool Arith NArith.
From Verif Require Import Base Rlp ProofObj Mpt Spec SpecCodec SpecProof SpecEmpt SpecEvery MptPy SpecMptEvery Threads SpecThreads Watch.
Import ListNotations.

(** The calls of Threads.v among the moves, and the other calls. *)
Definition moves_of (ws : list wmove) : list move := flat_map (fun m => match m with WMove m => [m] | _ => [] end) ws.
Definition wcalls (ws : list wmove) : list (nat * wcmd) := flat_map (fun m => match m with WCall lim c => [(lim, c)] | _ => [] end) ws.
Definition wkeys (ws : list wmove) : list bytes :=
  tkeys (moves_of ws) ++ flat_map (fun x => match snd x with WPoe _ k => [k] | _ => [] end) (wcalls ws).
Definition wturns (i : nat) (ws : list wmove) : nat :=
  length (filter (fun m => match m with WGo j => j =? i | _ => false end) ws).

(** No call needs more turns of its own than this. *)
Definition wbound (lim : nat) (c : wcmd) : nat := match c with WPoe _ _ => 4 * lim + 8 | WCheckPoi _ => 9 | WCheckPoe _ => 6 end.

Section WithHash.
Context {H : Hash}.
Section Mode.
Variable secure : bool.
Definition wfits (ws : list wmove) : Prop := (forall k, In k (wkeys ws) -> (blen k < 2 ^ 59)%N) /\ tfits secure (moves_of ws).

(** The object at the moments of the call of number [i]: after it was made and before it answered. *)
Definition wduring (ws : list wmove) (i : nat) (t : mpt) : Prop :=
  exists w1 w2, ws = w1 ++ w2 /\ i < length (wcalls w1) /\ wanswer_of (run_scene secure (scene_new secure) w1) i = None /\
    object secure (sc_pool (run_scene secure (scene_new secure) w1)) = t.

(** The call made while no other call is under way: the call of Mpt.v. *)
Definition wsingle (lim : nat) (t : mpt) (c : wcmd) : wout :=
  match c with
  | WPoe tm k => WProof (mpt_get_poe lim tm t k)
  | WCheckPoi p => WBool (mpt_verify_poi lim t p)
  | WCheckPoe p => WBool (mpt_verify_poe lim t p)
  end.

(** What a proof of exclusion rests on; [P] tells which objects the call may have seen.  The nodes are those of one object; the root
    is what [root_hash] may have answered meanwhile. *)
Definition poe_stems (P : mpt -> Prop) (lim : nat) (tm k : bytes) (r : result proof) : Prop :=
  match r with
  | Ok p => exists t p' h, P t /\ mpt_get_poe lim tm t k = Ok p' /\ stems P lim THash (AOpt (Ok (Some h))) /\ p = with_root p' h
  | Err x => (exists t, P t /\ mpt_get_poe lim tm t k = Err x) \/ ((x = TypeError \/ (lim = 0 /\ x = RecursionError)) /\ emptied P)
  end.
(** All objects have the same root. *)
Definition steady (P : mpt -> Prop) : Prop := forall t t', P t -> P t' -> m_root t = m_root t'.
(** The dictionary that [t] stands for has a key that is [q], or one that [q] begins; in secure mode, a key with such a hash. *)
Definition has_key (t : mpt) (q : bytes) : Prop :=
  exists d u k v r, rooted secure d u (m_root t) /\ d k = Some v /\ trie_key secure k = q ++ r /\ mpt_get (S (frames secure k)) t k = Ok v.
(** The call [c] has [n0] turns, then the call [c'] begins and has [m], then [c] has [n1] further ones. *)
Definition meanwhile (w : scene) (lim : nat) (c : wcmd) (n0 lim' : nat) (c' : tcmd) (m n1 : nat) : list wmove :=
  WCall lim c :: repeat (WGo (length (sc_calls w))) n0 ++ map WMove (MCall lim' c' :: repeat (MGo (length (p_calls (sc_pool w)))) m) ++ repeat (WGo (length (sc_calls w))) n1.
End Mode.
End WithHash.
