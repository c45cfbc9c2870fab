(** Making proofs of exclusion and checking proofs while other threads use the same MPT object (/repo/src/pymt/mpt.py).
    These calls read the root and the storage and assign neither; they are cut at the same places as the calls of Threads.v,
    and run beside any calls of Threads.v.  A proof that is checked is not changed by anybody meanwhile. *)
From Coq Require Import List Bool Arith NArith.
From Verif Require Import Base Rlp NibblePath Node ProofObj Mpt Threads.
Import ListNotations.
Local Open Scope p_scope.

Section WithHash.
Context {H : Hash}.

(** mpt.py:849-912 [_get_proof_of_exclusion]; [consume] shortens the path of the caller as well, so it is returned. *)
Fixpoint p_poe (fuel : nat) (r : option bytes) (path : np) (acc : list bytes) : prog (node * list bytes * np) :=
  match fuel with
  | O => praise RecursionError
  | S f =>
      n <- p_node r ;;
      if np_len path =? 0 then e <- PRet (node_encode n) ;; pret (n, acc ++ [e], path)
      else match n with
           | Leaf _ _ => e <- PRet (node_encode n) ;; pret (n, acc ++ [e], path)
           | Extension ep nr =>
               if np_starts_with path ep then
                 e <- PRet (node_encode n) ;;
                 p_poe f (Some nr) (np_consume path (np_len ep)) (acc ++ [e])
               else pret (n, acc, path)
           | Branch bs _ =>
               let b := nth (np_at path 0) bs [] in
               e <- PRet (node_encode n) ;;
               if 0 <? length b then p_poe f (Some b) (np_consume path 1) (acc ++ [e])
               else pret (n, acc ++ [e], path)
           end
  end.

(** mpt.py:363-420 [get_proof_of_exclusion]: it looks for emptiness, calls [contains], takes the root again, and calls
    [root_hash] at the end; proof.py:44-51: a root that is not bytes raises TypeError. *)
Definition call_poe (secure : bool) (lim : nat) (time k : bytes) : prog proof :=
  unless_empty (
    c <- call_contains secure lim k ;;
    if (c : bool) then praise PoeError
    else
      r <- proot ;;
      x <- p_poe lim r (np_of (t_key secure k)) [] ;;
      let '(n, l, path) := x in
      e <- PRet (node_encode (Leaf path null_bytes)) ;;
      let mk := h <- call_hash ;;
                match h with
                | None => praise TypeError
                | Some h => PRet (new_proof time (t_key secure k) h (map PB (l ++ [e])) MPT_POE)
                end in
      match n with
      | Branch _ v => if bytes_eqb v [] then mk else praise PoeError
      | Leaf lp _ => if np_eq lp path then praise PoeError else mk
      | Extension _ _ => mk
      end).

(** [self.root_hash() == h]. *)
Definition same_hash (a : option bytes) (h : bytes) : bool := match a with None => false | Some x => bytes_eqb x h end.
(** A walk that starts at None: [len(None)] raises TypeError. *)
Definition from_root {A} (lim : nat) (r : option bytes) (f : bytes -> result A) : result A :=
  match r with Some r => f r | None => if lim =? 0 then Err RecursionError else Err TypeError end.

(** mpt.py:314-361 [verify_proof_of_inclusion]: the root hash is taken, then the root, then the root hash again. *)
Definition call_check_poi (lim : nat) (p : proof) : prog bool :=
  if negb (bytes_eqb (pf_type p) MPT_POI) then praise TypeError
  else unless_empty (
    h <- call_hash ;;
    h0 <- PRet (hash_first p) ;;
    if negb (same_hash h h0) then pret false
    else
      o <- PRet (poi_storage (pf_proof p) []) ;;
      match o with
      | None => pret false
      | Some ps =>
          r <- proot ;;
          valid <- PRet (from_root lim r (fun r => verify_poi_ lim ps r (np_of (pf_key p)))) ;;
          if (valid : bool) then h' <- call_hash ;; pret (same_hash h' (pf_root p)) else pret false
      end).

(** mpt.py:422-489 [verify_proof_of_exclusion]. *)
Definition call_check_poe (lim : nat) (p : proof) : prog bool :=
  if negb (bytes_eqb (pf_type p) MPT_POE) then praise TypeError
  else unless_empty (
    h <- call_hash ;;
    h0 <- PRet (hash_first p) ;;
    if negb (same_hash h h0) then pret false
    else
      ln <- PRet (decode_last (pf_proof p)) ;;
      d <- PRet (node_data ln) ;;
      if negb (bytes_eqb d null_bytes) then pret false
      else
        ps <- PRet (poe_storage (removelast (pf_proof p)) []) ;;
        r <- proot ;;
        x <- PRet (from_root lim r (fun r => verify_poe_ lim ps r (np_of (pf_key p)))) ;;
        let '(n, rest) := x in
        if negb (length rest =? 0) then pret false
        else match n with
             | Some (Leaf lp _) => pret (negb (np_eq lp (np_of (pf_key p))))
             | _ => pret true
             end).

Inductive wcmd := WPoe (time k : bytes) | WCheckPoi (p : proof) | WCheckPoe (p : proof).
Inductive wout := WProof (r : result proof) | WBool (r : result bool).

Definition ends {A} (f : result A -> wout) (p : prog A) : prog wout :=
  (fix go (p : prog A) : prog wout :=
     match p with
     | PRet r => PRet (Ok (f r))
     | PGet h k => PGet h (fun o => go (k o))
     | PSet h e k => PSet h e (go k)
     | PRoot k => PRoot (fun o => go (k o))
     | PAssign r k => PAssign r (go k)
     end) p.
Definition watch_prog (secure : bool) (lim : nat) (c : wcmd) : prog wout :=
  match c with
  | WPoe tm k => ends WProof (call_poe secure lim tm k)
  | WCheckPoi p => ends WBool (call_check_poi lim p)
  | WCheckPoe p => ends WBool (call_check_poe lim p)
  end.

(** One access of a call that assigns nothing. *)
Definition look {A} (s : shared) (p : prog A) : prog A :=
  match p with
  | PGet h k => k (dget (h_map s) h)
  | PRoot k => k (h_root s)
  | p => p
  end.

(** The calls of Threads.v and those of this file, all on one object. *)
Record scene := mkScene { sc_pool : pool; sc_calls : list (prog wout) }.
Inductive wmove := WMove (m : move) | WCall (lim : nat) (c : wcmd) | WGo (i : nat).
Definition wgo (secure : bool) (w : scene) (m : wmove) : scene :=
  match m with
  | WMove m => mkScene (go secure (sc_pool w) m) (sc_calls w)
  | WCall lim c => mkScene (sc_pool w) (sc_calls w ++ [watch_prog secure lim c])
  | WGo i =>
      match nth_error (sc_calls w) i with
      | None => w
      | Some p => mkScene (sc_pool w) (firstn i (sc_calls w) ++ look (p_obj (sc_pool w)) p :: skipn (S i) (sc_calls w))
      end
  end.
Definition run_scene (secure : bool) (w : scene) (ws : list wmove) : scene := fold_left (wgo secure) ws w.
Definition scene_new (secure : bool) : scene := mkScene (pool_new secure) [].
Definition wanswer (p : prog wout) : option wout := match p with PRet (Ok o) => Some o | _ => None end.
Definition wanswer_of (w : scene) (i : nat) : option wout := match nth_error (sc_calls w) i with Some p => wanswer p | None => None end.
End WithHash.
