(** Copies of the trie of an EMPT made while other threads use it (/repo/src/pymt/empt.py).  The other threads make the calls of Threads.v on the
    trie; a copy is cut where it looks at the storage or the root. *)
From Coq Require Import List Bool Arith NArith.
From Verif Require Import Base Mpt Empt Threads.
Import ListNotations.

Section WithHash.
Context {H : Hash}.

Inductive ccmd := CSparse | CRootTrie.
(** What is left of a call.  [CNext n i acc]: the iterator, made over [n] keys, has given [i] of them, and [acc] is the copy; [CTake n i k acc]: it
    has given [k] as well; [CLast acc]: the loop has ended; [COnly]: the root is all that is read. *)
Inductive copy :=
| CStart
| CNext (n i : nat) (acc : dict bytes)
| CTake (n i : nat) (k : bytes) (acc : dict bytes)
| CLast (acc : dict bytes)
| COnly
| CDone (r : result mpt).
(** empt.py:344-364 [get_sparse_trie]; 331-342 [get_root_trie].  A dict that has got another number of keys since its iterator was made raises
    RuntimeError at the next step of the iterator, also at the last one.  The attribute [secure] is never assigned. *)
Definition cstart (c : ccmd) : copy := match c with CSparse => CStart | CRootTrie => COnly end.
Definition cstep (secure : bool) (s : shared) (p : copy) : copy :=
  match p with
  | CStart => CNext (length (h_map s)) 0 []
  | CNext n i acc =>
      if length (h_map s) =? n then match nth_error (h_map s) i with Some (k, _) => CTake n i k acc | None => CLast acc end
      else CDone (Err RuntimeError)
  | CTake n i k acc => match dget (h_map s) k with Some e => CNext n (S i) (dset acc k e) | None => CDone (Err KeyError) end
  | CLast acc => CDone (Ok (sparse_new acc (h_root s) secure))
  | COnly => CDone (Ok (root_new (h_root s) secure))
  | CDone r => CDone r
  end.

(** The calls of Threads.v and those of this file, all on one object. *)
Record desk := mkDesk { d_pool : pool; d_calls : list copy }.
Inductive dmove := DMove (m : move) | DCall (c : ccmd) | DGo (i : nat).
Definition dgo (secure : bool) (w : desk) (m : dmove) : desk :=
  match m with
  | DMove m => mkDesk (go secure (d_pool w) m) (d_calls w)
  | DCall c => mkDesk (d_pool w) (d_calls w ++ [cstart c])
  | DGo i =>
      match nth_error (d_calls w) i with
      | None => w
      | Some p => mkDesk (d_pool w) (firstn i (d_calls w) ++ cstep secure (p_obj (d_pool w)) p :: skipn (S i) (d_calls w))
      end
  end.
Definition run_desk (secure : bool) (w : desk) (ds : list dmove) : desk := fold_left (dgo secure) ds w.
Definition desk_new (secure : bool) : desk := mkDesk (pool_new secure) [].
(** The trie that a call has returned, or what it has raised. *)
Definition danswer_of (w : desk) (i : nat) : option (result mpt) := match nth_error (d_calls w) i with Some (CDone r) => Some r | _ => None end.
End WithHash.
