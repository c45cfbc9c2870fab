(** Iterating over an EMPT while other threads use it (/repo/src/pymt/empt.py:187-193).  [__iter__] returns an iterator of the data storage, a dict; the
    other threads make the calls of EThreads.v. *)
From Coq Require Import List Bool Arith NArith.
From Verif Require Import Base Mpt Empt Threads EThreads.
Import ListNotations.

Section WithHash.
Context {H : Hash}.

(** An iterator.  [WAt n calm given]: it was made when there were [n] keys, it has given [given], and no key was added or removed since ([calm]). *)
Inductive walk :=
| WAt (n : nat) (calm : bool) (given : list bytes)
| WEnd (given : list bytes)          (* StopIteration *)
| WFail (given : list bytes).        (* RuntimeError *)
Fixpoint same_keys (a b : list bytes) : bool :=
  match a, b with [], [] => true | x :: a, y :: b => bytes_eqb x y && same_keys a b | _, _ => false end.
Definition mark (same : bool) (p : walk) : walk := match p with WAt n calm g => WAt n (calm && same) g | _ => p end.
(** The next key.  CPython compares the number of keys with that at the start and gives no more keys than that.  When keys were removed and as many
    added, which key comes next depends on the table of the dict: [pick] says which of the keys it is, or none. *)
Definition wnext (keys : list bytes) (pick : nat) (p : walk) : walk :=
  match p with
  | WAt n calm g =>
      if length keys =? n then
        match nth_error keys (if calm then length g else pick) with
        | Some k => if length g <? n then WAt n calm (g ++ [k]) else WFail g
        | None => WEnd g
        end
      else WFail g
  | _ => p
  end.

(** The object with the calls on it and the iterators. *)
Record tour := mkTour { u_pool : epool; u_walks : list walk }.
Inductive umove := UMove (m : emove) | UIter | UNext (j pick : nat).
Definition ukeys (w : epool) : list bytes := dkeys (x_data w).
Definition ugo (secure : bool) (w : tour) (m : umove) : tour :=
  match m with
  | UMove m => let e := ego secure (u_pool w) m in mkTour e (map (mark (same_keys (ukeys (u_pool w)) (ukeys e))) (u_walks w))
  | UIter => mkTour (u_pool w) (u_walks w ++ [WAt (length (ukeys (u_pool w))) true []])
  | UNext j pick =>
      match nth_error (u_walks w) j with
      | None => w
      | Some p => mkTour (u_pool w) (firstn j (u_walks w) ++ wnext (ukeys (u_pool w)) pick p :: skipn (S j) (u_walks w))
      end
  end.
Definition urun (secure : bool) (w : tour) (us : list umove) : tour := fold_left (ugo secure) us w.
Definition tour_new (secure : bool) : tour := mkTour (epool_new secure) [].
(** empt.py:187-189 [__len__]. *)
Definition u_len (w : tour) : nat := length (x_data (u_pool w)).
End WithHash.
