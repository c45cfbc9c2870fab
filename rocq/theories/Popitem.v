(** popitem of an EMPT, which it inherits from collections.abc.MutableMapping, while other threads use it.  In CPython (Lib/_collections_abc.py):
      try: key = next(iter(self))   except StopIteration: raise KeyError
      value = self[key]; del self[key]; return key, value
    iter(self) is /repo/src/pymt/empt.py:191-193, the iterator of the data storage; its first next raises RuntimeError if the number of keys is not what it
    was when the iterator was made, and gives the first key otherwise.  What follows is what pop(key) does (Mixins.v). *)
From Coq Require Import List Bool Arith NArith.
From Verif Require Import Base Mpt Empt Threads EThreads Mixins.
Import ListNotations.

(** The iterator is made, of [n] keys; the key is popped by the call [j] of Mixins.v; the result, and that call if it was made. *)
Inductive istate := ISize (n : nat) | IPop (k : bytes) (j : nat) | IDone (j : option nat) (r : result (bytes * value)).

Section WithHash.
Context {H : Hash}.
Record desk := mkDesk { d_bench : bench; d_items : list (nat * istate) }.
(** Some thread makes or continues another call; calls popitem; continues it. *)
Inductive dmove := DMove (m : bmove) | DPopitem (lim : nat) | DGo (q : nat).
Definition here (w : bench) : list bytes := dkeys (x_data (b_pool w)).
(** The next step of popitem: the steps it makes on the object. *)
Definition iturn (lim : nat) (w : bench) (st : istate) : list bmove :=
  match st with
  | ISize n => if length (here w) =? n then match here w with [] => [] | k :: _ => [BCall lim (PPop k None)] end else []
  | IPop k j => [BGo j]
  | IDone _ _ => []
  end.
(** The state after it; [w] is the object before the step, [w'] after it. *)
Definition inext (w w' : bench) (st : istate) : istate :=
  match st with
  | ISize n =>
      if length (here w) =? n then match here w with [] => IDone None (Err KeyError) | k :: _ => IPop k (length (b_calls w)) end
      else IDone None (Err RuntimeError)
  | IPop k j =>
      match banswer_of w' j with
      | None => st
      | Some (Ok v) => IDone (Some j) (Ok (k, v))
      | Some (Err x) => IDone (Some j) (Err x)
      end
  | IDone _ _ => st
  end.
Definition dgo (secure : bool) (w : desk) (m : dmove) : desk :=
  match m with
  | DMove m => mkDesk (bgo secure (d_bench w) m) (d_items w)
  | DPopitem lim => mkDesk (d_bench w) (d_items w ++ [(lim, ISize (length (here (d_bench w))))])
  | DGo q =>
      match nth_error (d_items w) q with
      | None => w
      | Some (lim, st) =>
          let w1 := brun secure (d_bench w) (iturn lim (d_bench w) st) in
          mkDesk w1 (firstn q (d_items w) ++ (lim, inext (d_bench w) w1 st) :: skipn (S q) (d_items w))
      end
  end.
Definition drun (secure : bool) (w : desk) (ds : list dmove) : desk := fold_left (dgo secure) ds w.
Definition desk_new (secure : bool) : desk := mkDesk (bench_new secure) [].
Definition danswer_of (w : desk) (q : nat) : option (result (bytes * value)) := match nth_error (d_items w) q with Some (_, IDone _ r) => Some r | _ => None end.
End WithHash.
