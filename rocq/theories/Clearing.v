(** clear of an EMPT, which it inherits from collections.abc.MutableMapping, while other threads use it.  In CPython (Lib/_collections_abc.py):
      try:  while True: self.popitem()   except KeyError: pass
    popitem is that of Popitem.v. *)
From Coq Require Import List Bool Arith NArith.
From Verif Require Import Base Mpt Empt Threads EThreads Mixins Popitem.
Import ListNotations.

(** The call of popitem under way; the result. *)
Inductive cstate := CItem (q : nat) | CDone (r : result unit).
Section WithHash.
Context {H : Hash}.
Record room := mkRoom { c_desk : desk; c_clears : list (nat * cstate) }.
(** Some thread makes or continues another call; calls clear; continues it. *)
Inductive cmove := CMove (m : dmove) | CClear (lim : nat) | CGo (j : nat).
(** The next step: what it does on the object, and the state after it; [w] is the object after one more step of popitem. *)
Definition cnext (lim : nat) (w : desk) (st : cstate) : list dmove * cstate :=
  match st with
  | CDone _ => ([], st)
  | CItem q =>
      match danswer_of w q with
      | None => ([], st)
      | Some (Ok _) => ([DPopitem lim], CItem (length (d_items w)))
      | Some (Err KeyError) => ([], CDone (Ok tt))
      | Some (Err x) => ([], CDone (Err x))
      end
  end.
Definition cturn (st : cstate) : list dmove := match st with CItem q => [DGo q] | CDone _ => [] end.
Definition cgo (secure : bool) (w : room) (m : cmove) : room :=
  match m with
  | CMove m => mkRoom (dgo secure (c_desk w) m) (c_clears w)
  | CClear lim => mkRoom (dgo secure (c_desk w) (DPopitem lim)) (c_clears w ++ [(lim, CItem (length (d_items (c_desk w))))])
  | CGo j =>
      match nth_error (c_clears w) j with
      | None => w
      | Some (lim, st) =>
          let w1 := drun secure (c_desk w) (cturn st) in
          mkRoom (drun secure w1 (fst (cnext lim w1 st))) (firstn j (c_clears w) ++ (lim, snd (cnext lim w1 st)) :: skipn (S j) (c_clears w))
      end
  end.
Definition crun (secure : bool) (w : room) (cs : list cmove) : room := fold_left (cgo secure) cs w.
Definition room_new (secure : bool) : room := mkRoom (desk_new secure) [].
Definition canswer_of (w : room) (j : nat) : option (result unit) := match nth_error (c_clears w) j with Some (_, CDone r) => Some r | _ => None end.
End WithHash.
