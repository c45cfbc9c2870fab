(** Loops over an EMPT (/repo/src/pymt/empt.py:189-191 [__iter__], and the iterators of [keys()], [items()] and [values()] from
    collections.abc) whose body makes further calls on the EMPT.  The data storage is a dict. *)
From Coq Require Import List Bool Arith.
From Verif Require Import Base ProofObj Mpt Empt EmptPy.
Import ListNotations.

(** [for k in e] and [for k in e.keys()]; [for k, v in e.items()]; [for v in e.values()]. *)
Inductive over := OKeys | OItems | OValues.
(** How a loop ends: there are no more keys; the body left it; getting the next element raised; Python does not say what the next
    element is (keys were deleted and as many others added). *)
Inductive ending := LDone | LLeft | LRaise (x : exn) | LFree.
(** One turn: the key, the value if the loop gets it, the calls of the body and their answers. *)
Record turn := Turn { t_key : bytes; t_val : option value; t_calls : list (nat * ecmd); t_outs : list eout }.

(** The same keys in the same order. *)
Definition keys_eqb (a b : list bytes) : bool := if list_eq_dec (list_eq_dec Byte.byte_eq_dec) a b then true else false.

Section WithHash.
Context {H : Hash}.
Local Open Scope res_scope.

(** What the iterator of the view does with a key that the iterator of the dict gave. *)
Definition fetch (w : over) (lim : nat) (e : empt) (k : bytes) : result (option value) :=
  match w with OKeys => Ok None | OItems | OValues => v <- empt_get lim e k ;; Ok (Some v) end.

(** [all]: the keys when the iterator was made; [ks]: those to come; [i]: the number of turns so far.  The iterator of a dict raises
    RuntimeError when the number of keys is another one than at the beginning.
    [body] gets the number of the turn, the key and the value, and says what is called and whether the loop goes on. *)
Section Loop.
Variables (w : over) (lim : nat) (body : nat -> bytes -> option value -> list (nat * ecmd) * bool) (all : list bytes).
Fixpoint loop_from (ks : list bytes) (i : nat) (e : empt) : list turn * ending * empt :=
  if length (empt_keys e) =? length all then
    if keys_eqb (empt_keys e) all then
      match ks with
      | [] => ([], LDone, e)
      | k :: ks' =>
          match fetch w lim e k with
          | Err x => ([], LRaise x, e)
          | Ok ov => let (calls, go) := body i k ov in
                     let (outs, e1) := empt_session e calls in
                     if go then let '(ts, en, e2) := loop_from ks' (S i) e1 in (Turn k ov calls outs :: ts, en, e2)
                     else ([Turn k ov calls outs], LLeft, e1)
          end
      end
    else ([], LFree, e)
  else ([], LRaise RuntimeError, e).
End Loop.
Definition empt_loop (w : over) (lim : nat) (body : nat -> bytes -> option value -> list (nat * ecmd) * bool) (e : empt) : list turn * ending * empt :=
  loop_from w lim body (empt_keys e) (empt_keys e) 0 e.
End WithHash.
