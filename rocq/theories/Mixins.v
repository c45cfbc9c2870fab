(** pop and setdefault of an EMPT, which it inherits from collections.abc.MutableMapping, while other threads use it.  The calls they make are those of
    EThreads.v; in CPython (Lib/_collections_abc.py):
      pop(key[, default]):    try: value = self[key]   except KeyError: raise, or return default if there is one   else: del self[key]; return value
      setdefault(key, d):     try: return self[key]   except KeyError: self[key] = d; return d
    and [self[key]] is /repo/src/pymt/empt.py:195-197, [del self[key]] 203-205, [self[key] = d] 199-201. *)
From Coq Require Import List Bool Arith NArith.
From Verif Require Import Base Mpt Empt Threads EThreads.
Import ListNotations.

Inductive mcmd := PPop (k : bytes) (o : option value) | PSetdefault (k : bytes) (d : value).
(** What is under way: the call of number [i]; what pop has got before; the result. *)
Inductive mstate :=
| SGet (i : nat)
| SDel (i : nat) (v : value)
| SPut (i : nat)
| SDone (i : nat) (r : result value).

Section WithHash.
Context {H : Hash}.
(** The next step of a call in the state [st]: the moves it makes, and the state after it.  [w] is the object, [w'] the object after one more step of the
    call under way. *)
Definition mkey (c : mcmd) : bytes := match c with PPop k _ | PSetdefault k _ => k end.
Definition mnext (lim : nat) (c : mcmd) (w' : epool) (st : mstate) : list emove * mstate :=
  let n := length (x_calls w') in
  match st with
  | SDone i r => ([], st)
  | SGet i =>
      match eanswer_of w' i, c with
      | None, _ => ([], st)
      | Some (RVal (Ok v)), PPop k _ => ([ECall lim (XDel k)], SDel n v)
      | Some (RVal (Ok v)), PSetdefault k d => ([], SDone i (Ok v))
      | Some (RVal (Err KeyError)), PPop k (Some d) => ([], SDone i (Ok d))
      | Some (RVal (Err KeyError)), PSetdefault k d => ([ECall lim (XPut k d)], SPut n)
      | Some (RVal (Err x)), _ => ([], SDone i (Err x))
      | Some _, _ => ([], SDone i (Err RuntimeError))
      end
  | SDel i v =>
      match eanswer_of w' i with
      | None => ([], st)
      | Some (RNone (Ok _)) => ([], SDone i (Ok v))
      | Some (RNone (Err x)) => ([], SDone i (Err x))
      | Some _ => ([], SDone i (Err RuntimeError))
      end
  | SPut i =>
      match eanswer_of w' i, c with
      | None, _ => ([], st)
      | Some (RNone (Ok _)), PSetdefault k d => ([], SDone i (Ok d))
      | Some (RNone (Err x)), _ => ([], SDone i (Err x))
      | Some _, _ => ([], SDone i (Err RuntimeError))
      end
  end.
Definition mturn (st : mstate) : list emove := match st with SGet i | SDel i _ | SPut i => [EGo i] | SDone _ _ => [] end.

(** The object, and the calls of pop and setdefault made so far. *)
Record bench := mkBench { b_pool : epool; b_calls : list (nat * mcmd * mstate) }.
(** Some thread makes or continues a call of EThreads.v; makes a call of pop or setdefault; continues one. *)
Inductive bmove := BMove (m : emove) | BCall (lim : nat) (c : mcmd) | BGo (j : nat).
Definition bgo (secure : bool) (w : bench) (m : bmove) : bench :=
  match m with
  | BMove m => mkBench (ego secure (b_pool w) m) (b_calls w)
  | BCall lim c => mkBench (ego secure (b_pool w) (ECall lim (XGet (mkey c)))) (b_calls w ++ [(lim, c, SGet (length (x_calls (b_pool w))))])
  | BGo j =>
      match nth_error (b_calls w) j with
      | None => w
      | Some (lim, c, st) =>
          let w1 := erun secure (b_pool w) (mturn st) in
          let (ms, st') := mnext lim c w1 st in
          mkBench (erun secure w1 ms) (firstn j (b_calls w) ++ (lim, c, st') :: skipn (S j) (b_calls w))
      end
  end.
Definition brun (secure : bool) (w : bench) (ms : list bmove) : bench := fold_left (bgo secure) ms w.
Definition bench_new (secure : bool) : bench := mkBench (epool_new secure) [].
Definition banswer_of (w : bench) (j : nat) : option (result value) := match nth_error (b_calls w) j with Some (_, _, SDone _ r) => Some r | _ => None end.
End WithHash.
