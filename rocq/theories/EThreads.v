(** Calls on one EMPT object made by several threads (/repo/src/pymt/empt.py).
    A call is cut where it reads or writes the data storage, where it calls a method of the trie, and inside that method where
    Threads.v cuts it.  The data storage is a dict: an access is one step and does not fail.  The text of the methods is that of Empt.v. *)
From Coq Require Import List Bool Arith NArith.
From Verif Require Import Base Rlp NibblePath Node ProofObj Mpt Empt Threads.
Import ListNotations.

(** A call, and what it returns or raises.  [time] is the clock reading. *)
Inductive ecmd :=
| XGet (k : bytes)
| XRef (k : bytes)
| XIn (k : bytes)
| XPut (k : bytes) (v : value)
| XDel (k : bytes)
| XPoi (time k : bytes)
| XRoot
| XHash.
Inductive eout :=
| RVal (r : result value)
| RRef (r : result dref)
| RBool (r : result bool)
| RNone (r : result unit)
| RProof (r : result proof)
| ROpt (r : result (option bytes)).

(** The rest of a call.  [EWait i f]: the trie's method is under way as the call of number [i]. *)
Inductive eprog :=
| EDone (o : eout)
| EData (k : bytes) (f : option value -> eprog)         (* self._data_storage[k] *)
| EStore (k : bytes) (v : value) (p : eprog)            (* self._data_storage[k] = v *)
| EDrop (k : bytes) (f : bool -> eprog)                 (* del self._data_storage[k] *)
| ETrie (lim : nat) (c : tcmd) (f : tout -> eprog)      (* self._trie.method(...) *)
| EWait (i : nat) (f : tout -> eprog).

Section WithHash.
Context {H : Hash}.
Local Open Scope res_scope.

(** empt.py:240-262 [get]. *)
Definition e_get (lim : nat) (k : bytes) : eprog :=
  EData k (fun o =>
    match o with
    | None => EDone (RVal (Err KeyError))
    | Some data =>
        ETrie lim (TGet k) (fun a =>
          match a with
          | AVal rb => EDone (RVal (b <- rb ;; r <- ref_decode b ;; x <- expected_ref k data ;;
                                    if ref_eq r x then Ok data else Err InvalidReferenceError))
          | _ => EDone (RVal (Err RuntimeError))
          end)
    end).
(** empt.py:264-268 [get_reference]. *)
Definition e_ref (lim : nat) (k : bytes) : eprog :=
  ETrie lim (TGet k) (fun a => match a with AVal rb => EDone (RRef (b <- rb ;; ref_decode b)) | _ => EDone (RRef (Err RuntimeError)) end).
(** empt.py:320-328 [contains]. *)
Definition e_in (lim : nat) (k : bytes) : eprog :=
  ETrie lim (TIn k) (fun a => match a with ABool r => EDone (RBool r) | _ => EDone (RBool (Err RuntimeError)) end).
(** empt.py:270-304 [update]. *)
Definition e_put (lim : nat) (k : bytes) (v : value) : eprog :=
  match (r <- update_ref k v ;; ref_encode r) with
  | Err x => EDone (RNone (Err x))
  | Ok rb =>
      ETrie lim (TPut k rb) (fun a =>
        match a with
        | ANone (Ok _) => EStore k v (EDone (RNone (Ok tt)))
        | ANone (Err x) => EDone (RNone (Err x))
        | _ => EDone (RNone (Err RuntimeError))
        end)
  end.
(** empt.py:306-318 [delete]. *)
Definition e_del (lim : nat) (k : bytes) : eprog :=
  ETrie lim (TIn k) (fun a =>
    match a with
    | ABool (Ok true) =>
        EDrop k (fun b => if (b : bool) then ETrie lim (TDel k) (fun a => match a with ANone r => EDone (RNone r) | _ => EDone (RNone (Err RuntimeError)) end)
                          else EDone (RNone (Err KeyError)))
    | ABool (Ok false) => EDone (RNone (Err KeyNotFoundError))
    | ABool (Err x) => EDone (RNone (Err x))
    | _ => EDone (RNone (Err RuntimeError))
    end).
(** empt.py:367-375 [get_proof_of_inclusion]; 216-218 [root]; 212-214 [root_hash]. *)
Definition e_poi (lim : nat) (tm k : bytes) : eprog :=
  ETrie lim (TPoi tm k) (fun a => match a with AProof r => EDone (RProof r) | _ => EDone (RProof (Err RuntimeError)) end).
Definition e_opt (lim : nat) (c : tcmd) : eprog :=
  ETrie lim c (fun a => match a with AOpt r => EDone (ROpt r) | _ => EDone (ROpt (Err RuntimeError)) end).

Definition e_call (lim : nat) (c : ecmd) : eprog :=
  match c with
  | XGet k => e_get lim k
  | XRef k => e_ref lim k
  | XIn k => e_in lim k
  | XPut k v => e_put lim k v
  | XDel k => e_del lim k
  | XPoi tm k => e_poi lim tm k
  | XRoot => e_opt lim TRoot
  | XHash => e_opt lim THash
  end.

(** The object, and the calls made so far, each with what is left of it. *)
Record epool := mkEpool { x_trie : pool; x_data : dict value; x_calls : list eprog }.

(** One step of a call. *)
Definition estep (secure : bool) (t : pool) (d : dict value) (p : eprog) : pool * dict value * eprog :=
  match p with
  | EDone o => (t, d, EDone o)
  | EData k f => (t, d, f (dget d k))
  | EStore k v p => (t, dset d k v, p)
  | EDrop k f => match dget d k with None => (t, d, f false) | Some _ => (t, ddel d k, f true) end
  | ETrie lim c f => (go secure t (MCall lim c), d, EWait (length (p_calls t)) f)
  | EWait i f => let t' := go secure t (MGo i) in
                 (t', d, match answer_of t' i with Some o => f o | None => EWait i f end)
  end.

(** What happens next: some thread makes a call, or the call of the given number does its next step. *)
Inductive emove := ECall (lim : nat) (c : ecmd) | EGo (i : nat).
Definition ego (secure : bool) (w : epool) (m : emove) : epool :=
  match m with
  | ECall lim c => mkEpool (x_trie w) (x_data w) (x_calls w ++ [e_call lim c])
  | EGo i =>
      match nth_error (x_calls w) i with
      | None => w
      | Some p => let '(t, d, p') := estep secure (x_trie w) (x_data w) p in
                  mkEpool t d (firstn i (x_calls w) ++ p' :: skipn (S i) (x_calls w))
      end
  end.
Definition erun (secure : bool) (w : epool) (ms : list emove) : epool := fold_left (ego secure) ms w.

(** The object [EMPT({}, {}, secure=secure)] before any call. *)
Definition epool_new (secure : bool) : epool := mkEpool (pool_new secure) [] [].
Definition eanswer (p : eprog) : option eout := match p with EDone o => Some o | _ => None end.
Definition eanswer_of (w : epool) (i : nat) : option eout :=
  match nth_error (x_calls w) i with Some p => eanswer p | None => None end.
(** The object as it is between two steps. *)
Definition eobject (secure : bool) (w : epool) : empt := mkEmpt (x_data w) (object secure (x_trie w)).
End WithHash.
