(** Specification vocabulary for SparseEMPT and RootEMPT: a dictionary of references. *)
From Coq Require Import List Bool Arith NArith.
From Verif Require Import Base Mpt Spec Empt SpecEmpt.
Import ListNotations.

(** A call: the stack frames left, and which storage accesses raise: of [contains] before a deletion, of the rest. *)
Record scall := SCall { sc_op : eop; sc_lim : nat; sc_cfault : bool; sc_faults : list bool }.

(** What an acknowledged call does to the dictionary from keys to the bytes referred to. *)
Definition sop (o : eop) : op := match o with EPut k v => Put k (val_bytes v) | EDel k => Del k end.

Section WithHash.
Context {H : Hash}.

Definition sparse_call (t : mpt) (c : scall) : result unit * mpt :=
  match sc_op c with
  | EPut k v => sparse_update (sc_lim c) (sc_faults c) t k v
  | EDel k => sparse_delete (sc_lim c) (sc_cfault c) (sc_faults c) t k
  end.
Fixpoint sparse_run (t : mpt) (h : list scall) : list op * mpt :=
  match h with
  | [] => ([], t)
  | c :: h' =>
      let (r, t1) := sparse_call t c in
      let (l, t2) := sparse_run t1 h' in
      (match r with Ok _ => sop (sc_op c) :: l | Err _ => l end, t2)
  end.

(** [t] was reached from [SparseEMPT({}, secure=secure)] by calls of which exactly [l] returned normally; node
    encodings hashed on the way do not collide. *)
Definition sreachable (secure : bool) (l : list op) (t : mpt) : Prop :=
  exists h, sparse_run (sparse_new [] None secure) h = (l, t) /\ Forall (fun c => eok_op (sc_op c)) h /\
    no_collision (m_log t).
End WithHash.

(** A dictionary of bytes and what is known about an EMPT agree. *)
Definition agrees (d : kvmap) (st : bytes -> status) : Prop :=
  forall k, match st k with
            | Present v => d k = Some (val_bytes v)
            | Absent => d k = None
            | Unknown => False
            end.
