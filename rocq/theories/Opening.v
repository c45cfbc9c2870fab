(** MPT objects with one dict as their storage, made while threads use others: new ones, and ones opened on the root of another one
    (/repo/src/pymt/mpt.py).  The calls are cut as in Threads.v. *)
From Coq Require Import List Bool Arith NArith.
From Verif Require Import Base Mpt Threads.
Import ListNotations.

Section WithHash.
Context {H : Hash}.

(** The storage, the objects made so far, each with its flag and its attribute [_root], and the calls, each with the number of its object and
    what is left of it. *)
Record realm := mkRealm { r_map : dict bytes; r_log : list bytes; r_objs : list (bool * option bytes); r_calls : list (nat * prog tout) }.
(** [storage = {}]. *)
Definition realm0 : realm := mkRealm (m_map (mpt_new false)) (m_log (mpt_new false)) [] [].

(** [MPT(storage, secure=b)]; [MPT(storage, root=t.root, secure=t.secure)] for the object [t] of number [j], in one step, for one attribute is
    read; a call on the object of number [j]; the next access of the call of number [i]. *)
Inductive omove := ONew (b : bool) | OOpen (j : nat) | OCall (j lim : nat) (c : tcmd) | OGo (i : nat).
(** mpt.py:54-75 (the constructor), 109-118 [root]. *)
Definition ogo (w : realm) (m : omove) : realm :=
  match m with
  | ONew b => mkRealm (r_map w) (r_log w) (r_objs w ++ [(b, m_root (mpt_init (r_map w) None b))]) (r_calls w)
  | OOpen j =>
      match nth_error (r_objs w) j with
      | None => w
      | Some (b, r) => mkRealm (r_map w) (r_log w) (r_objs w ++ [(b, m_root (mpt_init (r_map w) r b))]) (r_calls w)
      end
  | OCall j lim c =>
      match nth_error (r_objs w) j with
      | None => w
      | Some (b, _) => mkRealm (r_map w) (r_log w) (r_objs w) (r_calls w ++ [(j, call_prog b lim c)])
      end
  | OGo i =>
      match nth_error (r_calls w) i with
      | None => w
      | Some (j, p) =>
          match nth_error (r_objs w) j with
          | None => w
          | Some (b, r) =>
              let (s, p') := access (mkShared (r_map w) (r_log w) r) p in
              mkRealm (h_map s) (h_log s) (set_nth j (b, h_root s) (r_objs w)) (set_nth i (j, p') (r_calls w))
          end
      end
  end.
Definition orun (w : realm) (ms : list omove) : realm := fold_left ogo ms w.
End WithHash.
