(** EMPT objects (/repo/src/pymt/empt.py) that were given the same two storages, objects opened on the root of
    another one as in /repo/src/pymt/examples/empt_create_and_change.py, and a program that changes the data
    storage without asking any of them. *)
From Coq Require Import List Bool Arith NArith.
From Verif Require Import Base ProofObj Mpt Empt EmptPy.
Import ListNotations.

(** The two storages and, for every object, its root and its mode.  [fl_log] are the texts that were hashed. *)
Record fleet := Fleet { fl_trie : dict bytes; fl_log : list bytes; fl_data : dict value; fl_objs : list (option bytes * bool) }.

(** Calls on EMPT objects over common storages (empt.py:118-365), opening another object, and writes to the data storage by others. *)
Inductive fcmd :=
| FCall (i : nat) (lim : nat) (c : ecmd)   (* a call on object [i] *)
| FOpen (i : nat)                          (* EMPT(trie_storage, data_storage, root=objects[i].root(), secure=objects[i].secure) *)
| FOutside (l : dict value).               (* the content of the data storage becomes [l] *)
Inductive fout := FAns (o : eout) | FOpened (r : result unit) | FDone | FNobody.

(** Replacing one object. *)
Definition set_at {A} (i : nat) (x : A) (l : list A) : list A := firstn i l ++ match skipn i l with [] => [] | _ :: r => x :: r end.

Section WithHash.
Context {H : Hash}.

(** [EMPT(trie_storage, data_storage, secure=m)] for every [m] of [modes], with two empty dicts. *)
Definition fleet_new (modes : list bool) : fleet :=
  Fleet [] (m_log (mpt_new false)) [] (map (fun m => (m_root (e_trie (empt_new m)), m)) modes).
Definition obj_of (w : fleet) (h : option bytes * bool) : empt :=
  mkEmpt (fl_data w) (mkMpt (fl_trie w) (fl_log w) (fst h) (snd h)).

(** empt.py:118-178 for [FOpen]; the calls are those of EmptPy.v. *)
Definition fleet_do (w : fleet) (c : fcmd) : fout * fleet :=
  match c with
  | FCall i lim q =>
      match nth_error (fl_objs w) i with
      | None => (FNobody, w)
      | Some h => let (o, e) := empt_do lim (obj_of w h) q in
                  (FAns o, Fleet (m_map (e_trie e)) (m_log (e_trie e)) (e_data e)
                                 (set_at i (m_root (e_trie e), m_secure (e_trie e)) (fl_objs w)))
      end
  | FOpen i =>
      match nth_error (fl_objs w) i with
      | None => (FNobody, w)
      | Some h =>
          match empt_init (fl_trie w) (fl_data w) (empt_root (obj_of w h)) (snd h) with
          | Ok e => (FOpened (Ok tt), Fleet (fl_trie w) (fl_log w) (fl_data w) (fl_objs w ++ [(m_root (e_trie e), m_secure (e_trie e))]))
          | Err x => (FOpened (Err x), w)
          end
      end
  | FOutside l => (FDone, Fleet (fl_trie w) (fl_log w) l (fl_objs w))
  end.
Fixpoint fleet_run (w : fleet) (h : list fcmd) : list fout * fleet :=
  match h with
  | [] => ([], w)
  | c :: h' => let (o, w1) := fleet_do w c in let (os, w2) := fleet_run w1 h' in (o :: os, w2)
  end.
End WithHash.
