(** Model of build_trie over storages that fail: /repo/src/pymt/empt.py:220-238. *)
From Coq Require Import List Bool Arith NArith.
From Verif Require Import Base Mpt Empt.
Import ListNotations.
Local Open Scope res_scope.

Section WithHash.
Context {H : Hash}.

(** empt.py:235-238: the second loop.  For each key: whether reading its data raises, and the faults of the trie storage during the update. *)
Fixpoint build_loop_f (lim : nat) (fs : list (bool * list bool)) (t : mpt) (l : dict value) : result unit * mpt :=
  match l with
  | [] => (Ok tt, t)
  | (k, v) :: l' =>
      let '(rf, fl) := hd (false, []) fs in
      if rf then (Err StorageFault, t) else
      match (r <- new_ref k v ;; ref_encode r) with
      | Err x => (Err x, t)
      | Ok rb => match mpt_update lim fl t k rb with
                 | (Ok _, t') => build_loop_f lim (tl fs) t' l'
                 | (Err x, t') => (Err x, t')
                 end
      end
  end.

(** empt.py:220-238 with dicts that fail as storages: [kf] makes an access raise before anything was changed (listing the keys of either storage,
    deleting the first node). *)
Definition empt_build_f (lim : nat) (kf : bool) (fs : list (bool * list bool)) (e : empt) : result unit * empt :=
  if kf then (Err StorageFault, e) else
  match m_map (e_trie e) with
  | [] => let (r, t) := build_loop_f lim fs (e_trie e) (e_data e) in (r, mkEmpt (e_data e) t)
  | _ :: rest => (Err RuntimeError,
                  mkEmpt (e_data e) (mkMpt rest (m_log (e_trie e)) (m_root (e_trie e)) (m_secure (e_trie e))))
  end.
End WithHash.
