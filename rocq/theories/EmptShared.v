(** Model of EMPT objects constructed without storages: Python evaluates the default arguments
    [trie_storage={}], [data_storage={}] of /repo/src/pymt/empt.py:118-124 once, so all such objects share
    the two dicts. *)
From Coq Require Import List Bool Arith NArith.
From Verif Require Import Base Mpt Empt SpecEmpt.
Import ListNotations.

Section WithHash.
Context {H : Hash}.

(** The two shared dicts (and the ghost log of hashed strings). *)
Record world := mkWorld { w_trie : dict bytes; w_data : dict value; w_log : list bytes }.
(** What an object has of its own: the root and the mode. *)
Record handle := mkHandle { h_root : option bytes; h_secure : bool }.

(** The storages when the module is loaded: two empty dicts (empt.py:118-123). *)
Definition world0 : world := mkWorld [] [] [[x80]].

(** empt.py:161-169 [EMPT(secure=secure)]. *)
Definition default_empt (w : world) (secure : bool) : result handle :=
  match empt_init (w_trie w) (w_data w) None secure with
  | Ok e => Ok (mkHandle (m_root (e_trie e)) secure)
  | Err x => Err x
  end.

(** The object as an EMPT over the shared dicts; a call on it. *)
Definition view (w : world) (h : handle) : empt :=
  mkEmpt (w_data w) (mkMpt (w_trie w) (w_log w) (h_root h) (h_secure h)).
Definition shared_call (w : world) (h : handle) (c : ecall) : result unit * world * handle :=
  let (r, e) := empt_call (view w h) c in
  (r, mkWorld (m_map (e_trie e)) (e_data e) (m_log (e_trie e)), mkHandle (m_root (e_trie e)) (m_secure (e_trie e))).
End WithHash.
