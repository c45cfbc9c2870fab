(** Membership in the views that EMPT has from collections.abc.Mapping, and build_trie over a storage whose [keys()] is a list
    (/repo/src/pymt/empt.py). *)
From Coq Require Import List Bool Arith NArith.
From Verif Require Import Base Rlp ProofObj Mpt Empt EmptPy.
Import ListNotations.

Section WithHash.
Context {H : Hash}.
Local Open Scope res_scope.

(** [KeysView.__contains__]: [key in self._mapping]. *)
Definition keys_has (lim : nat) (e : empt) (k : pykey) : result bool := with_key k (empt_contains lim e).
(** [ItemsView.__contains__] of a pair: only KeyError is caught.  [veq w v]: [w is v or w == v]. *)
Definition items_has (veq : value -> value -> bool) (lim : nat) (e : empt) (k : pykey) (v : value) : result bool :=
  match with_key k (empt_get lim e) with
  | Ok w => Ok (veq w v)
  | Err KeyError => Ok false
  | Err x => Err x
  end.
(** [ValuesView.__contains__]: the values are read one by one until one is equal. *)
Fixpoint find_value (veq : value -> value -> bool) (lim : nat) (e : empt) (ks : list bytes) (v : value) : result bool :=
  match ks with
  | [] => Ok false
  | k :: r => w <- empt_get lim e k ;; if veq w v then Ok true else find_value veq lim e r v
  end.
Definition values_has (veq : value -> value -> bool) (lim : nat) (e : empt) (v : value) : result bool :=
  find_value veq lim e (empt_keys e) v.

(** empt.py:220-238 [build_trie] over a trie storage whose [keys()] returns a list, as the documentation of the class
    (empt.py:111) asks for: every node is deleted, the attribute [_root] of the trie stays. *)
Definition empt_build_list (lim : nat) (e : empt) : result unit * empt :=
  let (r, t) := build_loop lim (mkMpt [] (m_log (e_trie e)) (m_root (e_trie e)) (m_secure (e_trie e))) (e_data e) in
  (r, mkEmpt (e_data e) t).
End WithHash.
