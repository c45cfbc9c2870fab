(** Calls on EMPT and SparseEMPT objects (/repo/src/pymt/empt.py) with the tests of the types of keys, and the
    views and the equality that EMPT has from collections.abc.Mapping. *)
From Coq Require Import List Bool Arith NArith.
From Verif Require Import Base Rlp ProofObj Mpt Empt.
Import ListNotations.

(** A key: a [bytes] object or any other one. *)
Inductive pykey := KBytes (k : bytes) | KOther.

(** One call.  [fl], [cf], [df]: the accesses to the storages that raise, as in Empt.v. *)
Inductive ecmd :=
| QGet (k : pykey)
| QRef (k : pykey)
| QIn (k : pykey)
| QPut (k : pykey) (v : value) (fl : list bool) (df : bool)
| QDel (k : pykey) (cf df : bool) (fl : list bool)
| QPop (k : pykey) (default : option value)
| QPopItem
| QClear
| QSetDefault (k : pykey) (v : value)
| QItems
| QValues
| QKeys
| QLen.

Inductive eout :=
| AVal (r : result value)
| ARef (r : result dref)
| ABool (r : result bool)
| ANone (r : result unit)
| AItem (r : result (bytes * value))
| AItems (r : result (list (bytes * value)))
| AVals (r : result (list value))
| AKeys (l : list bytes)
| ALen (n : nat).

Section WithHash.
Context {H : Hash}.
Local Open Scope res_scope.

(** empt.py:248-249, 266-267, 313-314, 326-327, 373-374, 393-394: [isinstance(key, bytes)]. *)
Definition with_key {A} (k : pykey) (f : bytes -> result A) : result A :=
  match k with KBytes b => f b | KOther => Err TypeError end.
Definition with_key' {A} (e : empt) (k : pykey) (f : bytes -> result A * empt) : result A * empt :=
  match k with KBytes b => f b | KOther => (Err TypeError, e) end.

(** empt.py:270-304 [update]: the value is looked at before the key. *)
Definition empt_update_py (lim : nat) (fl : list bool) (df : bool) (e : empt) (k : pykey) (v : value) : result unit * empt :=
  match v with
  | VObj false _ _ => (Err NotImplementedError, e)
  | VObj true false _ => (Err NotImplementedError, e)
  | _ => with_key' e k (fun b => empt_update lim fl df e b v)
  end.

(** [ValuesView.__iter__] consumed to the end. *)
Definition empt_values (lim : nat) (e : empt) : result (list value) := mapM (empt_get lim e) (empt_keys e).

Definition empt_do (lim : nat) (e : empt) (c : ecmd) : eout * empt :=
  match c with
  | QGet k => (AVal (with_key k (empt_get lim e)), e)
  | QRef k => (ARef (with_key k (empt_get_reference lim e)), e)
  | QIn k => (ABool (with_key k (empt_contains lim e)), e)
  | QPut k v fl df => let (r, e') := empt_update_py lim fl df e k v in (ANone r, e')
  | QDel k cf df fl => let (r, e') := with_key' e k (empt_delete lim cf df fl e) in (ANone r, e')
  | QPop k d => let (r, e') := with_key' e k (fun b => empt_pop lim e b d) in (AVal r, e')
  | QPopItem => let (r, e') := empt_popitem lim e in (AItem r, e')
  | QClear => let (r, e') := empt_clear lim e in (ANone r, e')
  | QSetDefault k v => let (r, e') := with_key' e k (fun b => empt_setdefault lim e b v) in (AVal r, e')
  | QItems => (AItems (empt_items lim e), e)
  | QValues => (AVals (empt_values lim e), e)
  | QKeys => (AKeys (empt_keys e), e)
  | QLen => (ALen (empt_len e), e)
  end.
(** Calls one after the other, each with its number of frames left. *)
Fixpoint empt_session (e : empt) (h : list (nat * ecmd)) : list eout * empt :=
  match h with
  | [] => ([], e)
  | (lim, c) :: h' => let (o, e1) := empt_do lim e c in
                      let (os, e2) := empt_session e1 h' in (o :: os, e2)
  end.

(** [Mapping.__eq__] with another EMPT: [dict(self.items()) == dict(other.items())].  [veq] is [==] of two values
    (or the same object). *)
Definition dict_eqb (veq : value -> value -> bool) (a b : dict value) : bool :=
  (length a =? length b) &&
  forallb (fun kv => match dget b (fst kv) with Some w => veq (snd kv) w | None => false end) a.
Definition empt_eq (veq : value -> value -> bool) (lim : nat) (e1 e2 : empt) : result bool :=
  a <- empt_items lim e1 ;; b <- empt_items lim e2 ;; Ok (dict_eqb veq a b).

(** ** SparseEMPT *)
Inductive scmd :=
| TItem (k : pykey)
| TRef (k : pykey)
| TIn (k : pykey)
| TPut (k : pykey) (v : value) (fl : list bool)
| TDel (k : pykey) (cf : bool) (fl : list bool)
| TRoot.
Inductive sout := BVal (r : result value) | BRef (r : result dref) | BBool (r : result bool) | BNone (r : result unit) | BTrie (r : result mpt).

(** empt.py:495-531 [update]: the value is looked at before the key, unless it is bytes or a bytearray. *)
Definition sparse_update_py (lim : nat) (fl : list bool) (t : mpt) (k : pykey) (v : value) : result unit * mpt :=
  match v with
  | VObj true _ _ => (Err TypeError, t)
  | VObj false _ _ => (Err AttributeError, t)
  | _ => match k with KBytes b => sparse_update lim fl t b v | KOther => (Err TypeError, t) end
  end.
(** empt.py:448-603. *)
Definition sparse_do (lim : nat) (t : mpt) (c : scmd) : sout * mpt :=
  match c with
  | TItem (KBytes k) => (BVal (sparse_getitem t k), t)
  | TItem KOther => (BVal (sparse_getitem t []), t)
  | TRef k => (BRef (with_key k (trie_reference lim t)), t)
  | TIn k => (BBool (with_key k (mpt_contains lim t)), t)
  | TPut k v fl => let (r, t') := sparse_update_py lim fl t k v in (BNone r, t')
  | TDel (KBytes k) cf fl => let (r, t') := sparse_delete lim cf fl t k in (BNone r, t')
  | TDel KOther _ _ => (BNone (Err TypeError), t)
  | TRoot => (BTrie (sparse_get_root_trie t), t)
  end.
Fixpoint sparse_session (t : mpt) (h : list (nat * scmd)) : list sout * mpt :=
  match h with
  | [] => ([], t)
  | (lim, c) :: h' => let (o, t1) := sparse_do lim t c in
                      let (os, t2) := sparse_session t1 h' in (o :: os, t2)
  end.
End WithHash.
