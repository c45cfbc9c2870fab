(** Tries with some of the nodes; tries that share a storage. *)
From Coq Require Import List Bool Arith.
From Verif Require Import Base ProofObj Mpt Spec.
Import ListNotations.

(** Every entry of [m] is one of [m']. *)
Definition part_of (m m' : dict bytes) : Prop := forall h e, dget m h = Some e -> dget m' h = Some e.
(** Where both have an entry it is the same. *)
Definition consistent (m m' : dict bytes) : Prop := forall h e e', dget m h = Some e -> dget m' h = Some e' -> e = e'.

Section WithHash.
Context {H : Hash}.

(** [r] is KeyError or the same as [r']. *)
Definition key_error_or {A} (r r' : result A) : Prop := r = Err KeyError \/ r = r'.
(** Every question put to [t'] raises KeyError or is answered as by [t]. *)
Definition answers_part (t' t : mpt) : Prop := forall lim k time,
  key_error_or (mpt_get lim t' k) (mpt_get lim t k) /\ key_error_or (mpt_contains lim t' k) (mpt_contains lim t k) /\
  key_error_or (mpt_get_poi lim time t' k) (mpt_get_poi lim time t k) /\
  key_error_or (mpt_get_poe lim time t' k) (mpt_get_poe lim time t k) /\
  (forall p, mpt_verify_poi lim t' p = mpt_verify_poi lim t p /\ mpt_verify_poe lim t' p = mpt_verify_poe lim t p).

(** A storage made of node texts, each under its digest. *)
Definition nodes_as_storage (l : list bytes) : dict bytes := fold_left (fun d e => dset d (keccak e) e) l [].
(** The node texts of a proof. *)
Definition proof_nodes (p : proof) : list bytes := flat_map (fun e => match e with PB b => [b] | PPair _ _ => [] end) (pf_proof p).

(** ** Tries that share one storage *)
Record world := World { w_map : dict bytes; w_log : list bytes; w_tries : nat -> option bytes * bool }.
(** New tries on one new storage, one of each number. *)
Definition world_new (mode : nat -> bool) : world :=
  World [] (m_log (mpt_new false)) (fun i => (m_root (mpt_new false), mode i)).
Definition view (w : world) (i : nat) : mpt := mkMpt (w_map w) (w_log w) (fst (w_tries w i)) (snd (w_tries w i)).
Definition world_call (w : world) (i : nat) (c : call) : result unit * world :=
  let (r, t) := mpt_call (view w i) c in
  (r, World (m_map t) (m_log t) (fun j => if j =? i then (m_root t, m_secure t) else w_tries w j)).
(** Calls on the tries in any order: what each call returned or raised, and the world afterwards. *)
Fixpoint world_run (w : world) (h : list (nat * call)) : list (nat * result unit) * world :=
  match h with
  | [] => ([], w)
  | (i, c) :: h' => let (r, w1) := world_call w i c in let (l, w2) := world_run w1 h' in ((i, r) :: l, w2)
  end.
(** The same with one trie. *)
Fixpoint run_results (t : mpt) (h : list call) : list (result unit) * mpt :=
  match h with
  | [] => ([], t)
  | c :: h' => let (r, t1) := mpt_call t c in let (l, t2) := run_results t1 h' in (r :: l, t2)
  end.
Definition of {A} (i : nat) (l : list (nat * A)) : list A := map snd (filter (fun x => fst x =? i) l).
End WithHash.
(** The answers about [k] are the same. *)
Definition same_answers {H : Hash} (t t' : mpt) (k : bytes) : Prop := forall lim time,
  mpt_get lim t' k = mpt_get lim t k /\ mpt_contains lim t' k = mpt_contains lim t k /\
  mpt_get_poi lim time t' k = mpt_get_poi lim time t k /\ mpt_get_poe lim time t' k = mpt_get_poe lim time t k.
(** Writes a call may make: one more than the key has nibbles, two more for an update. *)
Definition may_write (secure : bool) (c : call) : nat :=
  match c_op c with Put k _ => frames secure k + 2 | Del k => frames secure k + 1 end.
