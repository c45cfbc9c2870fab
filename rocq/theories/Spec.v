(** Specification vocabulary.  Nothing here looks inside a trie: a dictionary is a
    function from keys to optional values, changed by [Put] and [Del]. *)
From Coq Require Import List Bool Arith NArith.
From Verif Require Import Base NibblePath Mpt ProofObj.
Import ListNotations.

Inductive op := Put (k v : bytes) | Del (k : bytes).
Definition op_key (o : op) : bytes := match o with Put k _ => k | Del k => k end.

Definition kvmap := bytes -> option bytes.
Definition apply_op (d : kvmap) (o : op) : kvmap :=
  match o with
  | Put k v => fun x => if bytes_eqb x k then Some v else d x
  | Del k => fun x => if bytes_eqb x k then None else d x
  end.
Definition apply_ops (d : kvmap) (l : list op) : kvmap := fold_left apply_op l d.
(** The dictionary after the operations [l], oldest first, from nothing. *)
Definition dict_after (l : list op) : kvmap := apply_ops (fun _ => None) l.

(** [q] is [p] followed by at least one byte. *)
Definition proper_prefix (p q : bytes) : Prop := exists r, r <> [] /\ q = p ++ r.
(** Some key of [d] properly extends [k]; some key of [d] is properly extended by [k]. *)
Definition extended_in (d : kvmap) (k : bytes) : Prop := exists k' v, proper_prefix k k' /\ d k' = Some v.
Definition prefixed_in (d : kvmap) (k : bytes) : Prop := exists k' v, proper_prefix k' k /\ d k' = Some v.

(** Exactly when [MPT.contains] answers True for an absent key: some present key [p] is
    a proper prefix of it, [p] is properly extended by a present key, and no present key
    continues [p] with the same high nibble as [k] does. *)
Definition false_positive (d : kvmap) (k : bytes) : Prop :=
  exists p b r v, k = p ++ b :: r /\ d p = Some v /\ extended_in d p /\
    forall b' r', hi b' = hi b -> d (p ++ b' :: r') = None.

(** A call of a user: the operation, the stack frames left when it is made, and
    which of the storage accesses it makes will raise. *)
Record call := Call { c_op : op; c_lim : nat; c_faults : list bool }.

(** Nothing is larger than 2^59 bytes, and values are non-empty unless the trie is in secure mode. *)
Definition ok_op (secure : bool) (o : op) : Prop :=
  (blen (op_key o) < 2 ^ 59)%N /\ match o with Put _ v => (secure = false -> v <> []) /\ (blen v < 2 ^ 59)%N | Del _ => True end.
Definition ok_history (secure : bool) (h : list call) : Prop := Forall (fun c => ok_op secure (c_op c)) h.

Section WithHash.
Context {H : Hash}.

(** No two different byte strings of [l] have the same hash. *)
Definition no_collision (l : list bytes) : Prop :=
  forall a b, In a l -> In b l -> keccak a = keccak b -> a = b.

(** Secure mode looks at hashed keys only, so keys must not collide there. *)
Definition keys_ok (secure : bool) (keys : list bytes) : Prop :=
  secure = true -> no_collision keys.

(** Frames a walk for [k] may need. *)
Definition frames (secure : bool) (k : bytes) : nat := if secure then 64 else 2 * length k.

(** ** Running calls on the model.  [mpt_run t h] gives the operations that returned
    normally, oldest first, and the final trie. *)
Definition mpt_call (t : mpt) (c : call) : result unit * mpt :=
  match c_op c with
  | Put k v => mpt_update (c_lim c) (c_faults c) t k v
  | Del k => mpt_delete (c_lim c) (c_faults c) t k
  end.

Fixpoint mpt_run (t : mpt) (h : list call) : list op * mpt :=
  match h with
  | [] => ([], t)
  | c :: h' =>
      let (r, t1) := mpt_call t c in
      let (l, t2) := mpt_run t1 h' in
      (match r with Ok _ => c_op c :: l | Err _ => l end, t2)
  end.

(** [t] was reached from the empty trie by calls of which exactly [l] returned
    normally, and the node encodings hashed on the way do not collide. *)
Definition reachable (secure : bool) (l : list op) (t : mpt) : Prop :=
  exists h, mpt_run (mpt_new secure) h = (l, t) /\ ok_history secure h /\ no_collision (m_log t).

(** What [root_hash] hashes or returns, for comparing two tries. *)
Definition hashed_by (t : mpt) : list bytes := root_ref t :: m_log t.

(** The same answer to every query: reads, proof generation and proof checking. *)
Definition reads_alike (t t' : mpt) : Prop :=
  forall lim k time,
    mpt_get lim t' k = mpt_get lim t k /\ mpt_contains lim t' k = mpt_contains lim t k /\
    mpt_get_poi lim time t' k = mpt_get_poi lim time t k /\
    mpt_get_poe lim time t' k = mpt_get_poe lim time t k /\
    (forall p, mpt_verify_poi lim t' p = mpt_verify_poi lim t p /\ mpt_verify_poe lim t' p = mpt_verify_poe lim t p).

(** Secure mode against a plain trie driven with hashed keys. *)
Definition hash_op (o : op) : op := match o with Put k v => Put (keccak k) v | Del k => Del (keccak k) end.
Definition hash_call (c : call) : call := Call (hash_op (c_op c)) (c_lim c) (c_faults c).
Definition as_plain (t : mpt) : mpt := mkMpt (m_map t) (m_log t) (m_root t) false.
End WithHash.

Definition put_call (lim : nat) (kv : bytes * bytes) : call := Call (Put (fst kv) (snd kv)) lim [].
Definition del_call (lim : nat) (k : bytes) : call := Call (Del k) lim [].
