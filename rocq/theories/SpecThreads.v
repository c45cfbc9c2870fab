(** What calls on one MPT object answer when several threads make them at the same time.
    The object is a dictionary and a flag telling that some update succeeded once.  A call looks at the trie a few times,
    takes the dictionary as it is at one moment, and answers by that dictionary; an update or a delete replaces the whole
    dictionary by the one it took, changed.  Other calls may come in between. *)
From Coq Require Import List Bool Arith NArith.
From Verif Require Import Base Rlp ProofObj Mpt Spec SpecEmpt SpecEvery MptPy SpecMptEvery Threads.
Import ListNotations.

(** How far a call is: it has looked at the trie [n] times; it has taken a dictionary; it has found the trie emptied
    ([Blank]) or never used ([Unborn]) where it should have taken the dictionary; it knows how long the root was; it has answered. *)
Inductive stage :=
| Begun (n lim : nat) (c : tcmd)
| Took (lim : nat) (c : tcmd) (d : kvmap) (used : bool)
| Blank
| Unborn
| Sized (long : bool)
| Settled (o : tout).

Section WithHash.
Context {H : Hash}.
Section Mode.
Variable secure : bool.

(** Every key was deleted: the root is None.  Nothing was ever stored. *)
Definition gone (d : kvmap) (used : bool) : Prop := hollow d /\ used = true.
Definition fresh (d : kvmap) (used : bool) : Prop := hollow d /\ used = false.
(** [x], unless there is no frame left. *)
Definition or_deep (lim : nat) (x y : exn) : Prop := (0 < lim /\ y = x) \/ (lim = 0 /\ y = RecursionError).
Definition with_root (p : proof) (r : bytes) : proof := mkProof (pf_type p) (pf_time p) (pf_key p) r (pf_proof p).

(** One thing a call does: dictionary, flag and stage before, and after. *)
Inductive acts (d : kvmap) (u : bool) : stage -> kvmap -> bool -> stage -> Prop :=
(* get *)
| get_gone : forall lim k, gone d u -> acts d u (Begun 0 lim (TGet k)) d u (Settled (AVal (Err ValueError)))
| get_looks : forall lim k, ~ gone d u -> acts d u (Begun 0 lim (TGet k)) d u (Begun 1 lim (TGet k))
| get_blank : forall lim k x, gone d u -> or_deep lim TypeError x -> acts d u (Begun 1 lim (TGet k)) d u (Settled (AVal (Err x)))
| get_takes : forall lim k, ~ gone d u -> acts d u (Begun 1 lim (TGet k)) d u (Took lim (TGet k) d u)
| get_answers : forall lim k d0 u0 r, gets secure lim d0 u0 k r -> acts d u (Took lim (TGet k) d0 u0) d u (Settled (AVal r))
(* contains *)
| in_gone : forall lim k, gone d u -> acts d u (Begun 0 lim (TIn k)) d u (Settled (ABool (Ok false)))
| in_looks : forall lim k, ~ gone d u -> acts d u (Begun 0 lim (TIn k)) d u (Begun 1 lim (TIn k))
| in_deep : forall k, acts d u (Begun 1 0 (TIn k)) d u (Settled (ABool (Err RecursionError)))
| in_blank : forall lim k, gone d u -> acts d u (Begun 1 lim (TIn k)) d u Blank
| in_unborn : forall lim k, fresh d u -> acts d u (Begun 1 lim (TIn k)) d u Unborn
| in_takes : forall lim k, ~ hollow d -> acts d u (Begun 1 lim (TIn k)) d u (Took lim (TIn k) d u)
| in_answers : forall lim k d0 u0 r, asks secure lim d0 k r -> acts d u (Took lim (TIn k) d0 u0) d u (Settled (ABool r))
| in_lost : forall lim k d0 u0, gone d u -> acts d u (Took lim (TIn k) d0 u0) d u (Settled (ABool (Ok false)))
| blank_no : gone d u -> acts d u Blank d u (Settled (ABool (Ok false)))
| blank_error : ~ gone d u -> acts d u Blank d u (Settled (ABool (Err TypeError)))
| unborn_no : hollow d -> acts d u Unborn d u (Settled (ABool (Ok false)))
| unborn_error : u = true -> acts d u Unborn d u (Settled (ABool (Err KeyError)))
(* update *)
| put_takes : forall lim k v, acts d u (Begun 0 lim (TPut k v)) d u (Took lim (TPut k v) d u)
| put_done : forall lim k v d0 u0, acts d u (Took lim (TPut k v) d0 u0) (set_ref d0 k v) true (Settled (ANone (Ok tt)))
| put_not : forall lim k v d0 u0 x, gives_up secure lim [] k x -> acts d u (Took lim (TPut k v) d0 u0) d u (Settled (ANone (Err x)))
(* delete *)
| del_gone : forall lim k, gone d u -> acts d u (Begun 0 lim (TDel k)) d u (Settled (ANone (Err ValueError)))
| del_looks : forall lim k, ~ gone d u -> acts d u (Begun 0 lim (TDel k)) d u (Begun 1 lim (TDel k))
| del_fresh : forall lim k, fresh d u -> acts d u (Begun 1 lim (TDel k)) d u (Settled (ANone (Err ValueError)))
| del_again : forall lim k, ~ fresh d u -> acts d u (Begun 1 lim (TDel k)) d u (Begun 2 lim (TDel k))
| del_blank : forall lim k x, gone d u -> or_deep lim TypeError x -> acts d u (Begun 2 lim (TDel k)) d u (Settled (ANone (Err x)))
| del_takes : forall lim k, ~ hollow d -> acts d u (Begun 2 lim (TDel k)) d u (Took lim (TDel k) d u)
| del_done : forall lim k d0 u0 d1, drops secure lim [] d0 k (Ok tt) d1 -> acts d u (Took lim (TDel k) d0 u0) d1 true (Settled (ANone (Ok tt)))
| del_not : forall lim k d0 u0 x, drops secure lim [] d0 k (Err x) d0 -> acts d u (Took lim (TDel k) d0 u0) d u (Settled (ANone (Err x)))
(* get_proof_of_inclusion *)
| poi_gone : forall lim tm k, gone d u -> acts d u (Begun 0 lim (TPoi tm k)) d u (Settled (AProof (Err ValueError)))
| poi_looks : forall lim tm k, ~ gone d u -> acts d u (Begun 0 lim (TPoi tm k)) d u (Begun 1 lim (TPoi tm k))
| poi_fresh : forall lim tm k, fresh d u -> acts d u (Begun 1 lim (TPoi tm k)) d u (Settled (AProof (Err ValueError)))
| poi_again : forall lim tm k, ~ fresh d u -> acts d u (Begun 1 lim (TPoi tm k)) d u (Begun 2 lim (TPoi tm k))
| poi_blank : forall lim tm k x, gone d u -> or_deep lim TypeError x -> acts d u (Begun 2 lim (TPoi tm k)) d u (Settled (AProof (Err x)))
| poi_takes : forall lim tm k, ~ hollow d -> acts d u (Begun 2 lim (TPoi tm k)) d u (Took lim (TPoi tm k) d u)
| poi_done : forall lim tm k d0 u0 p r, includes secure lim tm d0 u0 k (Ok p) -> rooted secure d u (Some r) ->
    acts d u (Took lim (TPoi tm k) d0 u0) d u (Settled (AProof (Ok (with_root p r))))
| poi_rootless : forall lim tm k d0 u0 p, includes secure lim tm d0 u0 k (Ok p) -> gone d u ->
    acts d u (Took lim (TPoi tm k) d0 u0) d u (Settled (AProof (Err TypeError)))
| poi_not : forall lim tm k d0 u0 x, includes secure lim tm d0 u0 k (Err x) ->
    acts d u (Took lim (TPoi tm k) d0 u0) d u (Settled (AProof (Err x)))
(* root and root_hash *)
| root_answers : forall lim r, rooted secure d u r -> acts d u (Begun 0 lim TRoot) d u (Settled (AOpt (Ok r)))
| hash_gone : forall lim, gone d u -> acts d u (Begun 0 lim THash) d u (Settled (AOpt (Ok (Some (keccak [x80])))))
| hash_looks : forall lim, ~ gone d u -> acts d u (Begun 0 lim THash) d u (Begun 1 lim THash)
| hash_blank : forall lim, gone d u -> acts d u (Begun 1 lim THash) d u (Settled (AOpt (Err TypeError)))
| hash_sizes : forall lim r, rooted secure d u (Some r) -> acts d u (Begun 1 lim THash) d u (Sized (length r =? 32))
| hash_long : forall r, rooted secure d u r -> acts d u (Sized true) d u (Settled (AOpt (Ok r)))
| hash_short : forall r, rooted secure d u (Some r) -> acts d u (Sized false) d u (Settled (AOpt (Ok (Some (keccak r)))))
| hash_rootless : gone d u -> acts d u (Sized false) d u (Settled (AOpt (Err TypeError))).

(** What may have come of the moves made: the dictionary, the flag, and how far each call is.  In a move of a call only that call does something. *)
Inductive unfolds : list move -> kvmap -> bool -> list stage -> Prop :=
| unfolds_new : unfolds [] no_refs false []
| unfolds_call : forall ms d u l lim c, unfolds ms d u l -> unfolds (ms ++ [MCall lim c]) d u (l ++ [Begun 0 lim c])
| unfolds_go : forall ms d u l i, unfolds ms d u l -> unfolds (ms ++ [MGo i]) d u l
| unfolds_act : forall ms d u l1 a l2 d' u' a', unfolds (ms ++ [MGo (length l1)]) d u (l1 ++ a :: l2) -> acts d u a d' u' a' ->
    unfolds (ms ++ [MGo (length l1)]) d' u' (l1 ++ a' :: l2).

(** The calls made, in order. *)
Definition calls_of (ms : list move) : list (nat * tcmd) :=
  flat_map (fun m => match m with MCall lim c => [(lim, c)] | MGo _ => [] end) ms.
Definition tkeys1 (c : tcmd) : list bytes := match c with TGet k | TIn k | TPut k _ | TDel k | TPoi _ k => [k] | _ => [] end.
Definition tkeys (ms : list move) : list bytes := flat_map (fun x => tkeys1 (snd x)) (calls_of ms).
(** Sizes are bounded, and values are not empty unless the trie is in secure mode. *)
Definition tfits (ms : list move) : Prop :=
  (forall k, In k (tkeys ms) -> (blen k < 2 ^ 59)%N) /\
  (forall lim k v, In (lim, TPut k v) (calls_of ms) -> (secure = false -> v <> []) /\ (blen v < 2 ^ 59)%N).

(** The object at the moments of the call of number [i]: after it was made and before it answered. *)
Definition during (ms : list move) (i : nat) (t : mpt) : Prop :=
  exists m1 m2, ms = m1 ++ m2 /\ i < length (calls_of m1) /\ answer_of (run_moves secure (pool_new secure) m1) i = None /\
    object secure (run_moves secure (pool_new secure) m1) = t.
(** What the answer of a reading call rests on; [P] tells which objects it may have seen.  A call made alone sees one.
    [emptied]: the trie was seen emptied, and was also seen when it was not. *)
Definition emptied (P : mpt -> Prop) : Prop := exists t t', P t /\ m_root t = None /\ P t' /\ m_root t' <> None.
Definition stems (P : mpt -> Prop) (lim : nat) (c : tcmd) (o : tout) : Prop :=
  match c, o with
  | TGet k, AVal r => (exists t, P t /\ mpt_get lim t k = r) \/ (exists x, r = Err x /\ or_deep lim TypeError x /\ emptied P)
  | TIn k, ABool r => (exists t, P t /\ mpt_contains lim t k = r) \/ (lim = 0 /\ r = Err RecursionError) \/ (r = Err TypeError /\ emptied P) \/
      (r = Err KeyError /\ exists t t', P t /\ m_root t = Some (keccak [x80]) /\ P t' /\ m_root t' <> Some (keccak [x80]))
  | TRoot, AOpt r => exists t, P t /\ r = Ok (m_root t)
  | TPoi tm k, AProof (Ok p) => exists t t' p' r', P t /\ P t' /\ mpt_get_poi lim tm t k = Ok p' /\ m_root t' = Some r' /\ p = with_root p' r'
  | TPoi tm k, AProof (Err x) => (exists t, P t /\ mpt_get_poi lim tm t k = Err x) \/
      ((x = TypeError \/ (lim = 0 /\ x = RecursionError)) /\ emptied P)
  | THash, AOpt r => (exists t, P t /\ r = Ok (Some (root_hash t))) \/ (r = Err TypeError /\ emptied P) \/
      (exists t t' r', P t /\ P t' /\ m_root t = Some r' /\ r' <> [] /\
         ((length r' = 32 /\ r = Ok (m_root t')) \/ (length r' <> 32 /\ exists r'', m_root t' = Some r'' /\ r = Ok (Some (keccak r'')))))
  | TPut _ _, ANone _ => True
  | TDel _, ANone _ => True
  | _, _ => False
  end.

(** Every update and delete is made when all earlier ones have answered. *)
Definition is_write (c : tcmd) : bool := match c with TPut _ _ | TDel _ => true | _ => false end.
Definition one_writer (ms : list move) : Prop :=
  forall m1 m2 lim c i l' c', ms = m1 ++ MCall lim c :: m2 -> is_write c = true -> nth_error (calls_of m1) i = Some (l', c') -> is_write c' = true ->
    answer_of (run_moves secure (pool_new secure) m1) i <> None.
(** The updates and deletes that have answered, in the order they were made, with their answers; as calls of one thread. *)
Definition as_write (x : nat * tcmd) (o : option tout) : list ((nat * gcmd) * gout) :=
  match snd x, o with
  | TPut k v, Some (ANone r) => [((fst x, GPut k v []), ONone r)]
  | TDel k, Some (ANone r) => [((fst x, GDel k []), ONone r)]
  | _, _ => []
  end.
Definition written (w : pool) (ms : list move) : list ((nat * gcmd) * gout) :=
  flat_map (fun i => match nth_error (calls_of ms) i with Some x => as_write x (answer_of w i) | None => [] end) (List.seq 0 (length (calls_of ms))).

(** [d] and [u] are what the updates and deletes made that had answered at some moment of the call of number [i]. *)
Definition moment (ms : list move) (i : nat) (d : kvmap) (u : bool) : Prop :=
  exists m1 m2, let w := run_moves secure (pool_new secure) m1 in
    ms = m1 ++ m2 /\ i < length (calls_of m1) /\ answer_of w i = None /\
    gfollows secure no_refs false (map fst (written w m1)) (map snd (written w m1)) d u.
Definition went (ms : list move) (i : nat) : Prop :=
  exists d u d' u', moment ms i d u /\ gone d u /\ moment ms i d' u' /\ ~ gone d' u'.
(** What the answer of a reading call may be beside updates and deletes made one after the other. *)
Definition reads (ms : list move) (i lim : nat) (c : tcmd) (o : tout) : Prop :=
  match c, o with
  | TGet k, AVal r => (exists d u, moment ms i d u /\ gets secure lim d u k r) \/ (exists x, r = Err x /\ or_deep lim TypeError x /\ went ms i)
  | TIn k, ABool r => (exists d u, moment ms i d u /\ asks secure lim d k r) \/ (lim = 0 /\ r = Err RecursionError) \/ (r = Err TypeError /\ went ms i) \/
      (r = Err KeyError /\ exists d u d' u', moment ms i d u /\ fresh d u /\ moment ms i d' u' /\ ~ fresh d' u')
  | TRoot, AOpt r => exists d u r', moment ms i d u /\ rooted secure d u r' /\ r = Ok r'
  | TPoi tm k, AProof (Ok p) => exists d u d' u' p' r', moment ms i d u /\ moment ms i d' u' /\ includes secure lim tm d u k (Ok p') /\
      rooted secure d' u' (Some r') /\ p = with_root p' r'
  | TPoi tm k, AProof (Err x) => (exists d u, moment ms i d u /\ includes secure lim tm d u k (Err x)) \/
      ((x = TypeError \/ (lim = 0 /\ x = RecursionError)) /\ went ms i)
  | THash, AOpt r => (exists d u, moment ms i d u /\ gone d u /\ r = Ok (Some (keccak [x80]))) \/ (r = Err TypeError /\ went ms i) \/
      (exists d u d' u' r1 r2, moment ms i d u /\ moment ms i d' u' /\ rooted secure d u (Some r1) /\ rooted secure d' u' r2 /\
         ((length r1 = 32 /\ r = Ok r2) \/ (length r1 <> 32 /\ exists b, r2 = Some b /\ r = Ok (Some (keccak b)))))
  | TPut _ _, ANone _ => True
  | TDel _, ANone _ => True
  | _, _ => False
  end.

(** A call made while no other call is under way: the call of Mpt.v. *)
Definition single (lim : nat) (t : mpt) (c : tcmd) : tout * mpt :=
  match c with
  | TGet k => (AVal (mpt_get lim t k), t)
  | TIn k => (ABool (mpt_contains lim t k), t)
  | TPut k v => let (r, t') := mpt_update lim [] t k v in (ANone r, t')
  | TDel k => let (r, t') := mpt_delete lim [] t k in (ANone r, t')
  | TPoi tm k => (AProof (mpt_get_poi lim tm t k), t)
  | TRoot => (AOpt (Ok (m_root t)), t)
  | THash => (AOpt (Ok (Some (root_hash t))), t)
  end.
(** How often the call of number [i] had its turn. *)
Definition turns_of (i : nat) (ms : list move) : nat :=
  length (filter (fun m => match m with MGo j => j =? i | MCall _ _ => false end) ms).
End Mode.
End WithHash.
