(** What a dictionary becomes when a plain trie takes an assignment and empty values are allowed. *)
From Coq Require Import List Bool Arith NArith.
From Verif Require Import Base Mpt Spec.
Import ListNotations.

(** A proper prefix. *)
Definition below {A} (q k : list A) : Prop := exists x r, k = q ++ x :: r.

(** [g'] is [g] after [k] was given [v].  A prefix of [k] whose value is empty gets lost.  An empty value is not kept for a
    key which another key extends.  Nothing else changes. *)
Definition takes {A} (g : list A -> option bytes) (k : list A) (v : bytes) (g' : list A -> option bytes) : Prop :=
  (forall q, q <> k -> ~ (g q = Some [] /\ below q k) -> g' q = g q) /\
  (forall q, g q = Some [] -> below q k -> g' q = None) /\
  ((g' k = Some v /\ (v = [] -> forall q w, g q = Some w -> ~ below k q)) \/
   (g' k = None /\ v = [] /\ exists q w, g q = Some w /\ below k q)).

(** Sizes only: values may be empty. *)
Definition sized_op (o : op) : Prop :=
  (blen (op_key o) < 2 ^ 59)%N /\ match o with Put _ v => (blen v < 2 ^ 59)%N | Del _ => True end.
Definition sized (h : list call) : Prop := Forall (fun c => sized_op (c_op c)) h.

(** Every result of a sequence of assignments and deletions. *)
Fixpoint outcomes {H : Hash} (t : mpt) (h : list call) : list (result unit) * mpt :=
  match h with
  | [] => ([], t)
  | c :: h' => let (r, t1) := mpt_call t c in let (rs, t2) := outcomes t1 h' in (r :: rs, t2)
  end.

(** The storage failed, or the frames did not suffice. *)
Definition gives_in (c : call) (e : exn) : Prop :=
  (e = StorageFault /\ c_faults c <> []) \/ (e = RecursionError /\ c_lim c <= 2 * length (op_key (c_op c))).
Definition missing (d : kvmap) (o : op) : Prop := match o with Put _ _ => False | Del k => d k = None end.

(** The results [rs] of [h] on a plain trie with the contents [d], and the contents afterwards. *)
Inductive plain_run : kvmap -> list call -> list (result unit) -> kvmap -> Prop :=
| pr_nil : forall d, plain_run d [] [] d
| pr_put : forall d k v lim fl d1 h rs d2, takes d k v d1 -> plain_run d1 h rs d2 ->
    plain_run d (Call (Put k v) lim fl :: h) (Ok tt :: rs) d2
| pr_del : forall d k lim fl d1 h rs d2, d k <> None -> (forall x, d1 x = apply_op d (Del k) x) -> plain_run d1 h rs d2 ->
    plain_run d (Call (Del k) lim fl :: h) (Ok tt :: rs) d2
| pr_fail : forall d c e h rs d2, gives_in c e \/ missing d (c_op c) -> plain_run d h rs d2 ->
    plain_run d (c :: h) (Err e :: rs) d2.

(** Enough frames, and a storage that does not fail. *)
Definition calm (h : list call) : Prop := Forall (fun c => c_faults c = [] /\ 2 * length (op_key (c_op c)) < c_lim c) h.
Definition raised {A} (r : result A) : bool := match r with Ok _ => false | Err _ => true end.

(** What the reads of a trie with the contents [d] say. *)
Definition answers {H : Hash} (t : mpt) (d : kvmap) : Prop :=
  forall lim k,
    (forall v, d k = Some v -> 2 * length k < lim -> mpt_get lim t k = Ok v) /\
    (forall v, mpt_get lim t k = Ok v -> d k = Some v \/
       (d k = None /\ exists x r w, d (k ++ x :: r) = Some w /\ (v = [] \/ v = w))) /\
    match mpt_contains lim t k with
    | Ok b => b = true <-> d k <> None \/ false_positive d k
    | Err e => e = RecursionError /\ lim <= 2 * length k
    end.
