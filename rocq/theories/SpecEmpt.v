(** Specification vocabulary for EMPT: a dictionary of values, with acknowledged and failed calls. *)
From Coq Require Import List Bool Arith NArith.
From Verif Require Import Base Mpt Spec Empt.
Import ListNotations.

Inductive eop := EPut (k : bytes) (v : value) | EDel (k : bytes).
Definition eop_key (o : eop) : bytes := match o with EPut k _ => k | EDel k => k end.

(** The values [update] is documented to accept and does accept: bytes and objects with both methods. *)
Definition storable (v : value) : bool :=
  match v with VBytes _ => true | VObj true true _ => true | _ => false end.

(** A call: the stack frames left, and which storage accesses raise: of [contains] before a deletion, of the
    data storage, of the trie storage. *)
Record ecall := ECall { ec_op : eop; ec_lim : nat; ec_cfault : bool; ec_dfault : bool; ec_faults : list bool }.

(** Keys and values below 2^57 bytes. *)
Definition eok_op (o : eop) : Prop :=
  (blen (eop_key o) < 2 ^ 57)%N /\ match o with EPut _ v => (blen (val_bytes v) < 2 ^ 57)%N | EDel _ => True end.

(** What a user can know about a key from the calls and their outcomes (True: returned normally):
    the value it holds, that it is absent, or nothing, if the last call that could change it raised. *)
Inductive status := Present (v : value) | Absent | Unknown.
Definition outcome : Type := eop * bool.
Definition step_status (st : bytes -> status) (o : outcome) : bytes -> status :=
  fun x => if bytes_eqb x (eop_key (fst o)) then
    match o with
    | (EPut _ v, true) => Present v
    | (EPut _ v, false) => if storable v then Unknown else st x
    | (EDel _, true) => Absent
    | (EDel _, false) => match st x with Absent => Absent | _ => Unknown end
    end else st x.
Definition status_after (l : list outcome) : bytes -> status := fold_left step_status l (fun _ => Absent).

(** The value of the last acknowledged update of a key, if no deletion was acknowledged later. *)
Definition step_acked (d : bytes -> option value) (o : outcome) : bytes -> option value :=
  fun x => if bytes_eqb x (eop_key (fst o)) then
    match o with
    | (EPut _ v, true) => Some v
    | (EDel _, true) => None
    | (_, false) => d x
    end else d x.
Definition acked_after (l : list outcome) : bytes -> option value := fold_left step_acked l (fun _ => None).

(** Some key that may be present is properly extended by [k]. *)
Definition maybe_prefixed (st : bytes -> status) (k : bytes) : Prop :=
  exists k', proper_prefix k' k /\ st k' <> Absent.

(** Two known statuses that agree, a value being its bytes. *)
Definition same_content (a b : status) : Prop :=
  match a, b with
  | Present v, Present w => val_bytes v = val_bytes w
  | Absent, Absent => True
  | _, _ => False
  end.
(** An acknowledged insertion. *)
Definition put_out (kv : bytes * value) : outcome := (EPut (fst kv) (snd kv), true).

Section WithHash.
Context {H : Hash}.

Definition empt_call (e : empt) (c : ecall) : result unit * empt :=
  match ec_op c with
  | EPut k v => empt_update (ec_lim c) (ec_faults c) (ec_dfault c) e k v
  | EDel k => empt_delete (ec_lim c) (ec_cfault c) (ec_dfault c) (ec_faults c) e k
  end.
Definition is_ok {A} (r : result A) : bool := match r with Ok _ => true | Err _ => false end.
Fixpoint empt_run (e : empt) (h : list ecall) : list outcome * empt :=
  match h with
  | [] => ([], e)
  | c :: h' => let (r, e1) := empt_call e c in
               let (l, e2) := empt_run e1 h' in ((ec_op c, is_ok r) :: l, e2)
  end.

(** [e] was reached from an EMPT with empty storages by calls with outcomes [l]; node encodings hashed on the
    way do not collide. *)
Definition ereachable (secure : bool) (l : list outcome) (e : empt) : Prop :=
  exists h, empt_run (empt_new secure) h = (l, e) /\ Forall (fun c => eok_op (ec_op c)) h /\
    no_collision (m_log (e_trie e)).
Definition okeys (l : list outcome) : list bytes := map (fun o => eop_key (fst o)) l.

End WithHash.
