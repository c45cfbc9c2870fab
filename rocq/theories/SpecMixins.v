(** What pop and setdefault of an EMPT do while other threads use it. *)
From Coq Require Import List Bool Arith NArith.
From Verif Require Import Base Mpt Empt Threads EThreads SpecEThreads SpecETally Mixins.
Import ListNotations.

Definition bcalls (bs : list bmove) : list (nat * mcmd) := flat_map (fun m => match m with BCall lim c => [(lim, c)] | _ => [] end) bs.
Definition value_eqb (v u : value) : bool :=
  match v, u with
  | VBytes a, VBytes b | VBytearray a, VBytearray b => bytes_eqb a b
  | VObj a1 a2 a, VObj b1 b2 b => Bool.eqb a1 b1 && Bool.eqb a2 b2 && bytes_eqb a b
  | _, _ => false
  end.
(** The call is a pop of the key, and the value is not its default. *)
Definition pops_k (k : bytes) (c : mcmd) (v : value) : bool :=
  match c with PPop k' o => bytes_eqb k' k && match o with Some d => negb (value_eqb v d) | None => true end | _ => false end.
Section WithHash.
Context {H : Hash}.
Variable secure : bool.
(** The steps on the object that a schedule makes. *)
Fixpoint btrace_from (w : bench) (bs : list bmove) : list emove :=
  match bs with
  | [] => []
  | m :: bs' =>
      match m with
      | BMove m => [m]
      | BCall lim c => [ECall lim (XGet (mkey c))]
      | BGo j => match nth_error (b_calls w) j with
                 | None => []
                 | Some (lim, c, st) => mturn st ++ fst (mnext lim c (erun secure (b_pool w) (mturn st)) st)
                 end
      end ++ btrace_from (bgo secure w m) bs'
  end.
Definition btrace (bs : list bmove) : list emove := btrace_from (bench_new secure) bs.
(** How many pops of the key have returned a value other than their default. *)
Definition popped (k : bytes) (bs : list bmove) (w : bench) : nat :=
  length (filter (fun j => match nth_error (bcalls bs) j, banswer_of w j with Some (_, c), Some (Ok v) => pops_k k c v | _, _ => false end) (seq 0 (length (bcalls bs)))).
(** Some update of [k] with the value [v] has returned. *)
Definition put_before (ms : list emove) (k : bytes) (v : value) : Prop :=
  exists i lim, nth_error (ecalls_of ms) i = Some (lim, XPut k v) /\ eanswer_of (erun secure (epool_new secure) ms) i = Some (RNone (Ok tt)).
End WithHash.
(** pop and setdefault of a program with one thread: those of Empt.v. *)
Definition mixin_single {H : Hash} (lim : nat) (e : empt) (c : mcmd) : result value * empt :=
  match c with PPop k o => empt_pop lim e k o | PSetdefault k d => empt_setdefault lim e k d end.
(** The turns of a call of pop or setdefault. *)
Definition bturns (j : nat) (bs : list bmove) : nat := length (filter (fun m => match m with BGo q => q =? j | _ => false end) bs).
