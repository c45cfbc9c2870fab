(** What calls on one MerkleTree object answer when several threads make them at the same time. *)
From Coq Require Import List Bool Arith NArith ZArith.
From Verif Require Import Base ProofObj MptEq MerkleTree SpecMt MtThreads.
Import ListNotations.

(** The calls made, in order. *)
Definition mcalls_of (ms : list mmove) : list mtcmd := flat_map (fun m => match m with QCall c => [c] | QGo _ => [] end) ms.
(** The calls that make the tree, or may, or look at it above the leaves. *)
Definition builds (c : mtcmd) : bool := match c with QMake | QRoot | QPoi _ _ | QVerify _ => true | _ => false end.
(** These and put. *)
Definition acts (c : mtcmd) : bool := match c with QCount | QLeaf _ => false | _ => true end.
(** The values put, in the order of the first turns of their calls.  [w] has for every call made the value that it has still to put. *)
Definition value_of (c : mtcmd) : option bytes := match c with QPut (VBytes b) => Some b | _ => None end.
Fixpoint placed (w : list (option bytes)) (ms : list mmove) : list bytes :=
  match ms with
  | [] => []
  | QCall c :: r => placed (w ++ [value_of c]) r
  | QGo i :: r =>
      match nth_error w i with
      | Some (Some v) => v :: placed (firstn i w ++ None :: skipn (S i) w) r
      | _ => placed w r
      end
  end.
(** The call of number [i] had a turn. *)
Definition went (i : nat) (ms : list mmove) : Prop := exists m1 m2, ms = m1 ++ QGo i :: m2 /\ i < length (mcalls_of m1).
Definition mturns (i : nat) (ms : list mmove) : nat := length (filter (fun m => match m with QGo j => j =? i | QCall _ => false end) ms).

(** The calls of one step. *)
Definition short (c : mtcmd) : bool := match c with QPut (VBytes _) | QCount | QLeaf _ => true | _ => false end.
(** Values put one after the other; [n] calls were made before. *)
Fixpoint filled (n : nat) (vs : list bytes) : list mmove :=
  match vs with [] => [] | v :: r => QCall (QPut (VBytes v)) :: QGo n :: filled (S n) r end.

(** The leaves that a tree made while values are put is made over, when [ls] are the leaves in the end: the first [n], but for an odd [n]
    the last one may be any later leaf. *)
Definition snapshot (ls : list bytes) (n : nat) (l : list bytes) : Prop :=
  (n <= length ls /\ l = firstn n ls) \/
  (Nat.odd n = true /\ exists j x, n <= j /\ nth_error ls j = Some x /\ l = firstn (n - 1) ls ++ [x]).

Section WithHash.
Context {H : Hash}.

(** A call of a program with one thread. *)
Definition msingle (t : mt) (c : mtcmd) : mtout * mt :=
  match c with
  | QPut v => let (r, t') := put t v in (YUnit r, t')
  | QCount => (YCount (length (t_leaves t)), t)
  | QLeaf i => (YBytes (get t i), t)
  | QMake => let (r, t') := do_make t in (YUnit r, t')
  | QRoot => let (r, t') := get_root t in (YBytes r, t')
  | QPoi time k => let (r, t') := get_poi t time k in (YProof r, t')
  | QVerify p => let (r, t') := verify_poi t p in (YBool r, t')
  end.
(** Calls one after the other. *)
Fixpoint mt_turn (t : mt) (l : list mtcmd) : list mtout * mt :=
  match l with
  | [] => ([], t)
  | c :: l' => let (o, t1) := msingle t c in let (os, t2) := mt_turn t1 l' in (o :: os, t2)
  end.

Section Mode.
Variable secure : bool.
Notation at_ ms := (mrun (mpool_new secure) ms).

(** Every call that [sel] takes is made when all earlier ones that it takes have answered. *)
Definition apart (sel : mtcmd -> bool) (ms : list mmove) : Prop :=
  forall m1 m2 c i c', ms = m1 ++ QCall c :: m2 -> sel c = true -> nth_error (mcalls_of m1) i = Some c' -> sel c' = true -> manswer_of (at_ m1) i <> None.
(** The answers of the calls that [sel] takes, in the order the calls were made. *)
Definition sanswers (sel : mtcmd -> bool) (w : mpool) (ms : list mmove) : list (option mtout) :=
  flat_map (fun i => match nth_error (mcalls_of ms) i with Some c => if sel c then [manswer_of w i] else [] | None => [] end)
    (List.seq 0 (length (mcalls_of ms))).
End Mode.
End WithHash.
