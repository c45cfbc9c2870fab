(** What loops over an EMPT do. *)
From Coq Require Import List Bool Arith.
From Verif Require Import Base ProofObj Mpt Empt EmptPy EmptLoop SpecEvery.
Import ListNotations.

(** All calls of the bodies. *)
Definition turn_calls (ts : list turn) : list (nat * ecmd) := flat_map t_calls ts.

Section WithHash.
Context {H : Hash}.
Section Mode.
Variable secure : bool.

(** What the loop shows of a key. *)
Inductive shows (lim : nat) (g : eview) (k : bytes) : over -> result (option value) -> Prop :=
| shows_key : shows lim g k OKeys (Ok None)
| shows_value : forall w v, w <> OKeys -> reads secure lim g k (Ok v) -> shows lim g k w (Ok (Some v))
| shows_not : forall w x, w <> OKeys -> reads secure lim g k (Err x) -> shows lim g k w (Err x).

Section Loop.
Variables (w : over) (lim : nat) (body : nat -> bytes -> option value -> list (nat * ecmd) * bool) (all : list bytes).
(** [ks]: the keys to come; [i]: the number of turns so far. *)
Inductive loops : list bytes -> nat -> eview -> list turn -> ending -> eview -> Prop :=
| loops_number : forall ks i g, length (ev_vals g) <> length all -> loops ks i g [] (LRaise RuntimeError) g
| loops_free : forall ks i g, length (ev_vals g) = length all -> map fst (ev_vals g) <> all -> loops ks i g [] LFree g
| loops_done : forall i g, map fst (ev_vals g) = all -> loops [] i g [] LDone g
| loops_raise : forall k ks i g x, map fst (ev_vals g) = all -> shows lim g k w (Err x) -> loops (k :: ks) i g [] (LRaise x) g
| loops_left : forall k ks i g ov calls outs g1, map fst (ev_vals g) = all -> shows lim g k w (Ok ov) -> body i k ov = (calls, false) ->
    efollows secure g calls outs g1 -> loops (k :: ks) i g [Turn k ov calls outs] LLeft g1
| loops_turn : forall k ks i g ov calls outs g1 ts en g2, map fst (ev_vals g) = all -> shows lim g k w (Ok ov) -> body i k ov = (calls, true) ->
    efollows secure g calls outs g1 -> loops ks (S i) g1 ts en g2 -> loops (k :: ks) i g (Turn k ov calls outs :: ts) en g2.
End Loop.
End Mode.
End WithHash.

(** What a loop shows of a value. *)
Definition shown (w : over) (v : value) : option value := match w with OKeys => None | _ => Some v end.
(** The turns and the content of [for k, v in e.items(): e[k] = f(v)]; [f] may also depend on the number of the turn and the key. *)
Fixpoint rewriting (w : over) (lim : nat) (f : nat -> bytes -> option value -> value) (i : nat) (l : list (bytes * value)) : list turn :=
  match l with
  | [] => []
  | (k, v) :: l' => Turn k (shown w v) [(lim, QPut (KBytes k) (f i k (shown w v)) [] false)] [ANone (Ok tt)] :: rewriting w lim f (S i) l'
  end.
Fixpoint rewritten (w : over) (f : nat -> bytes -> option value -> value) (i : nat) (l : list (bytes * value)) : list (bytes * value) :=
  match l with [] => [] | (k, v) :: l' => (k, f i k (shown w v)) :: rewritten w f (S i) l' end.
(** [for k in list(e): del e[k]]. *)
Definition dels (lim : nat) (l : list (bytes * value)) : list (nat * ecmd) := map (fun kv => (lim, QDel (KBytes (fst kv)) false false [])) l.
