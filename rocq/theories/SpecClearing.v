(** What clear of an EMPT does while other threads use it: the notions of the theorems. *)
From Coq Require Import List Bool Arith NArith.
From Verif Require Import Base Mpt Empt Threads EThreads SpecEThreads Mixins SpecMixins Popitem SpecPopitem Clearing.
Import ListNotations.

Definition ccalls (cs : list cmove) : list nat := flat_map (fun m => match m with CClear lim => [lim] | _ => [] end) cs.
Section WithHash.
Context {H : Hash}.
Variable secure : bool.
(** The steps of Popitem.v that a schedule makes, and those of EThreads.v. *)
Fixpoint ctrace_from (w : room) (cs : list cmove) : list dmove :=
  match cs with
  | [] => []
  | m :: cs' =>
      match m with
      | CMove m => [m]
      | CClear lim => [DPopitem lim]
      | CGo j => match nth_error (c_clears w) j with None => [] | Some (lim, st) => cturn st ++ fst (cnext lim (drun secure (c_desk w) (cturn st)) st) end
      end ++ ctrace_from (cgo secure w m) cs'
  end.
Definition ctrace (cs : list cmove) : list dmove := ctrace_from (room_new secure) cs.
Definition csteps (cs : list cmove) : list emove := dsteps secure (ctrace cs).
(** The keys of the object. *)
Definition keys_in (w : room) : list bytes := here (d_bench (c_desk w)).
(** Some popitem raised, and this is what clear makes of it. *)
Definition ended (w : desk) (r : result unit) : Prop := exists q x, danswer_of w q = Some (Err x) /\ r = match x with KeyError => Ok tt | _ => Err x end.
End WithHash.
