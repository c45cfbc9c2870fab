(** What popitem of an EMPT does while other threads use it: the notions of the theorems. *)
From Coq Require Import List Bool Arith NArith.
From Verif Require Import Base Mpt Empt Threads EThreads SpecEThreads SpecETally Mixins SpecMixins Popitem.
Import ListNotations.

Definition dcalls (ds : list dmove) : list nat := flat_map (fun m => match m with DPopitem lim => [lim] | _ => [] end) ds.
Definition dturns (q : nat) (ds : list dmove) : nat := length (filter (fun m => match m with DGo p => p =? q | _ => false end) ds).
Section WithHash.
Context {H : Hash}.
Variable secure : bool.
(** The steps of Mixins.v that a schedule makes, and those of EThreads.v. *)
Fixpoint dtrace_from (w : desk) (ds : list dmove) : list bmove :=
  match ds with
  | [] => []
  | m :: ds' =>
      match m with
      | DMove m => [m]
      | DPopitem _ => []
      | DGo q => match nth_error (d_items w) q with None => [] | Some (lim, st) => iturn lim (d_bench w) st end
      end ++ dtrace_from (dgo secure w m) ds'
  end.
Definition dtrace (ds : list dmove) : list bmove := dtrace_from (desk_new secure) ds.
Definition dsteps (ds : list dmove) : list emove := btrace secure (dtrace ds).
(** How many calls of popitem have returned the key. *)
Definition popitems (k : bytes) (ds : list dmove) (w : desk) : nat :=
  length (filter (fun q => match danswer_of w q with Some (Ok (k', _)) => bytes_eqb k' k | _ => false end) (seq 0 (length (dcalls ds)))).
End WithHash.
