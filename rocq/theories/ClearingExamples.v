(** Concrete schedules of clear beside other threads.  Tests, not proofs. *)
From Coq Require Import String List Bool Arith NArith Lia.
From Verif Require Import Base BaseProofs Keccak KeccakProofs NibblePath ProofObj Mpt Empt Spec Examples Threads SpecThreads EThreads SpecEThreads EThreadsExamples SpecETally Mixins SpecMixins Popitem SpecPopitem PopitemExamples
  Clearing SpecClearing.
Import ListNotations.
#[local] Instance K : Hash := toy.
Local Notation b s := (bs s).
Notation room_of s us := (crun s (room_new s) us).
Definition set_up : list cmove := map CMove laid.

(** Alone it removes the three keys. *)
Definition alone_clear : list cmove := set_up ++ [CClear 100] ++ repeat (CGo 0) 120.
Example alone_clear_says : forall s, canswer_of (room_of s alone_clear) 0 = Some (Ok tt) /\ keys_in (room_of s alone_clear) = [] /\
  map (fun k => popitems k (ctrace s alone_clear) (c_desk (room_of s alone_clear))) [b "do"; b "dog"; b "horse"; b "cat"] = [1; 1; 1; 0].
Proof. intros s. destruct s; vm_compute; repeat split; reflexivity. Qed.
(** Two threads clear it at the same time: one of them returns at once, with keys left. *)
Definition two_clears : list cmove := set_up ++ [CClear 100; CClear 100; CGo 0; CGo 1] ++ repeat (CGo 0) 30 ++ repeat (CGo 1) 10.
Example two_clears_says : forall s, map (canswer_of (room_of s two_clears)) [0; 1] = [None; Some (Ok tt)] /\ keys_in (room_of s two_clears) <> [].
Proof. intros s. destruct s; vm_compute; split; [reflexivity|discriminate|reflexivity|discriminate]. Qed.
(** The hypotheses of the refutation hold. *)
Example leaves_holds : forall s, let e := eobject s (b_pool (d_bench (c_desk (room_of s set_up)))) in
  keys_in (room_of s set_up) = [b "do"; b "dog"; b "horse"] /\ fst (empt_delete 100 false false [] e (b "do")) = Ok tt.
Proof. intros s. destruct s; vm_compute; split; reflexivity. Qed.
