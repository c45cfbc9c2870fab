(** Concrete schedules of popitem beside other threads.  Tests, not proofs. *)
From Coq Require Import String List Bool Arith NArith Lia.
From Verif Require Import Base BaseProofs Keccak KeccakProofs NibblePath ProofObj Mpt Empt Spec Examples Threads SpecThreads EThreads SpecEThreads EThreadsExamples SpecETally Mixins SpecMixins Popitem SpecPopitem.
Import ListNotations.
#[local] Instance K : Hash := toy.
Local Notation b s := (bs s).
Local Notation vb s := (VBytes (bs s)).
Notation desk_of s us := (drun s (desk_new s) us).
Definition danswers (s : bool) (us : list dmove) : list (option (result (bytes * value))) := map (danswer_of (desk_of s us)) (List.seq 0 (List.length (dcalls us))).
Definition laid : list dmove := map DMove (map BMove xbase).

(** One popitem after the other. *)
Definition three_items : list dmove := laid ++ [DPopitem 100] ++ repeat (DGo 0) 50 ++ [DPopitem 100] ++ repeat (DGo 1) 50 ++ [DPopitem 100] ++ repeat (DGo 2) 50 ++ [DPopitem 100; DGo 3].
Example three_items_says : forall s, danswers s three_items = [Some (Ok (b "do", vb "verb")); Some (Ok (b "dog", vb "puppy")); Some (Ok (b "horse", vb "stallion")); Some (Err KeyError)] /\
  popitems (b "dog") three_items (desk_of s three_items) = 1 /\ tally (puts_k (b "dog")) (dsteps s three_items) (b_pool (d_bench (desk_of s three_items))) = 1.
Proof. intros s. destruct s; vm_compute; repeat split; reflexivity. Qed.
(** Two threads at the same time choose the same key: one of them raises KeyError, and there are two keys left. *)
Definition two_items : list dmove := laid ++ [DPopitem 100; DPopitem 100] ++ List.concat (repeat [DGo 0; DGo 1] 60).
Example two_items_says : forall s, danswers s two_items = [Some (Ok (b "do", vb "verb")); Some (Err KeyError)] /\ here (d_bench (desk_of s two_items)) = [b "dog"; b "horse"].
Proof. intros s. destruct s; vm_compute; split; reflexivity. Qed.
(** The hypotheses of the refutation hold. *)
Example raises_holds : forall s, let e := eobject s (b_pool (d_bench (desk_of s laid))) in dget (e_data e) (b "cat") = None /\ fst (empt_update 100 [] false e (b "cat") (vb "tom")) = Ok tt /\
  here (d_bench (desk_of s laid)) = [b "do"; b "dog"; b "horse"].
Proof. intros s. destruct s; vm_compute; repeat split; reflexivity. Qed.
