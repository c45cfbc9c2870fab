(** Concrete schedules of pop and setdefault beside other threads.  Tests, not proofs. *)
From Coq Require Import String List Bool Arith NArith Lia.
From Verif Require Import Base BaseProofs Keccak KeccakProofs NibblePath ProofObj Mpt Empt Spec Examples Threads SpecThreads EThreads SpecEThreads EThreadsExamples SpecETally Mixins SpecMixins.
Import ListNotations.
#[local] Instance K : Hash := toy.
Local Notation b s := (bs s).
Local Notation vb s := (VBytes (bs s)).
Notation bench_of s us := (brun s (bench_new s) us).
Definition banswers (s : bool) (us : list bmove) : list (option (result value)) := map (banswer_of (bench_of s us)) (List.seq 0 (List.length (bcalls us))).

(** Two threads pop one key, one pops another key, one key is not there. *)
Definition pops : list bmove := map BMove xbase ++ [BCall 100 (PPop (b "dog") None); BCall 100 (PPop (b "dog") None); BCall 100 (PPop (b "horse") (Some (vb "none"))); BCall 100 (PPop (b "cat") None); BCall 100 (PPop (b "cat") (Some (vb "none")))] ++
  List.concat (repeat [BGo 0; BGo 1; BGo 2; BGo 3; BGo 4] 60).
Example pops_says : forall s, banswers s pops = [Some (Ok (vb "puppy")); Some (Err KeyError); Some (Ok (vb "stallion")); Some (Err KeyError); Some (Ok (vb "none"))] /\
  popped (b "dog") pops (bench_of s pops) = 1 /\ tally (puts_k (b "dog")) (btrace s pops) (b_pool (bench_of s pops)) = 1 /\ has (b_pool (bench_of s pops)) (b "dog") = 0 /\
  popped (b "horse") pops (bench_of s pops) = 1 /\ popped (b "cat") pops (bench_of s pops) = 0.
Proof. intros s. destruct s; vm_compute; repeat split; reflexivity. Qed.
(** setdefault of a key that is there and of one that is not. *)
Definition defaults : list bmove := map BMove xbase ++ [BCall 100 (PSetdefault (b "dog") (vb "hound")); BCall 100 (PSetdefault (b "cat") (vb "tom"))] ++ List.concat (repeat [BGo 0; BGo 1] 40).
Example defaults_says : forall s, banswers s defaults = [Some (Ok (vb "puppy")); Some (Ok (vb "tom"))] /\ dget (x_data (b_pool (bench_of s defaults))) (b "cat") = Some (vb "tom").
Proof. intros s. destruct s; vm_compute; repeat split; reflexivity. Qed.
(** The hypotheses of the two theorems below hold after [xbase]. *)
Definition based : list bmove := map BMove xbase.
Example torn_pop_holds : forall s, let e := eobject s (b_pool (bench_of s based)) in let u := empt_update 100 [] false e (b "dog") (vb "hound") in
  empt_get 100 e (b "dog") = Ok (vb "puppy") /\ fst u = Ok tt /\ fst (empt_delete 100 false false [] (snd u) (b "dog")) = Ok tt.
Proof. intros s. destruct s; vm_compute; repeat split; reflexivity. Qed.
Example torn_setdefault_holds : forall s, let e := eobject s (b_pool (bench_of s based)) in let u := empt_update 100 [] false e (b "cat") (vb "tom") in
  dget (e_data e) (b "cat") = None /\ fst u = Ok tt /\ fst (empt_update 100 [] false (snd u) (b "cat") (vb "tiger")) = Ok tt.
Proof. intros s. destruct s; vm_compute; repeat split; reflexivity. Qed.
(** Two threads set different defaults. *)
Definition two_defaults : list bmove := map BMove xbase ++ [BCall 100 (PSetdefault (b "cat") (vb "tiger")); BCall 100 (PSetdefault (b "cat") (vb "tom"))] ++ List.concat (repeat [BGo 0; BGo 1] 40).
Example two_defaults_says : forall s, banswers s two_defaults = [Some (Ok (vb "tiger")); Some (Ok (vb "tom"))].
Proof. intros s. destruct s; vm_compute; reflexivity. Qed.
