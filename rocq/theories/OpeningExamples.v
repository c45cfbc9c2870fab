(** Concrete schedules with MPT objects opened while others are used.  Tests, not proofs. *)
From Coq Require Import String List Bool Arith NArith Lia.
From Verif Require Import Base BaseProofs Keccak KeccakProofs NibblePath ProofObj Mpt Spec Examples SpecMptEvery Threads SpecThreads ThreadsExamples Opening SpecOpening.
Import ListNotations.
#[local] Instance K : Hash := toy.
Local Notation b s := (bs s).
Notation oafter ms := (orun realm0 ms).
Definition fit_b (x : bool * list move) : bool := tfits_b (fst x) (snd x) && no_collision_b (tkeys (snd x)).
Lemma fit_b_ok : forall s l, fit_b (s, l) = true -> fit s l.
Proof. intros s l E. unfold fit_b in E. cbn [fst snd] in E. apply andb_true_iff in E. destruct E as [E1 E2]. split; [intros _; apply no_collision_b_ok; exact E2|apply tfits_b_ok; exact E1]. Qed.
Definition ook (ms : list omove) : Prop := all_fit ms /\ no_collision (r_log (oafter ms)).
Lemma ook_b : forall ms, forallb fit_b (fst (tale_of ms)) && no_collision_b (r_log (oafter ms)) = true -> ook ms.
Proof.
  intros ms E. apply andb_true_iff in E. destruct E as [E1 E2]. split; [|apply no_collision_b_ok; exact E2].
  intros j s l Ej. apply fit_b_ok. rewrite forallb_forall in E1. apply E1. eapply nth_error_In. exact Ej.
Qed.
Definition only_b (j : nat) (ms : list omove) : bool := forallb (fun m => match m with OCall j' _ c => negb (j' =? j) || negb (is_write c) | _ => true end) ms.
Lemma only_b_ok : forall j ms, only_b j ms = true -> only_read j ms.
Proof.
  intros j ms E lim c Hi. unfold only_b in E. rewrite forallb_forall in E. specialize (E _ Hi). cbn beta iota in E. rewrite Nat.eqb_refl in E. cbn [negb orb] in E. destruct (is_write c); [discriminate|reflexivity].
Qed.

(** A trie with two keys; an update of a third is under way, and then another object is opened on the root. *)
Definition before (s : bool) : list omove :=
  [ONew s; OCall 0 100 (TPut (b "do") (b "verb"))] ++ repeat (OGo 0) 40 ++ [OCall 0 100 (TPut (b "dog") (b "puppy"))] ++ repeat (OGo 1) 40 ++
  [OCall 0 100 (TPut (b "doge") (b "coin")); OGo 2; OGo 2].
(** The update ends, a key is deleted; meanwhile the object opened is read. *)
Definition beside : list omove :=
  [OCall 1 100 (TGet (b "dog")); OGo 3] ++ repeat (OGo 2) 40 ++ [OCall 0 100 (TDel (b "dog"))] ++ List.concat (repeat [OGo 4; OGo 3] 40) ++
  [OCall 1 100 (TIn (b "doge")); OCall 0 100 (TIn (b "doge")); OCall 1 100 (TIn (b "dog")); OCall 0 100 (TIn (b "dog"))] ++ List.concat (repeat [OGo 5; OGo 6; OGo 7; OGo 8] 40).
(** Both write: the object opened is a branch of its own. *)
Definition fork : list omove :=
  [OCall 1 100 (TPut (b "dog") (b "hound"))] ++ List.concat (repeat [OGo 3; OGo 2] 40) ++
  [OCall 0 100 (TGet (b "dog")); OCall 1 100 (TGet (b "dog")); OCall 0 100 (TIn (b "doge")); OCall 1 100 (TIn (b "doge"))] ++ List.concat (repeat [OGo 4; OGo 5; OGo 6; OGo 7] 40).
(** An emptied trie is opened: the new object is a new trie. *)
Definition blank : list omove :=
  [ONew false; OCall 0 100 (TPut (b "do") (b "verb"))] ++ repeat (OGo 0) 40 ++ [OCall 0 100 (TDel (b "do"))] ++ repeat (OGo 1) 40 ++
  [OOpen 0; OCall 0 100 TRoot; OGo 2; OCall 1 100 TRoot; OGo 3; OCall 1 100 (TIn (b "do"))] ++ repeat (OGo 4) 10.
Definition oanswers (ms : list omove) : list (option tout) := map (oanswer (oafter ms)) (List.seq 0 (List.length (r_calls (oafter ms)))).
Lemma beside_ok : forall s, ook (before s ++ OOpen 0 :: beside).
Proof. intros s. apply ook_b. destruct s; vm_compute; reflexivity. Qed.
Lemma fork_ok : forall s, ook (before s ++ OOpen 0 :: fork).
Proof. intros s. apply ook_b. destruct s; vm_compute; reflexivity. Qed.
Lemma blank_ok : ook blank.
Proof. apply ook_b. vm_compute. reflexivity. Qed.
Example beside_says : forall s, oanswers (before s ++ OOpen 0 :: beside) =
  [Some (ANone (Ok tt)); Some (ANone (Ok tt)); Some (ANone (Ok tt)); Some (AVal (Ok (b "puppy"))); Some (ANone (Ok tt));
   Some (ABool (Ok false)); Some (ABool (Ok true)); Some (ABool (Ok true)); Some (ABool (Ok false))].
Proof. intros s. destruct s; vm_compute; reflexivity. Qed.
Example fork_says : forall s, oanswers (before s ++ OOpen 0 :: fork) =
  [Some (ANone (Ok tt)); Some (ANone (Ok tt)); Some (ANone (Ok tt)); Some (ANone (Ok tt)); Some (AVal (Ok (b "puppy"))); Some (AVal (Ok (b "hound")));
   Some (ABool (Ok true)); Some (ABool (Ok false))].
Proof. intros s. destruct s; vm_compute; reflexivity. Qed.
Example blank_says : oanswers blank = [Some (ANone (Ok tt)); Some (ANone (Ok tt)); Some (AOpt (Ok None)); Some (AOpt (Ok (Some (keccak [x80])))); Some (ABool (Ok false))].
Proof. vm_compute. reflexivity. Qed.
