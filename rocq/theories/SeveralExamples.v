(** Concrete schedules of calls on several MPT objects with a common storage.  Tests, not proofs. *)
From Coq Require Import String List Bool Arith NArith Lia.
From Verif Require Import Base BaseProofs Keccak KeccakProofs NibblePath ProofObj Mpt Spec Examples SpecMptEvery Threads SpecThreads ThreadsExamples Several SpecSeveral.
Import ListNotations.
#[local] Instance K : Hash := toy.
Local Notation b s := (bs s).
Notation vafter l ms := (vrun l (several_new l) ms).
Definition vok (l : list bool) (j : nat) (s : bool) (ms : list vmove) : Prop :=
  nth_error l j = Some s /\ keys_ok s (tkeys (part (List.length l) j [] ms)) /\ tfits s (part (List.length l) j [] ms) /\ no_collision (v_log (vafter l ms)).
Lemma vok_b : forall l j s ms, nth_error l j = Some s ->
  tfits_b s (part (List.length l) j [] ms) && no_collision_b (tkeys (part (List.length l) j [] ms)) && no_collision_b (v_log (vafter l ms)) = true -> vok l j s ms.
Proof.
  intros l j s ms Ej E. rewrite !andb_true_iff in E. destruct E as ((E1 & E2) & E3). split; [exact Ej|].
  split; [intros _; apply no_collision_b_ok; assumption|]. split; [apply tfits_b_ok; assumption|apply no_collision_b_ok; assumption].
Qed.
Definition turns_b (l : list bool) (j : nat) (ms : list vmove) (n : nat) : bool :=
  match nth_error ms n with
  | Some (VCall j' _ _) => negb (j' =? j) || forallb (fun o => match o with Some _ => true | None => false end) (answers_on j (vafter l (firstn n ms)))
  | _ => true
  end.
Lemma by_turns_b : forall l j ms, forallb (turns_b l j ms) (List.seq 0 (List.length ms)) = true -> by_turns l j ms.
Proof.
  intros l j ms E m1 m2 lim c -> X. rewrite forallb_forall in E. specialize (E (List.length m1)).
  unfold turns_b in E. rewrite nth_error_app2, Nat.sub_diag in E by lia. cbn [nth_error] in E. rewrite firstn_app, Nat.sub_diag, firstn_all in E. cbn [firstn] in E.
  rewrite app_nil_r, Nat.eqb_refl in E. cbn [negb orb] in E. assert (Q : forallb (fun o => match o with Some _ => true | None => false end) (answers_on j (vafter l m1)) = true)
    by (apply E; apply in_seq; rewrite app_length; cbn [List.length]; lia). rewrite forallb_forall in Q. specialize (Q _ X). discriminate.
Qed.

(** Two threads, each with an MPT of its own; their steps take turns. *)
Definition pairs (i k : nat) (c c' : tcmd) : list vmove := [VCall 0 100 c; VCall 1 100 c'] ++ List.concat (repeat [VGo i; VGo k] 40).
Definition duo : list vmove :=
  pairs 0 1 (TPut (b "do") (b "verb")) (TPut (b "do") (b "wolf")) ++ pairs 2 3 (TPut (b "dog") (b "puppy")) (TPut (b "dog") (b "puppy")) ++
  pairs 4 5 (TPut (b "horse") (b "stallion")) (TDel (b "dog")) ++ pairs 6 7 (TGet (b "do")) (TGet (b "do")) ++ pairs 8 9 (TGet (b "dog")) (TIn (b "dog")).
(** Three objects; two threads on the first, at the same time. *)
Definition trio : list vmove :=
  pairs 0 1 (TPut (b "do") (b "verb")) (TPut (b "do") (b "wolf")) ++
  [VCall 0 100 (TPut (b "dog") (b "puppy")); VCall 2 100 (TPut (b "dog") (b "puppy")); VCall 0 100 (TPut (b "doge") (b "coin")); VCall 5 100 TRoot] ++
  List.concat (repeat [VGo 2; VGo 3; VGo 4; VGo 9] 40) ++ [VCall 0 100 (TIn (b "dog")); VCall 0 100 (TIn (b "doge")); VCall 2 100 (TIn (b "dog"))] ++
  List.concat (repeat [VGo 5; VGo 6; VGo 7] 40).
Example duo_ok : forall s s' j x, nth_error [s; s'] j = Some x -> vok [s; s'] j x duo /\ by_turns [s; s'] j duo.
Proof.
  intros s s' [|[|j]] x E; [| |destruct j; discriminate]; injection E as <-;
    (split; [apply vok_b; [reflexivity|]|apply by_turns_b]; destruct s, s'; vm_compute; reflexivity).
Qed.
Example trio_ok : vok [false; true; false] 0 false trio.
Proof. apply vok_b; [reflexivity|]. vm_compute. reflexivity. Qed.
