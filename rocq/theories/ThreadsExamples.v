(** Concrete schedules of calls on one MPT object.  Tests, not proofs. *)
From Coq Require Import List Bool Arith NArith String Lia.
From Verif Require Import Base BaseProofs Keccak KeccakProofs NibblePath ProofObj Mpt Spec Examples SpecMptEvery Threads SpecThreads.
Import ListNotations.
#[local] Instance K : Hash := toy.
Local Notation b s := (bs s).

Definition tfits_b (s : bool) (ms : list move) : bool :=
  forallb (fun x => (blen x <? 2 ^ 59)%N) (tkeys ms) &&
  forallb (fun c => match snd c with TPut _ v => (s || negb (bytes_eqb v [])) && (blen v <? 2 ^ 59)%N | _ => true end) (calls_of ms).
Lemma tfits_b_ok : forall s ms, tfits_b s ms = true -> tfits s ms.
Proof.
  intros s ms E. unfold tfits_b in E. rewrite andb_true_iff, !forallb_forall in E. destruct E as [E1 E2]. split.
  - intros x Hx. apply N.ltb_lt. auto.
  - intros lim k v Hx. specialize (E2 _ Hx). cbn [snd] in E2. rewrite andb_true_iff in E2. destruct E2 as [E2 E3].
    split; [intros -> ->; discriminate|apply N.ltb_lt; exact E3].
Qed.
Notation run s ms := (run_moves s (pool_new s) ms).
Definition tok (s : bool) (ms : list move) : Prop := keys_ok s (tkeys ms) /\ tfits s ms /\ no_collision (h_log (p_obj (run s ms))).
Lemma tok_b : forall s ms, tfits_b s ms && no_collision_b (tkeys ms) && no_collision_b (h_log (p_obj (run s ms))) = true -> tok s ms.
Proof.
  intros s ms E. rewrite !andb_true_iff in E. destruct E as ((E1 & E2) & E3).
  split; [intros _; apply no_collision_b_ok; assumption|]. split; [apply tfits_b_ok; assumption|apply no_collision_b_ok; assumption].
Qed.
Definition writer_ok_b (s : bool) (ms : list move) (n : nat) : bool :=
  match nth_error ms n with
  | Some (MCall _ c) => negb (is_write c) || forallb (fun i => match nth_error (calls_of (firstn n ms)) i with
      | Some (_, c') => negb (is_write c') || match answer_of (run s (firstn n ms)) i with Some _ => true | None => false end | None => true end)
      (List.seq 0 (List.length (calls_of (firstn n ms))))
  | _ => true
  end.
Definition one_writer_b (s : bool) (ms : list move) : bool := forallb (writer_ok_b s ms) (List.seq 0 (List.length ms)).
Lemma one_writer_b_ok : forall s ms, one_writer_b s ms = true -> one_writer s ms.
Proof.
  intros s ms E m1 m2 lim c i l' c' -> Wc Ei Wi. unfold one_writer_b in E. rewrite forallb_forall in E. specialize (E (List.length m1)).
  unfold writer_ok_b in E. rewrite nth_error_app2, Nat.sub_diag in E by lia. cbn [nth_error] in E.
  rewrite firstn_app, Nat.sub_diag, firstn_all in E. cbn [firstn] in E. rewrite app_nil_r in E.
  rewrite Wc in E. cbn [negb orb] in E. assert (L : i < List.length (calls_of m1)) by (apply nth_error_Some; congruence).
  assert (Q : forallb (fun i => match nth_error (calls_of m1) i with
      | Some (_, c') => negb (is_write c') || match answer_of (run s m1) i with Some _ => true | None => false end | None => true end)
      (List.seq 0 (List.length (calls_of m1))) = true) by (apply E; apply in_seq; rewrite app_length; cbn [List.length]; lia).
  rewrite forallb_forall in Q. specialize (Q i). rewrite Ei, Wi in Q. cbn [negb orb] in Q.
  assert (Q' := Q (proj2 (in_seq _ _ _) (conj (Nat.le_0_l _) L))). destruct (answer_of _ i); [discriminate|discriminate Q'].
Qed.

(** Calls one after the other: the call of number [i] has all the turns it needs. *)
Definition full (i : nat) (c : tcmd) : list move := MCall 100 c :: repeat (MGo i) 40.
Definition base : list move := full 0 (TPut (b "do") (b "verb")) ++ full 1 (TPut (b "dog") (b "puppy")) ++ full 2 (TPut (b "horse") (b "stallion")).
(** Two updates, a removal, reads and a proof at the same time. *)
Definition turn6 : list move := [MGo 3; MGo 4; MGo 5; MGo 6; MGo 7; MGo 8; MGo 9].
Definition crowd : list move :=
  base ++ [MCall 100 (TPut (b "doge") (b "coin")); MCall 100 (TGet (b "dog")); MCall 100 (TDel (b "horse")); MCall 100 (TIn (b "dog"));
           MCall 100 (TPoi (b "now") (b "do")); MCall 100 THash; MCall 100 (TPut (b "cat") (b "tom"))] ++ List.concat (repeat turn6 40).
(** One thread writes, another reads. *)
Definition turn2 : list move := [MGo 3; MGo 4; MGo 4].
Definition pair_ : list move :=
  base ++ [MCall 100 (TPut (b "doge") (b "coin")); MCall 100 (TGet (b "doge"))] ++ List.concat (repeat turn2 30) ++
  [MCall 100 (TDel (b "horse")); MCall 100 (TIn (b "horse"))] ++ List.concat (repeat [MGo 5; MGo 5; MGo 6] 30).
Definition answers_in (s : bool) (ms : list move) : list (option tout) := map (answer_of (run s ms)) (List.seq 0 (List.length (calls_of ms))).
Definition brief_t (o : option tout) : option tout :=
  match o with Some (AProof (Ok p)) => Some (AVal (Ok (repeat x00 (List.length (pf_proof p))))) | _ => o end.
Lemma base_ok : forall s, tok s base.
Proof. intros s. apply tok_b. destruct s; vm_compute; reflexivity. Qed.
Lemma crowd_ok : forall s, tok s crowd.
Proof. intros s. apply tok_b. destruct s; vm_compute; reflexivity. Qed.
Lemma pair_ok : forall s, tok s pair_ /\ one_writer s pair_.
Proof. intros s. split; [apply tok_b|apply one_writer_b_ok]; destruct s; vm_compute; reflexivity. Qed.

(** The races. *)
Definition lost_ms : list move :=
  base ++ [MCall 100 (TPut (b "doge") (b "coin")); MCall 100 (TPut (b "cat") (b "tom")); MGo 3; MGo 4] ++ repeat (MGo 3) 40 ++ repeat (MGo 4) 40.
Definition one : list move := full 0 (TPut (b "do") (b "verb")).
Definition torn_get : list move := one ++ [MCall 100 (TGet (b "do")); MGo 1; MCall 100 (TDel (b "do"))] ++ repeat (MGo 2) 40 ++ [MGo 1].
Definition torn_in : list move :=
  [MCall 100 (TIn (b "do")); MGo 0; MGo 0; MCall 100 (TPut (b "do") (b "verb"))] ++ repeat (MGo 1) 40 ++ [MGo 0; MGo 0; MGo 0].
Lemma lost_ok : forall s, tok s lost_ms.
Proof. intros s. apply tok_b. destruct s; vm_compute; reflexivity. Qed.
