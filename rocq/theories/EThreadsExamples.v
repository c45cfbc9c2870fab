(** Concrete schedules of calls on one EMPT object.  Tests, not proofs. *)
From Coq Require Import String List Bool Arith NArith Lia.
From Verif Require Import Base BaseProofs Keccak KeccakProofs NibblePath ProofObj Mpt Empt Spec SpecEmpt Examples SpecEvery SpecMptEvery Threads SpecThreads EThreads SpecEThreads.
Import ListNotations.
#[local] Instance K : Hash := toy.
Local Notation b s := (bs s).
Local Notation vb s := (VBytes (bs s)).
Notation xrun s ms := (erun s (epool_new s) ms).

Definition xfits_b (ms : list emove) : bool :=
  forallb (fun k => (blen k <? 2 ^ 57)%N) (ekeys ms) &&
  forallb (fun c => match snd c with XPut _ v => (blen (val_bytes v) <? 2 ^ 57)%N | _ => true end) (ecalls_of ms).
Lemma xfits_b_ok : forall ms, xfits_b ms = true -> xfits ms.
Proof.
  intros ms E. unfold xfits_b in E. rewrite andb_true_iff, !forallb_forall in E. destruct E as [E1 E2]. split.
  - intros x Hx. apply N.ltb_lt. auto.
  - intros lim k v Hx. specialize (E2 _ Hx). cbn [snd] in E2. apply N.ltb_lt, E2.
Qed.
Definition xok (s : bool) (ms : list emove) : Prop := keys_ok s (ekeys ms) /\ xfits ms /\ no_collision (h_log (p_obj (x_trie (xrun s ms)))).
Lemma xok_b : forall s ms, xfits_b ms && no_collision_b (ekeys ms) && no_collision_b (h_log (p_obj (x_trie (xrun s ms)))) = true -> xok s ms.
Proof.
  intros s ms E. rewrite !andb_true_iff in E. destruct E as ((E1 & E2) & E3).
  split; [intros _; apply no_collision_b_ok; assumption|]. split; [apply xfits_b_ok; assumption|apply no_collision_b_ok; assumption].
Qed.
Definition xwriter_ok_b (s : bool) (ms : list emove) (n : nat) : bool :=
  match nth_error ms n with
  | Some (ECall _ c) => negb (is_ewrite c) || forallb (fun i => match nth_error (ecalls_of (firstn n ms)) i with
      | Some (_, c') => negb (is_ewrite c') || match eanswer_of (xrun s (firstn n ms)) i with Some _ => true | None => false end | None => true end)
      (List.seq 0 (List.length (ecalls_of (firstn n ms))))
  | _ => true
  end.
Definition one_ewriter_b (s : bool) (ms : list emove) : bool := forallb (xwriter_ok_b s ms) (List.seq 0 (List.length ms)).
Lemma one_ewriter_b_ok : forall s ms, one_ewriter_b s ms = true -> one_ewriter s ms.
Proof.
  intros s ms E m1 m2 lim c i l' c' -> Wc Ei Wi. unfold one_ewriter_b in E. rewrite forallb_forall in E. specialize (E (List.length m1)).
  unfold xwriter_ok_b in E. rewrite nth_error_app2, Nat.sub_diag in E by lia. cbn [nth_error] in E.
  rewrite firstn_app, Nat.sub_diag, firstn_all in E. cbn [firstn] in E. rewrite app_nil_r in E.
  rewrite Wc in E. cbn [negb orb] in E. assert (L : i < List.length (ecalls_of m1)) by (apply nth_error_Some; congruence).
  assert (Q : forallb (fun i => match nth_error (ecalls_of m1) i with
      | Some (_, c') => negb (is_ewrite c') || match eanswer_of (xrun s m1) i with Some _ => true | None => false end | None => true end)
      (List.seq 0 (List.length (ecalls_of m1))) = true) by (apply E; apply in_seq; rewrite app_length; cbn [List.length]; lia).
  rewrite forallb_forall in Q. specialize (Q i). rewrite Ei, Wi in Q. cbn [negb orb] in Q.
  assert (Q' := Q (proj2 (in_seq _ _ _) (conj (Nat.le_0_l _) L))). destruct (eanswer_of _ i); [discriminate|discriminate Q'].
Qed.
Definition xanswers (s : bool) (ms : list emove) : list (option eout) := map (eanswer_of (xrun s ms)) (List.seq 0 (List.length (ecalls_of ms))).
(** Of a proof, the number of its nodes. *)
Definition brief_x (o : option eout) : option eout :=
  match o with Some (RProof (Ok p)) => Some (RVal (Ok (VBytes (repeat x00 (List.length (pf_proof p)))))) | _ => o end.

Definition xfull (i : nat) (c : ecmd) : list emove := ECall 100 c :: repeat (EGo i) 60.
Definition xbase : list emove := xfull 0 (XPut (b "do") (vb "verb")) ++ xfull 1 (XPut (b "dog") (vb "puppy")) ++ xfull 2 (XPut (b "horse") (vb "stallion")).
(** Updates, a removal, reads and a proof at the same time. *)
Definition xcrowd : list emove :=
  xbase ++ [ECall 100 (XPut (b "doge") (vb "coin")); ECall 100 (XGet (b "dog")); ECall 100 (XDel (b "horse")); ECall 100 (XIn (b "dog"));
            ECall 100 (XPoi (b "now") (b "do")); ECall 100 (XRef (b "do")); ECall 100 (XPut (b "cat") (vb "tom"))] ++
  List.concat (repeat [EGo 3; EGo 4; EGo 5; EGo 6; EGo 7; EGo 8; EGo 9] 60).
(** One thread writes, another reads. *)
Definition xpair1 : list emove := xbase ++ [ECall 100 (XPut (b "doge") (vb "coin"))] ++ repeat (EGo 3) 60.
Definition xpair2 : list emove := [EGo 4; ECall 100 (XDel (b "horse"))] ++ List.concat (repeat [EGo 5; EGo 4; EGo 5] 60).
Definition xpair : list emove := xpair1 ++ ECall 100 (XGet (b "doge")) :: xpair2.
Definition xgone : list emove := xpair ++ ECall 100 (XGet (b "horse")) :: [EGo 6; ECall 100 (XPut (b "do") (vb "noun"))] ++ List.concat (repeat [EGo 7; EGo 6] 60).
Lemma xcrowd_ok : forall s, xok s xcrowd.
Proof. intros s. apply xok_b. destruct s; vm_compute; reflexivity. Qed.
Lemma xgone_ok : forall s, xok s xgone /\ one_ewriter s xgone.
Proof. intros s. split; [apply xok_b|apply one_ewriter_b_ok]; destruct s; vm_compute; reflexivity. Qed.
Lemma xpair_ok : forall s, xok s xpair /\ one_ewriter s xpair.
Proof. intros s. split; [apply xok_b|apply one_ewriter_b_ok]; destruct s; vm_compute; reflexivity. Qed.
