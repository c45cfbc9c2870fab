(** Concrete cases for PropertiesShared.v.  Tests, not proofs. *)
From Coq Require Import String List Bool Arith NArith.
From Verif Require Import Base BaseProofs Keccak KeccakProofs NibblePath ProofObj Mpt Spec Examples SpecShared.
Import ListNotations.
#[local] Instance K : Hash := toy.

(** The inclusion proof of "doge" and a trie whose storage is made of it. *)
Definition got (r : result proof) : proof := match r with Ok p => p | Err _ => mkProof [] [] [] [] [] end.
Definition doge_plain : proof := Eval vm_compute in got (mpt_get_poi 100 (bs "now") ex_plain (bs "doge")).
Definition doge_secure : proof := Eval vm_compute in got (mpt_get_poi 100 (bs "now") ex_secure (bs "doge")).
Definition doge_proof (s : bool) : proof := if s then doge_secure else doge_plain.
Definition doge_trie (s : bool) : mpt := mkMpt (nodes_as_storage (proof_nodes (doge_proof s))) [] (m_root (ex_trie s)) s.

Definition consistent_b (m m' : dict bytes) : bool :=
  forallb (fun k => match dget m k, dget m' k with Some e, Some e' => bytes_eqb e e' | _, _ => true end) (dkeys m).
Lemma consistent_b_ok : forall m m', consistent_b m m' = true -> consistent m m'.
Proof.
  intros m m' E h e e' E1 E2. unfold consistent_b in E. rewrite forallb_forall in E. specialize (E h).
  rewrite E1, E2 in E. apply bytes_eqb_eq. apply E.
  clear - E1. induction m as [|[k v] m IH]; [discriminate|]. cbn [dget dkeys map fst] in *. destruct (bytes_eqb_spec h k) as [->|]; [left; reflexivity|right; auto].
Qed.
Lemma doge_consistent : forall s, consistent (m_map (doge_trie s)) (m_map (ex_trie s)).
Proof. intros s. apply consistent_b_ok. destruct s; vm_compute; reflexivity. Qed.
Lemma doge_nocoll : forall s, no_collision (m_log (ex_trie s) ++ proof_nodes (doge_proof s)).
Proof. intros s. apply no_collision_b_ok. destruct s; vm_compute; reflexivity. Qed.

(** Two plain tries and a secure one on one storage, with the same keys, a failing put and a failing delete. *)
Definition modes (i : nat) : bool := i =? 2.
Definition shared_hist : list (nat * call) :=
  [(0, put "dog" "puppy"); (2, put "dog" "puppy"); (1, put "dog" "puppy"); (0, put "doge" "a value of more than thirty-two bytes in length");
   (1, put "doge" "a value of more than thirty-two bytes in length"); (0, Call (Put (bs "do") (bs "verb")) 100 [false; true]);
   (2, put "do" "verb"); (1, del "dog"); (0, del "cat"); (1, del "doge")].
Definition shared_outs : list (nat * result unit) := fst (world_run (world_new modes) shared_hist).
Definition shared_world : world := snd (world_run (world_new modes) shared_hist).
Lemma shared_runs : world_run (world_new modes) shared_hist = (shared_outs, shared_world).
Proof. apply surjective_pairing. Qed.
Lemma shared_ok : forall mode, Forall (fun x => ok_op (mode (fst x)) (c_op (snd x))) shared_hist.
Proof.
  intros mode. apply Forall_forall. intros x Hx. apply ok_op_b_ok.
  assert (X : forallb (fun x => ok_op_b (c_op (snd x))) shared_hist = true) by (vm_compute; reflexivity).
  rewrite forallb_forall in X. apply X. exact Hx.
Qed.
Lemma shared_nocoll : no_collision (w_log shared_world).
Proof. apply no_collision_b_ok. vm_compute. reflexivity. Qed.
Definition returned_of (i : nat) : list bool := map (fun r => match r with Ok _ => true | Err _ => false end) (of i shared_outs).

(** Proofs to check. *)
Definition hound_plain : proof := Eval vm_compute in got (mpt_get_poe 100 (bs "now") ex_plain (bs "hound")).
Definition hound_secure : proof := Eval vm_compute in got (mpt_get_poe 100 (bs "now") ex_secure (bs "hound")).
Definition hound_proof (s : bool) : proof := if s then hound_secure else hound_plain.
Definition with_nodes (p : proof) (l : list pelem) : proof := mkProof (pf_type p) (pf_time p) (pf_key p) (pf_root p) l.
