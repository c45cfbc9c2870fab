(** Concrete schedules of copying a trie beside other calls on it.  Tests, not proofs. *)
From Coq Require Import String List Bool Arith NArith Lia.
From Verif Require Import Base BaseProofs Keccak KeccakProofs NibblePath Node ProofObj Mpt Empt Spec SpecProof Examples SpecMptEvery Threads SpecThreads ThreadsExamples Copying SpecCopying.
Import ListNotations.
#[local] Instance K : Hash := toy.
Local Notation b s := (bs s).
Notation desk_of s ds := (run_desk s (desk_new s) ds).
Definition dok (s : bool) (ds : list dmove) : Prop := keys_ok s (tkeys (dmoves ds)) /\ tfits s (dmoves ds) /\ no_collision (h_log (p_obj (d_pool (desk_of s ds)))).
Definition dok_b (s : bool) (ds : list dmove) : bool :=
  tfits_b s (dmoves ds) && no_collision_b (tkeys (dmoves ds)) && no_collision_b (h_log (p_obj (d_pool (desk_of s ds)))).
Lemma dok_b_ok : forall s ds, dok_b s ds = true -> dok s ds.
Proof.
  intros s ds E. unfold dok_b in E. rewrite !andb_true_iff in E. destruct E as ((E1 & E2) & E3).
  split; [intros _; apply no_collision_b_ok; assumption|]. split; [apply tfits_b_ok; exact E1|apply no_collision_b_ok; assumption].
Qed.
Definition d_base : list dmove := map DMove base.
Definition horses : tcmd := TPut (b "horses") (b "mares").
(** A copy and a root trie are made while a key is read. *)
Definition quiet : list dmove := d_base ++ [DCall CSparse; DMove (MCall 100 (TGet (b "dog"))); DCall CRootTrie] ++ List.concat (repeat [DGo 0; DMove (MGo 3); DGo 1] 60).
(** A key is stored after the loop, and while the loop runs. *)
Definition torn (s : bool) : list dmove := between d_base (2 * List.length (m_map (trie_at s d_base)) + 2) 100 horses 60.
Definition broken : list dmove := between d_base 1 100 horses 60.
Definition got (r : option (result mpt)) (k : bytes) : option (result bytes) := match r with Some (Ok t) => Some (mpt_get 100 t k) | Some (Err x) => Some (Err x) | None => None end.
Lemma quiet_ok : forall s, dok s quiet.
Proof. intros s. apply dok_b_ok. destruct s; vm_compute; reflexivity. Qed.
Lemma torn_ok : forall s, dok s (torn s).
Proof. intros s. apply dok_b_ok. destruct s; vm_compute; reflexivity. Qed.
Lemma broken_ok : forall s, dok s broken.
Proof. intros s. apply dok_b_ok. destruct s; vm_compute; reflexivity. Qed.
Example quiet_says : forall s, got (danswer_of (desk_of s quiet) 0) (b "dog") = Some (Ok (b "puppy")) /\ got (danswer_of (desk_of s quiet) 1) (b "dog") = Some (Err KeyError).
Proof. intros s. split; destruct s; vm_compute; reflexivity. Qed.
Example torn_says : forall s, got (danswer_of (desk_of s (torn s)) 0) (b "dog") = Some (Err KeyError).
Proof. intros s. destruct s; vm_compute; reflexivity. Qed.
Example broken_says : forall s, danswer_of (desk_of s broken) 0 = Some (Err RuntimeError).
Proof. intros s. destruct s; vm_compute; reflexivity. Qed.
