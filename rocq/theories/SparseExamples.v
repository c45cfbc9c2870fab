(** Concrete SparseEMPTs, and the refutation of what one expects of [get_reference]. *)
From Coq Require Import List Bool Arith NArith String Lia.
From Verif Require Import Base BaseProofs Keccak KeccakProofs NibblePath Node ProofObj Mpt Spec Examples Empt SpecEmpt EmptRefutations SpecSparse SpecChain.
Import ListNotations.

Definition sput (k v : string) : scall := SCall (EPut (bs k) (VBytes (bs v))) 100 false [].
Definition sdel (k : string) : scall := SCall (EDel (bs k)) 100 false [].
Lemma srun_reachable : forall (H : Hash) s h l t, sparse_run (sparse_new [] None s) h = (l, t) ->
  forallb (fun c => eok_op_b (sc_op c)) h = true -> no_collision_b (m_log t) = true -> sreachable s l t.
Proof.
  intros H s h l t E H1 H2. exists h. split; auto. split; [|apply no_collision_b_ok; auto].
  rewrite forallb_forall in H1. apply Forall_forall. intros c Hc. specialize (H1 c Hc). unfold eok_op_b in H1.
  apply andb_prop in H1. destruct H1 as [E1 E2]. apply N.ltb_lt in E1. split; auto. destruct (sc_op c); auto. apply N.ltb_lt. auto.
Qed.

Section Real.
#[local] Instance K : Hash := keccak256.
(** "h" is not a key; "horse" is the only key that begins with it, "dog" begins with the same nibble. *)
Definition pair_hist : list scall := [sput "horse" "stallion"; sput "dog" "puppy"].
Definition pair_trie : mpt := Eval vm_compute in snd (sparse_run (sparse_new [] None false) pair_hist).
Definition pair_ops : list op := map (fun c => sop (sc_op c)) pair_hist.
Lemma pair_reachable : sreachable false pair_ops pair_trie.
Proof. apply (srun_reachable K false pair_hist); [vm_compute; reflexivity|reflexivity|vm_compute; reflexivity]. Qed.
Lemma sparse_reference_refuted : exists l t k r lim, sreachable false l t /\ dict_after l k = None /\
  frames false k < lim /\ mpt_contains lim t k = Ok false /\ trie_reference lim t k = Ok r /\ r_key r <> k.
Proof.
  exists pair_ops, pair_trie, (bs "h"), (mkRef (bs "horse") (bs "stallion")), 100.
  split; [exact pair_reachable|]. split; [reflexivity|]. split; [cbn; lia|]. split; [vm_compute; reflexivity|].
  split; [vm_compute; reflexivity|discriminate].
Qed.

Definition epair_hist : list ecall := [eput "horse" "stallion"; eput "dog" "puppy"].
Definition epair : empt := Eval vm_compute in snd (empt_run (empt_new false) epair_hist).
Definition epair_outs : list outcome := map (fun c => (ec_op c, true)) epair_hist.
Lemma empt_reference_refuted : exists outs e k r lim, ereachable false outs e /\ status_after outs k = Absent /\
  frames false k < lim /\ empt_contains lim e k = Ok false /\ trie_reference lim (e_trie e) k = Ok r /\ r_key r <> k.
Proof.
  exists epair_outs, epair, (bs "h"), (mkRef (bs "horse") (bs "stallion")), 100.
  split; [apply (erun_reachable K false epair_hist); [vm_compute; reflexivity|reflexivity|vm_compute; reflexivity]|].
  split; [reflexivity|]. split; [cbn; lia|]. split; [vm_compute; reflexivity|].
  split; [vm_compute; reflexivity|discriminate].
Qed.
End Real.

Section Toy.
#[local] Instance K' : Hash := toy.
(** An overwrite, a deletion, a failing storage, the deletion of an absent key, an object, a bytearray. *)
Definition shist : list scall :=
  [sput "do" "verb"; sput "dog" "puppy"; sput "doge" "coin"; sput "horse" ""; sput "do" "noun"; sdel "doge";
   SCall (EPut (bs "cow") (VBytes (bs "milk"))) 100 false [false; true]; sdel "cat";
   SCall (EDel (bs "dog")) 100 true []; SCall (EPut (bs "do") (VObj true true (bs "x"))) 100 false [];
   SCall (EPut (bs "do") (VBytearray (bs "x"))) 100 false []].
Definition ex_splain : mpt := Eval vm_compute in snd (sparse_run (sparse_new [] None false) shist).
Definition ex_ssecure : mpt := Eval vm_compute in snd (sparse_run (sparse_new [] None true) shist).
Definition ex_sparse (s : bool) : mpt := if s then ex_ssecure else ex_splain.
Definition ex_sops : list op :=
  [Put (bs "do") (bs "verb"); Put (bs "dog") (bs "puppy"); Put (bs "doge") (bs "coin"); Put (bs "horse") [];
   Put (bs "do") (bs "noun"); Del (bs "doge")].
Lemma ex_sreachable : forall s, sreachable s ex_sops (ex_sparse s).
Proof.
  intros s. apply (srun_reachable K' s shist); [destruct s; vm_compute; reflexivity|reflexivity|destruct s; vm_compute; reflexivity].
Qed.
Lemma ex_skeys : forall s k, no_collision_b (k :: map op_key ex_sops) = true -> keys_ok s (k :: map op_key ex_sops).
Proof. intros s k E _. apply no_collision_b_ok. exact E. Qed.
End Toy.

(** A proof with the node [b] put in front of the second element. *)
Definition with_node (b : bytes) (p : proof) : proof :=
  mkProof (pf_type p) (pf_time p) (pf_key p) (pf_root p)
    (match pf_proof p with e :: l => e :: PB b :: l | [] => [PB b] end).
Definition foreign_node : bytes :=
  match node_encode (Leaf (np_of (bs "zz")) (bs "a value of more than thirty-two bytes")) with Ok e => e | Err _ => [] end.
