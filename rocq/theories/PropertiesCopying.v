(** Properties of copies of the trie of an EMPT made while other threads use it (C262 to C265).  Theorem statements only; proofs are in
    CopyingProofs.v and CopyingMain.v. *)
From Coq Require Import String List Bool Arith NArith Lia.
From Verif Require Import Base BaseProofs Keccak NibblePath Node ProofObj Mpt Empt Spec SpecMptEvery Examples Threads SpecThreads ThreadsExamples Copying SpecCopying
  CopyingProofs CopyingMain CopyingExamples.
Import ListNotations.

(** C262: a sparse trie has the storage of one moment of the call and the root of the same or a later one, so that a read of it answers as on the
    sparse trie of the later moment or raises KeyError; the only exception is RuntimeError, and then nodes were stored during the call; a root trie is
    that of a moment of the call. *)
Theorem C262_copies_of_moments : forall (H : Hash) secure, (forall b, length (keccak b) = 32) -> forall ds, keys_ok secure (tkeys (dmoves ds)) -> tfits secure (dmoves ds) ->
  no_collision (h_log (p_obj (d_pool (run_desk secure (desk_new secure) ds)))) ->
  forall i c r, nth_error (dcalls ds) i = Some c -> danswer_of (run_desk secure (desk_new secure) ds) i = Some r ->
  match r, c with
  | Ok t, CSparse => exists d1 d2, moment secure ds i d1 /\ moment secure ds i (d1 ++ d2) /\
      t = sparse_new (m_map (trie_at secure d1)) (m_root (trie_at secure (d1 ++ d2))) secure /\ answers_or_lacks t (copy_now CSparse (trie_at secure (d1 ++ d2)))
  | Ok t, CRootTrie => exists d, moment secure ds i d /\ t = copy_now CRootTrie (trie_at secure d)
  | Err x, _ => c = CSparse /\ x = RuntimeError /\ exists d1 d2, moment secure ds i d1 /\ moment secure ds i (d1 ++ d2) /\
      length (m_map (trie_at secure d1)) < length (m_map (trie_at secure (d1 ++ d2)))
  end.
Proof. exact @copy_beside. Qed.
Print Assumptions C262_copies_of_moments.

(** While the root stays the same, a copy is that of a program with one thread; while no node is stored, there is no exception. *)
Theorem C262_steady : forall (H : Hash) secure, (forall b, length (keccak b) = 32) -> forall ds, keys_ok secure (tkeys (dmoves ds)) -> tfits secure (dmoves ds) ->
  no_collision (h_log (p_obj (d_pool (run_desk secure (desk_new secure) ds)))) ->
  forall i c r, nth_error (dcalls ds) i = Some c -> danswer_of (run_desk secure (desk_new secure) ds) i = Some r ->
  ((forall d d', moment secure ds i d -> moment secure ds i d' -> m_root (trie_at secure d) = m_root (trie_at secure d')) ->
     r = Err RuntimeError \/ exists d, moment secure ds i d /\ r = Ok (copy_now c (trie_at secure d))) /\
  ((forall d d', moment secure ds i d -> moment secure ds i d' -> length (m_map (trie_at secure d)) = length (m_map (trie_at secure d'))) -> exists t, r = Ok t).
Proof. exact @copy_steady. Qed.
Print Assumptions C262_steady.

Example C262_applies : let H : Hash := toy in forall s, dok s quiet /\ dcalls quiet = [CSparse; CRootTrie] /\
  got (danswer_of (desk_of s quiet) 0) (bs "dog") = Some (Ok (bs "puppy")) /\ got (danswer_of (desk_of s quiet) 1) (bs "dog") = Some (Err KeyError) /\
  dok s (torn s) /\ dok s broken.
Proof.
  intros H s. split; [exact (quiet_ok s)|]. split; [vm_compute; reflexivity|]. split; [exact (proj1 (quiet_says s))|]. split; [exact (proj2 (quiet_says s))|]. split; [exact (torn_ok s)|exact (broken_ok s)].
Qed.

(** C263: refuted that the sparse trie is that of some moment: when another thread writes between the end of the loop and the reading of the root, it
    has the old nodes and the new root; if the new root is not among the old nodes, every get raises KeyError. *)
Theorem C263_torn_sparse_trie_refuted : forall (H : Hash) secure, (forall b, length (keccak b) = 32) -> forall ds lim c, 0 < lim ->
  let t := trie_at secure ds in let t' := snd (single lim t c) in exists k, forall m, k <= m ->
  danswer_of (run_desk secure (desk_new secure) (between ds (2 * length (m_map t) + 2) lim c m)) (length (dcalls ds)) = Some (Ok (sparse_new (m_map t) (m_root t') secure)) /\
  (forall r, m_root t' = Some r -> length r = 32 -> dget (m_map t) r = None ->
     forall lim' k, 0 < lim' -> mpt_get lim' (sparse_new (m_map t) (m_root t') secure) k = Err KeyError).
Proof. exact @torn_copy. Qed.
Print Assumptions C263_torn_sparse_trie_refuted.

Example C263_applies : let H : Hash := toy in forall s, let t := trie_at s d_base in let t' := snd (single 100 t horses) in
  mpt_get 100 t (bs "dog") = Ok (bs "puppy") /\ mpt_get 100 t' (bs "dog") = Ok (bs "puppy") /\
  got (danswer_of (desk_of s (torn s)) 0) (bs "dog") = Some (Err KeyError) /\
  exists r, m_root t' = Some r /\ length r = 32 /\ dget (m_map t) r = None.
Proof.
  intros H s t t'. split; [destruct s; vm_compute; reflexivity|]. split; [destruct s; vm_compute; reflexivity|]. split; [exact (torn_says s)|].
  exists (match m_root t' with Some r => r | None => [] end). destruct s; vm_compute; repeat split; reflexivity.
Qed.

(** C264: refuted that get_sparse_trie returns whatever other threads do: a node stored while it copies makes it raise RuntimeError. *)
Theorem C264_broken_sparse_trie_refuted : forall (H : Hash) secure, (forall b, length (keccak b) = 32) -> forall ds lim c, 0 < lim ->
  let t := trie_at secure ds in let t' := snd (single lim t c) in length (m_map t') <> length (m_map t) ->
  exists k, forall m, k <= m -> danswer_of (run_desk secure (desk_new secure) (between ds 1 lim c m)) (length (dcalls ds)) = Some (Err RuntimeError).
Proof. exact @broken_copy. Qed.
Print Assumptions C264_broken_sparse_trie_refuted.

Example C264_applies : let H : Hash := toy in forall s, let t := trie_at s d_base in
  (length (m_map (snd (single 100 t horses))) =? length (m_map t)) = false /\ danswer_of (desk_of s broken) 0 = Some (Err RuntimeError).
Proof. intros H s t. split; [destruct s; vm_compute; reflexivity|exact (broken_says s)]. Qed.

(** C265: copying changes nothing for the other threads; *)
Theorem C265_others_unchanged : forall (H : Hash) secure ds,
  d_pool (run_desk secure (desk_new secure) ds) = run_moves secure (pool_new secure) (dmoves ds).
Proof. exact @desk_apart. Qed.
Print Assumptions C265_others_unchanged.

(** alone a copy is that of a program with one thread, whatever calls are under way; *)
Theorem C265_alone : forall (H : Hash) secure ds c m, let w := run_desk secure (desk_new secure) ds in cbound c (trie_at secure ds) <= m ->
  let w' := run_desk secure w (DCall c :: repeat (DGo (length (dcalls ds))) m) in
  danswer_of w' (length (dcalls ds)) = Some (Ok (copy_now c (trie_at secure ds))) /\ d_pool w' = d_pool w /\ firstn (length (dcalls ds)) (d_calls w') = d_calls w.
Proof. exact @copy_alone. Qed.
Print Assumptions C265_alone.

(** it ends after a number of its own steps that depends only on how many nodes are stored at the end. *)
Theorem C265_bounded : forall (H : Hash) secure d1 c d2, cbound c (trie_at secure (d1 ++ DCall c :: d2)) <= dturns (length (dcalls d1)) d2 ->
  danswer_of (run_desk secure (desk_new secure) (d1 ++ DCall c :: d2)) (length (dcalls d1)) <> None.
Proof. exact @copy_bounded. Qed.
Print Assumptions C265_bounded.

Example C265_applies : let H : Hash := toy in forall s,
  (cbound CSparse (trie_at s quiet) <=? 60) = true /\ dturns 0 (skipn (S (length d_base)) quiet) = 60.
Proof. intros H s. destruct s; vm_compute; split; reflexivity. Qed.
