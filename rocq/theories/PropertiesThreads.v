(** Properties of calls that several threads make on one MPT object (C219 to C226).  Theorem statements only; proofs are in ThreadsProofs.v and the files
    after it. *)
From Coq Require Import String List Bool Arith NArith.
From Verif Require Import Base Keccak NibblePath ProofObj Mpt Spec SpecEmpt SpecEvery MptPy SpecMptEvery Threads SpecThreads Examples ThreadsExamples
  ThreadsProofs ThreadsPool ThreadsSerial ThreadsAlone ThreadsRace.
Import ListNotations.

(** C219: the answers of the calls and the root, for every order in which the calls read and write the root and the storage. *)
Theorem C219_every_schedule : forall (H : Hash), (forall b, length (keccak b) = 32) ->
  forall secure ms, keys_ok secure (tkeys ms) -> tfits secure ms ->
  let w := run_moves secure (pool_new secure) ms in no_collision (h_log (p_obj w)) ->
  exists d u l, unfolds secure ms d u l /\ rooted secure d u (h_root (p_obj w)) /\ length l = length (calls_of ms) /\
  forall i o, answer_of w i = Some o -> nth_error l i = Some (Settled o).
Proof. exact @threads_exact. Qed.
Print Assumptions C219_every_schedule.

Example C219_applies : let H : Hash := toy in forall s, tok s crowd /\
  map brief_t (answers_in false crowd) =
    [Some (ANone (Ok tt)); Some (ANone (Ok tt)); Some (ANone (Ok tt)); Some (ANone (Ok tt)); Some (AVal (Ok (bs "puppy"))); Some (ANone (Ok tt));
     Some (ABool (Ok true)); Some (AVal (Ok [x00; x00; x00; x00])); nth 8 (answers_in false crowd) None; Some (ANone (Ok tt))].
Proof. intros H s. split; [apply crowd_ok|vm_compute; reflexivity]. Qed.

(** C220: what the answer of a reading call rests on: the object as it was at moments of the call. *)
Theorem C220_reads_rest_on_moments : forall (H : Hash), (forall b, length (keccak b) = 32) ->
  forall secure ms, keys_ok secure (tkeys ms) -> tfits secure ms ->
  let w := run_moves secure (pool_new secure) ms in no_collision (h_log (p_obj w)) ->
  forall i lim c o, nth_error (calls_of ms) i = Some (lim, c) -> answer_of w i = Some o -> stems (during secure ms i) lim c o.
Proof. exact @threads_stem. Qed.
Print Assumptions C220_reads_rest_on_moments.

(** A call during which the root stays what it is answers as a call made alone. *)
Theorem C220_undisturbed : forall (H : Hash), (forall b, length (keccak b) = 32) ->
  forall secure ms, keys_ok secure (tkeys ms) -> tfits secure ms ->
  let w := run_moves secure (pool_new secure) ms in no_collision (h_log (p_obj w)) ->
  forall i lim c o, nth_error (calls_of ms) i = Some (lim, c) -> answer_of w i = Some o -> is_write c = false -> 0 < lim ->
  (forall t t', during secure ms i t -> during secure ms i t' -> m_root t = m_root t') ->
  exists t, during secure ms i t /\ o = fst (single lim t c).
Proof. exact @still. Qed.
Print Assumptions C220_undisturbed.

Example C220_applies : let H : Hash := toy in forall s, tok s crowd /\ nth_error (calls_of crowd) 4 = Some (100, TGet (bs "dog")) /\
  answer_of (run_moves s (pool_new s) crowd) 4 = Some (AVal (Ok (bs "puppy"))).
Proof. intros H s. split; [apply crowd_ok|]. split; [vm_compute; reflexivity|destruct s; vm_compute; reflexivity]. Qed.

(** C221: where each update and delete is made after the earlier ones have answered, they answer as without other threads. *)
Theorem C221_one_writer : forall (H : Hash), (forall b, length (keccak b) = 32) ->
  forall secure ms, keys_ok secure (tkeys ms) -> tfits secure ms ->
  let w := run_moves secure (pool_new secure) ms in no_collision (h_log (p_obj w)) -> one_writer secure ms ->
  exists d u, gfollows secure no_refs false (map fst (written w ms)) (map snd (written w ms)) d u /\ rooted secure d u (h_root (p_obj w)).
Proof. exact @threads_serial. Qed.
Print Assumptions C221_one_writer.

(** And the other calls answer by what had been written at moments of the call. *)
Theorem C221_readers : forall (H : Hash), (forall b, length (keccak b) = 32) ->
  forall secure ms, keys_ok secure (tkeys ms) -> tfits secure ms ->
  let w := run_moves secure (pool_new secure) ms in no_collision (h_log (p_obj w)) -> one_writer secure ms ->
  forall i lim c o, nth_error (calls_of ms) i = Some (lim, c) -> answer_of w i = Some o -> reads secure ms i lim c o.
Proof. exact @threads_reads. Qed.
Print Assumptions C221_readers.

Example C221_applies : let H : Hash := toy in forall s, (tok s pair_ /\ one_writer s pair_) /\
  map brief_t (answers_in s pair_) =
    [Some (ANone (Ok tt)); Some (ANone (Ok tt)); Some (ANone (Ok tt)); Some (ANone (Ok tt));
     Some (AVal (Err (if s then BranchPathError else KeyNotFoundError))); Some (ANone (Ok tt)); Some (ABool (Ok true))] /\
  map fst (written (run_moves s (pool_new s) pair_) pair_) =
    [(100, GPut (bs "do") (bs "verb") []); (100, GPut (bs "dog") (bs "puppy") []); (100, GPut (bs "horse") (bs "stallion") []);
     (100, GPut (bs "doge") (bs "coin") []); (100, GDel (bs "horse") [])].
Proof. intros H s. split; [apply pair_ok|]. split; destruct s; vm_compute; reflexivity. Qed.

(** C222: a call that has its turns while no other call has any is the call of a program with one thread, whatever calls are under way. *)
Theorem C222_alone : forall (H : Hash) secure, (forall b, length (keccak b) = 32) -> forall w lim c, 0 < lim -> exists n, forall m, n <= m ->
  let w' := run_moves secure w (MCall lim c :: repeat (MGo (length (p_calls w))) m) in
  answer_of w' (length (p_calls w)) = Some (fst (single lim (object secure w) c)) /\ object secure w' = snd (single lim (object secure w) c) /\
  firstn (length (p_calls w)) (p_calls w') = p_calls w.
Proof. exact @alone. Qed.
Print Assumptions C222_alone.

Example C222_applies : let H : Hash := toy in forall s,
  let w := run_moves s (pool_new s) base in
  answer_of (run_moves s w (MCall 100 (TGet (bs "dog")) :: repeat (MGo 3) 40)) 3 = Some (fst (single 100 (object s w) (TGet (bs "dog")))) /\
  fst (single 100 (object s w) (TGet (bs "dog"))) = AVal (Ok (bs "puppy")).
Proof. intros H s. split; destruct s; vm_compute; reflexivity. Qed.

(** C223: no call waits for another one: a number of own steps that depends on the stack alone is enough, whatever the others do. *)
Theorem C223_no_waiting : forall (H : Hash) secure, (forall b, length (keccak b) = 32) -> forall w lim c ms, 3 * lim + 5 <= turns_of (length (p_calls w)) ms ->
  answer_of (run_moves secure w (MCall lim c :: ms)) (length (p_calls w)) <> None.
Proof. exact @answers. Qed.
Print Assumptions C223_no_waiting.

Example C223_applies : let H : Hash := toy in
  let w := run_moves true (pool_new true) base in let ms := MCall 100 (TDel (bs "dog")) :: concat (repeat [MGo 3; MGo 4; MGo 4] 305) in
  (3 * 100 + 5 <=? turns_of (length (p_calls w)) ms) = true /\
  answer_of (run_moves true w (MCall 100 (TPut (bs "cat") (bs "tom")) :: ms)) 3 = Some (ANone (Ok tt)).
Proof. intros H w ms. split; vm_compute; reflexivity. Qed.

(** C224, refuted: two updates at the same time both return, and the trie holds only one of them: whatever was done before, if both look
    at the root before either replaces it, the trie is the one that the second update alone makes. *)
Theorem C224_lost_update_refuted : forall (H : Hash), (forall b, length (keccak b) = 32) ->
  forall secure ms l1 k1 v1 l2 k2 v2, let w := run_moves secure (pool_new secure) ms in let i := length (calls_of ms) in let t := object secure w in
  let ms2 := ms ++ [MCall l1 (TPut k1 v1); MCall l2 (TPut k2 v2); MGo i; MGo (S i)] in
  keys_ok secure (tkeys ms2) -> tfits secure ms2 ->
  exists n1 n2, forall a b, n1 <= a -> n2 <= b ->
  let w' := run_moves secure (pool_new secure) (ms2 ++ repeat (MGo i) a ++ repeat (MGo (S i)) b) in no_collision (h_log (p_obj w')) ->
  answer_of w' i = Some (ANone (fst (mpt_update l1 [] t k1 v1))) /\ answer_of w' (S i) = Some (ANone (fst (mpt_update l2 [] t k2 v2))) /\
  exists d u, rooted secure d u (h_root (p_obj w)) /\
  (fst (mpt_update l2 [] t k2 v2) = Ok tt -> h_root (p_obj w') = m_root (snd (mpt_update l2 [] t k2 v2)) /\ rooted secure (set_ref d k2 v2) true (h_root (p_obj w'))).
Proof. exact @lost. Qed.
Print Assumptions C224_lost_update_refuted.

Example C224_applies : let H : Hash := toy in forall s, tok s lost_ms /\
  answer_of (run_moves s (pool_new s) lost_ms) 3 = Some (ANone (Ok tt)) /\ answer_of (run_moves s (pool_new s) lost_ms) 4 = Some (ANone (Ok tt)) /\
  mpt_contains 100 (object s (run_moves s (pool_new s) lost_ms)) (bs "doge") = Ok false /\
  mpt_get 100 (object s (run_moves s (pool_new s) lost_ms)) (bs "cat") = Ok (bs "tom") /\
  mpt_get 100 (object s (run_moves s (pool_new s) lost_ms)) (bs "dog") = Ok (bs "puppy").
Proof. intros H s. split; [apply lost_ok|]. split; [destruct s; vm_compute; reflexivity|]. split; [destruct s; vm_compute; reflexivity|].
  split; [destruct s; vm_compute; reflexivity|]. split; destruct s; vm_compute; reflexivity. Qed.

(** C225, refuted: a read answers by the contents at some moment.  A get between whose two looks at the root the last key goes raises TypeError; *)
Theorem C225_torn_get_refuted : forall (H : Hash), (forall b, length (keccak b) = 32) ->
  forall secure w lim k lim' k', let t := object secure w in let i := length (p_calls w) in
  0 < lim -> 0 < lim' -> root_falsy t = false -> m_root (snd (mpt_delete lim' [] t k')) = None ->
  exists n, forall m, n <= m ->
    answer_of (run_moves secure w ([MCall lim (TGet k); MGo i; MCall lim' (TDel k')] ++ repeat (MGo (S i)) m ++ [MGo i])) i = Some (AVal (Err TypeError)).
Proof. exact @get_race. Qed.
Print Assumptions C225_torn_get_refuted.

(** [contains] on a new trie raises KeyError if the first update comes between its looks at the root; *)
Theorem C225_torn_contains_refuted : forall (H : Hash), (forall b, length (keccak b) = 32) ->
  forall secure w lim k lim' k' v, let t := object secure w in let t' := snd (mpt_update lim' [] t k' v) in let i := length (p_calls w) in
  0 < lim -> 0 < lim' -> m_root t = Some (keccak [x80]) -> dget (m_map t') (keccak [x80]) = None -> (exists r, m_root t' = Some r /\ r <> keccak [x80]) ->
  exists n, forall m, n <= m ->
    answer_of (run_moves secure w ([MCall lim (TIn k); MGo i; MGo i; MCall lim' (TPut k' v)] ++ repeat (MGo (S i)) m ++ [MGo i; MGo i; MGo i])) i = Some (ABool (Err KeyError)).
Proof. exact @in_race. Qed.
Print Assumptions C225_torn_contains_refuted.

(** no contents make a call that is alone answer so. *)
Theorem C225_no_such_answer : forall (H : Hash) secure lim d u k, ~ gets secure lim d u k (Err TypeError) /\ ~ asks secure lim d k (Err KeyError).
Proof. exact @no_such_answer. Qed.
Print Assumptions C225_no_such_answer.

Example C225_applies : let H : Hash := toy in forall s,
  let w := run_moves s (pool_new s) one in
  root_falsy (object s w) = false /\ m_root (snd (mpt_delete 100 [] (object s w) (bs "do"))) = None /\
  answers_in s torn_get = [Some (ANone (Ok tt)); Some (AVal (Err TypeError)); Some (ANone (Ok tt))] /\
  answers_in s torn_in = [Some (ABool (Err KeyError)); Some (ANone (Ok tt))].
Proof. intros H s. split; [destruct s; vm_compute; reflexivity|]. split; [destruct s; vm_compute; reflexivity|]. split; destruct s; vm_compute; reflexivity. Qed.

(** C226, refuted: a proof of inclusion is accepted by a trie that has its root.  A proof made while another call replaces the root has the
    nodes of the old root and the new root; *)
Theorem C226_mixed_proof_refuted : forall (H : Hash), (forall b, length (keccak b) = 32) ->
  forall secure w lim tm k p lim' c r', let t := object secure w in let i := length (p_calls w) in
  0 < lim -> 0 < lim' -> mpt_get_poi lim tm t k = Ok p -> m_root (snd (single lim' t c)) = Some r' ->
  exists n0 n, forall m, n <= m ->
    answer_of (run_moves secure w ([MCall lim (TPoi tm k)] ++ repeat (MGo i) n0 ++ [MCall lim' c] ++ repeat (MGo (S i)) m ++ [MGo i])) i = Some (AProof (Ok (with_root p r'))).
Proof. exact @proof_race. Qed.
Print Assumptions C226_mixed_proof_refuted.

(** no trie accepts such a proof. *)
Theorem C226_never_accepted : forall (H : Hash) lim t p r' lim' t', mpt_verify_poi lim t p = Ok true -> root_hash t <> r' ->
  mpt_verify_poi lim' t' (with_root p r') <> Ok true.
Proof. exact @mixed_never. Qed.
Print Assumptions C226_never_accepted.

Example C226_applies : let H : Hash := toy in forall s,
  let t := object s (run_moves s (pool_new s) base) in let c := TPut (bs "cat") (bs "tom") in
  exists p r', mpt_get_poi 100 (bs "now") t (bs "dog") = Ok p /\ m_root (snd (single 100 t c)) = Some r' /\
    mpt_verify_poi 100 t p = Ok true /\ bytes_eqb (root_hash t) r' = false.
Proof. intros H s. destruct s; (eexists; eexists; split; [vm_compute; reflexivity|]; split; [vm_compute; reflexivity|]; split; vm_compute; reflexivity). Qed.
