(** Properties of MPT: dictionary behaviour, root hash, storage, secure mode.
    Vocabulary: Spec.v.  Model: Mpt.v.  Each theorem is closed by a lemma proved
    elsewhere; each [Example] shows a concrete case meeting the hypotheses. *)
From Coq Require Import String List Bool Arith NArith Permutation Lia.
From Verif Require Import Base BaseProofs Keccak KeccakProofs NibblePath Node ProofObj Mpt Spec Examples
  MptProofs MptRefutations.
Import ListNotations.

(** C01: [get] returns the last value written. *)
Theorem C01_get_returns_last_write : forall (H : Hash), (forall b, length (keccak b) = 32) ->
  forall secure l t k v lim, reachable secure l t -> keys_ok secure (k :: map op_key l) ->
  dict_after l k = Some v -> frames secure k < lim ->
  mpt_get lim t k = Ok v.
Proof. exact @get_present_ok. Qed.
Print Assumptions C01_get_returns_last_write.

Example C01_applies : let H : Hash := toy in forall s : bool,
  reachable s (ex_ops s) (ex_trie s) /\ keys_ok s (bs "doge" :: map op_key (ex_ops s)) /\
  dict_after (ex_ops s) (bs "doge") = Some (bs "coin") /\ frames s (bs "doge") < 100.
Proof.
  intros H s. split; [apply ex_reachable|]. split; [apply ex_keys_ok1; destruct s; vm_compute; reflexivity|].
  rewrite ex_ops_are. split; [reflexivity|destruct s; cbn; lia].
Qed.

(** C02 is false of the code: [contains] answers True for a key that was never written. *)
Theorem C02_contains_exact_refuted : let H : Hash := keccak256 in
  exists l t k lim, reachable false l t /\ keys_ok false (k :: map op_key l) /\ frames false k < lim /\
    dict_after l k = None /\ mpt_contains lim t k = Ok true.
Proof. exact contains_refuted. Qed.
Print Assumptions C02_contains_exact_refuted.

(** C03: a call changes the answers for its own key only. *)
Theorem C03_other_present_keys_keep_values : forall (H : Hash), (forall b, length (keccak b) = 32) ->
  forall secure l t c res t' k v lim, reachable secure l t -> ok_op secure (c_op c) ->
  mpt_call t c = (res, t') -> no_collision (m_log t') ->
  keys_ok secure (k :: op_key (c_op c) :: map op_key l) ->
  k <> op_key (c_op c) -> frames secure k < lim -> dict_after l k = Some v ->
  mpt_get lim t' k = Ok v /\ mpt_contains lim t' k = Ok true.
Proof. exact @frame_present. Qed.
Print Assumptions C03_other_present_keys_keep_values.

Theorem C03_other_absent_keys_stay_absent : forall (H : Hash), (forall b, length (keccak b) = 32) ->
  forall secure l t c res t' k lim, reachable secure l t -> ok_op secure (c_op c) ->
  mpt_call t c = (res, t') -> no_collision (m_log t') ->
  keys_ok secure (k :: op_key (c_op c) :: map op_key l) ->
  k <> op_key (c_op c) -> frames secure k < lim -> dict_after l k = None ->
  (secure = true \/ (~ prefixed_in (dict_after l) k /\ ~ proper_prefix (op_key (c_op c)) k) ->
     mpt_contains lim t' k = Ok false) /\
  (secure = true \/ (~ extended_in (dict_after l) k /\ ~ proper_prefix k (op_key (c_op c))) ->
     exists e, mpt_get lim t' k = Err e).
Proof. exact @frame_absent. Qed.
Print Assumptions C03_other_absent_keys_stay_absent.

Example C03_applies : let H : Hash := toy in forall s, let c := put "dot" "period" in
  reachable s (ex_ops s) (ex_trie s) /\ ok_op s (c_op c) /\ no_collision (m_log (snd (mpt_call (ex_trie s) c))) /\
  keys_ok s (bs "dog" :: op_key (c_op c) :: map op_key (ex_ops s)) /\ bs "dog" <> op_key (c_op c) /\
  frames s (bs "dog") < 100 /\ dict_after (ex_ops s) (bs "dog") = Some (bs "puppy") /\
  dict_after (ex_ops s) (bs "hat") = None.
Proof.
  intros H s c. split; [apply ex_reachable|]. split; [apply ok_op_b_ok; reflexivity|].
  split; [apply no_collision_b_ok; destruct s; vm_compute; reflexivity|].
  split; [apply (ex_keys_ok s [bs "dog"; op_key (c_op c)]); destruct s; vm_compute; reflexivity|].
  split; [discriminate|]. rewrite ex_ops_are. split; [destruct s; cbn; lia|]. split; reflexivity.
Qed.

(** C04 is false of the code: [get] on an absent key returns another key's value. *)
Theorem C04_get_absent_refuted : let H : Hash := keccak256 in
  exists l t k k' v lim, reachable false l t /\ keys_ok false (k :: map op_key l) /\
    dict_after l k = None /\ dict_after l k' = Some v /\ mpt_get lim t k = Ok v.
Proof. exact get_refuted. Qed.
Print Assumptions C04_get_absent_refuted.

(** C05: [get] on an absent key raises when no present key extends it. *)
Theorem C05_get_absent_raises : forall (H : Hash), (forall b, length (keccak b) = 32) ->
  forall secure l t k lim, reachable secure l t -> keys_ok secure (k :: map op_key l) ->
  dict_after l k = None -> secure = true \/ ~ extended_in (dict_after l) k ->
  exists e, mpt_get lim t k = Err e.
Proof. exact @get_absent_raises. Qed.
Print Assumptions C05_get_absent_raises.

Example C05_applies : let H : Hash := toy in forall s : bool,
  reachable s (ex_ops s) (ex_trie s) /\ keys_ok s (bs "dogs" :: map op_key (ex_ops s)) /\
  dict_after (ex_ops s) (bs "dogs") = None /\ ~ extended_in (dict_after (ex_ops s)) (bs "dogs").
Proof.
  intros H s. split; [apply ex_reachable|]. split; [apply ex_keys_ok1; destruct s; vm_compute; reflexivity|].
  rewrite ex_ops_are. split; [reflexivity|]. apply dogs_not_extended.
Qed.

(** C06: [delete] removes present keys and rejects absent ones. *)
Theorem C06_delete_present : forall (H : Hash), (forall b, length (keccak b) = 32) ->
  forall secure l t k v lim res t', reachable secure l t -> (blen k < 2 ^ 59)%N ->
  keys_ok secure (k :: map op_key l) -> mpt_delete lim [] t k = (res, t') -> no_collision (m_log t') ->
  frames secure k < lim -> dict_after l k = Some v ->
  res = Ok tt /\ reachable secure (l ++ [Del k]) t' /\ dict_after (l ++ [Del k]) k = None.
Proof. exact @delete_present. Qed.
Print Assumptions C06_delete_present.

Theorem C06_delete_absent : forall (H : Hash), (forall b, length (keccak b) = 32) ->
  forall secure l t k lim fl res t', reachable secure l t -> (blen k < 2 ^ 59)%N ->
  keys_ok secure (k :: map op_key l) -> mpt_delete lim fl t k = (res, t') -> no_collision (m_log t') ->
  dict_after l k = None ->
  (exists e, res = Err e) /\ m_root t' = m_root t /\ root_hash t' = root_hash t /\ reads_alike t t'.
Proof. exact @delete_absent_full. Qed.
Print Assumptions C06_delete_absent.

Example C06_applies : let H : Hash := toy in forall s : bool,
  reachable s (ex_ops s) (ex_trie s) /\ keys_ok s (bs "dog" :: map op_key (ex_ops s)) /\
  keys_ok s (bs "dot" :: map op_key (ex_ops s)) /\
  no_collision (m_log (snd (mpt_delete 100 [] (ex_trie s) (bs "dog")))) /\
  no_collision (m_log (snd (mpt_delete 100 [] (ex_trie s) (bs "dot")))) /\
  frames s (bs "dog") < 100 /\ dict_after (ex_ops s) (bs "dog") = Some (bs "puppy") /\
  dict_after (ex_ops s) (bs "dot") = None.
Proof.
  intros H s. split; [apply ex_reachable|].
  split; [apply ex_keys_ok1; destruct s; vm_compute; reflexivity|].
  split; [apply ex_keys_ok1; destruct s; vm_compute; reflexivity|].
  split; [apply no_collision_b_ok; destruct s; vm_compute; reflexivity|].
  split; [apply no_collision_b_ok; destruct s; vm_compute; reflexivity|].
  rewrite ex_ops_are. split; [destruct s; cbn; lia|]. split; reflexivity.
Qed.

(** C07: the root hash depends only on the contents. *)
Theorem C07_root_depends_on_contents_only : forall (H : Hash), (forall b, length (keccak b) = 32) ->
  forall secure l1 t1 l2 t2, reachable secure l1 t1 -> reachable secure l2 t2 ->
  keys_ok secure (map op_key l1 ++ map op_key l2) -> (forall k, dict_after l1 k = dict_after l2 k) ->
  root_hash t1 = root_hash t2 /\ ((exists k v, dict_after l1 k = Some v) -> m_root t1 = m_root t2).
Proof. exact @root_history_independent. Qed.
Print Assumptions C07_root_depends_on_contents_only.

Example C07_applies : let H : Hash := toy in forall s : bool,
  let h2 := [put "horse" "stallion"; put "doge" "coin"; put "dog" "puppy"; put "do" "verb"] in
  let r2 := mpt_run (mpt_new s) h2 in
  reachable s (ex_ops s) (ex_trie s) /\ reachable s (fst r2) (snd r2) /\
  keys_ok s (map op_key (ex_ops s) ++ map op_key (fst r2)) /\
  (forall k, dict_after (ex_ops s) k = dict_after (fst r2) k) /\ fst r2 <> ex_ops s.
Proof.
  intros H s h2 r2. split; [apply ex_reachable|].
  split; [apply run_reachable'; destruct s; vm_compute; reflexivity|].
  split; [intros _; apply no_collision_b_ok; destruct s; vm_compute; reflexivity|].
  assert (E : fst r2 = map c_op h2) by (destruct s; vm_compute; reflexivity). rewrite E, ex_ops_are.
  split; [apply ex_same_dict|discriminate].
Qed.

(** C08: the root hash commits to the contents. *)
Theorem C08_root_commits_to_contents : forall (H : Hash), (forall b, length (keccak b) = 32) ->
  forall secure l1 t1 l2 t2, reachable secure l1 t1 -> reachable secure l2 t2 ->
  no_collision (hashed_by t1 ++ hashed_by t2) -> keys_ok secure (map op_key l1 ++ map op_key l2) ->
  root_hash t1 = root_hash t2 -> forall k, dict_after l1 k = dict_after l2 k.
Proof. exact @root_binding. Qed.
Print Assumptions C08_root_commits_to_contents.

Example C08_applies : let H : Hash := toy in forall s : bool,
  let h2 := [put "horse" "stallion"; put "doge" "coin"; put "dog" "puppy"; put "do" "verb"] in
  let r2 := mpt_run (mpt_new s) h2 in
  reachable s (ex_ops s) (ex_trie s) /\ reachable s (fst r2) (snd r2) /\
  no_collision (hashed_by (ex_trie s) ++ hashed_by (snd r2)) /\
  keys_ok s (map op_key (ex_ops s) ++ map op_key (fst r2)) /\ root_hash (ex_trie s) = root_hash (snd r2).
Proof.
  intros H s h2 r2. split; [apply ex_reachable|].
  split; [apply run_reachable'; destruct s; vm_compute; reflexivity|].
  split; [apply no_collision_b_ok; destruct s; vm_compute; reflexivity|].
  split; [intros _; apply no_collision_b_ok; destruct s; vm_compute; reflexivity|].
  destruct s; vm_compute; reflexivity.
Qed.

(** C09: adding keys and deleting them again restores the root. *)
Theorem C09_add_then_delete_restores_root : forall (H : Hash), (forall b, length (keccak b) = 32) ->
  forall secure l t kvs ks lim l2 t2, reachable secure l t -> (exists k v, dict_after l k = Some v) ->
  NoDup (map fst kvs) -> Permutation ks (map fst kvs) ->
  Forall (fun kv => ok_op secure (Put (fst kv) (snd kv)) /\ frames secure (fst kv) < lim /\ dict_after l (fst kv) = None) kvs ->
  keys_ok secure (map fst kvs ++ map op_key l) ->
  mpt_run t (map (put_call lim) kvs ++ map (del_call lim) ks) = (l2, t2) -> no_collision (m_log t2) ->
  m_root t2 = m_root t.
Proof. exact @add_then_delete. Qed.
Print Assumptions C09_add_then_delete_restores_root.

Theorem C09_no_keys_gives_empty_hash : forall (H : Hash), (forall b, length (keccak b) = 32) ->
  forall secure l t, reachable secure l t -> keys_ok secure (map op_key l) ->
  (forall k, dict_after l k = None) -> root_hash t = keccak [x80].
Proof. exact @empty_root. Qed.
Print Assumptions C09_no_keys_gives_empty_hash.

Example C09_applies : let H : Hash := toy in forall s : bool,
  let kvs := [(bs "d", bs "dee"); (bs "hotel", bs "bed"); (bs "dogs", bs "many")] in
  let ks := [bs "hotel"; bs "dogs"; bs "d"] in
  reachable s (ex_ops s) (ex_trie s) /\ (exists k v, dict_after (ex_ops s) k = Some v) /\
  NoDup (map fst kvs) /\ Permutation ks (map fst kvs) /\
  Forall (fun kv => ok_op s (Put (fst kv) (snd kv)) /\ frames s (fst kv) < 100 /\ dict_after (ex_ops s) (fst kv) = None) kvs /\
  keys_ok s (map fst kvs ++ map op_key (ex_ops s)) /\
  no_collision (m_log (snd (mpt_run (ex_trie s) (map (put_call 100) kvs ++ map (del_call 100) ks)))).
Proof.
  intros H s kvs ks. split; [apply ex_reachable|].
  split; [exists (bs "do"), (bs "verb"); rewrite ex_ops_are; reflexivity|].
  split; [repeat constructor; cbn; intros F; repeat destruct F as [F|F]; discriminate || contradiction|].
  split; [apply ex_perm|].
  split; [rewrite ex_ops_are; apply Forall_forall; intros kv [<-|[<-|[<-|[]]]];
    (split; [apply ok_op_b_ok; reflexivity|split; [destruct s; cbn; lia|reflexivity]])|].
  split; [apply ex_keys_ok; destruct s; vm_compute; reflexivity|].
  apply no_collision_b_ok; destruct s; vm_compute; reflexivity.
Qed.

Example C09_empty_applies : let H : Hash := toy in forall s : bool,
  let r := mpt_run (mpt_new s) [put "dog" "puppy"; put "do" "verb"; del "dog"; del "do"] in
  reachable s (fst r) (snd r) /\ keys_ok s (map op_key (fst r)) /\ (forall k, dict_after (fst r) k = None).
Proof.
  intros H s r. split; [apply run_reachable'; destruct s; vm_compute; reflexivity|].
  split; [intros _; apply no_collision_b_ok; destruct s; vm_compute; reflexivity|].
  assert (E : fst r = [Put (bs "dog") (bs "puppy"); Put (bs "do") (bs "verb"); Del (bs "dog"); Del (bs "do")])
    by (destruct s; vm_compute; reflexivity).
  rewrite E. apply ex_emptied.
Qed.

(** C10: old roots stay readable through the grown storage. *)
Theorem C10_old_roots_stay_readable : forall (H : Hash), (forall b, length (keccak b) = 32) ->
  forall secure l1 t1 h l2 t2, reachable secure l1 t1 -> ok_history secure h -> mpt_run t1 h = (l2, t2) ->
  no_collision (m_log t2) ->
  let old := mpt_init (m_map t2) (m_root t1) secure in
  (m_root t1 <> None -> reads_alike t1 old) /\
  forall lim k, mpt_contains lim old k = mpt_contains lim t1 k /\
    (m_root t1 = None -> exists e1 e2, mpt_get lim old k = Err e1 /\ mpt_get lim t1 k = Err e2).
Proof. exact @old_root_readable. Qed.
Print Assumptions C10_old_roots_stay_readable.

Example C10_applies : let H : Hash := toy in forall s : bool,
  let h := [del "dog"; put "do" "noun"; put "hat" "cap"] in
  reachable s (ex_ops s) (ex_trie s) /\ ok_history s h /\ no_collision (m_log (snd (mpt_run (ex_trie s) h))) /\
  m_root (ex_trie s) <> None /\ bytes_eqb (root_ref (snd (mpt_run (ex_trie s) h))) (root_ref (ex_trie s)) = false.
Proof.
  intros H s h. split; [apply ex_reachable|]. split; [apply ok_history_b_ok; reflexivity|].
  split; [apply no_collision_b_ok; destruct s; vm_compute; reflexivity|].
  split; [destruct s; vm_compute; discriminate|destruct s; vm_compute; reflexivity].
Qed.

(** C11: a failed call changes nothing observable. *)
Theorem C11_failed_call_changes_nothing : forall (H : Hash), (forall b, length (keccak b) = 32) ->
  forall secure l t c e t', reachable secure l t -> ok_op secure (c_op c) -> mpt_call t c = (Err e, t') ->
  no_collision (m_log t') ->
  m_root t' = m_root t /\ root_hash t' = root_hash t /\ reads_alike t t'.
Proof. exact @failed_call. Qed.
Print Assumptions C11_failed_call_changes_nothing.

Example C11_applies : let H : Hash := toy in forall s : bool,
  let c := Call (Put (bs "dot") (bs "a rather long value that needs a stored leaf node")) 100
    (if s then [false; false; true] else [false; false; false; false; false; true]) in
  reachable s (ex_ops s) (ex_trie s) /\ ok_op s (c_op c) /\
  fst (mpt_call (ex_trie s) c) = Err StorageFault /\
  length (m_map (ex_trie s)) < length (m_map (snd (mpt_call (ex_trie s) c))) /\
  no_collision (m_log (snd (mpt_call (ex_trie s) c))).
Proof.
  intros H s c. split; [apply ex_reachable|]. split; [apply ok_op_b_ok; reflexivity|].
  split; [destruct s; vm_compute; reflexivity|].
  split; [apply Nat.ltb_lt; destruct s; vm_compute; reflexivity|].
  apply no_collision_b_ok; destruct s; vm_compute; reflexivity.
Qed.

(** C12: the storage is content-addressed and append-only. *)
Theorem C12_storage_content_addressed : forall (H : Hash), (forall b, length (keccak b) = 32) ->
  forall secure h l t, mpt_run (mpt_new secure) h = (l, t) ->
  forall k e, dget (m_map t) k = Some e -> k = keccak e /\ 32 <= length e.
Proof. exact @storage_content_addressed. Qed.
Print Assumptions C12_storage_content_addressed.

Theorem C12_storage_append_only : forall (H : Hash), (forall b, length (keccak b) = 32) ->
  forall secure h1 l1 t1 h2 l2 t2, mpt_run (mpt_new secure) h1 = (l1, t1) -> mpt_run t1 h2 = (l2, t2) ->
  (exists new, dkeys (m_map t2) = dkeys (m_map t1) ++ new) /\
  (no_collision (m_log t2) -> forall k e, dget (m_map t1) k = Some e -> dget (m_map t2) k = Some e).
Proof. exact @storage_append_only. Qed.
Print Assumptions C12_storage_append_only.

Example C12_applies : let H : Hash := toy in forall s : bool,
  3 <= length (m_map (ex_trie s)) /\
  length (m_map (ex_trie s)) < length (m_map (snd (mpt_run (ex_trie s) [del "dog"; put "hat" "cap"]))) /\
  no_collision (m_log (snd (mpt_run (ex_trie s) [del "dog"; put "hat" "cap"]))).
Proof.
  intros H s. split; [apply Nat.leb_le; destruct s; vm_compute; reflexivity|].
  split; [apply Nat.ltb_lt; destruct s; vm_compute; reflexivity|].
  apply no_collision_b_ok; destruct s; vm_compute; reflexivity.
Qed.

(** C13: a secure trie is a plain trie driven with hashed keys. *)
Theorem C13_secure_is_plain_on_hashed_keys : forall (H : Hash) h,
  mpt_run (mpt_new false) (map hash_call h) =
    (map hash_op (fst (mpt_run (mpt_new true) h)), as_plain (snd (mpt_run (mpt_new true) h))).
Proof. exact @secure_run. Qed.
Print Assumptions C13_secure_is_plain_on_hashed_keys.

Theorem C13_secure_reads : forall (H : Hash) t lim k time, m_secure t = true ->
  mpt_get lim t k = mpt_get lim (as_plain t) (keccak k) /\
  mpt_contains lim t k = mpt_contains lim (as_plain t) (keccak k) /\
  mpt_get_poi lim time t k = mpt_get_poi lim time (as_plain t) (keccak k) /\
  mpt_get_poe lim time t k = mpt_get_poe lim time (as_plain t) (keccak k).
Proof. exact @secure_reads. Qed.
Print Assumptions C13_secure_reads.

Theorem C13_secure_absent_get_raises : forall (H : Hash), (forall b, length (keccak b) = 32) ->
  forall l t k lim, reachable true l t -> keys_ok true (k :: map op_key l) -> dict_after l k = None ->
  exists e, mpt_get lim t k = Err e.
Proof. exact @secure_absent. Qed.
Print Assumptions C13_secure_absent_get_raises.

Example C13_applies : let H : Hash := toy in
  reachable true (ex_ops true) (ex_trie true) /\ keys_ok true (bs "d" :: map op_key (ex_ops true)) /\
  dict_after (ex_ops true) (bs "d") = None /\ m_secure (ex_trie true) = true.
Proof.
  intros H. split; [apply ex_reachable|]. split; [apply ex_keys_ok1; vm_compute; reflexivity|].
  rewrite ex_ops_are. split; [reflexivity|vm_compute; reflexivity].
Qed.

(** C14 is false of the code: a key stored with the empty value is lost when a later put
    splits its leaf. *)
Theorem C14_empty_values_refuted : let H : Hash := keccak256 in
  exists h l t k lim, mpt_run (mpt_new false) h = (l, t) /\ no_collision (m_log t) /\
    map c_op h = l /\ dict_after l k = Some [] /\ frames false k < lim /\ mpt_contains lim t k = Ok false.
Proof. exact empty_value_refuted. Qed.
Print Assumptions C14_empty_values_refuted.

(** In secure mode C14 holds. *)
Theorem C14_empty_values_secure : forall (H : Hash), (forall b, length (keccak b) = 32) ->
  forall l t k lim, reachable true l t -> keys_ok true (k :: map op_key l) -> dict_after l k = Some [] -> frames true k < lim ->
  mpt_get lim t k = Ok [] /\ mpt_contains lim t k = Ok true.
Proof. exact @empty_value_secure. Qed.
Print Assumptions C14_empty_values_secure.

Example C14_applies : let H : Hash := toy in
  reachable true (map c_op void_hist) void_trie /\ keys_ok true (bs "dog" :: map op_key (map c_op void_hist)) /\
  dict_after (map c_op void_hist) (bs "dog") = Some [] /\ dict_after (map c_op void_hist) (bs "do") = Some [] /\
  dict_after (map c_op void_hist) (bs "doge") = None.
Proof.
  intros H. split; [exact void_reachable|]. split; [intros _; apply no_collision_b_ok; vm_compute; reflexivity|]. repeat split; reflexivity.
Qed.

(** C54: what [contains] answers, exactly. *)
Theorem C54_contains_characterised : forall (H : Hash), (forall b, length (keccak b) = 32) ->
  forall secure l t k lim, reachable secure l t -> keys_ok secure (k :: map op_key l) -> frames secure k < lim ->
  exists b, mpt_contains lim t k = Ok b /\
    (b = true <-> dict_after l k <> None \/ (secure = false /\ false_positive (dict_after l) k)).
Proof. exact @contains_exact_nf. Qed.
Print Assumptions C54_contains_characterised.

Theorem C54_contains_exact_without_prefixes : forall (H : Hash), (forall b, length (keccak b) = 32) ->
  forall secure l t k lim, reachable secure l t -> keys_ok secure (k :: map op_key l) -> frames secure k < lim ->
  secure = true \/ ~ prefixed_in (dict_after l) k ->
  mpt_contains lim t k = Ok (match dict_after l k with Some _ => true | None => false end).
Proof. exact @contains_exact. Qed.
Print Assumptions C54_contains_exact_without_prefixes.

Example C54_applies : let H : Hash := toy in forall s : bool,
  reachable s (ex_ops s) (ex_trie s) /\ keys_ok s (bs "hat" :: map op_key (ex_ops s)) /\
  frames s (bs "hat") < 100 /\ ~ prefixed_in (dict_after (ex_ops s)) (bs "hat").
Proof.
  intros H s. split; [apply ex_reachable|]. split; [apply ex_keys_ok1; destruct s; vm_compute; reflexivity|].
  rewrite ex_ops_are. split; [destruct s; cbn; lia|]. apply hat_not_prefixed.
Qed.

(** C55: without storage failures and with enough stack frames, [update] succeeds. *)
Theorem C55_update_succeeds : forall (H : Hash), (forall b, length (keccak b) = 32) ->
  forall secure l t k v lim res t', reachable secure l t -> ok_op secure (Put k v) ->
  mpt_update lim [] t k v = (res, t') -> no_collision (m_log t') -> frames secure k < lim ->
  res = Ok tt /\ reachable secure (l ++ [Put k v]) t'.
Proof. exact @update_succeeds_full. Qed.
Print Assumptions C55_update_succeeds.

Example C55_applies : let H : Hash := toy in forall s : bool,
  reachable s (ex_ops s) (ex_trie s) /\ ok_op s (Put (bs "dot") (bs "period")) /\
  no_collision (m_log (snd (mpt_update 100 [] (ex_trie s) (bs "dot") (bs "period")))) /\ frames s (bs "dot") < 100.
Proof.
  intros H s. split; [apply ex_reachable|]. split; [apply ok_op_b_ok; reflexivity|].
  split; [apply no_collision_b_ok; destruct s; vm_compute; reflexivity|destruct s; cbn; lia].
Qed.
