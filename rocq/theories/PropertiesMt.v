(** Properties of MerkleTools, MerkleTree and the proofs they make (C42-C50, C68-C83). Theorem statements only; proofs are in
    MtProofs.v, MtProofs2.v, MtSound.v, MtRlp.v and MtRefutations.v. *)
From Coq Require Import String List Bool Arith NArith ZArith Lia.
From Verif Require Import Base BaseProofs Rlp Keccak KeccakProofs ProofObj Spec MptEq Examples MerkleTree SpecMt MtProofs MtProofs2 MtSound
  MtRlp MtRefutations MtExamples.
Import ListNotations.

(** C42: after any history, once make_tree was called and nothing put since, every value has a proof that verifies. *)
Theorem C42_plain_proofs_verify : forall (H : Hash) t vs v time, built_over false t vs -> In v vs ->
  exists p, get_poi t time (VBytes v) = (Ok p, t) /\ pf_key p = v /\ verify_poi t p = (Ok true, t).
Proof. exact @plain_poi_verifies. Qed.
Print Assumptions C42_plain_proofs_verify.

Example C42_example : @built_over toy false (ex_mt false) ex_mt_vals /\ In (bs "doge") ex_mt_vals /\
  length (pf_proof (ex_poi false (bs "doge"))) = 3.
Proof. split; [exact (ex_mt_built false)|]. split; [cbn; tauto|vm_compute; reflexivity]. Qed.

(** C43 is false of the code: in secure mode (the default) the target of the proof is the raw value, not the stored leaf, and
    the proof is rejected. *)
Theorem C43_secure_proofs_verify_refuted : forall (H : Hash), (forall b, length (keccak b) = 32) ->
  exists t vs v p, built_over true t vs /\ In v vs /\ get_poi t [] (VBytes v) = (Ok p, t) /\ verify_poi t p = (Ok false, t).
Proof. exact @secure_refuted. Qed.
Print Assumptions C43_secure_proofs_verify_refuted.

(** It is rejected for every tree and every member, barring collisions. *)
Theorem C43_every_secure_proof_rejected_refuted : forall (H : Hash) t vs v time p pa, built_over true t vs -> In v vs ->
  get_poi t time (VBytes v) = (Ok p, t) -> proof_path (pf_proof p) = Some pa -> v <> keccak v ->
  no_collision (path_hashed v pa ++ path_hashed (keccak v) pa) -> verify_poi t p = (Ok false, t).
Proof. exact @secure_rejects. Qed.
Print Assumptions C43_every_secure_proof_rejected_refuted.

Example C43_example : let H : Hash := toy in let v := bs "doge" in let p := ex_poi true v in
  @built_over H true (ex_mt true) ex_mt_vals /\ In v ex_mt_vals /\ get_poi (ex_mt true) (bs "now") (VBytes v) = (Ok p, ex_mt true) /\
  proof_path (pf_proof p) = Some (ex_path p) /\ bytes_eqb v (keccak v) = false /\
  no_collision (path_hashed v (ex_path p) ++ path_hashed (keccak v) (ex_path p)).
Proof.
  intros H v p. split; [exact (ex_mt_built true)|]. split; [cbn; tauto|]. split; [vm_compute; reflexivity|].
  split; [vm_compute; reflexivity|]. split; [vm_compute; reflexivity|]. apply no_collision_b_ok. vm_compute. reflexivity.
Qed.

(** C68: what holds in secure mode: the same proof with the digest of the value as target verifies. *)
Theorem C68_secure_proofs_verify_for_the_digest : forall (H : Hash) s t vs v time p, built_over s t vs -> In v vs ->
  get_poi t time (VBytes v) = (Ok p, t) ->
  verify_poi t (mkProof (pf_type p) (pf_time p) (if s then keccak v else v) (pf_root p) (pf_proof p)) = (Ok true, t).
Proof. exact @honest_verifies. Qed.
Print Assumptions C68_secure_proofs_verify_for_the_digest.

Theorem C68_secure_proofs_exist : forall (H : Hash) s t vs v time, built_over s t vs -> In v vs ->
  exists pa, path_root (if s then keccak v else v) pa = merkle_root (leaves_of s vs) /\
  get_poi t time (VBytes v) =
    (Ok (mkProof MT_POI time v (to_hex (merkle_root (leaves_of s vs)))
           (map (fun p => PPair (fst p) (snd p)) (map (fun x : bool * bytes => (if fst x then s_left else s_right, to_hex (snd x))) pa))), t).
Proof. exact @built_poi. Qed.
Print Assumptions C68_secure_proofs_exist.

Example C68_example : let H : Hash := toy in let v := bs "doge" in let p := ex_poi true v in
  @built_over H true (ex_mt true) ex_mt_vals /\ get_poi (ex_mt true) (bs "now") (VBytes v) = (Ok p, ex_mt true) /\
  fst (verify_poi (ex_mt true) p) = Ok false /\
  fst (verify_poi (ex_mt true) (mkProof (pf_type p) (pf_time p) (keccak v) (pf_root p) (pf_proof p))) = Ok true.
Proof. intros H v p. split; [exact (ex_mt_built true)|]. split; [vm_compute; reflexivity|]. split; vm_compute; reflexivity. Qed.

(** C44: MerkleTools, both modes. *)
Theorem C44_tools_proofs_verify : forall (H : Hash) s t vs v, built_over s t vs -> In v vs -> exists l r,
  tools_poi t v = Ok l /\ tools_root t = Ok (to_hex r) /\
  tools_verify (map (fun p => [p]) l) (if s then keccak v else v) r = Ok true.
Proof. exact @tools_poi_verifies. Qed.
Print Assumptions C44_tools_proofs_verify.

Example C44_example : let H : Hash := toy in @built_over H true (ex_mt true) ex_mt_vals /\
  match tools_poi (ex_mt true) (bs "do") with Ok l => length l | Err _ => 0 end = 3.
Proof. intros H. split; [exact (ex_mt_built true)|vm_compute; reflexivity]. Qed.

(** C45 is false of the code, for every hash function. *)
Theorem C45_accepted_means_member_refuted : forall (H : Hash), exists t vs p,
  built_over false t vs /\ fst (verify_poi t p) = Ok true /\ ~ In (pf_key p) vs.
Proof. exact @member_refuted. Qed.
Print Assumptions C45_accepted_means_member_refuted.

(** In both modes every tree accepts its own root as a member, and every tree of two or more leaves the string hashed for it. *)
Theorem C45_root_accepted_refuted : forall (H : Hash) s t vs time, built_over s t vs ->
  let r := merkle_root (leaves_of s vs) in fst (verify_poi t (mkProof MT_POI time r (to_hex r) [])) = Ok true.
Proof. exact @root_accepted. Qed.
Print Assumptions C45_root_accepted_refuted.

Theorem C45_halves_accepted_refuted : forall (H : Hash) s t vs time, built_over s t vs ->
  forall l r, tree_of (leaves_of s vs) = Node l r ->
  fst (verify_poi t (mkProof MT_POI time (thash l ++ thash r) (to_hex (merkle_root (leaves_of s vs))) [PPair s_right []])) = Ok true.
Proof. exact @halves_accepted. Qed.
Print Assumptions C45_halves_accepted_refuted.

(** C46 is false of the code as stated: a leaf may be the digest of a pair. *)
Theorem C46_accepted_means_node_refuted : forall (H : Hash), (forall b, length (keccak b) = 32) ->
  no_collision [[]; [x00]; keccak [] ++ keccak [x00]] ->
  exists t vs p pa, built_over false t vs /\ fst (verify_poi t p) = Ok true /\ proof_path (pf_proof p) = Some pa /\
    length (pf_key p) = 32 /\ (forall b, In b vs -> length b = 32) /\ (forall s, In s pa -> length (snd s) = 32) /\
    no_collision (hashed (tree_of vs) ++ path_hashed (pf_key p) pa) /\ ~ In (pf_key p) (nodes (tree_of vs)).
Proof. exact @node_refuted. Qed.
Print Assumptions C46_accepted_means_node_refuted.

Example C46_example : let H : Hash := toy in (forall b, length (keccak b) = 32) /\
  no_collision [[]; [x00]; keccak [] ++ keccak [x00]].
Proof. intros H. split; [exact toy_len|]. apply no_collision_b_ok. vm_compute. reflexivity. Qed.

(** C69: what an accepted proof does imply: the target is a node of the tree, or a leaf is the digest of a string that the
    proof combines. In secure mode the latter means that such a string was put. *)
Theorem C69_accepted_target : forall (H : Hash) d, (forall b, length (keccak b) = d) -> forall s t vs p pa, built_over s t vs ->
  fst (verify_poi t p) = Ok true -> proof_path (pf_proof p) = Some pa ->
  length (pf_key p) = d -> (forall b, In b (leaves_of s vs) -> length b = d) ->
  no_collision (hashed (tree_of (leaves_of s vs)) ++ path_hashed (pf_key p) pa) ->
  In (pf_key p) (nodes (tree_of (leaves_of s vs))) \/
  exists b y, In b (leaves_of s vs) /\ In y (path_hashed (pf_key p) pa) /\ b = keccak y.
Proof. exact @accepted_node. Qed.
Print Assumptions C69_accepted_target.

Theorem C69_accepted_target_secure : forall (H : Hash) d, (forall b, length (keccak b) = d) -> forall t vs p pa, built_over true t vs ->
  fst (verify_poi t p) = Ok true -> proof_path (pf_proof p) = Some pa -> length (pf_key p) = d ->
  no_collision (all_hashed true vs ++ path_hashed (pf_key p) pa) ->
  In (pf_key p) (nodes (tree_of (leaves_of true vs))) \/ exists v, In v vs /\ In v (path_hashed (pf_key p) pa).
Proof. exact @accepted_node_secure. Qed.
Print Assumptions C69_accepted_target_secure.

Example C69_example : let H : Hash := toy in let v := bs "doge" in let p0 := ex_poi true v in
  let p := mkProof (pf_type p0) (pf_time p0) (keccak v) (pf_root p0) (pf_proof p0) in
  @built_over H true (ex_mt true) ex_mt_vals /\ fst (verify_poi (ex_mt true) p) = Ok true /\
  proof_path (pf_proof p) = Some (ex_path p) /\ no_collision (all_hashed true ex_mt_vals ++ path_hashed (pf_key p) (ex_path p)).
Proof.
  intros H v p0 p. split; [exact (ex_mt_built true)|]. split; [vm_compute; reflexivity|]. split; [vm_compute; reflexivity|].
  apply no_collision_b_ok. vm_compute. reflexivity.
Qed.

(** C47 is false of the code: put after make_tree. *)
Theorem C47_root_reflects_all_values_refuted : forall (H : Hash), (forall b, length (keccak b) = 32) -> exists h outs t,
  mt_run (mt_new false) h = (outs, t) /\ values h = [[x61]; [x62]] /\
  fst (get_root t) = Ok (to_hex [x61]) /\ fst (get_root t) <> Ok (to_hex (merkle_root (leaves_of false (values h)))).
Proof. exact @root_refuted. Qed.
Print Assumptions C47_root_reflects_all_values_refuted.

(** C70: after make_tree the root is that of the specified tree over all values in order; it stays so whatever is put,
    until the next make_tree or reset_tree. Before the first make_tree the first question computes it. *)
Theorem C70_root_after_make : forall (H : Hash) s t vs, built_over s t vs ->
  get_root t = (Ok (to_hex (merkle_root (leaves_of s vs))), t).
Proof. exact @built_root. Qed.
Print Assumptions C70_root_after_make.

Theorem C70_root_until_next_make : forall (H : Hash) s t vs h, built_over s t vs -> forallb no_rebuild h = true ->
  let t' := snd (mt_run t h) in get_root t' = (Ok (to_hex (merkle_root (leaves_of s vs))), t').
Proof. exact @stale_root. Qed.
Print Assumptions C70_root_until_next_make.

Theorem C70_root_without_make : forall (H : Hash) s h outs t, mt_run (mt_new s) h = (outs, t) ->
  forallb only_put h = true -> values h <> [] ->
  fst (get_root t) = Ok (to_hex (merkle_root (leaves_of s (values h)))).
Proof. exact @lazy_root. Qed.
Print Assumptions C70_root_without_make.

Example C70_example : let H : Hash := toy in @built_over H false (ex_mt false) ex_mt_vals /\
  forallb no_rebuild [OPut (VBytes (bs "new")); ORoot] = true /\
  merkle_root ex_mt_vals = keccak (keccak (keccak (bs "do" ++ bs "dog") ++ keccak (bs "doge" ++ bs "horse")) ++ bs "do") /\
  forallb only_put [OPut (VBytes (bs "a")); OReset; OPutList [VBytes (bs "b"); VBytes (bs "c")]; OGet 0%Z] = true.
Proof. intros H. split; [exact (ex_mt_built false)|]. split; [reflexivity|]. split; vm_compute; reflexivity. Qed.

(** C48: the root commits to leaves of known lengths (in particular of digest length), and in secure mode to the values. *)
Theorem C48_root_commits : forall (H : Hash) d, (forall b, length (keccak b) = d) -> forall t vs t' vs',
  built_over false t vs -> built_over false t' vs' -> map (@length byte) vs = map (@length byte) vs' ->
  fst (get_root t) = fst (get_root t') ->
  no_collision (hashed (tree_of vs) ++ hashed (tree_of vs')) -> vs = vs'.
Proof. exact @plain_root_commits. Qed.
Print Assumptions C48_root_commits.

Theorem C48_root_commits_secure : forall (H : Hash) d, (forall b, length (keccak b) = d) -> forall t vs t' vs',
  built_over true t vs -> built_over true t' vs' -> length vs = length vs' ->
  fst (get_root t) = fst (get_root t') ->
  no_collision (all_hashed true vs ++ all_hashed true vs') -> vs = vs'.
Proof. exact @secure_root_commits. Qed.
Print Assumptions C48_root_commits_secure.

Example C48_example : let H : Hash := toy in let vs := ex_digests in
  built_over false (tree_over false vs) vs /\ no_collision (hashed (tree_of vs) ++ hashed (tree_of (rev vs))) /\
  map (@length byte) vs = map (@length byte) (rev vs) /\
  match fst (get_root (tree_over false vs)), fst (get_root (tree_over false (rev vs))) with
  | Ok a, Ok b => bytes_eqb a b | _, _ => true end = false /\
  no_collision (all_hashed true ex_mt_vals ++ all_hashed true (rev ex_mt_vals)).
Proof.
  intros H vs. split; [apply tree_over_built; discriminate|]. split; [apply no_collision_b_ok; vm_compute; reflexivity|].
  split; [vm_compute; reflexivity|]. split; [vm_compute; reflexivity|]. apply no_collision_b_ok; vm_compute; reflexivity.
Qed.

(** C71 is false of the code: the number of leaves is not covered by the root, in either mode. *)
Theorem C71_root_commits_to_count_refuted : forall (H : Hash) a b, (forall x, length (keccak x) = 32) ->
  let vs := [a; b] in let ws := [keccak (a ++ b)] in let ws' := [keccak a ++ keccak b] in
  fst (get_root (tree_over false vs)) = fst (get_root (tree_over false ws)) /\
  fst (get_root (tree_over true vs)) = fst (get_root (tree_over true ws')) /\
  (forall w, In w ws -> length w = 32) /\ length vs <> length ws /\ length vs <> length ws'.
Proof. exact @count_refuted. Qed.
Print Assumptions C71_root_commits_to_count_refuted.

(** C72: in secure mode the root does commit to the whole list of values, their number included, if no value has the length
    of two digests. *)
Theorem C72_secure_root_commits_to_everything : forall (H : Hash) d, (forall b, length (keccak b) = d) -> forall t vs t' vs',
  built_over true t vs -> built_over true t' vs' -> (forall v, In v (vs ++ vs') -> length v <> 2 * d) ->
  fst (get_root t) = fst (get_root t') ->
  no_collision (all_hashed true vs ++ all_hashed true vs') -> vs = vs'.
Proof. exact @secure_root_commits_any. Qed.
Print Assumptions C72_secure_root_commits_to_everything.

Example C72_example : let H : Hash := toy in let vs := ex_mt_vals in let ws := [bs "do"; bs "dog"] in
  built_over true (ex_mt true) vs /\ built_over true (tree_over true ws) ws /\
  forallb (fun v => negb (length v =? 64)) (vs ++ ws) = true /\ no_collision (all_hashed true vs ++ all_hashed true ws).
Proof.
  intros H vs ws. split; [exact (ex_mt_built true)|]. split; [apply tree_over_built; discriminate|]. split; [reflexivity|].
  apply no_collision_b_ok; vm_compute; reflexivity.
Qed.

(** C73: the sides of the siblings fix the position: an accepted proof with the sides of the honest proof of [v], for a target
    as long as the leaf of [v], is that proof. *)
Theorem C73_sides_fix_the_position : forall (H : Hash) d, (forall b, length (keccak b) = d) ->
  forall s t vs v time p q pa pb, built_over s t vs ->
  In v vs -> fst (get_poi t time (VBytes v)) = Ok q -> fst (verify_poi t p) = Ok true ->
  proof_path (pf_proof p) = Some pa -> proof_path (pf_proof q) = Some pb -> map fst pa = map fst pb ->
  length (pf_key p) = length (if s then keccak v else v) ->
  no_collision (path_hashed (pf_key p) pa ++ path_hashed (if s then keccak v else v) pb) ->
  pf_key p = (if s then keccak v else v) /\ pa = pb.
Proof. exact @accepted_position. Qed.
Print Assumptions C73_sides_fix_the_position.

Example C73_example : let H : Hash := toy in let v := bs "doge" in let p := ex_poi false v in
  fst (get_poi (ex_mt false) (bs "now") (VBytes v)) = Ok p /\ fst (verify_poi (ex_mt false) p) = Ok true /\
  proof_path (pf_proof p) = Some (ex_path p) /\ no_collision (path_hashed (pf_key p) (ex_path p) ++ path_hashed v (ex_path p)).
Proof.
  intros H v p. split; [vm_compute; reflexivity|]. split; [vm_compute; reflexivity|]. split; [vm_compute; reflexivity|].
  apply no_collision_b_ok; vm_compute; reflexivity.
Qed.

(** C74: acceptance, exactly; in particular only under the current root of the verifying tree. *)
Theorem C74_acceptance_exactly : forall (H : Hash) t p t', verify_poi t p = (Ok true, t') <->
  exists pa, proof_path (pf_proof p) = Some pa /\ from_hex (pf_root p) = Some (path_root (pf_key p) pa) /\
             get_root t = (Ok (pf_root p), t').
Proof. exact @verify_exact. Qed.
Print Assumptions C74_acceptance_exactly.

Theorem C74_acceptance_built : forall (H : Hash) s t vs p, built_over s t vs ->
  (fst (verify_poi t p) = Ok true <->
   pf_root p = to_hex (merkle_root (leaves_of s vs)) /\
   exists pa, proof_path (pf_proof p) = Some pa /\ path_root (pf_key p) pa = merkle_root (leaves_of s vs)).
Proof. exact @accepted_iff. Qed.
Print Assumptions C74_acceptance_built.

Example C74_example : let H : Hash := toy in let p := ex_poi false (bs "doge") in
  fst (verify_poi (ex_mt false) p) = Ok true /\ fst (verify_poi (tree_over false (bs "x" :: ex_mt_vals)) p) = Ok false.
Proof. intros H p. split; vm_compute; reflexivity. Qed.

(** C75 is false of the code: comparing trees. *)
Theorem C75_tree_equality_refuted : forall (H : Hash),
  let a := tree_over false [[x01]] in let b := tree_over false [[x00; x01]] in let e := tree_over false [[]] in
  fst (mt_eq a b) = Ok true /\ fst (get_root a) <> fst (get_root b) /\ fst (mt_eq e e) = Err ValueError /\
  fst (mt_eq (mt_new false) (mt_new false)) = Err ValueError.
Proof. exact @eq_refuted. Qed.
Print Assumptions C75_tree_equality_refuted.

(** C76: the part that holds, for roots of the same non-zero length. *)
Theorem C76_tree_equality_same_length : forall (H : Hash) s1 t1 vs1 s2 t2 vs2, built_over s1 t1 vs1 -> built_over s2 t2 vs2 ->
  let r1 := merkle_root (leaves_of s1 vs1) in let r2 := merkle_root (leaves_of s2 vs2) in
  r1 <> [] -> length r1 = length r2 ->
  exists b, mt_eq t1 t2 = (Ok b, (t1, t2)) /\ (b = true <-> r1 = r2).
Proof. exact @eq_exact. Qed.
Print Assumptions C76_tree_equality_same_length.

Example C76_example : let H : Hash := toy in built_over false (ex_mt false) ex_mt_vals /\
  length (merkle_root (leaves_of false ex_mt_vals)) = 32 /\
  fst (mt_eq (ex_mt false) (ex_mt false)) = Ok true /\ fst (mt_eq (ex_mt false) (ex_mt true)) = Ok false.
Proof. intros H. split; [exact (ex_mt_built false)|]. split; [vm_compute; reflexivity|]. split; vm_compute; reflexivity. Qed.

(** C77: the leaves, after every history. *)
Theorem C77_leaves : forall (H : Hash) s h outs t, mt_run (mt_new s) h = (outs, t) ->
  t_leaves t = leaves_of s (values h) /\
  (forall i v, nth_error (values h) i = Some v -> get t (Z.of_nat i) = Ok (to_hex (if s then keccak v else v)) /\
     get t (Z.of_nat i - Z.of_nat (length (values h))) = Ok (to_hex (if s then keccak v else v))) /\
  (forall z, (z < - Z.of_nat (length (values h)) \/ Z.of_nat (length (values h)) <= z)%Z -> get t z = Err IndexError).
Proof. exact @history_get. Qed.
Print Assumptions C77_leaves.

Example C77_example : let H : Hash := toy in values ex_mt_hist = ex_mt_vals /\ get (ex_mt false) (-2)%Z = Ok (to_hex (bs "horse")) /\
  get (ex_mt false) 5%Z = Err IndexError /\ get (ex_mt false) (-6)%Z = Err IndexError.
Proof. intros H. split; [reflexivity|]. split; [vm_compute; reflexivity|]. split; vm_compute; reflexivity. Qed.

(** C78 is false of the code: put_list is not atomic, on any tree. *)
Theorem C78_put_list_atomic_refuted : forall (H : Hash) t b,
  put_list t [VBytes b; VOther] = (Err TypeError, add_leaf t b) /\ add_leaf t b <> t.
Proof. exact @put_list_refuted. Qed.
Print Assumptions C78_put_list_atomic_refuted.

(** C79 is false of the code: values put after make_tree. *)
Theorem C79_ready_tree_proves_all_refuted : forall (H : Hash),
  let t := snd (mt_run (mt_new false) [OPut (VBytes [x61]); OMake; OPut (VBytes [x62])]) in
  exists p, get_poi t [] (VBytes [x62]) = (Ok p, t) /\ verify_poi t p = (Ok false, t).
Proof. exact @stale_refuted. Qed.
Print Assumptions C79_ready_tree_proves_all_refuted.

Theorem C79_proof_raises_refuted : forall (H : Hash),
  let t := snd (mt_run (mt_new false) [OPutList (letters 3); OMake; OPutList (skipn 3 (letters 6))]) in
  In [x66] (t_leaves t) /\ get_poi t [] (VBytes [x66]) = (Err IndexError, t).
Proof. exact @stale_index_refuted. Qed.
Print Assumptions C79_proof_raises_refuted.

Theorem C79_old_value_loses_its_proof_refuted : forall (H : Hash), (forall b, length (keccak b) = 32) ->
  let t0 := tree_over false [[x61]; [x62]; [x63]] in
  let t := snd (mt_run t0 [OPut (VBytes [x64])]) in
  let u := keccak [x61; x62] in
  no_collision [u ++ [x63]; u ++ keccak [x63; x64]] ->
  exists p q, get_poi t0 [] (VBytes [x63]) = (Ok p, t0) /\ verify_poi t0 p = (Ok true, t0) /\
    get_poi t [] (VBytes [x63]) = (Ok q, t) /\ verify_poi t q = (Ok false, t).
Proof. exact @stale_old_refuted. Qed.
Print Assumptions C79_old_value_loses_its_proof_refuted.

Example C79_example : let H : Hash := toy in let u := keccak [x61; x62] in no_collision [u ++ [x63]; u ++ keccak [x63; x64]].
Proof. intros H u. apply no_collision_b_ok; vm_compute; reflexivity. Qed.

(** C80 is false of the code: verification raises on malformed proof objects. *)
Theorem C80_verification_returns_refuted : forall (H : Hash) t k r, let p l := mkProof MT_POI [] k r l in
  verify_poi t (p [PB [x61]]) = (Err AttributeError, t) /\
  verify_poi t (p [PB []]) = (Err IndexError, t) /\
  verify_poi t (p [PPair [xff] []]) = (Err UnicodeDecodeError, t) /\
  verify_poi t (mkProof MT_POI [] k [xff] []) = (Err UnicodeDecodeError, t) /\
  verify_poi t (mkProof MT_POI [] k [x7a] []) = (Err ValueError, t) /\
  verify_poi t (mkProof MT_POI [] k [] [PPair [x75; x70] []]) = (Err KeyError, t) /\
  verify_poi t (mkProof MT_POI [] k [] [PPair s_left [x7a]]) = (Err KeyError, t) /\
  verify_poi t (mkProof MT_POI [] k [] [PPair s_right [x7a]]) = (Ok false, t).
Proof. exact @raises_refuted. Qed.
Print Assumptions C80_verification_returns_refuted.

(** C81 is false of the code: asking an empty tree for its root spoils later questions. *)
Theorem C81_root_of_nonempty_tree_refuted : forall (H : Hash) s b, let t := snd (mt_run (mt_new s) [ORoot; OPut (VBytes b)]) in
  fst (get_root t) = Err ValueError /\ t_leaves t = leaves_of s [b] /\
  fst (get_root (snd (mt_run (mt_new s) [OPut (VBytes b)]))) = Ok (to_hex (if s then keccak b else b)).
Proof. exact @early_root_refuted. Qed.
Print Assumptions C81_root_of_nonempty_tree_refuted.

(** C82: questions change nothing, except that they may build a tree that is not built. *)
Theorem C82_questions_only_build : forall (H : Hash) t o, op_values o = [] -> o <> OReset -> o <> OMake ->
  let t' := snd (mt_call t o) in t' = t \/ (t_ready t = false /\ make_tree t = Ok t').
Proof. exact @reads_frame. Qed.
Print Assumptions C82_questions_only_build.

Theorem C82_absent_value_has_no_proof : forall (H : Hash) s t vs v time, built_over s t vs ->
  ~ In (if s then keccak v else v) (leaves_of s vs) -> get_poi t time (VBytes v) = (Err ValueError, t).
Proof. exact @absent_poi. Qed.
Print Assumptions C82_absent_value_has_no_proof.

Example C82_example : let H : Hash := toy in
  existsb (bytes_eqb (keccak (bs "cat"))) (leaves_of true ex_mt_vals) = false /\
  fst (get_poi (ex_mt true) [] (VBytes (bs "cat"))) = Err ValueError.
Proof. intros H. split; vm_compute; reflexivity. Qed.

(** C83 is false of the code: without a fixed length of the leaves, the same number of leaves is not enough. *)
Theorem C83_root_commits_any_length_refuted : forall (H : Hash),
  let vs := [[x61]; [x62; x63]] in let ws := [[x61; x62]; [x63]] in
  fst (get_root (tree_over false vs)) = fst (get_root (tree_over false ws)) /\ vs <> ws /\ length vs = length ws /\
  exists r, fst (get_root (tree_over false vs)) = Ok r.
Proof. exact @border_refuted. Qed.
Print Assumptions C83_root_commits_any_length_refuted.

(** C49: RLP of proofs whose elements are byte strings. *)
Theorem C49_flat_proof_round_trip : forall p b, (exists l, pf_proof p = map PB l) -> In (pf_type p) accepted_types ->
  proof_encode_rlp p = Ok b -> proof_decode_rlp b = Ok p.
Proof. exact flat_round_trip. Qed.
Print Assumptions C49_flat_proof_round_trip.

Theorem C49_proof_encodes : forall p, pf_type p = MT_POI -> (proof_size p < 2 ^ 62)%N -> exists b, proof_encode_rlp p = Ok b.
Proof. exact encode_total. Qed.
Print Assumptions C49_proof_encodes.

Theorem C49_decode_exact : forall b p, proof_decode_rlp b = Ok p ->
  (exists l, pf_proof p = map PB l) /\ In (pf_type p) accepted_types /\ (pf_type p = MT_POI -> proof_encode_rlp p = Ok b) /\
  (pf_type p <> MT_POI -> proof_encode_rlp p = Err NotImplementedError).
Proof. exact decode_exact. Qed.
Print Assumptions C49_decode_exact.

Example C49_example : let p := mkProof MT_POI (bs "2024") (bs "key") (bs "00ff") [PB (bs "a"); PB []; PB (bs "bc")] in
  match proof_encode_rlp p with Ok b => match proof_decode_rlp b with Ok q => (length b, pf_proof q) | _ => (0, []) end | _ => (0, []) end
  = (28, [PB (bs "a"); PB []; PB (bs "bc")]).
Proof. vm_compute. reflexivity. Qed.

(** C50 is false of the code for every tree of two or more values: the pairs in the proof do not decode. *)
Theorem C50_tree_proof_round_trip_refuted : forall (H : Hash) s t vs v time p b, built_over s t vs -> In v vs -> 2 <= length vs ->
  get_poi t time (VBytes v) = (Ok p, t) -> proof_encode_rlp p = Ok b -> proof_decode_rlp b = Err DeserializationError.
Proof. exact @mt_proof_rlp_fails. Qed.
Print Assumptions C50_tree_proof_round_trip_refuted.

Theorem C50_single_leaf_round_trip : forall (H : Hash) s t v time p b, built_over s t [v] ->
  get_poi t time (VBytes v) = (Ok p, t) -> proof_encode_rlp p = Ok b -> proof_decode_rlp b = Ok p.
Proof. exact @mt_proof_rlp_single. Qed.
Print Assumptions C50_single_leaf_round_trip.

Example C50_example : let H : Hash := toy in let p := ex_poi false (bs "doge") in
  2 <= length ex_mt_vals /\ fst (get_poi (ex_mt false) (bs "now") (VBytes (bs "doge"))) = Ok p /\
  match proof_encode_rlp p with Ok b => length b | Err _ => 0 end = 189.
Proof. intros H p. split; [cbn; lia|]. split; vm_compute; reflexivity. Qed.
