(** Claims about the Merkle tree that the code does not meet, with witnesses. *)
From Coq Require Import List Bool Arith NArith ZArith Lia.
From Verif Require Import Base BaseProofs ProofObj Spec MptEq MerkleTree SpecMt MtProofs MtProofs2 MtSound.
Import ListNotations.

Lemma good_prefix_all : forall vs, good_prefix (map VBytes vs) = vs.
Proof. induction vs as [|v vs IH]; [reflexivity|]. cbn. rewrite IH. reflexivity. Qed.

Section WithHash.
Context {H : Hash}.

(** A tree filled by put_list and built by make_tree. *)
Definition tree_over (s : bool) (vs : list bytes) : mt :=
  snd (mt_run (mt_new s) [OPutList (map VBytes vs); OMake]).
Lemma tree_over_built : forall s vs, vs <> [] -> built_over s (tree_over s vs) vs.
Proof.
  intros s vs Hne. exists [OPutList (map VBytes vs); OMake]. eexists. split; [apply surjective_pairing|].
  split; [reflexivity|]. split; [|exact Hne].
  cbn [values fold_left values_step op_values app]. rewrite good_prefix_all, app_nil_r. reflexivity.
Qed.

Definition honest (s : bool) (vs : list bytes) (v : bytes) : result proof := fst (get_poi (tree_over s vs) [] (VBytes v)).

(** Every tree accepts its own root, and the two halves hashed for the root, as members. *)
Lemma root_accepted : forall s t vs time, built_over s t vs ->
  let r := merkle_root (leaves_of s vs) in fst (verify_poi t (mkProof MT_POI time r (to_hex r) [])) = Ok true.
Proof.
  intros s t vs time Hb r. apply (accepted_iff s t vs _ Hb). split; [reflexivity|]. exists []. split; reflexivity.
Qed.
Lemma halves_accepted : forall s t vs time, built_over s t vs -> forall l r, tree_of (leaves_of s vs) = Node l r ->
  fst (verify_poi t (mkProof MT_POI time (thash l ++ thash r) (to_hex (merkle_root (leaves_of s vs))) [PPair s_right []])) = Ok true.
Proof.
  intros s t vs time Hb l r Et. apply (accepted_iff s t vs _ Hb). split; [reflexivity|]. exists [(false, [])].
  split; [reflexivity|]. cbn [pf_key path_root combine_step fst snd]. unfold combine_step. cbn [fst snd]. rewrite app_nil_r.
  unfold merkle_root. rewrite Et. reflexivity.
Qed.

Lemma member_refuted : exists t vs p, built_over false t vs /\ fst (verify_poi t p) = Ok true /\
  ~ In (pf_key p) vs.
Proof.
  exists (tree_over false [[x61]; [x62]]), [[x61]; [x62]].
  exists (mkProof MT_POI [] [x61; x62] (to_hex (merkle_root [[x61]; [x62]])) [PPair s_right []]).
  assert (Hb : built_over false (tree_over false [[x61]; [x62]]) [[x61]; [x62]]) by (apply tree_over_built; discriminate).
  split; [exact Hb|]. split; [|intros [E|[E|[]]]; discriminate].
  exact (halves_accepted false _ _ [] Hb (Leaf [x61]) (Leaf [x62]) eq_refl).
Qed.

(** A leaf that is itself the digest of a pair of digests. *)
Lemma node_refuted : (forall b, length (keccak b) = 32) ->
  no_collision [[]; [x00]; keccak [] ++ keccak [x00]] ->
  exists t vs p pa, built_over false t vs /\ fst (verify_poi t p) = Ok true /\ proof_path (pf_proof p) = Some pa /\
    length (pf_key p) = 32 /\ (forall b, In b vs -> length b = 32) /\ (forall s, In s pa -> length (snd s) = 32) /\
    no_collision (hashed (tree_of vs) ++ path_hashed (pf_key p) pa) /\ ~ In (pf_key p) (nodes (tree_of vs)).
Proof.
  intros Hl Hn. set (x := keccak []) in *. set (y := keccak [x00]) in *.
  exists (tree_over false [keccak (x ++ y)]), [keccak (x ++ y)].
  assert (Hb : built_over false (tree_over false [keccak (x ++ y)]) [keccak (x ++ y)]) by (apply tree_over_built; discriminate).
  exists (mkProof MT_POI [] x (to_hex (keccak (x ++ y))) [PPair s_right (to_hex y)]), [(false, y)].
  assert (Hp : proof_path [PPair s_right (to_hex y)] = Some [(false, y)]) by exact (proof_path_hex [(false, y)]).
  split; [exact Hb|]. split; [|split; [exact Hp|]].
  { apply (accepted_iff false _ _ _ Hb). split; [reflexivity|]. exists [(false, y)]. split; [exact Hp|reflexivity]. }
  cbn [pf_key]. split; [apply Hl|]. split; [intros b [<-|[]]; apply Hl|]. split; [intros s [<-|[]]; apply Hl|].
  split.
  - intros a b Ha Hb' _. cbn in Ha, Hb'. destruct Ha as [<-|[]]. destruct Hb' as [<-|[]]. reflexivity.
  - cbn. intros [E|[]]. unfold x in E at 2. apply Hn in E; cbn; auto.
    apply (f_equal (@length byte)) in E. rewrite app_length in E. unfold x, y in E. rewrite !Hl in E. discriminate.
Qed.

(** The default mode rejects the proof of the only leaf. *)
Lemma secure_refuted : (forall b, length (keccak b) = 32) -> exists t vs v p, built_over true t vs /\ In v vs /\
  get_poi t [] (VBytes v) = (Ok p, t) /\ verify_poi t p = (Ok false, t).
Proof.
  intros Hl. exists (tree_over true [[x61]]), [[x61]], [x61].
  assert (Hb : built_over true (tree_over true [[x61]]) [[x61]]) by (apply tree_over_built; discriminate).
  destruct (built_poi true _ _ [x61] [] Hb (or_introl eq_refl)) as (pa & P1 & P2).
  eexists. split; [exact Hb|]. split; [left; reflexivity|]. split; [exact P2|].
  assert (Ep : get_poi (tree_over true [[x61]]) [] (VBytes [x61]) =
    (Ok (mkProof MT_POI [] [x61] (to_hex (keccak [x61])) []), tree_over true [[x61]])).
  { unfold get_poi, tools_poi. cbn. unfold stored. cbn. rewrite bytes_eqb_refl. reflexivity. }
  rewrite Ep in P2. injection P2 as P2. destruct pa as [|s pa]; [|discriminate P2].
  apply (verify_wellformed _ _ [] (merkle_root (leaves_of true [[x61]]))); [reflexivity|apply from_to_hex|].
  cbn [pf_key path_root]. intros E. apply (f_equal (@length byte)) in E. cbn in E. rewrite Hl in E. discriminate.
Qed.

(** put after make_tree. *)
Lemma root_refuted : (forall b, length (keccak b) = 32) -> exists h outs t,
  mt_run (mt_new false) h = (outs, t) /\ values h = [[x61]; [x62]] /\
  fst (get_root t) = Ok (to_hex [x61]) /\ fst (get_root t) <> Ok (to_hex (merkle_root (leaves_of false (values h)))).
Proof.
  intros Hl. exists [OPut (VBytes [x61]); OMake; OPut (VBytes [x62])]. eexists. eexists. split; [reflexivity|].
  split; [reflexivity|]. split; [reflexivity|]. intros E. cbn [get_root t_ready fst] in E.
  assert (E' : to_hex [x61] = to_hex (merkle_root [[x61]; [x62]])) by (injection E; auto). apply to_hex_inj in E'.
  apply (f_equal (@length byte)) in E'. cbn in E'. rewrite Hl in E'. discriminate.
Qed.

(** Trees of different sizes with the same root, in both modes. *)
Lemma count_refuted : forall a b, (forall x, length (keccak x) = 32) ->
  let vs := [a; b] in let ws := [keccak (a ++ b)] in let ws' := [keccak a ++ keccak b] in
  fst (get_root (tree_over false vs)) = fst (get_root (tree_over false ws)) /\
  fst (get_root (tree_over true vs)) = fst (get_root (tree_over true ws')) /\
  (forall w, In w ws -> length w = 32) /\ length vs <> length ws /\ length vs <> length ws'.
Proof.
  intros a b Hl vs ws ws'. split; [reflexivity|]. split; [reflexivity|]. split; [intros w [<-|[]]; apply Hl|]. split; discriminate.
Qed.

(** Leaves of different lengths: the border between two leaves is not hashed. *)
Lemma border_refuted : let vs := [[x61]; [x62; x63]] in let ws := [[x61; x62]; [x63]] in
  fst (get_root (tree_over false vs)) = fst (get_root (tree_over false ws)) /\ vs <> ws /\ length vs = length ws /\
  exists r, fst (get_root (tree_over false vs)) = Ok r.
Proof. intros vs ws. split; [reflexivity|]. split; [discriminate|]. split; [reflexivity|]. eexists. reflexivity. Qed.

(** Comparing trees. *)
Lemma eq_refuted : let a := tree_over false [[x01]] in let b := tree_over false [[x00; x01]] in let e := tree_over false [[]] in
  fst (mt_eq a b) = Ok true /\ fst (get_root a) <> fst (get_root b) /\ fst (mt_eq e e) = Err ValueError /\
  fst (mt_eq (mt_new false) (mt_new false)) = Err ValueError.
Proof. split; [reflexivity|]. split; [discriminate|]. split; reflexivity. Qed.

Lemma put_list_refuted : forall t b, put_list t [VBytes b; VOther] = (Err TypeError, add_leaf t b) /\ add_leaf t b <> t.
Proof.
  intros t b. split; [reflexivity|]. intros E. apply (f_equal (fun t => length (t_leaves t))) in E. cbn in E.
  rewrite app_length in E. cbn in E. lia.
Qed.

(** A value put after make_tree: its proof is refused, or cannot be made. *)
Lemma stale_refuted : let t := snd (mt_run (mt_new false) [OPut (VBytes [x61]); OMake; OPut (VBytes [x62])]) in
  exists p, get_poi t [] (VBytes [x62]) = (Ok p, t) /\ verify_poi t p = (Ok false, t).
Proof. eexists. split; reflexivity. Qed.
Definition letters (n : nat) : list pyval := map (fun i => VBytes [nB (N.of_nat (97 + i))]) (seq 0 n).
Lemma stale_index_refuted : let t := snd (mt_run (mt_new false) [OPutList (letters 3); OMake; OPutList (skipn 3 (letters 6))]) in
  In [x66] (t_leaves t) /\ get_poi t [] (VBytes [x66]) = (Err IndexError, t).
Proof. split; [cbn; tauto|reflexivity]. Qed.

(** The proof of an old value is spoiled by a later put. *)
Lemma stale_old_refuted : (forall b, length (keccak b) = 32) ->
  let t0 := tree_over false [[x61]; [x62]; [x63]] in
  let t := snd (mt_run t0 [OPut (VBytes [x64])]) in
  let u := keccak [x61; x62] in
  no_collision [u ++ [x63]; u ++ keccak [x63; x64]] ->
  exists p q, get_poi t0 [] (VBytes [x63]) = (Ok p, t0) /\ verify_poi t0 p = (Ok true, t0) /\
    get_poi t [] (VBytes [x63]) = (Ok q, t) /\ verify_poi t q = (Ok false, t).
Proof.
  intros Hl t0 t u Hn.
  assert (Hb : built_over false t0 [[x61]; [x62]; [x63]]) by (apply tree_over_built; discriminate).
  destruct (plain_poi_verifies t0 _ [x63] [] Hb) as (p & P1 & _ & P2); [cbn; tauto|].
  exists p. exists (mkProof MT_POI [] [x63] (to_hex (keccak (u ++ [x63]))) (pairs (hex_path [(false, [x64]); (true, u)]))).
  split; [exact P1|]. split; [exact P2|]. split; [reflexivity|].
  apply (verify_wellformed _ _ [(false, [x64]); (true, u)] (keccak (u ++ [x63]))); [apply proof_path_hex|apply from_to_hex|].
  cbn [pf_key path_root]. unfold combine_step. cbn [fst snd]. intros E. apply Hn in E; [|cbn; auto|cbn; auto].
  apply app_inv_head in E. apply (f_equal (@length byte)) in E. cbn [app] in E. rewrite Hl in E. discriminate.
Qed.

(** Verification that raises, on every tree. *)
Lemma raises_refuted : forall t k r, let p l := mkProof MT_POI [] k r l in
  verify_poi t (p [PB [x61]]) = (Err AttributeError, t) /\
  verify_poi t (p [PB []]) = (Err IndexError, t) /\
  verify_poi t (p [PPair [xff] []]) = (Err UnicodeDecodeError, t) /\
  verify_poi t (mkProof MT_POI [] k [xff] []) = (Err UnicodeDecodeError, t) /\
  verify_poi t (mkProof MT_POI [] k [x7a] []) = (Err ValueError, t) /\
  verify_poi t (mkProof MT_POI [] k [] [PPair [x75; x70] []]) = (Err KeyError, t) /\
  verify_poi t (mkProof MT_POI [] k [] [PPair s_left [x7a]]) = (Err KeyError, t) /\
  verify_poi t (mkProof MT_POI [] k [] [PPair s_right [x7a]]) = (Ok false, t).
Proof.
  intros t k r p.
  split; [reflexivity|]. split; [reflexivity|]. split; [reflexivity|]. split; [reflexivity|]. split; [reflexivity|].
  split; [reflexivity|]. split; reflexivity.
Qed.

(** An early question spoils the tree. *)
Lemma early_root_refuted : forall s b, let t := snd (mt_run (mt_new s) [ORoot; OPut (VBytes b)]) in
  fst (get_root t) = Err ValueError /\ t_leaves t = leaves_of s [b] /\
  fst (get_root (snd (mt_run (mt_new s) [OPut (VBytes b)]))) = Ok (to_hex (stored s b)).
Proof. intros s b t. split; [reflexivity|]. split; [destruct s; reflexivity|destruct s; reflexivity]. Qed.

(** ** Reads *)
Lemma get_exact : forall s t vs i v, basic s t vs -> nth_error vs i = Some v ->
  get t (Z.of_nat i) = Ok (to_hex (stored s v)) /\ get t (Z.of_nat i - Z.of_nat (length vs)) = Ok (to_hex (stored s v)).
Proof.
  intros s t vs i v [B1 B2] E. unfold get, get_leaf, py_nth. rewrite B2, leaves_of_length.
  assert (Hi : i < length vs) by (apply nth_error_Some; rewrite E; discriminate).
  assert (En : nth_error (leaves_of s vs) i = Some (stored s v)) by (unfold leaves_of; apply (map_nth_error _ _ _ E)).
  split.
  - destruct (Z.ltb_spec (Z.of_nat i) 0); [lia|]. rewrite Nat2Z.id, En. reflexivity.
  - destruct (Z.ltb_spec (Z.of_nat i - Z.of_nat (length vs)) 0); [|lia].
    replace (Z.of_nat i - Z.of_nat (length vs) + Z.of_nat (length vs))%Z with (Z.of_nat i) by lia.
    destruct (Z.ltb_spec (Z.of_nat i) 0); [lia|]. rewrite Nat2Z.id, En. reflexivity.
Qed.
Lemma get_out : forall s t vs z, basic s t vs -> (z < - Z.of_nat (length vs) \/ Z.of_nat (length vs) <= z)%Z ->
  get t z = Err IndexError.
Proof.
  intros s t vs z [B1 B2] Hz. unfold get, get_leaf, py_nth. rewrite B2, leaves_of_length.
  destruct (Z.ltb_spec z 0).
  - destruct (Z.ltb_spec (z + Z.of_nat (length vs)) 0); [reflexivity|lia].
  - assert (En : nth_error (leaves_of s vs) (Z.to_nat z) = None) by (apply nth_error_None; rewrite leaves_of_length; lia).
    rewrite En. reflexivity.
Qed.

Lemma history_get : forall s h outs t, mt_run (mt_new s) h = (outs, t) ->
  t_leaves t = leaves_of s (values h) /\
  (forall i v, nth_error (values h) i = Some v -> get t (Z.of_nat i) = Ok (to_hex (stored s v)) /\
     get t (Z.of_nat i - Z.of_nat (length (values h))) = Ok (to_hex (stored s v))) /\
  (forall z, (z < - Z.of_nat (length (values h)) \/ Z.of_nat (length (values h)) <= z)%Z -> get t z = Err IndexError).
Proof.
  intros s h outs t E. pose proof (history_basic s h outs t E) as B. split; [apply B|]. split.
  - intros i v En. apply get_exact; assumption.
  - intros z Hz. exact (get_out s t _ z B Hz).
Qed.

(** Questions leave the values alone and at most build the tree. *)
Lemma reads_frame : forall t o, op_values o = [] -> o <> OReset -> o <> OMake -> let t' := snd (mt_call t o) in
  t' = t \/ (t_ready t = false /\ make_tree t = Ok t').
Proof.
  intros t o Hv Hr Hm t'. destruct (read_state t o Hv Hr Hm) as [E|E]; fold t' in E; [left; exact E|].
  unfold get_root in E. destruct (t_ready t) eqn:Er; [left; exact E|]. right. split; [reflexivity|].
  destruct (make_tree_ok t) as (t2 & E2 & _). rewrite E2 in *. cbn [snd] in E. congruence.
Qed.

(** A history that neither builds nor asks for the root. *)
Definition only_put (o : mop) : bool :=
  match o with OPut _ | OPutList _ | OGet _ | OProve _ _ | OReset => true | _ => false end.
Lemma lazy_root : forall s h outs t, mt_run (mt_new s) h = (outs, t) -> forallb only_put h = true -> values h <> [] ->
  fst (get_root t) = Ok (to_hex (merkle_root (leaves_of s (values h)))).
Proof.
  intros s h outs t E Hh Hne. apply (unready_root s t _ (history_basic s h outs t E)); [|exact Hne].
  enough (G : forall h t, forallb only_put h = true -> t_ready t = false -> t_ready (snd (mt_run t h)) = false).
  { specialize (G h (mt_new s) Hh eq_refl). rewrite E in G. exact G. }
  clear. induction h as [|o h IH]; intros t Hh Hr; [exact Hr|]. cbn [forallb] in Hh. apply andb_prop in Hh as [H1 H2].
  rewrite mt_run_cons. apply IH; [exact H2|]. destruct o as [v|l| | | |tm k|p|i| ]; try discriminate H1.
  - rewrite call_put_state, put_eq. exact Hr.
  - rewrite call_put_list_state, put_list_eq. exact Hr.
  - reflexivity.
  - rewrite call_prove_state. exact Hr.
  - exact Hr.
Qed.
End WithHash.
