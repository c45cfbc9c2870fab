(** What every call on a MerkleTree object does (C160-C167).
    Vocabulary: SpecMtObj.v, SpecMt.v, SpecAudit.v, SpecJson.v.  Model: MerkleTree.v, MerkleTreePy.v. *)
From Coq Require Import String List Bool Arith NArith ZArith Lia.
From Verif Require Import Base BaseProofs Keccak KeccakProofs ProofObj Spec MptEq Examples SpecJson MerkleTree MerkleTreePy SpecMt SpecAudit SpecMtObj
  MtProofs MtProofs2 MtSound MtTextProofs MtObjProofs MtStaleProofs MtPyProofs MtExamples MtObjExamples.
Import ListNotations.

(** C160: the answers of a new tree to any calls are exactly those of SpecMtObj.v, and so are later ones. *)
Theorem C160_every_call : forall (H : Hash) s h outs, fst (mt_run (mt_new s) h) = outs <-> exists g, follows s (View [] Fresh) h outs g.
Proof. exact @object_exact. Qed.
Print Assumptions C160_every_call.

Theorem C160_state : forall (H : Hash) s h outs g, follows s (View [] Fresh) h outs g -> exists t, mt_run (mt_new s) h = (outs, t) /\
  forall h' outs', fst (mt_run t h') = outs' <-> exists g', follows s g h' outs' g'.
Proof. exact @object_state. Qed.
Print Assumptions C160_state.

Example C160_example : let H : Hash := toy in forall s, exists g, follows s (View [] Fresh) ex_obj_hist (ex_obj_outs s) g /\
  nth_error (ex_obj_outs s) 0 = Some (RInt (Err ValueError)) /\ nth_error (ex_obj_outs s) 2 = Some (RBytes (Err ValueError)) /\
  nth_error (ex_obj_outs s) 3 = Some (RProof (Err ValueError)) /\ nth_error (ex_obj_outs s) 9 = Some (RProof (Err ValueError)) /\
  nth_error (ex_obj_outs s) 11 = Some (RBytes (Err IndexError)) /\ ~ (exists g', follows s (View [] Fresh) ex_obj_hist [] g').
Proof.
  intros H s. destruct (proj1 (@object_exact toy s ex_obj_hist (ex_obj_outs s)) eq_refl) as [g F]. exists g. split; [exact F|].
  repeat (split; [destruct s; vm_compute; reflexivity|]). intros X. apply (@object_exact toy) in X. destruct s; vm_compute in X; discriminate.
Qed.

(** C161: what verify_proof_of_inclusion answers or raises, for every tree and every Proof object. *)
Theorem C161_verification : forall (H : Hash) s h outs g, follows s (View [] Fresh) h outs g -> let t := snd (mt_run (mt_new s) h) in
  forall p r, fst (verify_poi t p) = r <-> exists asked, verdict (root_of s g) p r asked.
Proof. exact @verify_any. Qed.
Print Assumptions C161_verification.

(** Each case of the verdict occurs; the text C0 80 is an overlong form, which UTF-8 does not have. *)
Example C161_example : let H : Hash := toy in let R := toy (bs "dodog") in
  let pf k r l := mkProof (bs "any") [] k r l in
  verdict (Some R) (pf [] [] [PPair [] []; PB []; PB [x00]]) (Err IndexError) false /\
  verdict (Some R) (pf [] [] [PPair [xc0; x80] []]) (Err UnicodeDecodeError) false /\
  verdict (Some R) (pf [] [x30] []) (Err ValueError) false /\
  verdict (Some R) (pf [] [] [PPair left_text [x30]]) (Err KeyError) false /\
  verdict (Some R) (pf [] [] [PPair right_text [x30]]) (Ok false) false /\
  verdict (Some R) (pf (bs "do") (to_hex R) [PPair right_text (to_hex (bs "dog"))]) (Ok true) true /\
  verdict None (pf (bs "do") (to_hex R) [PPair right_text (to_hex (bs "dog"))]) (Err ValueError) true /\
  verdict (Some R) (pf (bs "do") (x20 :: to_hex R) [PPair right_text (to_hex (bs "dog"))]) (Ok false) true.
Proof.
  intros H R pf.
  assert (S0 : is_str []) by (apply utf8_ok_exact; reflexivity).
  assert (N0 : no_hex [x30]) by (apply from_hex_none; reflexivity).
  assert (P : forall a b, utf8_ok a = true -> utf8_ok b = true -> pair_ok (PPair a b)).
  { intros a b A B. exists a, b. split; [reflexivity|]. split; now apply utf8_ok_exact. }
  assert (St : Forall2 step_of [PPair right_text (to_hex (bs "dog"))] [(false, bs "dog")]).
  { constructor; [|constructor]. constructor. apply from_hex_exact. reflexivity. }
  assert (Hr : hex_of (to_hex R) R) by (apply from_hex_exact; vm_compute; reflexivity).
  split; [apply (ver_elem _ _ [PPair [] []] (PB []) [PB [x00]] IndexError); [reflexivity|repeat constructor; now apply P|constructor]|].
  split; [apply (ver_elem _ _ [] (PPair [xc0; x80] []) [] UnicodeDecodeError); [reflexivity|constructor|constructor]; intros [A _]; apply utf8_ok_exact in A; discriminate|].
  split; [apply ver_hex; [constructor|apply utf8_ok_exact; reflexivity|exact N0]|].
  split; [apply (ver_side _ _ [] [] [] left_text [x30] []); [repeat constructor; now apply P|constructor|reflexivity|constructor|discriminate|intros _; exact N0]|].
  split; [apply (ver_right _ _ [] [] [] [x30] []); [repeat constructor; now apply P|constructor|reflexivity|constructor|exact N0]|].
  split; [apply (ver_yes _ _ [(false, bs "dog")] R); [exact St|exact Hr|reflexivity|apply lower_hex_exact; reflexivity]|].
  split; [apply (ver_void _ _ [(false, bs "dog")]); [exact St|exact Hr|reflexivity]|].
  apply (ver_no _ _ [(false, bs "dog")] R); [exact St| |reflexivity|].
  - apply hex_space; [cbn; tauto|exact Hr].
  - intros X. apply lower_hex_exact in X. vm_compute in X. discriminate.
Qed.

(** C162: proofs made after more values were put, without building again. *)
Theorem C162_proofs_between_builds : forall (H : Hash) s t vs h v i time, built_over s t vs -> forallb no_rebuild h = true ->
  first_at (leaves_of s vs) i (digest s v) -> let t' := snd (mt_run t h) in let ws := flat_map op_values h in
  (i + 1 < length vs \/ Nat.even (length vs) = true \/ length vs = 1 \/ ws = [] ->
    fst (get_poi t' time (VBytes v)) = fst (get_poi t time (VBytes v))) /\
  (i + 1 = length vs -> Nat.odd (length vs) = true -> 1 < length vs -> forall w ws', ws = w :: ws' -> exists p,
    fst (get_poi t time (VBytes v)) = Ok p /\
    fst (get_poi t' time (VBytes v)) = Ok (mkProof (pf_type p) time v (pf_root p) (PPair right_text (to_hex (digest s w)) :: pf_proof p))).
Proof. exact @stale_poi. Qed.
Print Assumptions C162_proofs_between_builds.

Example C162_example : let H : Hash := toy in forall s, @built_over H s (ex_three_mt s) ex_three /\
  first_at (leaves_of s ex_three) 0 (digest s (bs "do")) /\ first_at (leaves_of s ex_three) 2 (digest s (bs "doge")) /\
  forallb no_rebuild [OPut (VBytes (bs "horse")); ORoot] = true.
Proof.
  intros H s. split; [apply ex_three_built|]. split; [split; [reflexivity|intros j L; lia]|]. split; [|reflexivity]. split; [reflexivity|].
  intros j L. destruct s; do 2 (destruct j as [|j]; [vm_compute; discriminate|]); lia.
Qed.

(** C163 is false of the code: the tree rejects the proof it has just made, while it accepts the one it made before the put. *)
Theorem C163_proofs_verify_between_builds_refuted : forall (H : Hash) t vs h v time, built_over false t vs -> forallb no_rebuild h = true ->
  first_at vs (length vs - 1) v -> Nat.odd (length vs) = true -> 1 < length vs ->
  let t' := snd (mt_run t h) in forall w ws', flat_map op_values h = w :: ws' ->
  exists p q pa, fst (get_poi t time (VBytes v)) = Ok p /\ fst (verify_poi t p) = Ok true /\ proof_path (pf_proof p) = Some pa /\
    fst (get_poi t' time (VBytes v)) = Ok q /\ fst (verify_poi t' p) = Ok true /\
    (v <> keccak (v ++ w) -> no_collision (path_hashed (keccak (v ++ w)) pa ++ path_hashed v pa) -> fst (verify_poi t' q) = Ok false).
Proof. exact @stale_rejected. Qed.
Print Assumptions C163_proofs_verify_between_builds_refuted.

Example C163_example : let H : Hash := toy in @built_over H false (ex_three_mt false) ex_three /\ first_at ex_three 2 (bs "doge") /\
  bs "doge" <> toy (bs "doge" ++ bs "horse") /\
  no_collision (path_hashed (toy (bs "doge" ++ bs "horse")) ex_three_path ++ path_hashed (bs "doge") ex_three_path) /\
  match fst (get_poi (snd (mt_run (ex_three_mt false) [OPut (VBytes (bs "horse"))])) [] (VBytes (bs "doge"))) with
  | Ok q => fst (verify_poi (snd (mt_run (ex_three_mt false) [OPut (VBytes (bs "horse"))])) q) = Ok false
  | Err _ => False
  end.
Proof.
  intros H. split; [apply ex_three_built|]. split; [split; [reflexivity|]; intros j L; do 2 (destruct j as [|j]; [vm_compute; discriminate|]); lia|].
  split; [vm_compute; discriminate|]. split; [apply no_collision_b_ok; vm_compute; reflexivity|]. vm_compute. reflexivity.
Qed.

(** C164 is false of the code: a value that the tree was not built over has a proof, with the root without it. *)
Theorem C164_uncovered_value_has_no_proof_refuted : forall (H : Hash) t a b w time, built_over false t [a; b] -> w <> a -> w <> b ->
  let t' := snd (mt_run t [OPut (VBytes w)]) in let r := to_hex (keccak (a ++ b)) in
  fst (get_root t') = Ok r /\ fst (get_poi t' time (VBytes w)) = Ok (mkProof MT_POI time w r []) /\
  (w <> keccak (a ++ b) -> fst (verify_poi t' (mkProof MT_POI time w r [])) = Ok false).
Proof. exact @uncovered_proof. Qed.
Print Assumptions C164_uncovered_value_has_no_proof_refuted.

Example C164_example : let H : Hash := toy in @built_over H false ex_two_mt [bs "do"; bs "dog"] /\ bs "cat" <> bs "do" /\ bs "cat" <> bs "dog" /\
  bs "cat" <> toy (bs "do" ++ bs "dog").
Proof. intros H. split; [exact ex_two_built|]. split; [discriminate|]. split; [discriminate|]. vm_compute. discriminate. Qed.

(** C165: == between any two trees compares the numbers written by the roots; it raises ValueError if one of them has none. *)
Theorem C165_comparing_any_trees : forall (H : Hash) s1 h1 outs1 g1 s2 h2 outs2 g2,
  follows s1 (View [] Fresh) h1 outs1 g1 -> follows s2 (View [] Fresh) h2 outs2 g2 ->
  let t1 := snd (mt_run (mt_new s1) h1) in let t2 := snd (mt_run (mt_new s2) h2) in
  (forall x b y c, root_of s1 g1 = Some (x :: b) -> root_of s2 g2 = Some (y :: c) ->
     exists r, fst (mt_eq t1 t2) = Ok r /\ (r = true <-> number_of (x :: b) = number_of (y :: c))) /\
  ((root_of s1 g1 = None \/ root_of s1 g1 = Some [] \/ root_of s2 g2 = None \/ root_of s2 g2 = Some []) -> fst (mt_eq t1 t2) = Err ValueError).
Proof. exact @eq_any. Qed.
Print Assumptions C165_comparing_any_trees.

Example C165_example : let H : Hash := toy in exists g1 g2 g3,
  follows false (View [] Fresh) ex_obj_hist (ex_obj_outs false) g1 /\ follows true (View [] Fresh) ex_three_hist (fst (mt_run (mt_new true) ex_three_hist)) g2 /\
  follows false (View [] Fresh) [] [] g3 /\ root_of false g3 = None.
Proof.
  intros H. destruct (proj1 (@object_exact toy false ex_obj_hist _) eq_refl) as [g1 F1]. destruct (proj1 (@object_exact toy true ex_three_hist _) eq_refl) as [g2 F2].
  exists g1, g2, (View [] Fresh). split; [exact F1|]. split; [exact F2|]. split; [constructor|reflexivity].
Qed.

(** C166: after reset_tree the tree is a new one of the same mode. *)
Theorem C166_reset : forall (H : Hash) s h h', let t := snd (mt_run (mt_new s) (h ++ [OReset])) in mt_run t h' = mt_run (mt_new s) h'.
Proof. exact @reset_new. Qed.
Print Assumptions C166_reset.

Example C166_example : let H : Hash := toy in let t := snd (mt_run (mt_new false) (ex_obj_hist ++ [OReset])) in
  fst (mt_run t ex_three_hist) = fst (mt_run (mt_new false) ex_three_hist) /\ t_leaves (snd (mt_run (mt_new false) ex_obj_hist)) <> [].
Proof. intros H t. split; [vm_compute; reflexivity|vm_compute; discriminate]. Qed.

(** C167: which arguments create a tree; the number of values, the ready state and the mode after any calls. *)
Theorem C167_creation : forall secure t name tree, mt_init secure t = NewTree name tree <->
  exists s, secure = Some s /\ In name known_hashes /\ Forall2 same_letter t name /\ tree = mt_new s.
Proof. exact init_exact. Qed.
Print Assumptions C167_creation.

Theorem C167_refusal : forall secure t, (mt_init secure t = SecureTypeError <-> secure = None) /\
  (mt_init secure t = UnsupportedHash <-> secure <> None /\ forall name, In name known_hashes -> ~ Forall2 same_letter t name).
Proof. exact init_refused. Qed.
Print Assumptions C167_refusal.

Theorem C167_counts : forall (H : Hash) s h outs g, follows s (View [] Fresh) h outs g -> exists t, mt_run (mt_new s) h = (outs, t) /\
  get_count t = length (v_vals g) /\ v_vals g = values h /\ (ready_state t = false <-> v_stage g = Fresh) /\ is_secure t = s.
Proof. exact @counts. Qed.
Print Assumptions C167_counts.

Example C167_example : let H : Hash := toy in mt_init (Some true) (bs "SHA3_256") = NewTree (bs "sha3_256") (mt_new true) /\
  mt_init (Some true) (bs "keccak") = UnsupportedHash /\ get_count (snd (mt_run (mt_new false) ex_obj_hist)) = 4.
Proof. intros H. split; [reflexivity|]. split; vm_compute; reflexivity. Qed.
