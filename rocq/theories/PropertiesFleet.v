(** Properties of EMPT objects that share their storages (C201-C206).  Theorem statements only; proofs are in FleetProofs.v,
    FleetPoi.v, FleetExamples.v and ShippedProofs.v. *)
From Coq Require Import String List Bool Arith NArith.
From Verif Require Import Base Keccak NibblePath ProofObj Mpt Spec SpecProof SpecEmpt Empt SpecYp EmptPy SpecEvery SpecData Fleet SpecFleet Examples KeccakProofs FleetProofs FleetPoi FleetExamples ShippedProofs.
Import ListNotations.

(** C201: what every call on every object does, after any calls on any of them, objects opened on the root of another one, and
    changes of the data storage by somebody else. *)
Theorem C201_shared_calls : forall (H : Hash), (forall b, length (keccak b) = 32) ->
  forall modes h outs w, fleet_run (fleet_new modes) h = (outs, w) -> ffits h -> fkeys_ok modes h -> no_collision (fl_log w) ->
  exists g, ffollows (ffaint h) (fleet_start modes) h outs g /\ fv_vals g = fl_data w /\ same_roots w g.
Proof. exact @fleet_sound. Qed.
Print Assumptions C201_shared_calls.

Theorem C201_only_answer : forall (H : Hash), (forall b, length (keccak b) = 32) ->
  forall modes h outs w, fleet_run (fleet_new modes) h = (outs, w) -> ffits h -> fkeys_ok modes h -> no_collision (fl_log w) ->
  fquiet modes h -> ~ ffaint h ->
  forall outs' g, ffollows (ffaint h) (fleet_start modes) h outs' g -> outs' = outs /\ fv_vals g = fl_data w /\ same_roots w g.
Proof. exact @fleet_only. Qed.
Print Assumptions C201_only_answer.

Example C201_applies : let H : Hash := toy in ok_fleet [false; true] parting /\ fst (fleet_run (fleet_new [false; true]) parting) = parting_answers.
Proof. intros H. split; [exact parting_ok|exact parting_answers_ok]. Qed.

(** C202: an object that was opened on the root of another one and then only read keeps its root hash, its references and its keys,
    whatever happens to the others and to the data; a value it returns is in the data storage and has the digest that its reference was
    made of. *)
Theorem C202_snapshot : forall (H : Hash), (forall b, length (keccak b) = 32) ->
  forall modes h1 outs1 w1 j hj w1' h2 outs2 w2 k lim,
  fleet_run (fleet_new modes) h1 = (outs1, w1) -> nth_error (fl_objs w1) j = Some hj -> empt_root (obj_of w1 hj) <> None ->
  fleet_do w1 (FOpen j) = (FOpened (Ok tt), w1') -> fleet_run w1' h2 = (outs2, w2) ->
  (forall lim q, In (FCall (length (fl_objs w1)) lim q) h2 -> looks q) ->
  let n := length (fl_objs w1) in
  ffits (h1 ++ h2 ++ [FCall n lim (QGet (KBytes k))]) -> fkeys_ok modes (h1 ++ h2 ++ [FCall n lim (QGet (KBytes k))]) -> no_collision (fl_log w2) ->
  (forall m, In m modes -> forall x, In x (k :: fkeys (h1 ++ h2)) -> frames m x < lim) ->
  (exists hn, nth_error (fl_objs w2) n = Some hn /\ empt_root_hash (obj_of w2 hn) = empt_root_hash (obj_of w1 hj)) /\
  answer w2 n lim (QRef (KBytes k)) = answer w1 j lim (QRef (KBytes k)) /\
  answer w2 n lim (QIn (KBytes k)) = answer w1 j lim (QIn (KBytes k)) /\
  forall v, answer w2 n lim (QGet (KBytes k)) = FAns (AVal (Ok v)) ->
    In (k, v) (fl_data w2) /\ exists k' b, answer w1 j lim (QRef (KBytes k)) = FAns (ARef (Ok (mkRef k' b))) /\ keccak (k' ++ b) = keccak (k ++ val_bytes v).
Proof. exact @fleet_snapshot. Qed.
Print Assumptions C202_snapshot.

(** Object 2 of [parting] is opened after two calls and only read afterwards. *)
Example C202_applies : let H : Hash := toy in
  let h1 := firstn 2 parting in let h2 := firstn 15 (skipn 3 parting) in
  let w1 := snd (fleet_run (fleet_new [false; true]) h1) in let w1' := snd (fleet_do w1 (FOpen 0)) in let w2 := snd (fleet_run w1' h2) in
  length (fl_objs w1) = 2 /\ fst (fleet_do w1 (FOpen 0)) = FOpened (Ok tt) /\
  (exists hj, nth_error (fl_objs w1) 0 = Some hj /\ empt_root (obj_of w1 hj) <> None) /\
  Forall (fun c => match c with FCall 2 _ q => looks q | _ => True end) h2 /\
  ffits (h1 ++ h2 ++ [FCall 2 100 (QGet (KBytes (bs "do")))]) /\ fkeys_ok [false; true] (h1 ++ h2 ++ [FCall 2 100 (QGet (KBytes (bs "do")))]) /\
  no_collision (fl_log w2) /\
  answer w2 2 100 (QGet (KBytes (bs "do"))) = FAns (AVal (Ok (VBytes (bs "verb")))) /\
  answer w2 0 100 (QGet (KBytes (bs "do"))) = FAns (AVal (Err InvalidReferenceError)).
Proof.
  intros H h1 h2 w1 w1' w2. split; [vm_compute; reflexivity|]. split; [vm_compute; reflexivity|].
  split; [eexists; split; [vm_compute; reflexivity|vm_compute; discriminate]|].
  split; [repeat constructor|]. split; [apply ffits_b_ok; vm_compute; reflexivity|].
  split; [intros m _ _; apply no_collision_b_ok; vm_compute; reflexivity|]. split; [apply no_collision_b_ok; vm_compute; reflexivity|].
  split; vm_compute; reflexivity.
Qed.

(** C203: src/pymt/examples/empt_create_and_change.py, for every hash function. *)
Theorem C203_change_example : forall (H : Hash), (forall b, length (keccak b) = 32) ->
  forall lim outs w, 10 < lim -> fleet_run (fleet_new [false]) (change_example lim) = (outs, w) -> no_collision (fl_log w) ->
  ~ ffaint (change_example lim) ->
  outs = [FAns (ANone (Ok tt)); FAns (ANone (Ok tt)); FAns (ANone (Ok tt)); FAns (ANone (Ok tt)); FOpened (Ok tt);
          FAns (AVal (Ok (VBytes (bs "a doge")))); FAns (ANone (Ok tt)); FAns (AVal (Err KeyError))].
Proof. exact @change_run. Qed.
Print Assumptions C203_change_example.

Example C203_applies : let H : Hash := toy in ok_fleet [false] (change_example 100).
Proof. intros H. apply ok_fleet_b. vm_compute. reflexivity. Qed.

(** C204: the proofs that the objects make. *)
Theorem C204_shared_proofs : forall (H : Hash), (forall b, length (keccak b) = 32) ->
  forall modes h outs w, fleet_run (fleet_new modes) h = (outs, w) -> ffits h -> fkeys_ok modes h -> no_collision (fl_log w) -> ~ ffaint h ->
  (exists g, ffollows (ffaint h) (fleet_start modes) h outs g /\ proofs_say w g (fkeys h)) /\
  (fquiet modes h -> forall outs' g, ffollows (ffaint h) (fleet_start modes) h outs' g -> proofs_say w g (fkeys h)).
Proof. exact @fleet_proofs. Qed.
Print Assumptions C204_shared_proofs.

(** Objects 0 and 2 of [parting] hold different references for "do"; each proves it, and refuses the proof of the other. *)
Example C204_applies : let H : Hash := toy in
  let w := snd (fleet_run (fleet_new [false; true]) (firstn 13 parting)) in
  ok_fleet [false; true] (firstn 13 parting) /\
  exists h0 h2 p0 p2, nth_error (fl_objs w) 0 = Some h0 /\ nth_error (fl_objs w) 2 = Some h2 /\
  mpt_get_poi 100 (bs "0") (e_trie (obj_of w h0)) (bs "do") = Ok p0 /\ mpt_get_poi 100 (bs "0") (e_trie (obj_of w h2)) (bs "do") = Ok p2 /\
  mpt_verify_poi 100 (e_trie (obj_of w h0)) p0 = Ok true /\ mpt_verify_poi 100 (e_trie (obj_of w h2)) p2 = Ok true /\
  mpt_verify_poi 100 (e_trie (obj_of w h0)) p2 = Ok false.
Proof.
  intros H w. split; [apply ok_fleet_b; vm_compute; reflexivity|]. do 4 eexists. split; [vm_compute; reflexivity|]. split; [vm_compute; reflexivity|].
  split; [vm_compute; reflexivity|]. split; [vm_compute; reflexivity|]. repeat split; vm_compute; reflexivity.
Qed.

(** C205: src/pymt/examples/empt_proof_of_inclusion.py. *)
Theorem C205_inclusion_example : forall (H : Hash), (forall b, length (keccak b) = 32) ->
  forall lim time outs w, 16 < lim -> fleet_run (fleet_new [false]) (updates lim inclusion_data) = (outs, w) -> no_collision (fl_log w) ->
  (forall x y, In (x, y) inclusion_data -> (2 ^ 208 <= unbe (keccak (x ++ y)))%N) ->
  outs = map (fun _ => FAns (ANone (Ok tt))) inclusion_data /\
  exists p, mpt_get_poi lim time (only_trie w) (bs "dog") = Ok p /\ mpt_verify_poi lim (only_trie w) p = Ok true.
Proof. exact @inclusion_run. Qed.
Print Assumptions C205_inclusion_example.

Example C205_applies : let H : Hash := toy in ok_fleet [false] (updates 100 inclusion_data).
Proof. intros H. apply ok_fleet_b. vm_compute. reflexivity. Qed.

(** C206 is false of the code: src/pymt/examples/empt_proof_of_exclusion.py makes a proof and then refuses it, whatever the hash function. *)
Theorem C206_exclusion_example_refuted : forall (H : Hash), (forall b, length (keccak b) = 32) ->
  forall lim time outs w, 16 < lim -> fleet_run (fleet_new [false]) (updates lim exclusion_data) = (outs, w) -> no_collision (fl_log w) ->
  (forall x y, In (x, y) exclusion_data -> (2 ^ 208 <= unbe (keccak (x ++ y)))%N) ->
  outs = map (fun _ => FAns (ANone (Ok tt))) exclusion_data /\
  exists p, mpt_get_poe lim time (only_trie w) (bs "wolf") = Ok p /\
    (no_collision (proof_hashed (pf_proof p) ++ root_ref (only_trie w) :: fl_log w) -> mpt_verify_poe lim (only_trie w) p = Ok false).
Proof. exact @exclusion_run. Qed.
Print Assumptions C206_exclusion_example_refuted.

Example C206_applies : let H : Hash := toy in let w := snd (fleet_run (fleet_new [false]) (updates 100 exclusion_data)) in
  ok_fleet [false] (updates 100 exclusion_data) /\
  exists p, mpt_get_poe 100 (bs "0") (only_trie w) (bs "wolf") = Ok p /\
    no_collision (proof_hashed (pf_proof p) ++ root_ref (only_trie w) :: fl_log w) /\ mpt_verify_poe 100 (only_trie w) p = Ok false.
Proof.
  intros H w. split; [apply ok_fleet_b; vm_compute; reflexivity|]. eexists. split; [vm_compute; reflexivity|].
  split; [apply no_collision_b_ok; vm_compute; reflexivity|vm_compute; reflexivity].
Qed.
