(** Properties of the shipped scripts with key pairs and Merkle trees (C207, C208) and of build_trie over failing storages (C209, C210).
    Theorem statements only; proofs are in ShippedKeysProofs.v and EmptFaultProofs.v. *)
From Coq Require Import String List Bool Arith NArith ZArith Lia.
From Verif Require Import Base BaseProofs Keccak ProofObj Examples Json ProofJson Spec SpecProof MptEq MerkleTree SpecMt Keypairs SpecKeys KeysExamples KeyCalls
  ShippedKeys ShippedKeysProofs NibblePath Mpt Empt SpecEmpt EmptExamples KeccakProofs EmptFault SpecFault EmptFaultProofs.
Import ListNotations.

(** C207: examples/sign_and_verify.py, encrypted_com.py and example_rsa_tools.py, for all primitives that do what they should and all random choices. *)
Theorem C207_sign_and_verify : forall (C : Crypto), crypto_ok -> forall u1 u2 k1 k2, good_key k1 ->
  exists s, pkcs_sign k1 (sha256d (bs "Hello World")) = Ok s /\ sign_script u1 u2 (Ok k1) (Ok k2) = Ok (s, true, true).
Proof. exact @sign_script_ok. Qed.
Print Assumptions C207_sign_and_verify.
Theorem C207_encrypted_com : forall (C : Crypto), crypto_ok -> forall u1 u2 k1 k2 sk seed nonce, good_key k1 -> good_key k2 ->
  length sk = 16 -> length seed = 20 -> length nonce = 16 ->
  exists pk1 pk2, rsa_export (rsa_public k1) [] None = Ok pk1 /\ rsa_export (rsa_public k2) [] None = Ok pk2 /\
  com_script u1 u2 (Ok k1) (Ok k2) sk seed nonce = Ok (pk1, pk2, bs "Hello World", bs "Hello World").
Proof. exact @com_script_ok. Qed.
Print Assumptions C207_encrypted_com.
Theorem C207_rsa_tools : forall (C : Crypto), crypto_ok -> forall u k1 k2 sk seed nonce, good_key k2 -> length sk = 16 -> length seed = 20 -> length nonce = 16 ->
  tools_script u (Ok k1) (Ok k2) sk seed nonce = Ok (true, bs "Test data for signing", true).
Proof. exact @tools_script_ok. Qed.
Print Assumptions C207_rsa_tools.

Example C207_applies : let C : Crypto := toyc in @crypto_ok C /\ @good_key C (Eq, true) /\ @good_key C (Lt, true).
Proof. intros C. split; [exact toyc_ok|]. split; split; vm_compute; [reflexivity|discriminate|reflexivity|discriminate]. Qed.

(** C208 is false of the code: examples/mt_create_and_proof.py refuses the proof it made (the tree is secure by default, C43). *)
Theorem C208_merkle_example_refuted : forall (H : Hash), (forall b, length (keccak b) = 32) -> keccak (bs "hello") <> keccak (bs "world") ->
  forall time outs t, mt_run (mt_new true) (mt_script time) = (outs, t) ->
  no_collision (path_hashed (bs "world") mt_script_path ++ path_hashed (keccak (bs "world")) mt_script_path) ->
  verify_poi t (mt_script_proof time) = (Ok false, t).
Proof. exact @mt_script_refused. Qed.
Print Assumptions C208_merkle_example_refuted.
(** What the calls before give: the tree is ready, the leaf, the root and the proof. *)
Theorem C208_what_the_script_prints : forall (H : Hash), keccak (bs "hello") <> keccak (bs "world") -> forall time,
  exists t, mt_run (mt_new true) (mt_script time) = (mt_script_answers time, t) /\ t_ready t = true.
Proof. exact @mt_script_run. Qed.
Print Assumptions C208_what_the_script_prints.

Example C208_applies : let H : Hash := toy in bytes_eqb (keccak (bs "hello")) (keccak (bs "world")) = false /\
  no_collision (path_hashed (bs "world") mt_script_path ++ path_hashed (keccak (bs "world")) mt_script_path).
Proof. intros H. split; [vm_compute; reflexivity|]. apply no_collision_b_ok. vm_compute. reflexivity. Qed.

(** C209: build_trie on an empty trie, interrupted anywhere. *)
Theorem C209_interrupted_build : forall (H : Hash), (forall b, length (keccak b) = 32) ->
  forall secure lim kf fs ds r e', NoDup (dkeys ds) -> Forall plain_pair ds ->
  empt_build_f lim kf fs (mkEmpt ds (mpt_new secure)) = (r, e') -> no_collision (m_log (e_trie e')) ->
  exists done rest t0, ds = done ++ rest /\ e_data e' = ds /\ (r = Ok tt -> rest = []) /\
    ereachable secure (map put_out done) (mkEmpt done t0) /\ m_root (e_trie e') = m_root t0 /\ reads_alike t0 (e_trie e') /\
    (keys_ok secure (dkeys ds) -> forall n k v, frames secure k < n ->
      (In (k, v) done -> empt_get n e' k = Ok v /\ empt_contains n e' k = Ok true) /\
      (In (k, v) rest -> secure = true \/ (forall k', In k' (dkeys done) -> ~ proper_prefix k' k) -> empt_contains n e' k = Ok false)).
Proof. exact @build_f_reads. Qed.
Print Assumptions C209_interrupted_build.
(** Updating every key with its data completes it. *)
Theorem C209_completed_by_updates : forall (H : Hash), (forall b, length (keccak b) = 32) ->
  forall secure lim kf fs ds r e' n outs e2, NoDup (dkeys ds) -> Forall plain_pair ds ->
  empt_build_f lim kf fs (mkEmpt ds (mpt_new secure)) = (r, e') ->
  empt_run e' (puts n ds) = (outs, e2) -> no_collision (m_log (e_trie e2)) -> (forall k, In k (dkeys ds) -> frames secure k < n) -> keys_ok secure (dkeys ds) ->
  outs = map put_out ds /\ e_data e2 = ds /\ (forall k v, In (k, v) ds -> empt_get n e2 k = Ok v /\ empt_contains n e2 k = Ok true) /\
  (forall e3, empt_build n (mkEmpt ds (mpt_new secure)) = (Ok tt, e3) -> no_collision (m_log (e_trie e3)) -> empt_root_hash e2 = empt_root_hash e3).
Proof. exact @build_f_finish. Qed.
Print Assumptions C209_completed_by_updates.
(** A failing read stops the build after the keys before it; a failure before anything is changed leaves everything. *)
Theorem C209_failing_read : forall (H : Hash) lim i ds fl fs secure e1, i < length ds -> empt_build lim (mkEmpt (firstn i ds) (mpt_new secure)) = (Ok tt, e1) ->
  empt_build_f lim false (repeat (false, []) i ++ (true, fl) :: fs) (mkEmpt ds (mpt_new secure)) = (Err StorageFault, mkEmpt ds (e_trie e1)).
Proof. exact @build_f_read. Qed.
Print Assumptions C209_failing_read.
(** Without failures it is the build_trie of C37 and C179. *)
Theorem C209_no_failures : forall (H : Hash) lim e, empt_build_f lim false [] e = empt_build lim e.
Proof. exact @build_f_none. Qed.
Print Assumptions C209_no_failures.

Definition C209_ds : dict value := map (fun kv => (bs (fst kv), VBytes (bs (snd kv))))
  [("do", "verb"); ("dog", "puppy"); ("doge", ""); ("horse", "stallion")]%string.
Example C209_applies : let H : Hash := toy in forall s, NoDup (dkeys C209_ds) /\ Forall plain_pair C209_ds /\
  (forall fs, In fs [[(false, []); (true, [])]; [(false, []); (false, []); (false, [false; true])]] ->
   let e' := snd (empt_build_f 100 false fs (mkEmpt C209_ds (mpt_new s))) in
   fst (empt_build_f 100 false fs (mkEmpt C209_ds (mpt_new s))) = Err StorageFault /\ empt_get 100 e' (bs "do") = Ok (VBytes (bs "verb")) /\
   empt_contains 100 e' (bs "horse") = Ok false /\
   no_collision_b (m_log (e_trie (snd (empt_run e' (puts 100 C209_ds))))) = true) /\ no_collision_b (dkeys C209_ds) = true.
Proof.
  intros H s. split; [repeat constructor; cbn; intuition discriminate|].
  split; [repeat (constructor; [split; [split; vm_compute; reflexivity|eexists; reflexivity]|]); constructor|].
  split; [|vm_compute; reflexivity].
  intros fs [<-|[<-|[]]]; destruct s; (split; [vm_compute; reflexivity|]); (split; [vm_compute; reflexivity|]); split; vm_compute; reflexivity.
Qed.

(** C210 is false of the code: calling build_trie again after a failure raises, loses what could be read, and goes on raising. *)
Theorem C210_build_again_refuted : let H : Hash := keccak256 in exists ds fs e' e2, NoDup (dkeys ds) /\ Forall plain_pair ds /\
  empt_build_f 100 false fs (mkEmpt ds (mpt_new false)) = (Err StorageFault, e') /\ empt_get 100 e' (bs "dog") = Ok (VBytes (bs "puppy")) /\
  empt_build_f 100 false [] e' = (Err RuntimeError, e2) /\ empt_get 100 e2 (bs "dog") = Err KeyError /\
  empt_build_f 100 false [] e2 = (Err KeyError, e2).
Proof. exact retry_refuted. Qed.
Print Assumptions C210_build_again_refuted.
