(** The shipped scripts with key pairs and with a Merkle tree do what is claimed. *)
From Coq Require Import String List Bool Arith NArith ZArith Lia.
From Verif Require Import Base BaseProofs Keccak ProofObj Json JsonProofs ProofJson Spec MptEq MerkleTree SpecMt MtProofs MtSound Keypairs SpecKeys KeysProofs
  KeyCalls ShippedKeys.
Import ListNotations.

Section WithCrypto.
Context {C : Crypto}.
Hypothesis OK : crypto_ok.

Lemma sign_script_ok : forall u1 u2 k1 k2, good_key k1 ->
  exists s, pkcs_sign k1 (sha256d (bs "Hello World")) = Ok s /\ sign_script u1 u2 (Ok k1) (Ok k2) = Ok (s, true, true).
Proof.
  intros u1 u2 k1 k2 Hk. set (o1 := mkObj Base (NJson (JStr u1)) (Some k1)). set (o2 := mkObj Base (NJson (JStr u2)) (Some k2)). set (m := bs "Hello World").
  destruct (sign_valid OK (plain o1) k1 m (plain o1)) as (s & pk & Es & Ep & _ & E1); [discriminate|discriminate|reflexivity|exact Hk|].
  destruct (sign_valid OK (plain o1) k1 m (plain o2)) as (s' & pk' & Es' & Ep' & _ & E2); [discriminate|discriminate|reflexivity|exact Hk|].
  rewrite Es in Es'. injection Es' as <-. rewrite Ep in Ep'. injection Ep' as <-. exists s. split.
  - unfold sign in Es. cbn in Es. exact Es.
  - unfold sign_script, new_pair, create, bind. fold o1 o2 m. unfold py_sign, py_valid. cbn [ko_cls o1 o2]. fold o1 o2. rewrite Es, Ep, E1, E2. reflexivity.
Qed.

Lemma com_script_ok : forall u1 u2 k1 k2 sk seed nonce, good_key k1 -> good_key k2 -> length sk = 16 -> length seed = 20 -> length nonce = 16 ->
  exists pk1 pk2, rsa_export (rsa_public k1) [] None = Ok pk1 /\ rsa_export (rsa_public k2) [] None = Ok pk2 /\
  com_script u1 u2 (Ok k1) (Ok k2) sk seed nonce = Ok (pk1, pk2, bs "Hello World", bs "Hello World").
Proof.
  intros u1 u2 k1 k2 sk seed nonce H1 H2 L1 L2 L3. set (o1 := mkObj Base (NJson (JStr u1)) (Some k1)). set (o2 := mkObj Base (NJson (JStr u2)) (Some k2)). set (m := bs "Hello World").
  destruct (round_trip OK sk seed nonce (plain o1) k1 (plain o2) k2 m) as (p1 & p2 & e & E1 & E2 & Ee & Ed); auto; [split; auto|split; auto|].
  exists p1, p2. split; [exact E1|]. split; [exact E2|].
  unfold com_script, new_pair, create, bind. fold o1 o2 m. unfold py_encrypt, py_decrypt. cbn [ko_cls o1 o2]. fold o1 o2. rewrite E1, E2, Ee, Ed. reflexivity.
Qed.

Lemma tools_script_ok : forall u k1 k2 sk seed nonce, good_key k2 -> length sk = 16 -> length seed = 20 -> length nonce = 16 ->
  tools_script u (Ok k1) (Ok k2) sk seed nonce = Ok (true, bs "Test data for signing", true).
Proof.
  intros u k1 k2 sk seed nonce H2 L1 L2 L3. set (o := mkObj Base (NJson (JStr (txt "TestKeyPair"))) (Some k2)). set (m := bs "Test data for signing").
  destruct (round_trip OK sk seed nonce (plain o) k2 (plain o) k2 m) as (p1 & p2 & e & E1 & E2 & Ee & Ed); auto; [split; auto|split; auto|].
  rewrite E1 in E2. injection E2 as <-.
  destruct (sign_valid OK (plain o) k2 m (plain o)) as (s & pk & Es & _ & Ev & _); [discriminate|discriminate|reflexivity|exact H2|].
  assert (Em : exists t, utf8_decode m = Ok t) by (eexists; vm_compute; reflexivity). destruct Em as [t Em].
  unfold tools_script, new_pair, create, py_generate, bind. cbn [ko_cls ko_nick]. fold o m. unfold py_sign, py_valid, py_encrypt, py_decrypt. cbn [ko_cls o]. fold o.
  rewrite Es, Ev, E1, Ee, Ed, Em. destruct (list_eq_dec N.eq_dec t t) as [_|X]; [reflexivity|elim X; reflexivity].
Qed.
End WithCrypto.

Section WithHash.
Context {H : Hash}.
Lemma mt_script_run : keccak (bs "hello") <> keccak (bs "world") -> forall time,
  exists t, mt_run (mt_new true) (mt_script time) = (mt_script_answers time, t) /\ t_ready t = true.
Proof.
  intros D time. assert (E : bytes_eqb (keccak (bs "world")) (keccak (bs "hello")) = false) by (destruct (bytes_eqb_spec (keccak (bs "world")) (keccak (bs "hello"))); congruence).
  assert (E' : bytes_eqb (keccak (bs "world")) (keccak (bs "world")) = true) by apply bytes_eqb_refl.
  eexists. split; [|instantiate (1 := mkMt _ (Some _) true true); reflexivity]. unfold mt_script. cbn -[bytes_eqb to_hex bs]. unfold tools_poi. cbn -[bytes_eqb to_hex bs]. rewrite E, E'. reflexivity.
Qed.

Lemma mt_script_refused : (forall b, length (keccak b) = 32) -> keccak (bs "hello") <> keccak (bs "world") ->
  forall time outs t, mt_run (mt_new true) (mt_script time) = (outs, t) ->
  no_collision (path_hashed (bs "world") mt_script_path ++ path_hashed (keccak (bs "world")) mt_script_path) ->
  verify_poi t (mt_script_proof time) = (Ok false, t).
Proof.
  intros L D time outs t E N.
  assert (B : built_over true t [bs "hello"; bs "world"; bs "here"; bs "i"; bs "am"]).
  { exists (mt_script time), outs. split; [exact E|]. split; [reflexivity|]. split; [reflexivity|discriminate]. }
  assert (Ed : bytes_eqb (keccak (bs "world")) (keccak (bs "hello")) = false) by (destruct (bytes_eqb_spec (keccak (bs "world")) (keccak (bs "hello"))); congruence).
  assert (E' : bytes_eqb (keccak (bs "world")) (keccak (bs "world")) = true) by apply bytes_eqb_refl.
  eapply secure_rejects with (v := bs "world") (pa := mt_script_path) (time := time); [exact B|cbn; tauto| | |intros X; apply (f_equal (@length _)) in X; rewrite L in X; discriminate|exact N].
  - unfold mt_script in E. cbn -[bytes_eqb to_hex bs] in E. unfold tools_poi in E. cbn -[bytes_eqb to_hex bs] in E. rewrite Ed, E' in E.
    apply (f_equal snd) in E. cbn -[bytes_eqb to_hex bs] in E. subst t. unfold get_poi, tools_poi. cbn -[bytes_eqb to_hex bs]. rewrite Ed, E'. reflexivity.
  - cbn -[bs to_hex from_hex]. rewrite !from_to_hex. reflexivity.
Qed.
End WithHash.
