(** Proofs about Keypairs.v. *)
From Coq Require Import String List Bool Arith NArith Lia.
From Verif Require Import Base BaseProofs ProofObj Json JsonProofs Keccak ProofJson ProofJsonProofs MerkleTree MtProofs Keypairs SpecKeys.
Import ListNotations.

Definition asc (s : list N) : Prop := Forall (fun c => (c < 128)%N) s.
Lemma asc_hex : forall b, asc (hex_str b).
Proof. intros b. unfold hex_str, ascii, asc. apply Forall_map. exact (to_hex_ascii b). Qed.
Lemma asc_scalar : forall s, asc s -> Forall scalar s.
Proof. intros s A. eapply Forall_impl; [|exact A]. intros c Hc. cbv beta in Hc. unfold scalar. lia. Qed.
Lemma map_nB_ascii : forall b, map nB (ascii b) = b.
Proof. unfold ascii. induction b as [|x b IH]; [reflexivity|]. cbn [map]. rewrite IH, nB_bN. reflexivity. Qed.
Lemma unhex_hex : forall b, unhex_json (JStr (hex_str b)) = Ok b.
Proof.
  intros b. unfold unhex_json. assert (E : forallb (fun c => (c <? 128)%N) (hex_str b) = true).
  { apply forallb_forall. intros c Hc. apply N.ltb_lt. pose proof (asc_hex b) as A. unfold asc in A. rewrite Forall_forall in A. auto. }
  rewrite E. unfold hex_str. rewrite map_nB_ascii, from_to_hex. reflexivity.
Qed.

(** json.dumps writes ASCII only. *)
Lemma hexd_asc : forall n, (n < 16)%N -> (hexd n < 128)%N.
Proof. intros n L. unfold hexd. destruct (n <? 10)%N eqn:E; [apply N.ltb_lt in E|]; lia. Qed.
Lemma asc_utf8 : forall s, asc s -> exists b, utf8_encode s = Ok b.
Proof. intros s A. apply utf8_encode_total, asc_scalar, A. Qed.

Lemma asc_app : forall a b, asc a -> asc b -> asc (a ++ b).
Proof. intros a b A B. apply Forall_app. split; assumption. Qed.
Lemma asc_u : forall n, asc (u_esc n).
Proof.
  intros n. unfold u_esc, asc. repeat (constructor; [try lia; apply hexd_asc, N.mod_lt; lia|]). constructor.
Qed.
Lemma asc_esc : forall c, asc (esc_char c).
Proof.
  intros c. unfold esc_char.
  repeat match goal with |- asc (if ?b then _ else _) => destruct b eqn:?; [first [now apply Forall_forall; cbn; intros x [<-|[<-|[]]]; lia|idtac]|] end.
  - constructor; [|constructor]. match goal with E : _ && _ = true |- _ => apply andb_true_iff in E as [_ E]; apply N.leb_le in E; lia end.
  - apply asc_u.
  - cbv zeta. apply asc_app; apply asc_u.
Qed.
Lemma asc_dump_str : forall s, asc (dump_str s).
Proof.
  intros s. unfold dump_str. constructor; [lia|]. apply asc_app; [|constructor; [lia|constructor]].
  induction s as [|c s IH]; [constructor|]. cbn [flat_map]. apply asc_app; [apply asc_esc|exact IH].
Qed.
Lemma asc_join : forall l, Forall asc l -> asc (join [44; 32]%N l).
Proof.
  induction 1 as [|x l A F IH]; [constructor|]. destruct l as [|y l]; [exact A|].
  change (join [44; 32]%N (x :: y :: l)) with (x ++ [44; 32]%N ++ join [44; 32]%N (y :: l)).
  apply asc_app; [exact A|]. apply asc_app; [repeat (constructor; [lia|]); constructor|exact IH].
Qed.
Lemma asc_dumps_strs : forall d, asc (dumps (JObj (map (fun kv : list N * list N => (fst kv, JStr (snd kv))) d))).
Proof.
  intros d. cbn [dumps]. constructor; [lia|]. apply asc_app; [|constructor; [lia|constructor]].
  apply asc_join. rewrite map_map. apply Forall_map. apply Forall_forall. intros [k v] _. cbn [fst snd dumps].
  apply asc_app; [apply asc_dump_str|]. apply asc_app; [repeat (constructor; [lia|]); constructor|apply asc_dump_str].
Qed.

Section WithCrypto.
Context {C : Crypto}.

Lemma asc_txt : forall s, forallb (fun c => (c <? 128)%N) s = true -> asc s.
Proof. intros s E. apply Forall_forall. intros c Hc. apply N.ltb_lt. exact (proj1 (forallb_forall _ _) E c Hc). Qed.
Lemma key_scalar : forall s, forallb (fun c => (c <? 128)%N) s = true -> Forall scalar s.
Proof. intros s E. apply asc_scalar, asc_txt, E. Qed.

Lemma jok_strings : forall d : list (list N * list N), Forall (fun kv => Forall scalar (fst kv) /\ Forall scalar (snd kv)) d ->
  jok (JObj (map (fun kv => (fst kv, JStr (snd kv))) d)).
Proof.
  intros d F. apply jok_obj. apply Forall_map. eapply Forall_impl; [|exact F]. intros [k v] [A B]. cbn [fst snd] in *.
  split; [exact A|exact B].
Qed.

(** ** Messages *)
Lemma envelope_open : forall esk nonce tag ct sig, exists e, envelope esk nonce tag ct sig = Ok e /\
  open_envelope e = Ok (esk, nonce, tag, ct, sig).
Proof.
  intros esk nonce tag ct sig. set (d := [(k_esk, hex_str esk); (k_nonce, hex_str nonce); (k_tag, hex_str tag); (k_ct, hex_str ct); (k_sig, hex_str sig)]).
  assert (E : envelope esk nonce tag ct sig = utf8_encode (dumps (JObj (map (fun kv => (fst kv, JStr (snd kv))) d)))) by reflexivity.
  destruct (asc_utf8 _ (asc_dumps_strs d)) as [e Ee]. exists e. rewrite E. split; [exact Ee|].
  unfold open_envelope. rewrite (utf8_encode_decode _ _ Ee). cbn [bind]. rewrite loads_dumps.
  - cbn [bind]. unfold d.
    change (jindex _ k_esk) with (@Ok json (JStr (hex_str esk))). cbn [bind]. rewrite unhex_hex. cbn [bind].
    change (jindex _ k_nonce) with (@Ok json (JStr (hex_str nonce))). cbn [bind]. rewrite unhex_hex. cbn [bind].
    change (jindex _ k_tag) with (@Ok json (JStr (hex_str tag))). cbn [bind]. rewrite unhex_hex. cbn [bind].
    change (jindex _ k_ct) with (@Ok json (JStr (hex_str ct))). cbn [bind]. rewrite unhex_hex. cbn [bind].
    change (jindex _ k_sig) with (@Ok json (JStr (hex_str sig))). cbn [bind]. rewrite unhex_hex. reflexivity.
  - apply jok_strings. unfold d. repeat (constructor; [split; cbn [fst snd]; [apply key_scalar; reflexivity|apply asc_scalar, asc_hex]|]). constructor.
Qed.

Context (OK : crypto_ok).

Lemma pub_key : forall a k, kp_key a = Some k -> exists b, public_key a = Ok b /\ rsa_import b None = Ok (rsa_public k).
Proof.
  intros a k E. unfold public_key, key_of. rewrite E. cbn [bind]. destruct (ok_pub_export OK k) as [b Eb]. exists b.
  split; [exact Eb|]. exact (ok_pub_import OK k b Eb).
Qed.

Lemma sign_ok : forall a k d, kp_cls a <> Enc -> kp_key a = Some k -> good_key k -> exists s, sign a d = Ok s /\ pkcs_sign k (sha256d d) = Ok s.
Proof.
  intros a k d Hc E G. unfold sign, key_of. rewrite E. destruct (ok_sign OK k (sha256d d) G (ok_sha256 OK d)) as [s Es].
  exists s. split; [|exact Es]. destruct (kp_cls a); try congruence; exact Es.
Qed.

Lemma sign_valid : forall a k d b, kp_cls a <> Enc -> kp_cls b <> Enc -> kp_key a = Some k -> good_key k ->
  exists s pk, sign a d = Ok s /\ public_key a = Ok pk /\ signature_valid a d s None = Ok true /\ signature_valid b d s (Some pk) = Ok true.
Proof.
  intros a k d b Ha Hb E G. destruct (sign_ok a k d Ha E G) as [s [Es Ep]]. destruct (pub_key a k E) as [pk [P1 P2]].
  exists s, pk. split; [exact Es|]. split; [exact P1|]. unfold signature_valid. rewrite P1. cbn [bind]. rewrite P2. cbn [bind].
  rewrite (ok_verify OK k _ s Ep). split; [destruct (kp_cls a)|destruct (kp_cls b)]; congruence.
Qed.

Lemma encrypt_shape : forall sk seed nonce a ka b kb m pkb, can_all a ka -> kp_key b = Some kb -> good_key kb ->
  length sk = 16 -> length seed = 20 -> length nonce = 16 -> public_key b = Ok pkb ->
  exists e esk tag ct sig, encrypt sk seed nonce a m pkb = Ok e /\ open_envelope e = Ok (esk, nonce, tag, ct, sig) /\
    oaep_dec kb esk = Ok sk /\ eax_enc sk nonce m = Ok (ct, tag) /\ pkcs_sign ka (sha256d ct) = Ok sig.
Proof.
  intros sk seed nonce a ka b kb m pkb [A1 [A2 A3]] B1 B2 L1 L2 L3 P. destruct (pub_key b kb B1) as [pk [P1 P2]].
  assert (pk = pkb) by congruence. subst pk.
  destruct (ok_oaep OK kb seed sk B2 L2 L1) as [esk [E1 E2]]. destruct (ok_eax OK sk nonce m (or_introl L1) L3) as [ct [tag E3]].
  destruct (sign_ok a ka ct ltac:(congruence) A2 A3) as [sig [E4 E5]]. destruct (envelope_open esk nonce tag ct sig) as [e [E6 E7]].
  exists e, esk, tag, ct, sig. split; [|tauto]. unfold encrypt. rewrite A1, P2. cbn [bind]. rewrite E1. cbn [bind]. rewrite E3. cbn [bind].
  rewrite E4. exact E6.
Qed.

Lemma decrypt_env : forall b kb ka pka e esk nonce tag ct sig sk m, kp_cls b = Base -> kp_key b = Some kb ->
  rsa_import pka None = Ok (rsa_public ka) -> open_envelope e = Ok (esk, nonce, tag, ct, sig) ->
  pkcs_sign ka (sha256d ct) = Ok sig -> oaep_dec kb esk = Ok sk -> eax_enc sk nonce m = Ok (ct, tag) -> decrypt b e pka = Ok m.
Proof.
  intros b kb ka pka e esk nonce tag ct sig sk m B1 B2 I O S D X. unfold decrypt, signature_valid, key_of. rewrite B1, O, B2. cbn [bind].
  rewrite I. cbn [bind]. rewrite (ok_verify OK ka _ _ S). cbn [bind]. rewrite D. cbn [bind]. apply (ok_eax_exact OK). exact X.
Qed.

Lemma round_trip : forall sk seed nonce a ka b kb m, can_all a ka -> can_all b kb ->
  length sk = 16 -> length seed = 20 -> length nonce = 16 ->
  exists pka pkb e, public_key a = Ok pka /\ public_key b = Ok pkb /\ encrypt sk seed nonce a m pkb = Ok e /\ decrypt b e pka = Ok m.
Proof.
  intros sk seed nonce a ka b kb m A [B1 [B2 B3]] L1 L2 L3. destruct (pub_key b kb B2) as [pkb [P1 P2]].
  destruct (pub_key a ka (proj1 (proj2 A))) as [pka [Q1 Q2]].
  destruct (encrypt_shape sk seed nonce a ka b kb m pkb A B2 B3 L1 L2 L3 P1) as [e [esk [tag [ct [sig [E1 [E2 [E3 [E4 E5]]]]]]]]].
  exists pka, pkb, e. split; [exact Q1|]. split; [exact P1|]. split; [exact E1|].
  exact (decrypt_env b kb ka pka e esk nonce tag ct sig sk m B1 B2 Q2 E2 E5 E3 E4).
Qed.

Lemma decrypt_signed : forall b e pk m, decrypt b e pk = Ok m -> exists esk nonce tag ct sig k kb sk,
  open_envelope e = Ok (esk, nonce, tag, ct, sig) /\ rsa_import pk None = Ok k /\ pkcs_verify k (sha256d ct) sig = Ok tt /\
  kp_key b = Some kb /\ oaep_dec kb esk = Ok sk /\ eax_enc sk nonce m = Ok (ct, tag).
Proof.
  intros b e pk m D. unfold decrypt in D. destruct (kp_cls b) eqn:Eb; try discriminate.
  all: destruct (open_envelope e) as [[[[[esk nonce] tag] ct] sig]|]; [|discriminate]; cbn [bind] in D;
    unfold signature_valid in D; rewrite Eb in D; cbn [bind] in D; try discriminate.
  destruct (rsa_import pk None) as [k|]; [|discriminate]. cbn [bind] in D. destruct (pkcs_verify k (sha256d ct) sig) as [[]|x] eqn:V.
  2: { destruct x; cbn in D; discriminate. }
  cbn [bind] in D. unfold key_of in D. destruct (kp_key b) as [kb|]; [|discriminate]. cbn [bind] in D.
  destruct (oaep_dec kb esk) as [sk|] eqn:O; [|discriminate]. cbn [bind] in D.
  exists esk, nonce, tag, ct, sig, k, kb, sk. split; [reflexivity|]. split; [reflexivity|]. split; [exact V|]. split; [reflexivity|].
  split; [exact O|]. apply (ok_eax_exact OK). exact D.
Qed.

Lemma decrypt_unsigned : forall b e pk k esk nonce tag ct sig x, kp_cls b = Base -> open_envelope e = Ok (esk, nonce, tag, ct, sig) ->
  rsa_import pk None = Ok k -> pkcs_verify k (sha256d ct) sig = Err x -> x = ValueError \/ x = TypeError -> decrypt b e pk = Err ValueError.
Proof.
  intros b e pk k esk nonce tag ct sig x B O I V X. unfold decrypt, signature_valid. rewrite B, O. cbn [bind]. rewrite I. cbn [bind]. rewrite V.
  destruct X as [-> | ->]; reflexivity.
Qed.

(** ** Attacks *)
Lemma forwarding : forall sk seed nonce seed' a ka b kb c kc m pka pkb pkc e, can_all a ka -> can_all b kb -> can_all c kc ->
  length sk = 16 -> length seed = 20 -> length nonce = 16 -> length seed' = 20 ->
  public_key a = Ok pka -> public_key b = Ok pkb -> public_key c = Ok pkc -> encrypt sk seed nonce a m pkb = Ok e ->
  exists e', forward seed' kb e pkc = Ok e' /\ decrypt c e' pka = Ok m.
Proof.
  intros sk seed nonce seed' a ka b kb c kc m pka pkb pkc e A [B1 [B2 B3]] [C1 [C2 C3]] L1 L2 L3 L4 Pa Pb Pc E.
  destruct (encrypt_shape sk seed nonce a ka b kb m pkb A B2 B3 L1 L2 L3 Pb) as [e0 [esk [tag [ct [sig [E1 [E2 [E3 [E4 E5]]]]]]]]].
  assert (e0 = e) by congruence. subst e0.
  destruct (pub_key a ka (proj1 (proj2 A))) as [pa [Q1 Q2]]. assert (pa = pka) by congruence. subst pa.
  destruct (pub_key c kc C2) as [pc [R1 R2]]. assert (pc = pkc) by congruence. subst pc.
  destruct (ok_oaep OK kc seed' sk C3 L4 L1) as [esk' [F1 F2]]. destruct (envelope_open esk' nonce tag ct sig) as [e' [G1 G2]].
  exists e'. split.
  - unfold forward. rewrite E2. cbn [bind]. rewrite E3. cbn [bind]. rewrite R2. cbn [bind]. rewrite F1. exact G1.
  - exact (decrypt_env c kc ka pka e' esk' nonce tag ct sig sk m C1 C2 Q2 G2 E5 F2 E4).
Qed.

Lemma forging : eax_onto -> forall sk seed nonce a ka b kb d sig pka pkb, kp_cls a <> Enc -> kp_key a = Some ka -> can_all b kb ->
  length sk = 16 -> length seed = 20 -> length nonce = 16 ->
  public_key a = Ok pka -> public_key b = Ok pkb -> sign a d = Ok sig ->
  exists tag e m, eax_enc sk nonce m = Ok (d, tag) /\ forge sk seed nonce tag d sig pkb = Ok e /\ decrypt b e pka = Ok m.
Proof.
  intros On sk seed nonce a ka b kb d sig pka pkb A1 A2 [B1 [B2 B3]] L1 L2 L3 Pa Pb S.
  destruct (pub_key a ka A2) as [pa [Q1 Q2]]. assert (pa = pka) by congruence. subst pa.
  destruct (pub_key b kb B2) as [pb [R1 R2]]. assert (pb = pkb) by congruence. subst pb.
  destruct (On sk nonce d L1 L3) as [m [tag X]]. destruct (ok_oaep OK kb seed sk B3 L2 L1) as [esk [F1 F2]].
  destruct (envelope_open esk nonce tag d sig) as [e [G1 G2]].
  assert (Ss : pkcs_sign ka (sha256d d) = Ok sig).
  { unfold sign, key_of in S. rewrite A2 in S. destruct (kp_cls a); try congruence; exact S. }
  exists tag, e, m. split; [exact X|]. split; [unfold forge; rewrite R2; cbn [bind]; rewrite F1; exact G1|].
  exact (decrypt_env b kb ka pka e esk nonce tag d sig sk m B1 B2 Q2 G2 Ss F2 X).
Qed.

(** ** The restricted classes *)
Lemma enc_useless : forall sk seed nonce a data pk e x, kp_cls a = Enc ->
  encrypt sk seed nonce a data pk <> Ok e /\ decrypt a data pk <> Ok x.
Proof.
  intros sk seed nonce a data pk e x E. split; intros D; [unfold encrypt in D|unfold decrypt in D]; rewrite E in D.
  - destruct (rsa_import pk None) as [rk|]; [|discriminate]. cbn [bind] in D. destruct (oaep_enc rk seed sk) as [c|]; [|discriminate].
    cbn [bind] in D. destruct (eax_enc sk nonce data) as [[ct tag]|]; [|discriminate]. cbn [bind] in D.
    unfold sign in D. rewrite E in D. discriminate.
  - destruct (open_envelope data) as [[[[[esk n] tag] ct] sig]|]; [|discriminate]. cbn [bind] in D. unfold signature_valid in D.
    rewrite E in D. discriminate.
Qed.
Lemma enc_error : forall sk seed nonce a b kb m pkb, kp_cls a = Enc -> kp_key b = Some kb -> good_key kb ->
  length sk = 16 -> length seed = 20 -> length nonce = 16 -> public_key b = Ok pkb ->
  encrypt sk seed nonce a m pkb = Err NotImplementedError.
Proof.
  intros sk seed nonce a b kb m pkb A B1 B2 L1 L2 L3 P. destruct (pub_key b kb B1) as [pk [P1 P2]].
  assert (pk = pkb) by congruence. subst pk. destruct (ok_oaep OK kb seed sk B2 L2 L1) as [esk [E1 _]].
  destruct (ok_eax OK sk nonce m (or_introl L1) L3) as [ct [tag E3]].
  unfold encrypt. rewrite A, P2. cbn [bind]. rewrite E1. cbn [bind]. rewrite E3. cbn [bind]. unfold sign. rewrite A. reflexivity.
Qed.
Lemma enc_decrypt_error : forall sk seed nonce a ka b kb m pkb e pk, can_all a ka -> kp_key b = Some kb -> good_key kb ->
  length sk = 16 -> length seed = 20 -> length nonce = 16 -> public_key b = Ok pkb -> encrypt sk seed nonce a m pkb = Ok e ->
  kp_cls b = Enc -> decrypt b e pk = Err NotImplementedError.
Proof.
  intros sk seed nonce a ka b kb m pkb e pk A B1 B2 L1 L2 L3 P E Bc.
  destruct (encrypt_shape sk seed nonce a ka b kb m pkb A B1 B2 L1 L2 L3 P) as [e0 [esk [tag [ct [sig [E1 [E2 _]]]]]]].
  assert (e0 = e) by congruence. subst e0. unfold decrypt. rewrite Bc, E2. cbn [bind]. unfold signature_valid. rewrite Bc. reflexivity.
Qed.

(** ** Equality *)
Lemma eqb_exact : forall a b ka kb na nb, kp_key a = Some ka -> kp_key b = Some kb -> kp_nick a = JStr na -> kp_nick b = JStr nb ->
  (kp_eqb a b = Ok true <-> kp_cls a = kp_cls b /\ kp_nick a = kp_nick b /\ rsa_public ka = rsa_public kb) /\
  kp_eqb b a = kp_eqb a b /\ exists r, kp_eqb a b = Ok r.
Proof.
  intros a b ka kb na nb Ea Eb Na Nb. destruct (pub_key a ka Ea) as [pa [A1 A2]]. destruct (pub_key b kb Eb) as [pb [B1 B2]].
  assert (S : kp_eq_method a b = (if isinstance (kp_cls b) (kp_cls a) then Ok (bytes_eqb pa pb && nick_eqb (kp_nick a) (kp_nick b)) else Ok false)).
  { unfold kp_eq_method. rewrite A1, B1. reflexivity. }
  assert (T : kp_eq_method b a = (if isinstance (kp_cls a) (kp_cls b) then Ok (bytes_eqb pb pa && nick_eqb (kp_nick b) (kp_nick a)) else Ok false)).
  { unfold kp_eq_method. rewrite A1, B1. reflexivity. }
  assert (Sy : bytes_eqb pb pa && nick_eqb (kp_nick b) (kp_nick a) = bytes_eqb pa pb && nick_eqb (kp_nick a) (kp_nick b)).
  { rewrite Na, Nb. cbn [nick_eqb]. apply eq_true_iff_eq. rewrite !andb_true_iff, !bytes_eqb_eq, !ustr_eqb_eq. intuition congruence. }
  assert (K : bytes_eqb pa pb && nick_eqb (kp_nick a) (kp_nick b) = true <-> kp_nick a = kp_nick b /\ rsa_public ka = rsa_public kb).
  { rewrite Na, Nb. cbn [nick_eqb]. rewrite andb_true_iff, bytes_eqb_eq, ustr_eqb_eq. split.
    - intros [-> ->]. split; [reflexivity|]. congruence.
    - intros [X E]. split; [|now injection X]. unfold public_key, key_of in A1, B1. rewrite Ea in A1. rewrite Eb in B1. cbn [bind] in A1, B1.
      rewrite E in A1. congruence. }
  unfold kp_eqb. rewrite S, T, Sy.
  destruct (kp_cls a), (kp_cls b); cbn [isinstance]; (split; [|split; [reflexivity|eexists; reflexivity]]);
    (split; [intros X; first [discriminate|injection X as X; apply K in X; tauto]|intros [X Y]; first [discriminate|apply K in Y; rewrite Y; reflexivity]]).
Qed.

Lemma hash_fails : forall a k, kp_key a = Some k -> kp_hash a = Err TypeError.
Proof. intros a k E. unfold kp_hash. destruct (pub_key a k E) as [b [-> _]]. reflexivity. Qed.

(** ** Key strings and files *)
Definition key_string (nick pub priv : list N) : list N := dumps (JObj [(k_nick, JStr nick); (k_pub, JStr pub); (k_priv, JStr priv)]).
Lemma from_string : forall c nick pub priv pass k, Forall scalar nick -> Forall scalar pub -> rsa_import priv (Some pass) = Ok k ->
  from_key_string c (key_string nick pub (hex_str priv)) pass = Ok (mkKp c (JStr nick) (Some k)).
Proof.
  intros c nick pub priv pass k Sn Sp I. unfold from_key_string, key_string. rewrite loads_dumps.
  - cbn [bind]. change (jindex _ k_nick) with (@Ok json (JStr nick)). cbn [bind].
    change (jindex _ k_priv) with (@Ok json (JStr (hex_str priv))). cbn [bind]. rewrite unhex_hex. cbn [bind]. rewrite I. reflexivity.
  - apply jok_obj. repeat (constructor; [split; cbn [fst snd jok]; [apply key_scalar; reflexivity|first [assumption|apply asc_scalar, asc_hex]]|]). constructor.
Qed.
Lemma to_string_shape : forall salt a k nick pass s, kp_key a = Some k -> kp_nick a = JStr nick -> to_key_string salt a pass = Ok s ->
  exists pk pub priv, public_key a = Ok pk /\ utf8_decode pk = Ok pub /\ rsa_export k salt (Some pass) = Ok priv /\
    s = key_string nick pub (hex_str priv).
Proof.
  intros salt a k nick pass s E N T. unfold to_key_string, key_of in T. rewrite E, N in T. cbn [bind] in T.
  destruct (rsa_export (rsa_public k) [] None) as [pk|] eqn:P; [|discriminate]. cbn [bind] in T.
  destruct (utf8_decode pk) as [pub|] eqn:U; [|discriminate]. cbn [bind] in T.
  destruct (rsa_export k salt (Some pass)) as [priv|] eqn:X; [|discriminate]. cbn [bind] in T. injection T as T.
  exists pk, pub, priv. split; [unfold public_key, key_of; rewrite E; exact P|]. split; [exact U|]. split; [reflexivity|]. rewrite <- T. reflexivity.
Qed.
Lemma string_round_trip : forall salt a k nick pass s c, kp_key a = Some k -> rsa_private k = true -> kp_nick a = JStr nick -> Forall scalar nick ->
  to_key_string salt a pass = Ok s -> from_key_string c s pass = Ok (mkKp c (JStr nick) (Some k)).
Proof.
  intros salt a k nick pass s c E P Na N T. destruct (to_string_shape salt a k nick pass s E Na T) as [pk [pub [priv [A [B [X ->]]]]]].
  apply from_string; [exact N|exact (utf8_decode_scalar _ _ B)|exact (ok_priv_import OK k salt pass priv P X)].
Qed.
Lemma string_total : forall salt a k pass priv, kp_key a = Some k -> rsa_export k salt (Some pass) = Ok priv ->
  exists s, to_key_string salt a pass = Ok s.
Proof.
  intros salt a k pass priv E X. destruct (ok_pub_export OK k) as [pk P]. destruct (ok_pub_text OK k pk P) as [pub U].
  unfold to_key_string, key_of. rewrite E. cbn [bind]. rewrite P. cbn [bind]. rewrite U. cbn [bind]. rewrite X. eexists. reflexivity.
Qed.

Lemma fget_fset : forall fs n t m, fget (fset fs n t) m = if ustr_eqb m n then Some t else fget fs m.
Proof. reflexivity. Qed.
Lemma file_round_trip : forall salt fs fs' a k nick file pass c, kp_key a = Some k -> rsa_private k = true -> kp_nick a = JStr nick -> Forall scalar nick ->
  to_key_file salt None fs a file pass = (Ok tt, fs') ->
  from_key_file fs' c file pass = Ok (mkKp c (JStr nick) (Some k)).
Proof.
  intros salt fs fs' a k nick file pass c E P Na N T. unfold to_key_file in T. destruct (to_key_string salt a pass) as [s|] eqn:S; [|discriminate].
  injection T as <-. unfold from_key_file. rewrite fget_fset, ustr_eqb_refl. exact (string_round_trip salt a k nick pass s c E P Na N S).
Qed.
Lemma file_others : forall salt crash fs a file pass other, other <> file -> fget (snd (to_key_file salt crash fs a file pass)) other = fget fs other.
Proof.
  intros salt crash fs a file pass other Ne. unfold to_key_file. destruct (to_key_string salt a pass); [|reflexivity].
  assert (E : ustr_eqb other file = false) by (destruct (ustr_eqb other file) eqn:E; [apply ustr_eqb_eq in E; contradiction|reflexivity]).
  destruct crash; cbn [snd]; rewrite fget_fset, E; reflexivity.
Qed.
Lemma file_unchanged : forall salt crash fs a file pass e, to_key_string salt a pass = Err e ->
  to_key_file salt crash fs a file pass = (Err e, fs).
Proof. intros. unfold to_key_file. rewrite H. reflexivity. Qed.
Lemma file_lost : forall salt fs a k file pass s c, kp_key a = Some k -> to_key_string salt a pass = Ok s ->
  fst (to_key_file salt (Some 0) fs a file pass) = Err StorageFault /\
  from_key_file (snd (to_key_file salt (Some 0) fs a file pass)) c file pass = Err JSONDecodeError.
Proof.
  intros salt fs a k file pass s c E S. unfold to_key_file. rewrite S. cbn [fst snd firstn]. split; [reflexivity|].
  unfold from_key_file. rewrite fget_fset, ustr_eqb_refl. reflexivity.
Qed.

(** ** Passwords *)
Lemma pw_round_trip : forall nonce data pw, Forall scalar pw -> length nonce = 16 ->
  exists b, pw_encrypt nonce data pw = Ok b /\ pw_decrypt b pw = Ok data /\ length b = 32 + length data.
Proof.
  intros nonce data pw S L. destruct (utf8_encode_total pw S) as [p Ep]. unfold pw_encrypt, pw_decrypt. rewrite Ep. cbn [bind].
  destruct (ok_eax OK (sha256d p) nonce data (or_intror (ok_sha256 OK p)) L) as [c [t X]]. rewrite X. cbn [bind].
  destruct (ok_eax_tag OK _ _ _ _ _ X) as [Lt Lc].
  exists (nonce ++ t ++ c). split; [reflexivity|].
  assert (E1 : firstn 16 (nonce ++ t ++ c) = nonce) by (rewrite <- L, firstn_app, Nat.sub_diag, firstn_all; cbn [firstn]; apply app_nil_r).
  assert (E2 : skipn 16 (nonce ++ t ++ c) = t ++ c) by (rewrite <- L, skipn_app, Nat.sub_diag, skipn_all; reflexivity).
  assert (E3 : firstn 16 (t ++ c) = t) by (rewrite <- Lt, firstn_app, Nat.sub_diag, firstn_all; cbn [firstn]; apply app_nil_r).
  assert (E4 : skipn 32 (nonce ++ t ++ c) = c).
  { rewrite app_assoc. assert (L2 : length (nonce ++ t) = 32) by (rewrite app_length; lia).
    rewrite <- L2, skipn_app, Nat.sub_diag, skipn_all. reflexivity. }
  split; [rewrite E1, E2, E3, E4; apply (ok_eax_exact OK); exact X|rewrite !app_length; lia].
Qed.
Lemma pw_exact : forall b pw data, pw_decrypt b pw = Ok data -> pw_encrypt (firstn 16 b) data pw = Ok b /\ 32 <= length b.
Proof.
  intros b pw data D. unfold pw_decrypt in D. unfold pw_encrypt. destruct (utf8_encode pw) as [p|]; [|discriminate]. cbn [bind] in *.
  apply (ok_eax_exact OK) in D. destruct (ok_eax_tag OK _ _ _ _ _ D) as [Lt _]. rewrite D. cbn [bind].
  rewrite firstn_length, skipn_length in Lt. split; [|lia]. f_equal.
  rewrite <- (firstn_skipn 16 b) at 4. f_equal. rewrite <- (firstn_skipn 16 (skipn 16 b)) at 2. f_equal.
  rewrite <- (firstn_skipn 16 b) at 1. rewrite skipn_app.
  assert (L16 : length (firstn 16 b) = 16) by (rewrite firstn_length; lia). rewrite L16.
  rewrite (skipn_all2 (firstn 16 b)) by lia. reflexivity.
Qed.

Lemma pw_keys : forall p q a b, utf8_encode p = Ok a -> utf8_encode q = Ok b -> (sha256d a = sha256d b -> a = b) -> sha256d a = sha256d b -> p = q.
Proof.
  intros p q a b Ea Eb N E. specialize (N E). subst b. apply utf8_encode_decode in Ea. apply utf8_encode_decode in Eb. congruence.
Qed.

(** ** Checks *)
Lemma valid_exact : forall a d s pk k, kp_cls a <> Enc -> rsa_import pk None = Ok k ->
  (signature_valid a d s (Some pk) = Ok true <-> pkcs_verify k (sha256d d) s = Ok tt) /\
  (signature_valid a d s (Some pk) = Ok false <-> exists e, pkcs_verify k (sha256d d) s = Err e /\ In e (TypeError :: value_errors)) /\
  (forall e, signature_valid a d s (Some pk) = Err e <-> pkcs_verify k (sha256d d) s = Err e /\ ~ In e (TypeError :: value_errors)) /\
  (public_key a = Ok pk -> signature_valid a d s None = signature_valid a d s (Some pk)).
Proof.
  intros a d s pk k A I.
  assert (E : signature_valid a d s (Some pk) = match pkcs_verify k (sha256d d) s with
      | Ok _ => Ok true | Err TypeError => Ok false | Err e => if value_error e then Ok false else Err e end).
  { unfold signature_valid. cbn [bind]. rewrite I. destruct (kp_cls a); [reflexivity|reflexivity|contradiction]. }
  assert (D : public_key a = Ok pk -> signature_valid a d s None = signature_valid a d s (Some pk)) by (intros P; unfold signature_valid; now rewrite P).
  split; [|split; [|split; [|exact D]]]; rewrite E; clear E D; destruct (pkcs_verify k (sha256d d) s) as [[]|x].
  - tauto.
  - split; [|discriminate]. destruct x; cbn; discriminate.
  - split; [discriminate|]. intros [e [X _]]. discriminate.
  - split; [intros X; exists x; split; [reflexivity|]; destruct x; cbn in X |- *; try discriminate; tauto|].
    intros [e [X I2]]. injection X as <-. destruct x; cbn in I2 |- *; try reflexivity; exfalso; repeat destruct I2 as [I2|I2]; congruence.
  - intros e. split; [discriminate|]. intros [X _]. discriminate.
  - intros e. split.
    + intros X. assert (x = e) by (destruct x; cbn in X; congruence). subst e. split; [reflexivity|]. intros I2. destruct x; cbn in X, I2; try discriminate; repeat destruct I2 as [I2|I2]; congruence.
    + intros [X N]. injection X as <-. destruct x; cbn in N |- *; try reflexivity; exfalso; apply N; tauto.
Qed.
Lemma valid_bad_key : forall a d s pk e, kp_cls a <> Enc -> rsa_import pk None = Err e -> signature_valid a d s (Some pk) = Err e.
Proof. intros a d s pk e A I. unfold signature_valid. cbn [bind]. rewrite I. destruct (kp_cls a); [reflexivity|reflexivity|contradiction]. Qed.

Lemma key_valid_exact : forall key (private r : bool),
  rsa_key_valid key (if private then txt "private" else txt "public") r = Ok true <->
  exists k, rsa_import key None = Ok k /\ rsa_private k = private.
Proof.
  intros key private r. unfold rsa_key_valid.
  assert (T : negb (ustr_eqb (if private then txt "private" else txt "public") (txt "public") ||
                    ustr_eqb (if private then txt "private" else txt "public") (txt "private")) = false) by (destruct private; reflexivity).
  rewrite T. assert (U : ustr_eqb (if private then txt "private" else txt "public") (txt "public") = negb private) by (destruct private; reflexivity).
  rewrite U. destruct (rsa_import key None) as [k|e].
  - split.
    + intros E. exists k. split; [reflexivity|]. destruct private, (rsa_private k); cbn in E; congruence.
    + intros [k' [E P]]. injection E as <-. rewrite P. destruct private; reflexivity.
  - split; [|intros [k [E _]]; discriminate]. destruct (value_error e); [destruct r|]; discriminate.
Qed.
Lemma key_valid_wrong_kind : forall key (private : bool) k, rsa_import key None = Ok k -> rsa_private k = negb private ->
  rsa_key_valid key (if private then txt "private" else txt "public") true = Ok false.
Proof.
  intros key private k I P. unfold rsa_key_valid. rewrite I, P. destruct private; reflexivity.
Qed.
Lemma value_error_in : forall e, (In e value_errors -> value_error e = true) /\ (~ In e value_errors -> value_error e = false).
Proof. intros e. destruct e; cbn; split; intros X; try reflexivity; try (exfalso; apply X; tauto); exfalso; repeat destruct X as [X|X]; congruence. Qed.
Lemma key_valid_unloadable : forall key (private raise_ex : bool) e, rsa_import key None = Err e ->
  (In e value_errors -> rsa_key_valid key (if private then txt "private" else txt "public") raise_ex = if raise_ex then Err KeyError else Ok false) /\
  (~ In e value_errors -> rsa_key_valid key (if private then txt "private" else txt "public") raise_ex = Err e).
Proof.
  intros key private raise_ex e I. unfold rsa_key_valid. rewrite I. destruct (value_error_in e) as [V N].
  split; intros X; [rewrite (V X)|rewrite (N X)]; destruct private; reflexivity.
Qed.

Lemma hash_data_sha256 : forall b, exists h, hash_data b (txt "sha256") = Ok h /\ from_hex h = Some (sha256d b) /\ length h = 64.
Proof.
  intros b. exists (to_hex (sha256d b)). split; [reflexivity|]. split; [apply from_to_hex|]. rewrite to_hex_length, (ok_sha256 OK). reflexivity.
Qed.
Lemma hash_data_sha512 : forall b, exists h, hash_data b (txt "sha512") = Ok h /\ from_hex h = Some (sha512d b).
Proof. intros b. exists (to_hex (sha512d b)). split; [reflexivity|apply from_to_hex]. Qed.
Lemma hash_data_other : forall b ty, ty <> txt "sha256" -> ty <> txt "sha512" -> hash_data b ty = Err ValueError.
Proof.
  intros b ty A B. unfold hash_data. destruct (ustr_eqb ty (txt "sha256")) eqn:E; [apply ustr_eqb_eq in E; contradiction|].
  destruct (ustr_eqb ty (txt "sha512")) eqn:F; [apply ustr_eqb_eq in F; contradiction|]. reflexivity.
Qed.
Lemma hash_data_all : (forall b, exists h, hash_data b (txt "sha256") = Ok h /\ from_hex h = Some (sha256d b) /\ length h = 64) /\
  (forall b, exists h, hash_data b (txt "sha512") = Ok h /\ from_hex h = Some (sha512d b)) /\
  (forall b ty, ty <> txt "sha256" -> ty <> txt "sha512" -> hash_data b ty = Err ValueError).
Proof. exact (conj hash_data_sha256 (conj hash_data_sha512 hash_data_other)). Qed.
Lemma restricted : forall sk seed nonce a d s pk,
  (kp_cls a = Auth -> encrypt sk seed nonce a d pk = Err NotImplementedError /\ decrypt a d pk = Err NotImplementedError) /\
  (kp_cls a = Enc -> sign a d = Err NotImplementedError /\ signature_valid a d s (Some pk) = Err NotImplementedError /\
                     signature_valid a d s None = Err NotImplementedError).
Proof.
  intros sk seed nonce a d s pk. unfold encrypt, decrypt, sign, signature_valid. split; intros ->; repeat split.
Qed.
Lemma file_missing : forall fs c file pass, fget fs file = None -> from_key_file fs c file pass = Err FileNotFoundError.
Proof. intros fs c file pass E. unfold from_key_file. rewrite E. reflexivity. Qed.
End WithCrypto.
