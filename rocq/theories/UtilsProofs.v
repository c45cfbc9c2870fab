(** Proofs about UtilsPy.v. *)
From Coq Require Import String List Bool Arith NArith ZArith Lia.
From Verif Require Import Base BaseProofs ProofObj Json JsonProofs Keccak ProofJson MerkleTree MtProofs Keypairs SpecKeys KeysProofs Texts SpecText TextProofs AuditProofs
  UtilsMisc KeyCalls UtilsPy SpecUtils.
Import ListNotations.
Local Open Scope res_scope.

(** ** Time stamps *)
Lemma stamp_str : forall t, timestamp_string t = time_str (to_second t) ++ bs " ".
Proof. intros [y mo d h mi s us]. unfold timestamp_string, time_str, to_second. cbn [t_year t_month t_day t_hour t_min t_sec t_us]. change (0 =? 0)%N with true. cbv iota.
  rewrite app_nil_r, <- !app_assoc. reflexivity. Qed.
Lemma stamp_length : forall t, length (timestamp_string t) = 20.
Proof. intros t. unfold timestamp_string. rewrite !app_length, !fixed_length. reflexivity. Qed.
Lemma less_ext_iff : forall a b x, length a = length b -> (bytes_less (a ++ x) (b ++ x) <-> bytes_less a b).
Proof.
  intros a b x L. split; [|now apply less_ext]. revert b L. induction a as [|c a IH]; intros [|d b] L E; try discriminate.
  - exfalso. exact (less_irrefl _ E).
  - injection L as L. cbn [app] in E. inversion E; subst; [now apply fl_less|]. apply fl_same. now apply IH.
Qed.
Lemma second_length : forall t u, length (time_str (to_second t)) = length (time_str (to_second u)).
Proof.
  assert (X : forall t, length (time_str (to_second t)) = 19) by (intros [y mo d h mi s us]; unfold time_str, to_second; cbn [t_year t_month t_day t_hour t_min t_sec t_us];
    rewrite !app_length, !fixed_length; reflexivity).
  intros t u. now rewrite !X.
Qed.
Lemma stamp_order : forall t u, valid_time t -> valid_time u ->
  (bytes_less (timestamp_string t) (timestamp_string u) <-> earlier (to_second t) (to_second u)) /\
  (timestamp_string t = timestamp_string u <-> to_second t = to_second u).
Proof.
  intros t u T U. rewrite !stamp_str, less_ext_iff by apply second_length.
  assert (V : forall t, valid_time t -> valid_time (to_second t)) by (intros [y mo d h mi s us] X; unfold valid_time, to_second in *; cbn in *; intuition lia).
  destruct (time_order (to_second t) (to_second u) (V t T) (V u U)) as [A B]. split; [exact A|]. rewrite <- B. split; [|now intros ->]. apply app_inv_tail.
Qed.

(** ** Random ids *)
Lemma hexdigit_digit : forall n, (n < 16)%N -> hex_digit (hexdigit n).
Proof. intros n L. unfold hex_digit, hexdigit. destruct (N.ltb_spec n 10); rewrite bN_nB by lia; lia. Qed.
Lemma to_hex_digits : forall b, Forall hex_digit (to_hex b).
Proof.
  induction b as [|x b IH]; [constructor|]. rewrite to_hex_cons. pose proof (bN_lt x).
  constructor; [apply hexdigit_digit, N.div_lt_upper_bound; lia|]. constructor; [apply hexdigit_digit, N.mod_lt; lia|exact IH].
Qed.

Lemma list16 : forall r : bytes, length r = 16 -> exists a b c d e f g h i j k l m n o p, r = [a; b; c; d; e; f; g; h; i; j; k; l; m; n; o; p].
Proof.
  intros r L. do 16 (destruct r as [|? r]; [discriminate|]). destruct r; [|discriminate]. repeat eexists.
Qed.
Lemma id_shape : forall r, length r = 16 -> length (get_id r) = 32 /\ Forall hex_digit (get_id r) /\ nth 12 (get_id r) x00 = x34 /\ In (nth 16 (get_id r) x00) [x38; x39; x61; x62].
Proof.
  intros r L. destruct (list16 r L) as (a & b & c & d & e & f & g & h & i & j & k & l & m & n & o & p & ->).
  unfold get_id, uuid4. cbn [firstn skipn nth app]. split; [now rewrite to_hex_length|]. split; [apply to_hex_digits|].
  rewrite !to_hex_cons. cbn [nth].
  assert (G : (bN g mod 16 < 16)%N) by (apply N.mod_lt; lia). assert (I : (bN i mod 64 < 64)%N) by (apply N.mod_lt; lia).
  rewrite !bN_nB by lia. split.
  - replace ((bN g mod 16 + 64) / 16)%N with 4%N by (apply N.div_unique with (r := (bN g mod 16)%N); lia). reflexivity.
  - assert (Q : ((bN i mod 64 + 128) / 16 = 8 \/ (bN i mod 64 + 128) / 16 = 9 \/ (bN i mod 64 + 128) / 16 = 10 \/ (bN i mod 64 + 128) / 16 = 11)%N).
    { pose proof (N.div_mod (bN i mod 64 + 128) 16 ltac:(lia)). pose proof (N.mod_lt (bN i mod 64 + 128) 16 ltac:(lia)). lia. }
    cbn [In]. destruct Q as [-> | [-> | [-> | ->]]]; vm_compute; tauto.
Qed.

Lemma byte_bits : forall (w : N) (a b : byte), (w <= 8)%N -> ((bN a mod 2 ^ w = bN b mod 2 ^ w)%N <-> forall j, (j < w)%N -> N.testbit (bN a) j = N.testbit (bN b) j).
Proof.
  intros w a b W. split.
  - intros E j J. rewrite <- (N.mod_pow2_bits_low (bN a) w j J), <- (N.mod_pow2_bits_low (bN b) w j J). now rewrite E.
  - intros E. apply N.bits_inj. intros j. destruct (N.lt_ge_cases j w) as [J|J].
    + rewrite !N.mod_pow2_bits_low by exact J. now apply E.
    + rewrite !N.mod_pow2_bits_high by exact J. reflexivity.
Qed.
Lemma whole_byte : forall a b : byte, (bN a mod 2 ^ 8 = bN b mod 2 ^ 8)%N <-> a = b.
Proof.
  intros a b. pose proof (bN_lt a). pose proof (bN_lt b). change (2 ^ 8)%N with 256%N. rewrite !N.mod_small by assumption.
  split; [|now intros ->]. intros E. rewrite <- (nB_bN a), <- (nB_bN b). now rewrite E.
Qed.
Lemma nB_add : forall a b c m, (a < m)%N -> (b < m)%N -> (m + c <= 256)%N -> nB (a + c) = nB (b + c) -> a = b.
Proof. intros a b c m A B M E. apply (f_equal bN) in E. rewrite !bN_nB in E by lia. lia. Qed.
Definition width (q : nat) : N := if q =? 6 then 4%N else if q =? 8 then 6%N else 8%N.
Lemma uuid_same : forall r s, length r = 16 -> length s = 16 ->
  (uuid4 r = uuid4 s <-> forall q, q < 16 -> (bN (nth q r x00) mod 2 ^ width q = bN (nth q s x00) mod 2 ^ width q)%N).
Proof.
  intros r s L M.
  destruct (list16 r L) as (a & b & c & d & e & f & g & h & i & j & k & l & m & n & o & p & ->).
  destruct (list16 s M) as (a' & b' & c' & d' & e' & f' & g' & h' & i' & j' & k' & l' & m' & n' & o' & p' & ->).
  unfold uuid4. cbn [firstn skipn nth app]. split.
  - intros E. injection E as -> -> -> -> -> -> Eg -> Ei -> -> -> -> -> -> ->.
    assert (G : (bN g mod 16 = bN g' mod 16)%N) by (apply nB_add with (c := 64%N) (m := 16%N); [apply N.mod_lt; lia|apply N.mod_lt; lia|lia|exact Eg]).
    assert (I : (bN i mod 64 = bN i' mod 64)%N) by (apply nB_add with (c := 128%N) (m := 64%N); [apply N.mod_lt; lia|apply N.mod_lt; lia|lia|exact Ei]).
    unfold width. intros q Q. do 16 (destruct q as [|q]; [cbn [nth Nat.eqb]; first [reflexivity|exact G|exact I]|]). lia.
  - unfold width. intros E.
    assert (W : forall q, q < 16 -> q <> 6 -> q <> 8 -> nth q [a; b; c; d; e; f; g; h; i; j; k; l; m; n; o; p] x00 = nth q [a'; b'; c'; d'; e'; f'; g'; h'; i'; j'; k'; l'; m'; n'; o'; p'] x00).
    { intros q Q N6 N8. specialize (E q Q). apply Nat.eqb_neq in N6, N8. rewrite N6, N8 in E. now apply whole_byte. }
    pose proof (E 6 ltac:(lia)) as G. pose proof (E 8 ltac:(lia)) as I. cbn [nth Nat.eqb] in G, I. change (2 ^ 4)%N with 16%N in G. change (2 ^ 6)%N with 64%N in I.
    rewrite G, I.
    pose proof (W 0 ltac:(lia) ltac:(lia) ltac:(lia)). pose proof (W 1 ltac:(lia) ltac:(lia) ltac:(lia)). pose proof (W 2 ltac:(lia) ltac:(lia) ltac:(lia)).
    pose proof (W 3 ltac:(lia) ltac:(lia) ltac:(lia)). pose proof (W 4 ltac:(lia) ltac:(lia) ltac:(lia)). pose proof (W 5 ltac:(lia) ltac:(lia) ltac:(lia)).
    pose proof (W 7 ltac:(lia) ltac:(lia) ltac:(lia)). pose proof (W 9 ltac:(lia) ltac:(lia) ltac:(lia)). pose proof (W 10 ltac:(lia) ltac:(lia) ltac:(lia)).
    pose proof (W 11 ltac:(lia) ltac:(lia) ltac:(lia)). pose proof (W 12 ltac:(lia) ltac:(lia) ltac:(lia)). pose proof (W 13 ltac:(lia) ltac:(lia) ltac:(lia)).
    pose proof (W 14 ltac:(lia) ltac:(lia) ltac:(lia)). pose proof (W 15 ltac:(lia) ltac:(lia) ltac:(lia)).
    clear E W G I. cbn [nth] in *. subst. reflexivity.
Qed.
Lemma bit_at : forall b q j, j < 8 -> bit b (8 * q + j) = N.testbit (bN (nth q b x00)) (N.of_nat (7 - j)).
Proof.
  intros b q j J. unfold bit. replace ((8 * q + j) / 8) with q by (apply Nat.div_unique with (r := j); lia).
  replace ((8 * q + j) mod 8) with j by (apply Nat.mod_unique with (q := q); lia). reflexivity.
Qed.
Lemma id_same : forall r s, length r = 16 -> length s = 16 -> (get_id r = get_id s <-> forall i, i < 128 -> ~ fixed_bit i -> bit r i = bit s i).
Proof.
  intros r s L M. unfold get_id. split.
  - intros E. apply to_hex_inj in E. pose proof (proj1 (uuid_same r s L M) E) as B. clear E. unfold width in B. intros i I F.
    pose proof (Nat.div_mod i 8 ltac:(lia)) as D. pose proof (Nat.mod_upper_bound i 8 ltac:(lia)) as U.
    assert (Q : i / 8 < 16) by lia. specialize (B (i / 8) Q). remember (i / 8) as q. remember (i mod 8) as j. rewrite D. rewrite !bit_at by exact U.
    assert (G : forall w, (w <= 8)%N -> (bN (nth q r x00) mod 2 ^ w = bN (nth q s x00) mod 2 ^ w)%N -> (N.of_nat (7 - j) < w)%N -> N.testbit (bN (nth q r x00)) (N.of_nat (7 - j)) = N.testbit (bN (nth q s x00)) (N.of_nat (7 - j))).
    { intros w W X Y. exact (proj1 (byte_bits w _ _ W) X _ Y). }
    unfold fixed_bit in F. destruct (Nat.eqb_spec q 6) as [Q6|Q6]; [apply (G 4%N); [lia|exact B|lia]|].
    destruct (Nat.eqb_spec q 8) as [Q8|Q8]; [apply (G 6%N); [lia|exact B|lia]|]. apply (G 8%N); [lia|exact B|lia].
  - intros B. f_equal. apply (uuid_same r s L M). unfold width. intros q Q.
    assert (G : forall w, (w <= 8)%N -> (forall j, j < 8 -> 8 <= j + N.to_nat w -> ~ fixed_bit (8 * q + j)) -> (bN (nth q r x00) mod 2 ^ w = bN (nth q s x00) mod 2 ^ w)%N).
    { intros w W F. apply byte_bits; [exact W|]. intros j J. specialize (B (8 * q + (7 - N.to_nat j))). rewrite !bit_at in B by lia.
      replace (N.of_nat (7 - (7 - N.to_nat j))) with j in B by lia. apply B; [lia|]. apply F; lia. }
    unfold fixed_bit in G. destruct (Nat.eqb_spec q 6) as [->|Q6]; [apply G; [lia|intros j J1 J2; change (N.to_nat 4) with 4 in J2; lia]|].
    destruct (Nat.eqb_spec q 8) as [->|Q8]; [apply G; [lia|intros j J1 J2; change (N.to_nat 6) with 6 in J2; lia]|]. apply G; [lia|intros j J1 J2; lia].
Qed.

(** ** Types and keys *)
Section WithCrypto.
Context {C : Crypto}.
Definition bytes_arg (a : parg) : Prop := exists b, a = ABytes b.
Lemma hash_data_types : forall data fin ty, (forall b, data <> ABytes b) -> py_hash_data data fin ty = Err TypeError.
Proof. intros data fin ty N. destruct data; try reflexivity. destruct (N b eq_refl). Qed.
Lemma hash_data_names : forall d fin ty, ty <> AStr (txt "sha256") -> ty <> AStr (txt "sha512") -> py_hash_data (ABytes d) fin ty = Err ValueError.
Proof.
  intros d fin ty N1 N2. cbn [py_hash_data]. destruct ty as [|t| | |]; try reflexivity.
  destruct (ustr_eqb t (txt "sha256")) eqn:E1; [apply ustr_eqb_eq in E1; subst; destruct (N1 eq_refl)|].
  destruct (ustr_eqb t (txt "sha512")) eqn:E2; [apply ustr_eqb_eq in E2; subst; destruct (N2 eq_refl)|]. reflexivity.
Qed.
Lemma hash_data_forms : forall d, exists a b, py_hash_data (ABytes d) true (AStr (txt "sha256")) = Ok (HText a) /\ from_hex a = Some (sha256d d) /\
  py_hash_data (ABytes d) false (AStr (txt "sha256")) = Ok (HObject (txt "sha256") (sha256d d)) /\
  py_hash_data (ABytes d) true (AStr (txt "sha512")) = Ok (HText b) /\ from_hex b = Some (sha512d d) /\
  py_hash_data (ABytes d) false (AStr (txt "sha512")) = Ok (HObject (txt "sha512") (sha512d d)).
Proof.
  intros d. exists (to_hex (sha256d d)), (to_hex (sha512d d)). rewrite !from_to_hex. cbn [py_hash_data].
  change (ustr_eqb (txt "sha256") (txt "sha256")) with true. change (ustr_eqb (txt "sha512") (txt "sha256")) with false.
  change (ustr_eqb (txt "sha512") (txt "sha512")) with true. repeat split; reflexivity.
Qed.
Lemma password_types : forall nonce data pw, (forall b, data <> ABytes b) \/ (forall s, pw <> AStr s) ->
  py_pw_encrypt nonce data pw = Err TypeError /\ py_pw_decrypt data pw = Err TypeError.
Proof.
  intros nonce data pw N. unfold py_pw_encrypt, py_pw_decrypt. destruct data; try (split; reflexivity). destruct pw; try (split; reflexivity).
  destruct N as [N|N]; [destruct (N b eq_refl)|destruct (N s eq_refl)].
Qed.
Lemma password_round_trip : crypto_ok -> forall nonce data pw, Forall scalar pw -> length nonce = 16 ->
  exists b, py_pw_encrypt nonce (ABytes data) (AStr pw) = Ok b /\ py_pw_decrypt (ABytes b) (AStr pw) = Ok data.
Proof. intros OK nonce data pw S L. destruct (pw_round_trip OK nonce data pw S L) as [b [A [B _]]]. exists b. split; assumption. Qed.
Lemma key_valid_types : forall key ty r, (forall b, key <> ABytes b) \/ (forall s, ty <> AStr s) -> py_key_valid key ty r = Err TypeError.
Proof.
  intros key ty r N. unfold py_key_valid. destruct key; try reflexivity. destruct ty; try reflexivity.
  destruct N as [N|N]; [destruct (N b eq_refl)|destruct (N s eq_refl)].
Qed.
Lemma key_valid_names : forall key t r, t <> txt "public" -> t <> txt "private" -> py_key_valid (ABytes key) (AStr t) r = Err ValueError.
Proof.
  intros key t r N1 N2. cbn [py_key_valid].
  destruct (ustr_eqb t (txt "public")) eqn:E1; [apply ustr_eqb_eq in E1; contradiction|].
  destruct (ustr_eqb t (txt "private")) eqn:E2; [apply ustr_eqb_eq in E2; contradiction|]. reflexivity.
Qed.
Lemma key_valid_raise : forall key t, t = txt "public" \/ t = txt "private" -> py_key_valid (ABytes key) (AStr t) None = Err TypeError.
Proof. intros key t [-> | ->]; reflexivity. Qed.
Lemma exists_types : forall is cwd name, (forall s, name <> AStr s) -> py_exists is cwd name = Err TypeError.
Proof. intros is cwd name N. destruct name; try reflexivity. destruct (N s eq_refl). Qed.

Lemma new_keys_valid : plain_import_ok -> forall k b r, rsa_private k = true -> generate_rsa_keypair k = Ok b ->
  py_key_valid (ABytes b) (AStr (txt "private")) (Some r) = Ok true /\ py_key_valid (ABytes b) (AStr (txt "public")) (Some r) = Ok false.
Proof.
  intros OK k b r P G. unfold generate_rsa_keypair in G. pose proof (OK k b P G) as I. unfold py_key_valid, rsa_key_valid.
  change (ustr_eqb (txt "private") (txt "public")) with false. change (ustr_eqb (txt "private") (txt "private")) with true.
  change (ustr_eqb (txt "public") (txt "public")) with true. cbn [orb negb]. rewrite I, P. split; reflexivity.
Qed.
End WithCrypto.
