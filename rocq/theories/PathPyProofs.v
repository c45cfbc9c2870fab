(** NibblePath objects with Python's integers. *)
From Coq Require Import String DecimalString DecimalZ List Bool Arith NArith ZArith Lia ZifyBool ZifyNat ZifyN.
From Verif Require Import Base BaseProofs NibblePath NibbleProofs NibblePathPy Keccak ProofJson ProofJsonProofs SpecCodec SpecPath SpecRlp RlpExact.
Import ListNotations.

Definition low (p : pypath) : np := mkNp (py_data p) (Z.to_nat (py_off p)).
Lemma low_nibs : forall p, nibs (low p) = py_nibbles p.
Proof. reflexivity. Qed.
Lemma py_at_low : forall p i, (0 <= py_off p)%Z -> py_at p i = np_at_py (low p) i.
Proof. intros p i R. unfold py_at, np_at_py, low. cbn [np_data np_off]. rewrite Z2Nat.id by exact R. reflexivity. Qed.
Lemma py_at_in : forall p i, (0 <= py_off p)%Z -> i < length (py_nibbles p) -> py_at p (Z.of_nat i) = Ok (np_at (low p) i).
Proof. intros p i R L. rewrite py_at_low by exact R. rewrite np_at_spec. apply np_at_py_in. exact L. Qed.
Lemma py_nibbles_len : forall p, length (py_nibbles p) = 2 * length (py_data p) - Z.to_nat (py_off p).
Proof. intros p. unfold py_nibbles. rewrite skipn_length. change (nibbles (py_data p)) with (nibs_of (py_data p)). rewrite nibs_of_length. reflexivity. Qed.
Lemma py_len_in : forall p, in_range p -> py_len p = Ok (Z.of_nat (length (py_nibbles p))).
Proof.
  intros p R. unfold in_range in R. unfold py_len. rewrite py_nibbles_len. destruct (_ <? 0)%Z eqn:E; [lia|]. f_equal. lia.
Qed.
Lemma low_len : forall p, np_len (low p) = length (py_nibbles p).
Proof. intros p. rewrite np_len_spec. reflexivity. Qed.
Lemma py_agree_in : forall p q n i, in_range p -> in_range q -> i + n <= length (py_nibbles p) -> i + n <= length (py_nibbles q) ->
  py_agree p q (Z.of_nat i) n = Ok (np_agree (low p) (low q) i n).
Proof.
  intros p q n. induction n as [|n IH]; intros i P Q A B; [reflexivity|]. cbn [py_agree np_agree].
  rewrite !py_at_in by (try lia; try apply P; try apply Q). cbn [bind]. destruct (Nat.eqb _ _); [|reflexivity].
  cbn [andb]. replace (Z.of_nat i + 1)%Z with (Z.of_nat (S i)) by lia. apply IH; try assumption; lia.
Qed.
Lemma py_eq_in : forall p q, in_range p -> in_range q -> py_eq p q = Ok (np_eq (low p) (low q)).
Proof.
  intros p q P Q. unfold py_eq, np_eq. rewrite !py_len_in, !low_len by assumption. cbn [bind].
  destruct (Nat.eqb_spec (length (py_nibbles p)) (length (py_nibbles q))) as [E|E].
  - rewrite E, Z.eqb_refl. cbn [negb andb]. rewrite Nat2Z.id. apply (py_agree_in p q _ 0); try assumption; lia.
  - destruct (Z.eqb_spec (Z.of_nat (length (py_nibbles p))) (Z.of_nat (length (py_nibbles q)))) as [X|X]; [lia|]. reflexivity.
Qed.
Lemma py_starts_in : forall p q, in_range p -> in_range q -> py_starts_with p q = Ok (np_starts_with (low p) (low q)).
Proof.
  intros p q P Q. unfold py_starts_with, np_starts_with. rewrite !py_len_in, !low_len by assumption. cbn [bind].
  destruct (Nat.ltb_spec (length (py_nibbles p)) (length (py_nibbles q))) as [E|E].
  - destruct (Z.ltb_spec (Z.of_nat (length (py_nibbles p))) (Z.of_nat (length (py_nibbles q)))) as [X|X]; [reflexivity|lia].
  - destruct (Z.ltb_spec (Z.of_nat (length (py_nibbles p))) (Z.of_nat (length (py_nibbles q)))) as [X|X]; [lia|].
    rewrite Nat2Z.id. apply (py_agree_in p q _ 0); try assumption; lia.
Qed.
Lemma py_pairs_in : forall at_ f m, (forall i, i < m -> at_ (Z.of_nat i) = Ok (f i)) -> forall n pos, pos + 2 * n <= m -> py_pairs at_ (Z.of_nat pos) n = Ok (np_pairs f pos n).
Proof.
  intros at_ f m A. induction n as [|n IH]; intros pos L; [reflexivity|]. cbn [py_pairs np_pairs]. rewrite (A pos) by lia. cbn [bind].
  replace (Z.of_nat pos + 1)%Z with (Z.of_nat (pos + 1)) by lia. rewrite (A (pos + 1)) by lia. cbn [bind].
  replace (Z.of_nat pos + 2)%Z with (Z.of_nat (pos + 2)) by lia. rewrite IH by lia. reflexivity.
Qed.
Lemma py_create_in : forall at_ f m, (forall i, i < m -> at_ (Z.of_nat i) = Ok (f i)) ->
  exists c, py_create at_ (Z.of_nat m) = Ok c /\ py_list c = true /\ in_range c /\ py_nibbles c = nibs (np_create_new f m).
Proof.
  intros at_ f m A. unfold py_create, np_create_new. pose proof (py_pairs_in at_ f m A (m / 2)) as P.
  replace (Z.to_nat (Z.of_nat m / 2)) with (m / 2) by lia.
  destruct (Nat.eqb_spec (m mod 2) 1) as [E|E].
  - replace (Z.of_nat m mod 2 =? 1)%Z with true by lia. specialize (P 1 ltac:(lia)). change (Z.of_nat 1) with 1%Z in P.
    change 0%Z with (Z.of_nat 0). rewrite (A 0) by lia. cbn [bind]. rewrite P. cbn [bind]. eexists. split; [reflexivity|]. split; [reflexivity|].
    split; [split; cbn [py_off py_data length]; lia|]. reflexivity.
  - replace (Z.of_nat m mod 2 =? 1)%Z with false by lia. specialize (P 0 ltac:(lia)). change (Z.of_nat 0) with 0%Z in P. rewrite P. cbn [bind].
    eexists. split; [reflexivity|]. split; [reflexivity|]. split; [split; cbn [py_off py_data length]; lia|]. reflexivity.
Qed.
Lemma py_common_in : forall p q n i, in_range p -> in_range q -> i + n <= length (py_nibbles p) -> i + n <= length (py_nibbles q) ->
  py_common p q (Z.of_nat i) n = Ok (Z.of_nat (np_common (low p) (low q) i n)).
Proof.
  intros p q n. induction n as [|n IH]; intros i P Q A B; [reflexivity|]. cbn [py_common np_common].
  rewrite !py_at_in by (try lia; try apply P; try apply Q). cbn [bind]. destruct (Nat.eqb _ _); [|reflexivity].
  replace (Z.of_nat i + 1)%Z with (Z.of_nat (S i)) by lia. rewrite IH by (assumption || lia). cbn [bind]. f_equal. lia.
Qed.
Lemma np_common_le : forall p q n i, np_common p q i n <= n.
Proof. intros p q n. induction n as [|n IH]; intros i; cbn [np_common]; [lia|]. destruct (Nat.eqb _ _); [specialize (IH (S i))|]; lia. Qed.
Lemma py_common_prefix_in : forall p q, in_range p -> in_range q ->
  exists c, py_common_prefix p q = Ok c /\ py_list c = true /\ in_range c /\ py_nibbles c = nibs (np_common_prefix (low p) (low q)).
Proof.
  intros p q P Q. unfold py_common_prefix, np_common_prefix. rewrite !py_len_in, !low_len by assumption. cbn [bind].
  rewrite <- Nat2Z.inj_min, Nat2Z.id. pose proof (np_common_le (low p) (low q) (Nat.min (length (py_nibbles p)) (length (py_nibbles q))) 0) as L.
  change 0%Z with (Z.of_nat 0). rewrite (py_common_in p q _ 0) by (assumption || lia). cbn [bind]. apply py_create_in. intros i I. apply py_at_in; [apply P|lia].
Qed.
Lemma py_combine_in : forall p q, in_range p -> in_range q ->
  exists c, py_combine p q = Ok c /\ py_list c = true /\ in_range c /\ py_nibbles c = nibs (np_combine (low p) (low q)).
Proof.
  intros p q P Q. unfold py_combine, np_combine. rewrite !py_len_in by assumption. cbn [bind]. rewrite !low_len. rewrite <- Nat2Z.inj_add.
  apply py_create_in. intros i I. unfold py_chained, chained_at. rewrite py_len_in by assumption. cbn [bind]. rewrite low_len.
  destruct (Nat.ltb_spec i (length (py_nibbles p))) as [E|E].
  - replace (Z.of_nat i <? Z.of_nat (length (py_nibbles p)))%Z with true by lia. apply py_at_in; [apply P|exact E].
  - replace (Z.of_nat i <? Z.of_nat (length (py_nibbles p)))%Z with false by lia. rewrite <- Nat2Z.inj_sub by exact E. apply py_at_in; [apply Q|lia].
Qed.
Lemma py_encode_in : forall p leaf, in_range p -> py_encode p leaf = Ok (np_encode (low p) leaf).
Proof.
  intros p leaf P. unfold py_encode, np_encode. rewrite py_len_in by assumption. cbn [bind]. rewrite low_len. set (n := length (py_nibbles p)) in *.
  assert (A : forall i, i < n -> py_at p (Z.of_nat i) = Ok (np_at (low p) i)) by (intros i I; apply py_at_in; [apply P|exact I]).
  replace (Z.to_nat (Z.of_nat n / 2)) with (n / 2) by lia. replace (Z.of_nat n mod 2)%Z with (Z.of_nat (n mod 2)) by lia.
  assert (F : (if (Z.of_nat (n mod 2) =? 1)%Z then bind (py_at p 0) (fun a => Ok (16 + a)) else Ok 0) = Ok (if n mod 2 =? 1 then 16 + np_at (low p) 0 else 0)).
  { destruct (Nat.eqb_spec (n mod 2) 1) as [E|E]; [|replace (Z.of_nat (n mod 2) =? 1)%Z with false by lia; reflexivity].
    replace (Z.of_nat (n mod 2) =? 1)%Z with true by lia. change 0%Z with (Z.of_nat 0). rewrite (A 0) by lia. reflexivity. }
  rewrite F. cbn [bind]. rewrite (py_pairs_in _ _ n A (n / 2) (n mod 2)) by lia. reflexivity.
Qed.
Lemma py_decode_low : forall d, py_decode_with_type d = match np_decode_with_type d with Ok (p, l) => Ok (mkPy (np_data p) false (Z.of_nat (np_off p)), l) | Err e => Err e end.
Proof. intros [|b d]; [reflexivity|]. cbn [py_decode_with_type np_decode_with_type np_data np_off]. destruct (_ =? 16)%N; reflexivity. Qed.

(** ** The statements *)
Lemma lcp_common : forall a b, common_part a b (lcp a b).
Proof.
  intros a b. split; [|split].
  - exists (skipn (length (lcp a b)) a). rewrite <- (firstn_skipn (length (lcp a b)) a) at 1. now rewrite lcp_prefix_l.
  - exists (skipn (length (lcp a b)) b). rewrite <- (firstn_skipn (length (lcp a b)) b) at 1. rewrite lcp_sym, lcp_prefix_l. reflexivity.
  - intros d [x ->] [y ->]. induction d as [|n d IH]; cbn [length]; [lia|]. cbn [app lcp]. rewrite Nat.eqb_refl. cbn [length]. lia.
Qed.
Lemma path_functions : forall p q leaf, in_range p -> in_range q ->
  py_len p = Ok (Z.of_nat (length (py_nibbles p))) /\
  (forall i, i < length (py_nibbles p) -> py_at p (Z.of_nat i) = Ok (nth i (py_nibbles p) 0)) /\
  (exists b, py_eq p q = Ok b /\ (b = true <-> py_nibbles p = py_nibbles q)) /\
  (exists b, py_starts_with p q = Ok b /\ (b = true <-> exists r, py_nibbles p = py_nibbles q ++ r)) /\
  (exists c, py_common_prefix p q = Ok c /\ in_range c /\ common_part (py_nibbles p) (py_nibbles q) (py_nibbles c)) /\
  (exists c, py_combine p q = Ok c /\ in_range c /\ py_nibbles c = py_nibbles p ++ py_nibbles q) /\
  (exists b, py_encode p leaf = Ok b /\ hex_prefix b (py_nibbles p) leaf).
Proof.
  intros p q leaf P Q. split; [now apply py_len_in|]. split; [|split; [|split; [|split; [|split]]]].
  - intros i I. rewrite py_at_in by (apply P || exact I). rewrite np_at_spec. reflexivity.
  - eexists. split; [now apply py_eq_in|]. apply (np_eq_spec (low p) (low q)).
  - eexists. split; [now apply py_starts_in|]. rewrite np_starts_with_spec. change (nibs (low p)) with (py_nibbles p). change (nibs (low q)) with (py_nibbles q).
    destruct (strip (py_nibbles q) (py_nibbles p)) as [r|] eqn:E.
    + apply strip_spec in E. split; [intros _; now exists r|reflexivity].
    + split; [discriminate|]. intros [r X]. exfalso. exact (proj1 (strip_None _ _) E r X).
  - destruct (py_common_prefix_in p q P Q) as [c [E [_ [R N]]]]. exists c. split; [exact E|]. split; [exact R|]. rewrite N, nibs_common_prefix. apply lcp_common.
  - destruct (py_combine_in p q P Q) as [c [E [_ [R N]]]]. exists c. split; [exact E|]. split; [exact R|]. rewrite N, nibs_combine. reflexivity.
  - eexists. split; [now apply py_encode_in|]. now apply (encode_path_form (low p) leaf).
Qed.
Lemma path_decode : forall d, match d with
  | [] => py_decode_with_type d = Err IndexError
  | _ => exists p leaf, py_decode_with_type d = Ok (p, leaf) /\ in_range p /\ hex_read d (py_nibbles p) leaf
  end.
Proof.
  intros [|b d]; [reflexivity|]. pose proof (py_decode_low (b :: d)) as E.
  destruct (np_decode_with_type (b :: d)) as [[p l]|] eqn:D; [|discriminate]. do 2 eexists. split; [exact E|]. cbn [np_decode_with_type] in D. injection D as <- <-. cbn [np_data np_off] in *.
  split; [unfold in_range; cbn [py_off py_data length]; destruct (_ =? 16)%N; lia|]. unfold py_nibbles. cbn [py_off py_data]. rewrite Nat2Z.id.
  apply decode_path_read. exists (mkNp (b :: d) (if (N.land (bN b) 16 =? 16)%N then 1 else 2)). split; reflexivity.
Qed.
Lemma consume_in : forall p k, in_range p -> 0 <= k <= length (py_nibbles p) ->
  in_range (py_consume p (Z.of_nat k)) /\ py_nibbles (py_consume p (Z.of_nat k)) = skipn k (py_nibbles p).
Proof.
  intros p k P K. rewrite py_nibbles_len in K. unfold in_range in *. split; [cbn [py_consume py_off py_data]; lia|].
  change (py_nibbles p) with (nibs (low p)). rewrite <- (nibs_consume (low p) k). unfold py_nibbles, nibs, low, np_consume. cbn [py_consume py_off py_data np_data np_off]. now replace (Z.to_nat (py_off p + Z.of_nat k)) with (Z.to_nat (py_off p) + k) by lia.
Qed.
Lemma beyond_len : forall p, beyond p -> py_len p = Err ValueError.
Proof. intros p B. unfold beyond in B. unfold py_len. replace (_ <? 0)%Z with true by lia. reflexivity. Qed.
Lemma len_cases : forall p, py_len p = Err ValueError \/ exists n, py_len p = Ok n.
Proof. intros p. unfold py_len. destruct (_ <? 0)%Z; eauto. Qed.
Lemma beyond_raises : forall p q leaf, beyond p ->
  py_len p = Err ValueError /\ py_eq p q = Err ValueError /\ py_eq q p = Err ValueError /\ py_starts_with p q = Err ValueError /\ py_starts_with q p = Err ValueError /\
  py_common_prefix p q = Err ValueError /\ py_common_prefix q p = Err ValueError /\ py_combine p q = Err ValueError /\ py_combine q p = Err ValueError /\ py_encode p leaf = Err ValueError.
Proof.
  intros p q leaf B. apply beyond_len in B. unfold py_eq, py_starts_with, py_common_prefix, py_combine, py_encode. rewrite B.
  destruct (len_cases q) as [->|[n ->]]; cbn [bind]; repeat split; reflexivity.
Qed.
Lemma over_consumed : forall p k, in_range p -> (Z.of_nat (length (py_nibbles p)) < k)%Z -> beyond (py_consume p k).
Proof. intros p k P K. rewrite py_nibbles_len in K. unfold in_range, beyond in *. cbn [py_consume py_off py_data]. lia. Qed.
(** A negative offset. *)
Lemma negative_offset : forall d l i, 0 < i <= length (nibbles d) -> let p := mkPy d l (- Z.of_nat i) in let x := skipn (length (nibbles d) - i) (nibbles d) ++ nibbles d in
  py_len p = Ok (Z.of_nat (length x)) /\ forall j, j < length x -> py_at p (Z.of_nat j) = Ok (nth j x 0).
Proof.
  intros d l i I p x. assert (L : length (nibbles d) = 2 * length d) by apply nibs_of_length. assert (Lx : length x = i + 2 * length d) by (unfold x; rewrite app_length, skipn_length, L; lia).
  split; [unfold py_len, p; cbn [py_data py_off]; destruct (_ <? 0)%Z eqn:E; [lia|]; f_equal; lia|].
  intros j J. unfold py_at, p. cbn [py_data py_off]. set (n := length d) in *. set (idx := (Z.of_nat j + - Z.of_nat i)%Z).
  assert (G : forall k, nth k (nibbles d) 0 = let c := nth (k / 2) d x00 in if k mod 2 =? 0 then hi c else lo c) by (intros k; apply nth_nibs_of).
  cbv zeta in G. destruct (Nat.ltb_spec j i) as [C|C].
  - unfold x. rewrite app_nth1 by (rewrite skipn_length; lia). rewrite nth_skipn, G. replace (idx / 2 <? 0)%Z with true by lia.
    replace ((idx / 2 + Z.of_nat n <? 0)%Z || (Z.of_nat n <=? idx / 2 + Z.of_nat n)%Z) with false by lia.
    replace (Z.to_nat (idx / 2 + Z.of_nat n)) with ((length (nibbles d) - i + j) / 2) by lia. replace ((length (nibbles d) - i + j) mod 2 =? 0) with (idx mod 2 =? 0)%Z by lia. reflexivity.
  - unfold x. rewrite app_nth2 by (rewrite skipn_length; lia). rewrite skipn_length, G. replace (idx / 2 <? 0)%Z with false by lia.
    replace ((idx / 2 <? 0)%Z || (Z.of_nat n <=? idx / 2)%Z) with false by lia.
    replace (Z.to_nat (idx / 2)) with ((j - (length (nibbles d) - (length (nibbles d) - i))) / 2) by lia.
    replace ((j - (length (nibbles d) - (length (nibbles d) - i))) mod 2 =? 0) with (idx mod 2 =? 0)%Z by lia. reflexivity.
Qed.
(** ** Texts *)
Lemma create_list : forall at_ n c, py_create at_ n = Ok c -> py_list c = true.
Proof.
  intros at_ n c E. unfold py_create in E. destruct (_ =? 1)%Z.
  - destruct (at_ 0%Z); [|discriminate]. cbn [bind] in E. destruct (py_pairs _ _ _); [|discriminate]. cbn [bind] in E. now injection E as <-.
  - destruct (py_pairs _ _ _); [|discriminate]. cbn [bind] in E. now injection E as <-.
Qed.
Lemma no_repr : forall p q c, py_common_prefix p q = Ok c \/ py_combine p q = Ok c -> py_repr c = Err AttributeError /\ py_str c = Err AttributeError.
Proof.
  intros p q c X. assert (L : py_list c = true).
  { destruct X as [E|E]; unfold py_common_prefix, py_combine in E; destruct (py_len p); try discriminate; cbn [bind] in E; destruct (py_len q); try discriminate; cbn [bind] in E.
    - destruct (py_common _ _ _ _); [|discriminate]. cbn [bind] in E. exact (create_list _ _ _ E).
    - exact (create_list _ _ _ E). }
  unfold py_repr, py_str, py_hex. rewrite L. split; reflexivity.
Qed.
Lemma hexdig_inj : forall a b, (a < 16)%N -> (b < 16)%N -> hexdig a = hexdig b -> a = b.
Proof.
  intros a b A B E. assert (X : forall n, (n < 16)%N -> bN (hexdig n) = if (n <? 10)%N then (n + 48)%N else (n + 87)%N).
  { intros n L. unfold hexdig. destruct (n <? 10)%N eqn:C; apply bN_nB; lia. }
  apply (f_equal bN) in E. rewrite !X in E by assumption. destruct (a <? 10)%N eqn:C, (b <? 10)%N eqn:D; lia.
Qed.
Definition hexs (b : bytes) : bytes := flat_map (fun c => [hexdig (bN c / 16)%N; hexdig (bN c mod 16)%N]) b.
Lemma hexdig_not : forall n, (n < 16)%N -> hexdig n <> x2c /\ hexdig n <> x20.
Proof. intros n L. assert (forallb (fun k => negb (byte_eqb (hexdig k) x2c) && negb (byte_eqb (hexdig k) x20)) (map N.of_nat (seq 0 16)) = true) as F by reflexivity.
  rewrite forallb_forall in F. specialize (F n ltac:(apply in_map_iff; exists (N.to_nat n); split; [lia|apply in_seq; lia])). apply andb_true_iff in F as [F1 F2].
  split; intros E; rewrite E in *; discriminate. Qed.
Lemma hexs_inj : forall a b c d x y, (c = x2c \/ c = x20) -> (d = x2c \/ d = x20) -> hexs a ++ c :: x = hexs b ++ d :: y -> a = b /\ c :: x = d :: y.
Proof.
  assert (S : forall n, (bN n / 16 < 16 /\ bN n mod 16 < 16)%N) by (intros n; pose proof (bN_lt n); lia).
  induction a as [|n a IH]; intros [|m b] c d x y C D E; unfold hexs in E; cbn [flat_map app] in E.
  - split; [reflexivity|exact E].
  - exfalso. injection E as E _. destruct (hexdig_not _ (proj1 (S m))). destruct C; congruence.
  - exfalso. injection E as E _. destruct (hexdig_not _ (proj1 (S n))). destruct D; congruence.
  - injection E as E1 E2 E3. apply hexdig_inj in E1; [|apply S..]. apply hexdig_inj in E2; [|apply S..]. apply IH in E3 as [-> E3]; [|assumption..].
    split; [f_equal|exact E3]. apply bN_inj. pose proof (N.div_mod (bN n) 16 ltac:(lia)). pose proof (N.div_mod (bN m) 16 ltac:(lia)). lia.
Qed.
Lemma bs_inj : forall a b, bs a = bs b -> a = b.
Proof. intros a b E. unfold bs in E. apply (f_equal string_of_list_byte) in E. now rewrite !string_of_list_byte_of_string in E. Qed.
Lemma int_read : forall z, NilZero.int_of_string (NilZero.string_of_int (Z.to_int z)) = Some (Z.to_int z).
Proof.
  intros z. apply NilZero.isi; destruct z as [|p|p]; cbn [Z.to_int]; try discriminate; intros E; injection E as E; now apply DecimalPos.Unsigned.to_uint_nonnil in E.
Qed.
Lemma int_str_inj : forall a b, int_str a = int_str b -> a = b.
Proof.
  intros a b E. apply bs_inj in E. apply (f_equal NilZero.int_of_string) in E. rewrite !int_read in E. injection E as E. now apply DecimalZ.to_int_inj.
Qed.
Lemma hex_bytes : forall p, py_list p = false -> py_hex p = Ok (hexs (py_data p)).
Proof. intros p L. unfold py_hex. rewrite L. reflexivity. Qed.
Lemma repr_exact : forall p q, py_list p = false -> py_list q = false ->
  (exists s, py_repr p = Ok s) /\ (py_repr p = py_repr q <-> p = q) /\ (exists s, py_str p = Ok s) /\ (py_str p = py_str q <-> py_data p = py_data q).
Proof.
  intros p q P Q. unfold py_repr, py_str. rewrite !hex_bytes by assumption. cbn [bind].
  split; [eauto|]. split; [|split; [eauto|]].
  - split; [|now intros ->]. intros E. injection E as E.
    change (bs ", Offset: ") with (x2c :: bs " Offset: ") in E. cbn [app] in E. apply hexs_inj in E as [E1 E2]; [|now left..]. injection E2 as E2.
    apply app_inj_tail in E2 as [E2 _]. apply int_str_inj in E2. destruct p as [d l o], q as [d2 l2 o2]. cbn in P, Q, E1, E2. congruence.
  - split; [|now intros ->]. intros E. injection E as E. change (bs " | Raw ") with (x20 :: bs "| Raw ") in E. cbn [app] in E. apply hexs_inj in E as [E1 E2]; [exact E1|now right..].
Qed.
(** At the end of a path. *)
Lemma at_end : forall p i, in_range p -> (Z.of_nat (length (py_nibbles p)) <= i)%Z -> py_at p i = Err IndexError.
Proof.
  intros p i P L. rewrite py_nibbles_len in L. unfold in_range in P. unfold py_at. set (n := Z.of_nat (length (py_data p))) in *.
  assert (n <= (i + py_off p) / 2)%Z by lia. replace ((i + py_off p) / 2 <? 0)%Z with false by lia.
  replace (((i + py_off p) / 2 <? 0)%Z || (n <=? (i + py_off p) / 2)%Z) with true by lia. reflexivity.
Qed.
