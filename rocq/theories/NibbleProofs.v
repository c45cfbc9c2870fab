(** NibblePath operations are operations on nibble sequences. *)
From Coq Require Import List Bool Arith NArith ZArith Lia ZifyBool ZifyNat ZifyN.
From Verif Require Import Base BaseProofs NibblePath.
Import ListNotations.
Ltac Zify.zify_post_hook ::= Z.div_mod_to_equations.

(** ** Nibble sequences *)
Definition nibs_of (b : bytes) : list nat := flat_map (fun x => [hi x; lo x]) b.
Definition nibs (p : np) : list nat := skipn (np_off p) (nibs_of (np_data p)).

Definition nib_ok (l : list nat) : Prop := Forall (fun x => x < 16) l.

(** Longest common prefix; removal of a prefix. *)
Fixpoint lcp (a b : list nat) : list nat :=
  match a, b with
  | x :: a', y :: b' => if x =? y then x :: lcp a' b' else []
  | _, _ => []
  end.

Fixpoint strip (pre l : list nat) : option (list nat) :=
  match pre, l with
  | [], _ => Some l
  | x :: p', y :: l' => if x =? y then strip p' l' else None
  | _ :: _, [] => None
  end.

(** Hex-prefix coding of a nibble sequence. *)
Fixpoint pack (l : list nat) : bytes :=
  match l with a :: b :: r => mkb a b :: pack r | _ => [] end.
Definition hp (l : list nat) (leaf : bool) : bytes :=
  if Nat.odd (length l)
  then match l with a :: r => mkb (if leaf then 3 else 1) a :: pack r | [] => [] end
  else mkb (if leaf then 2 else 0) 0 :: pack l.

(** ** Bytes and nibbles *)
Lemma hi_lt : forall b, hi b < 16.
Proof. intros b. unfold hi. pose proof (bN_lt b). lia. Qed.
Lemma lo_lt : forall b, lo b < 16.
Proof. intros b. unfold lo. lia. Qed.

Lemma mkb_hi_lo : forall b, mkb (hi b) (lo b) = b.
Proof.
  intros b. unfold mkb, hi, lo. replace (N.of_nat _) with (bN b) by lia. apply nB_bN.
Qed.

Lemma bN_mkb : forall h l, h < 16 -> l < 16 -> bN (mkb h l) = N.of_nat (h * 16 + l).
Proof. intros. unfold mkb. apply bN_nB. lia. Qed.

Lemma hi_mkb : forall h l, h < 16 -> l < 16 -> hi (mkb h l) = h.
Proof. intros. unfold hi. rewrite bN_mkb by auto. lia. Qed.
Lemma lo_mkb : forall h l, h < 16 -> l < 16 -> lo (mkb h l) = l.
Proof. intros. unfold lo. rewrite bN_mkb by auto. lia. Qed.

Lemma nibs_of_cons : forall x b, nibs_of (x :: b) = hi x :: lo x :: nibs_of b.
Proof. reflexivity. Qed.

Lemma nibs_of_length : forall b, length (nibs_of b) = 2 * length b.
Proof. unfold nibs_of. induction b; [reflexivity|]. cbn [flat_map app length]. lia. Qed.

Lemma nibs_of_ok : forall b, nib_ok (nibs_of b).
Proof.
  induction b; cbn; constructor; [apply hi_lt|]. constructor; [apply lo_lt|auto].
Qed.

Lemma nibs_of_inj : forall a b, nibs_of a = nibs_of b -> a = b.
Proof.
  induction a as [|x a IH]; destruct b as [|y b]; cbn; intros E; try discriminate; auto.
  injection E as E1 E2 E3. f_equal; auto.
  rewrite <- (mkb_hi_lo x), <- (mkb_hi_lo y), E1, E2. reflexivity.
Qed.

Lemma nibs_of_app : forall a b, nibs_of (a ++ b) = nibs_of a ++ nibs_of b.
Proof. intros. unfold nibs_of. apply flat_map_app. Qed.

Lemma list_ind_pair : forall (A : Type) (P : list A -> Prop),
  P [] -> (forall a, P [a]) -> (forall a b l, P l -> P (a :: b :: l)) -> forall l, P l.
Proof.
  intros A P H0 H1 H2 l.
  cut (P l /\ forall a, P (a :: l)); [tauto|]. induction l as [|x l [IH1 IH2]]; auto.
Qed.

Lemma pack_nibs_of : forall b, pack (nibs_of b) = b.
Proof. induction b; [auto|]. rewrite nibs_of_cons. cbn [pack]. rewrite IHb, mkb_hi_lo. reflexivity. Qed.

Lemma nibs_of_pack : forall l, nib_ok l -> Nat.even (length l) = true -> nibs_of (pack l) = l.
Proof.
  induction l as [| |a b l IH] using list_ind_pair; intros Ho He; auto; [discriminate|].
  inversion Ho as [|? ? Ha Ho']; inversion Ho' as [|? ? Hb Ho'']; subst. cbn [pack]. rewrite nibs_of_cons.
  rewrite hi_mkb, lo_mkb by auto. rewrite IH; auto.
Qed.

Lemma nth_nibs_of : forall b i,
  nth i (nibs_of b) 0 = (let x := nth (i / 2) b x00 in if i mod 2 =? 0 then hi x else lo x).
Proof.
  induction b as [|x b IH]; intros i.
  - cbv zeta. assert (E : nth (i / 2) [] x00 = x00) by (destruct (i / 2); reflexivity).
    rewrite E. destruct (i mod 2 =? 0), i; reflexivity.
  - destruct i as [|[|i]]; try reflexivity.
    rewrite nibs_of_cons. cbn [nth]. rewrite IH.
    replace (S (S i) / 2) with (S (i / 2)) by lia.
    replace (S (S i) mod 2) with (i mod 2) by lia. reflexivity.
Qed.

(** ** NibblePath methods *)
Lemma nibs_ok : forall p, nib_ok (nibs p).
Proof.
  intros p. unfold nibs, nib_ok. pose proof (nibs_of_ok (np_data p)) as Hf.
  apply Forall_forall. intros x Hx. unfold nib_ok in Hf. rewrite Forall_forall in Hf. apply Hf.
  rewrite <- (firstn_skipn (np_off p)). apply in_or_app. auto.
Qed.

Lemma np_len_spec : forall p, np_len p = length (nibs p).
Proof. intros. unfold np_len, nibs. rewrite skipn_length, nibs_of_length. lia. Qed.

Lemma nth_skipn : forall (A : Type) (l : list A) n i d, nth i (skipn n l) d = nth (n + i) l d.
Proof.
  intros A l n. revert l. induction n as [|n IH]; intros l i d; auto.
  destruct l as [|x l]; cbn; [destruct i; reflexivity|]. apply IH.
Qed.

Lemma np_at_spec : forall p i, np_at p i = nth i (nibs p) 0.
Proof.
  intros. unfold np_at, nibs. rewrite nth_skipn, nth_nibs_of.
  rewrite (Nat.add_comm i). reflexivity.
Qed.

Lemma np_at_lt : forall p i, np_at p i < 16.
Proof.
  intros. unfold np_at. destruct (_ =? 0); [apply hi_lt|apply lo_lt].
Qed.

Lemma nibs_consume : forall p n, nibs (np_consume p n) = skipn n (nibs p).
Proof.
  intros. unfold nibs, np_consume. cbn [np_data np_off].
  generalize (nibs_of (np_data p)) (np_off p). intros l o. revert l.
  induction o as [|o IH]; intros l; auto.
  destruct l; cbn; [destruct n; reflexivity|apply IH].
Qed.

Lemma np_agree_spec : forall p q n i, i + n <= length (nibs p) -> i + n <= length (nibs q) ->
  np_agree p q i n = true <-> firstn n (skipn i (nibs p)) = firstn n (skipn i (nibs q)).
Proof.
  intros p q. induction n as [|n IH]; intros i Hp Hq; [cbn; tauto|].
  cbn [np_agree]. rewrite andb_true_iff, Nat.eqb_eq, IH by lia. rewrite !np_at_spec.
  assert (Hs : forall (l : list nat), i < length l -> skipn i l = nth i l 0 :: skipn (S i) l).
  { clear. induction i as [|i IH]; intros l Hl; destruct l; cbn in *; try lia; auto. apply IH. lia. }
  rewrite (Hs (nibs p)), (Hs (nibs q)) by lia. rewrite !firstn_cons. split.
  - intros [E1 E2]. rewrite E1, E2. reflexivity.
  - intros E. injection E as E1 E2. auto.
Qed.

Lemma np_eq_spec : forall p q, np_eq p q = true <-> nibs p = nibs q.
Proof.
  intros p q. unfold np_eq. rewrite andb_true_iff, Nat.eqb_eq, !np_len_spec. split.
  - intros [El Ea]. apply np_agree_spec in Ea; [|lia|lia]. cbn in Ea.
    rewrite firstn_all, El, firstn_all in Ea. exact Ea.
  - intros E. split; [congruence|]. apply np_agree_spec; rewrite ?E; auto.
Qed.

Lemma np_eq_false : forall p q, np_eq p q = false <-> nibs p <> nibs q.
Proof.
  intros. rewrite <- np_eq_spec. destruct (np_eq p q); split; congruence.
Qed.

Lemma strip_spec : forall pre l r, strip pre l = Some r <-> l = pre ++ r.
Proof.
  induction pre as [|x pre IH]; intros l r; cbn.
  - split; congruence.
  - destruct l as [|y l]; [split; discriminate|].
    destruct (Nat.eqb_spec x y) as [->|Hn].
    + rewrite IH. split; [congruence|]. intros E. injection E as ->. reflexivity.
    + split; [discriminate|]. intros E. injection E as -> _. congruence.
Qed.

Lemma strip_app : forall pre r, strip pre (pre ++ r) = Some r.
Proof. intros. apply strip_spec. reflexivity. Qed.

Lemma strip_None : forall pre l, strip pre l = None <-> (forall r, l <> pre ++ r).
Proof.
  intros. split.
  - intros E r F. apply strip_spec in F. congruence.
  - intros F. destruct (strip pre l) as [r|] eqn:E; auto.
    apply strip_spec in E. exfalso. eapply F; eauto.
Qed.

Lemma np_starts_with_spec : forall p q,
  np_starts_with p q = match strip (nibs q) (nibs p) with Some _ => true | None => false end.
Proof.
  intros p q. unfold np_starts_with. rewrite !np_len_spec.
  destruct (strip (nibs q) (nibs p)) as [r|] eqn:E.
  - apply strip_spec in E. rewrite E, app_length.
    destruct (Nat.ltb_spec (length (nibs q) + length r) (length (nibs q))); [lia|].
    apply np_agree_spec; [rewrite E, app_length; lia|lia|].
    cbn. rewrite E, firstn_app, Nat.sub_diag, firstn_all. cbn. apply app_nil_r.
  - destruct (Nat.ltb_spec (length (nibs p)) (length (nibs q))); auto.
    destruct (np_agree p q 0 (length (nibs q))) eqn:Ea; auto.
    apply np_agree_spec in Ea; [|lia|lia]. cbn in Ea. rewrite firstn_all in Ea.
    rewrite strip_None in E. exfalso. apply (E (skipn (length (nibs q)) (nibs p))).
    rewrite <- (firstn_skipn (length (nibs q)) (nibs p)) at 1. rewrite Ea. reflexivity.
Qed.

Lemma np_starts_with_skip : forall p q r, strip (nibs q) (nibs p) = Some r ->
  nibs (np_consume p (np_len q)) = r.
Proof.
  intros p q r E. apply strip_spec in E. rewrite nibs_consume, np_len_spec, E.
  rewrite skipn_app, skipn_all, Nat.sub_diag. reflexivity.
Qed.

Lemma np_pairs_pack : forall at_ n pos, np_pairs at_ pos n = pack (map at_ (seq pos (2 * n))).
Proof.
  intros at_. induction n as [|n IH]; intros pos; [reflexivity|].
  replace (2 * S n) with (S (S (2 * n))) by lia. cbn [seq map pack np_pairs].
  rewrite IH. replace (pos + 1) with (S pos) by lia. replace (pos + 2) with (S (S pos)) by lia.
  reflexivity.
Qed.

Lemma map_seq_nth : forall (l : list nat), map (fun i => nth i l 0) (seq 0 (length l)) = l.
Proof.
  induction l as [|x l IH]; auto. cbn [length seq map nth]. f_equal.
  rewrite <- seq_shift, map_map. exact IH.
Qed.

Lemma nibs_create_new : forall at_ len, (forall i, at_ i < 16) ->
  nibs (np_create_new at_ len) = map at_ (seq 0 len).
Proof.
  intros at_ len Hat. unfold np_create_new.
  assert (Hok : forall pos n, nib_ok (map at_ (seq pos n))).
  { intros. apply Forall_forall. intros x Hx. apply in_map_iff in Hx. destruct Hx as (i & <- & _). auto. }
  destruct (Nat.eqb_spec (len mod 2) 1) as [Ho|Ho].
  - unfold nibs. cbn [np_off np_data]; rewrite ?nibs_of_cons; cbn [skipn].
    rewrite lo_mkb by (auto; lia).
    rewrite np_pairs_pack, nibs_of_pack; auto.
    + replace len with (S (2 * (len / 2))) at 2 by lia. reflexivity.
    + rewrite map_length, seq_length. rewrite Nat.even_mul. reflexivity.
  - unfold nibs. cbn [np_off np_data skipn]. rewrite np_pairs_pack, nibs_of_pack; auto.
    + replace (2 * (len / 2)) with len by lia. reflexivity.
    + rewrite map_length, seq_length. rewrite Nat.even_mul. reflexivity.
Qed.

Lemma np_common_spec : forall p q n i, i + n <= length (nibs p) -> i + n <= length (nibs q) ->
  np_common p q i n = length (lcp (firstn n (skipn i (nibs p))) (firstn n (skipn i (nibs q)))).
Proof.
  intros p q. induction n as [|n IH]; intros i Hp Hq; [reflexivity|].
  cbn [np_common]. rewrite !np_at_spec.
  assert (Hs : forall (l : list nat), i < length l -> skipn i l = nth i l 0 :: skipn (S i) l).
  { clear. induction i as [|i IH]; intros l Hl; destruct l; cbn in *; try lia; auto. apply IH. lia. }
  rewrite (Hs (nibs p)), (Hs (nibs q)) by lia. rewrite !firstn_cons. cbn [lcp].
  destruct (_ =? _); auto. cbn [length]. rewrite IH by lia. reflexivity.
Qed.

Lemma lcp_firstn : forall a b, lcp (firstn (Nat.min (length a) (length b)) a)
                                   (firstn (Nat.min (length a) (length b)) b) = lcp a b.
Proof.
  induction a as [|x a IH]; destruct b as [|y b]; cbn; auto.
  rewrite IH. reflexivity.
Qed.

Lemma lcp_prefix_l : forall a b, firstn (length (lcp a b)) a = lcp a b.
Proof.
  induction a as [|x a IH]; destruct b as [|y b]; cbn; auto.
  destruct (x =? y); cbn; auto. rewrite IH. reflexivity.
Qed.

Lemma lcp_sym : forall a b, lcp a b = lcp b a.
Proof.
  induction a as [|x a IH]; destruct b as [|y b]; cbn; auto.
  destruct (Nat.eqb_spec x y), (Nat.eqb_spec y x); subst; try congruence; rewrite ?IH; reflexivity.
Qed.

Lemma lcp_len_l : forall a b, length (lcp a b) <= length a.
Proof.
  induction a as [|x a IH]; destruct b as [|y b]; cbn; try lia.
  destruct (_ =? _); cbn; [|lia]. specialize (IH b). lia.
Qed.
Lemma lcp_len_r : forall a b, length (lcp a b) <= length b.
Proof. intros. rewrite lcp_sym. apply lcp_len_l. Qed.

Lemma lcp_split : forall a b,
  a = lcp a b ++ skipn (length (lcp a b)) a /\ b = lcp a b ++ skipn (length (lcp a b)) b.
Proof.
  intros. split.
  - rewrite <- (firstn_skipn (length (lcp a b)) a) at 1. rewrite lcp_prefix_l. reflexivity.
  - rewrite (lcp_sym a b). rewrite <- (firstn_skipn (length (lcp b a)) b) at 1.
    rewrite lcp_prefix_l. reflexivity.
Qed.

(** After the common prefix the sequences differ at once. *)
Lemma lcp_diverge : forall a b x y a' b',
  skipn (length (lcp a b)) a = x :: a' -> skipn (length (lcp a b)) b = y :: b' -> x <> y.
Proof.
  induction a as [|u a IH]; destruct b as [|v b]; cbn; intros x y a' b' Ea Eb; try discriminate.
  destruct (Nat.eqb_spec u v) as [->|Hn]; cbn in *; [eauto|congruence].
Qed.

Lemma map_seq_firstn : forall (l : list nat) n, n <= length l ->
  map (fun i => nth i l 0) (seq 0 n) = firstn n l.
Proof.
  intros l n. revert l. induction n as [|n IH]; intros l Hl; auto.
  destruct l as [|x l]; cbn in Hl; [lia|]. cbn [seq map nth firstn]. f_equal.
  rewrite <- seq_shift, map_map. apply IH. lia.
Qed.

Lemma nibs_common_prefix : forall p q, nibs (np_common_prefix p q) = lcp (nibs p) (nibs q).
Proof.
  intros. unfold np_common_prefix. rewrite nibs_create_new by (apply np_at_lt).
  rewrite np_common_spec by (rewrite !np_len_spec; lia). rewrite !np_len_spec. cbn [skipn].
  rewrite lcp_firstn. rewrite (map_ext _ _ (np_at_spec p)), map_seq_firstn by apply lcp_len_l.
  apply lcp_prefix_l.
Qed.

Lemma nibs_combine : forall p q, nibs (np_combine p q) = nibs p ++ nibs q.
Proof.
  intros. unfold np_combine. rewrite nibs_create_new.
  - rewrite !np_len_spec.
    rewrite (map_ext _ (fun i => nth i (nibs p ++ nibs q) 0)).
    + rewrite <- app_length. apply map_seq_nth.
    + intros i. unfold chained_at. rewrite np_len_spec, !np_at_spec.
      destruct (Nat.ltb_spec i (length (nibs p))).
      * rewrite app_nth1 by lia. reflexivity.
      * rewrite app_nth2 by lia. reflexivity.
  - intros i. unfold chained_at. destruct (_ <? _); apply np_at_lt.
Qed.

Lemma np_encode_hp : forall p leaf, np_encode p leaf = hp (nibs p) leaf.
Proof.
  intros p leaf. unfold np_encode, hp. rewrite np_len_spec.
  assert (Hm : forall n, map (np_at p) (seq 0 n) = map (fun i => nth i (nibs p) 0) (seq 0 n)).
  { intros. apply map_ext. apply np_at_spec. }
  rewrite np_pairs_pack.
  destruct (Nat.odd (length (nibs p))) eqn:Eo.
  - apply Nat.odd_spec in Eo. destruct Eo as [m Em].
    replace (length (nibs p) mod 2) with 1 by lia. cbn [Nat.eqb].
    replace (2 * (length (nibs p) / 2)) with (2 * m) by lia.
    rewrite np_at_spec. remember (2 * m) as mm eqn:Emm. specialize (Hm (S mm)). rewrite map_seq_firstn in Hm by lia.
    replace (S mm) with (length (nibs p)) in Hm at 2 by lia. rewrite firstn_all in Hm.
    destruct (nibs p) as [|a r] eqn:En; [cbn in Em; lia|].
    cbn [seq map] in Hm. injection Hm as Ha Hr. rewrite Hr. cbn [nth].
    unfold mkb. f_equal. f_equal. f_equal. destruct leaf; lia.
  - assert (Ee : Nat.even (length (nibs p)) = true).
    { rewrite <- Nat.negb_odd, Eo. reflexivity. }
    apply Nat.even_spec in Ee. destruct Ee as [m Em].
    replace (length (nibs p) mod 2) with 0 by lia. cbn [Nat.eqb].
    replace (2 * (length (nibs p) / 2)) with (length (nibs p)) by lia.
    rewrite Hm, map_seq_nth. destruct leaf; reflexivity.
Qed.

Lemma land_flag : forall h l, h < 4 -> l < 16 ->
  (N.land (bN (mkb h l)) 16 =? 16)%N = Nat.odd h /\ (N.land (bN (mkb h l)) 32 =? 32)%N = (2 <=? h).
Proof.
  intros h l Hh Hl. rewrite bN_mkb by lia.
  do 16 (destruct l as [|l]; [do 4 (destruct h as [|h]; [split; reflexivity|]); lia|]). lia.
Qed.

Lemma decode_hp : forall l leaf, nib_ok l ->
  exists p, np_decode_with_type (hp l leaf) = Ok (p, leaf) /\ nibs p = l.
Proof.
  intros l leaf Hl. unfold hp. destruct (Nat.odd (length l)) eqn:Eo.
  - destruct l as [|a r]; [discriminate|]. inversion Hl as [|? ? Ha Hr]; subst.
    cbn [np_decode_with_type].
    destruct (land_flag (if leaf then 3 else 1) a ltac:(destruct leaf; lia) Ha) as [-> ->].
    eexists. split.
    + f_equal. f_equal. destruct leaf; reflexivity.
    + replace (Nat.odd (if leaf then 3 else 1)) with true by (destruct leaf; reflexivity).
      unfold nibs. cbn [np_off np_data]; rewrite ?nibs_of_cons; cbn [skipn].
      rewrite lo_mkb by (destruct leaf; lia). f_equal. apply nibs_of_pack; auto.
      cbn in Eo. rewrite <- Nat.negb_odd. rewrite Nat.odd_succ in Eo. rewrite <- Nat.negb_even, Eo. reflexivity.
  - cbn [np_decode_with_type].
    destruct (land_flag (if leaf then 2 else 0) 0 ltac:(destruct leaf; lia) ltac:(lia)) as [-> ->].
    eexists. split.
    + f_equal. f_equal. destruct leaf; reflexivity.
    + replace (Nat.odd (if leaf then 2 else 0)) with false by (destruct leaf; reflexivity).
      unfold nibs. cbn [np_off np_data]; rewrite ?nibs_of_cons; cbn [skipn].
      apply nibs_of_pack; auto. rewrite <- Nat.negb_odd, Eo. reflexivity.
Qed.

Lemma hp_inj : forall l1 l2 f1 f2, nib_ok l1 -> nib_ok l2 -> hp l1 f1 = hp l2 f2 -> l1 = l2 /\ f1 = f2.
Proof.
  intros l1 l2 f1 f2 H1 H2 E.
  destruct (decode_hp l1 f1 H1) as (p1 & E1 & <-). destruct (decode_hp l2 f2 H2) as (p2 & E2 & <-).
  rewrite E in E1. rewrite E1 in E2. injection E2 as -> ->. auto.
Qed.

Lemma pack_length : forall l, length (pack l) = length l / 2.
Proof.
  induction l as [| |a b l IH] using list_ind_pair; auto.
  cbn [pack length]. rewrite IH. lia.
Qed.

Lemma hp_length : forall l f, length (hp l f) = S (length l / 2).
Proof.
  intros. unfold hp. destruct (Nat.odd (length l)) eqn:E.
  - destruct l as [|a r]; [discriminate|]. cbn [length]. rewrite pack_length.
    apply Nat.odd_spec in E. destruct E as [m Em]. cbn in Em. f_equal. lia.
  - cbn [length]. rewrite pack_length. reflexivity.
Qed.

(** What the decoder returns in general: the nibbles after the flags. *)
Lemma nibs_np_of : forall k, nibs (np_of k) = nibs_of k.
Proof. reflexivity. Qed.

Lemma nib_ok_app : forall a b, nib_ok (a ++ b) <-> nib_ok a /\ nib_ok b.
Proof. intros. apply Forall_app. Qed.

(** [np_at_py] agrees with [np_at] inside the path and raises after its end. *)
Lemma np_at_py_in : forall p i, i < length (nibs p) -> np_at_py p (Z.of_nat i) = Ok (nth i (nibs p) 0).
Proof.
  intros p i Hi. rewrite <- np_at_spec. rewrite <- np_len_spec in Hi. unfold np_len in Hi.
  unfold np_at_py, np_at.
  replace (Z.of_nat i + Z.of_nat (np_off p))%Z with (Z.of_nat (i + np_off p)) by lia.
  set (j := i + np_off p) in *.
  replace (Z.of_nat j / 2)%Z with (Z.of_nat (j / 2)) by lia.
  replace (Z.of_nat j mod 2)%Z with (Z.of_nat (j mod 2)) by lia.
  destruct (Z.ltb_spec (Z.of_nat (j / 2)) 0); [lia|].
  destruct (Z.ltb_spec (Z.of_nat (j / 2)) 0); [lia|].
  destruct (Z.leb_spec (Z.of_nat (length (np_data p))) (Z.of_nat (j / 2))); [lia|].
  cbn [orb]. rewrite Nat2Z.id. f_equal.
  destruct (Nat.eqb_spec (j mod 2) 0), (Z.eqb_spec (Z.of_nat (j mod 2)) 0); auto; lia.
Qed.

Lemma np_at_py_out : forall p i, np_off p <= 2 * length (np_data p) -> length (nibs p) <= i ->
  np_at_py p (Z.of_nat i) = Err IndexError.
Proof.
  intros p i Ho Hi. rewrite <- np_len_spec in Hi. unfold np_len in Hi. unfold np_at_py.
  set (j := (Z.of_nat i + Z.of_nat (np_off p))%Z) in *.
  assert (Hj : (Z.of_nat (length (np_data p)) <= j / 2)%Z) by lia.
  destruct (Z.ltb_spec (j / 2) 0); [lia|].
  destruct (Z.leb_spec (Z.of_nat (length (np_data p))) (j / 2)); [|lia].
  rewrite orb_true_r. reflexivity.
Qed.

Arguments nibs : simpl never.
Arguments nibs_of : simpl never.
Arguments hp : simpl never.
