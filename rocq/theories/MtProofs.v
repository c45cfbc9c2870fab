(** Lemmas about the Merkle tree model. *)
From Coq Require Import List Bool Arith NArith ZArith Lia.
From Verif Require Import Base BaseProofs ProofObj Spec MptEq MerkleTree SpecMt.
Import ListNotations.

Lemma list_ind2 : forall (A : Type) (P : list A -> Prop), P [] -> (forall a, P [a]) ->
  (forall a b l, P l -> P (a :: b :: l)) -> forall l, P l.
Proof.
  intros A P H0 H1 H2 l. enough (P l /\ forall a, P (a :: l)) by tauto.
  induction l as [|x l [IH1 IH2]]; split; auto.
Qed.

(** ** Hexadecimal text *)
Definition all_bytes : list byte := List.map (fun n => nB (N.of_nat n)) (seq 0 256).
Lemma in_all_bytes : forall b, In b all_bytes.
Proof.
  intros b. unfold all_bytes. replace b with (nB (N.of_nat (N.to_nat (bN b)))) at 1.
  - apply (in_map (fun n => nB (N.of_nat n))). apply in_seq. pose proof (bN_lt b). lia.
  - rewrite N2Nat.id. apply nB_bN.
Qed.
Lemma byte_case : forall (P : byte -> bool), forallb P all_bytes = true -> forall b, P b = true.
Proof. intros P Hp b. rewrite forallb_forall in Hp. apply Hp, in_all_bytes. Qed.

Definition hex_ok (b : byte) : bool :=
  let a := hexdigit (bN b / 16) in let c := hexdigit (bN b mod 16) in
  negb (is_space a) &&
  match hexval a, hexval c with
  | Some x, Some y => byte_eqb (nB (Z.to_N (16 * x + y))) b && (16 * x + y =? Z.of_N (bN b))%Z
  | _, _ => false
  end.
Lemma hex_ok_all : forall b, hex_ok b = true.
Proof. apply byte_case. vm_compute. reflexivity. Qed.

Lemma byte_eqb_true : forall a b, byte_eqb a b = true -> a = b.
Proof. intros a b E. apply byte_eqb_eq. exact E. Qed.

Lemma hex_byte : forall b, exists x y,
  is_space (hexdigit (bN b / 16)) = false /\ hexval (hexdigit (bN b / 16)) = Some x /\
  hexval (hexdigit (bN b mod 16)) = Some y /\ nB (Z.to_N (16 * x + y)) = b /\ (16 * x + y = Z.of_N (bN b))%Z.
Proof.
  intros b. pose proof (hex_ok_all b) as E. unfold hex_ok in E.
  apply andb_prop in E as [E1 E2]. apply negb_true_iff in E1.
  destruct (hexval (hexdigit (bN b / 16))) as [x|]; [|discriminate].
  destruct (hexval (hexdigit (bN b mod 16))) as [y|]; [|discriminate].
  apply andb_prop in E2 as [E2 E3]. exists x, y. split; [exact E1|]. split; [reflexivity|]. split; [reflexivity|].
  split; [apply byte_eqb_true; exact E2|apply Z.eqb_eq; exact E3].
Qed.

Lemma to_hex_cons : forall x b, to_hex (x :: b) = hexdigit (bN x / 16) :: hexdigit (bN x mod 16) :: to_hex b.
Proof. reflexivity. Qed.

Lemma from_hex_step : forall c d r x y, is_space c = false -> hexval c = Some x -> hexval d = Some y ->
  from_hex (c :: d :: r) = option_map (cons (nB (Z.to_N (16 * x + y)))) (from_hex r).
Proof. intros c d r x y Hs Hc Hd. cbn [from_hex]. rewrite Hs, Hc, Hd. reflexivity. Qed.

Lemma from_to_hex : forall b, from_hex (to_hex b) = Some b.
Proof.
  induction b as [|x b IH]; [reflexivity|]. rewrite to_hex_cons.
  destruct (hex_byte x) as (p & q & Hs & Hp & Hq & Hb & _).
  rewrite (from_hex_step _ _ _ p q Hs Hp Hq), IH, Hb. reflexivity.
Qed.

Lemma to_hex_inj : forall a b, to_hex a = to_hex b -> a = b.
Proof. intros a b E. pose proof (from_to_hex a) as E1. rewrite E, from_to_hex in E1. injection E1 as E1. auto. Qed.

Lemma to_hex_length : forall b, length (to_hex b) = 2 * length b.
Proof. induction b as [|x b IH]; [reflexivity|]. rewrite to_hex_cons. cbn [length]. lia. Qed.

Definition ascii_ok (b : byte) : bool :=
  implb (is_space b || match hexval b with Some _ => true | None => false end) (in_range 0 127 b).
Lemma ascii_all : forall b, ascii_ok b = true.
Proof. apply byte_case. vm_compute. reflexivity. Qed.
Lemma space_ascii : forall b, is_space b = true -> in_range 0 127 b = true.
Proof. intros b E. pose proof (ascii_all b) as A. unfold ascii_ok in A. rewrite E in A. exact A. Qed.
Lemma hex_ascii : forall b z, hexval b = Some z -> in_range 0 127 b = true.
Proof. intros b z E. pose proof (ascii_all b) as A. unfold ascii_ok in A. rewrite E, orb_true_r in A. exact A. Qed.

Lemma utf8_ascii : forall c s, in_range 0 127 c = true -> utf8_ok (c :: s) = utf8_ok s.
Proof. intros c s E. cbn [utf8_ok]. rewrite E. reflexivity. Qed.

Lemma from_hex_utf8 : forall n s x, length s <= n -> from_hex s = Some x -> utf8_ok s = true.
Proof.
  induction n as [|n IH]; intros s x Hn E.
  - destruct s; [reflexivity|cbn [length] in Hn; lia].
  - destruct s as [|c r]; [reflexivity|]. cbn [length] in Hn. cbn [from_hex] in E.
    destruct (is_space c) eqn:Es.
    + rewrite (utf8_ascii c r (space_ascii c Es)). apply (IH r x); [lia|exact E].
    + destruct r as [|d r']; [discriminate|]. destruct (hexval c) as [p|] eqn:Ep; [|discriminate].
      destruct (hexval d) as [q|] eqn:Eq; [|discriminate].
      destruct (from_hex r') as [y|] eqn:Ey; [|discriminate].
      rewrite (utf8_ascii c _ (hex_ascii c p Ep)), (utf8_ascii d _ (hex_ascii d q Eq)).
      apply (IH r' y); [cbn [length] in Hn; lia|exact Ey].
Qed.
Lemma from_hex_str : forall s x, from_hex s = Some x -> decode_str s = Ok s.
Proof. intros s x E. unfold decode_str. rewrite (from_hex_utf8 (length s) s x (le_n _) E). reflexivity. Qed.

(** ** The next level *)
Section WithHash.
Context {H : Hash}.

Lemma next_nil : next_level [] = [].
Proof. reflexivity. Qed.
Lemma next_one : forall a, next_level [a] = [a].
Proof. reflexivity. Qed.

Lemma next_cons : forall a b l, next_level (a :: b :: l) = keccak (a ++ b) :: next_level l.
Proof.
  intros a b l. unfold next_level. cbn [length].
  assert (Eo : Nat.odd (S (S (length l))) = Nat.odd (length l)) by reflexivity. rewrite Eo.
  destruct (Nat.odd (length l)) eqn:E.
  - destruct l as [|c l]; [discriminate E|].
    replace (S (S (length (c :: l))) - 1) with (S (S (length (c :: l) - 1))) by (cbn [length]; lia).
    cbn [firstn]. assert (El : forall d, last (a :: b :: c :: l) d = last (c :: l) d) by reflexivity.
    rewrite El. set (m := firstn (length (c :: l) - 1) (c :: l)).
    cbn [skipn]. destruct m as [|m0 m']; reflexivity.
  - cbn [firstn]. rewrite firstn_all. cbn [skipn]. destruct l; reflexivity.
Qed.

Lemma next_length : forall l, length (next_level l) = (length l + 1) / 2.
Proof.
  apply list_ind2; [reflexivity|reflexivity|]. intros a b l IH. rewrite next_cons. cbn [length]. rewrite IH.
  replace (S (S (length l)) + 1) with (length l + 1 + 1 * 2) by lia. rewrite Nat.div_add by lia. lia.
Qed.

Lemma next_app : forall l l', Nat.even (length l) = true -> next_level (l ++ l') = next_level l ++ next_level l'.
Proof.
  intros l l'. revert l. apply (list_ind2 bytes (fun l => Nat.even (length l) = true -> next_level (l ++ l') = next_level l ++ next_level l')).
  - reflexivity.
  - discriminate.
  - intros a b l IH E. cbn [app]. rewrite !next_cons. cbn [app]. rewrite IH; [reflexivity|exact E].
Qed.

(** ** The specified tree *)
Lemma log2_split : forall n, 2 <= n -> 2 ^ Nat.log2 (n - 1) < n /\ n <= 2 * 2 ^ Nat.log2 (n - 1).
Proof.
  intros n Hn. pose proof (Nat.log2_spec (n - 1)) as [A B]; [lia|]. cbn [Nat.pow] in B. lia.
Qed.

Lemma tree_fuel_irr : forall n m l, length l <= n -> length l <= m -> tree_fuel n l = tree_fuel m l.
Proof.
  induction n as [|n IH]; intros m l Hn Hm.
  - destruct l; [|cbn [length] in Hn; lia]. destruct m; reflexivity.
  - destruct l as [|a [|b l]]; [destruct m; reflexivity|destruct m; reflexivity|].
    destruct m as [|m]; [cbn [length] in Hm; lia|]. cbn [tree_fuel].
    set (L := a :: b :: l). assert (HL : 2 <= length L) by (cbn; lia).
    assert (HLn : length L <= S n) by exact Hn. assert (HLm : length L <= S m) by exact Hm. clearbody L.
    pose proof (log2_split (length L) HL) as [B1 B2]. set (k := 2 ^ Nat.log2 (length L - 1)) in *.
    assert (0 < k) by lia.
    rewrite (IH m (firstn k L)), (IH m (skipn k L)); [reflexivity|rewrite skipn_length; lia|rewrite skipn_length; lia
      |rewrite firstn_length; lia|rewrite firstn_length; lia].
Qed.

Lemma tree_of_split : forall l, 2 <= length l ->
  let k := 2 ^ Nat.log2 (length l - 1) in tree_of l = Node (tree_of (firstn k l)) (tree_of (skipn k l)).
Proof.
  intros l Hl k. unfold tree_of at 1. destruct l as [|a [|b l]]; [cbn in Hl; lia|cbn in Hl; lia|].
  assert (E : length (a :: b :: l) = S (length (b :: l))) by reflexivity. rewrite E. cbn [tree_fuel].
  fold k. set (L := a :: b :: l) in *.
  pose proof (log2_split (length L) Hl) as [B1 B2]. fold k in B1, B2.
  unfold tree_of. f_equal; apply tree_fuel_irr.
  - rewrite firstn_length. lia.
  - lia.
  - rewrite skipn_length. lia.
  - lia.
Qed.

Lemma tree_of_one : forall a, tree_of [a] = Leaf a.
Proof. reflexivity. Qed.

Lemma fringe_tree_of_n : forall n l, length l <= n -> l <> [] -> fringe (tree_of l) = l.
Proof.
  induction n as [|n IH]; intros l Hn Hne; [destruct l; [congruence|cbn in Hn; lia]|].
  destruct l as [|a [|b l]]; [congruence|reflexivity|].
  set (L := a :: b :: l) in *. assert (HL : 2 <= length L) by (cbn; lia). clearbody L.
  rewrite tree_of_split by exact HL. pose proof (log2_split _ HL) as [B1 B2].
  set (k := 2 ^ Nat.log2 (length L - 1)) in *. cbn [fringe].
  assert (L1 : length (firstn k L) = k) by (rewrite firstn_length; lia).
  assert (L2 : length (skipn k L) = length L - k) by (rewrite skipn_length; lia).
  rewrite !IH.
  - apply firstn_skipn.
  - lia.
  - intros E. rewrite E in L2. cbn in L2. lia.
  - lia.
  - intros E. rewrite E in L1. cbn in L1. lia.
Qed.
Lemma fringe_tree_of : forall l, l <> [] -> fringe (tree_of l) = l.
Proof. intros l. apply (fringe_tree_of_n (length l)). lia. Qed.

Lemma merkle_root_split : forall l, 2 <= length l -> let k := 2 ^ Nat.log2 (length l - 1) in
  merkle_root l = keccak (merkle_root (firstn k l) ++ merkle_root (skipn k l)).
Proof. intros l Hl k. unfold merkle_root. rewrite tree_of_split by exact Hl. reflexivity. Qed.

(** Collapsing one level does not change the root. *)
Lemma merkle_root_next_n : forall n l, length l <= n -> l <> [] -> merkle_root (next_level l) = merkle_root l.
Proof.
  induction n as [|n IH]; intros l Hn Hne; [destruct l; [congruence|cbn in Hn; lia]|].
  destruct l as [|a [|b [|c l]]]; [congruence|reflexivity|reflexivity|].
  set (L := a :: b :: c :: l) in *. assert (HL : 3 <= length L) by (cbn; lia). clearbody L.
  pose proof (log2_split (length L) ltac:(lia)) as [B1 B2].
  set (j := Nat.log2 (length L - 1)) in *. assert (Hj : 1 <= j).
  { unfold j. pose proof (Nat.log2_le_mono 2 (length L - 1)) as Hm.
    assert (E2 : Nat.log2 2 = 1) by reflexivity. rewrite E2 in Hm. apply Hm. lia. }
  destruct j as [|j'] eqn:Ej; [lia|]. cbn [Nat.pow] in B1, B2. set (q := 2 ^ j') in *.
  assert (Hq : 1 <= q) by (unfold q; pose proof (Nat.pow_nonzero 2 j'); lia).
  assert (EL : L = firstn (2 * q) L ++ skipn (2 * q) L) by (symmetry; apply firstn_skipn).
  assert (L1 : length (firstn (2 * q) L) = 2 * q) by (rewrite firstn_length; lia).
  assert (L2 : length (skipn (2 * q) L) = length L - 2 * q) by (rewrite skipn_length; lia).
  set (A := firstn (2 * q) L) in *. set (B := skipn (2 * q) L) in *.
  assert (EN : next_level L = next_level A ++ next_level B).
  { rewrite EL. apply next_app. rewrite L1. rewrite Nat.even_mul. reflexivity. }
  assert (N1 : length (next_level A) = q).
  { rewrite next_length, L1. replace (2 * q + 1) with (1 + q * 2) by lia. rewrite Nat.div_add by lia. reflexivity. }
  assert (N2 : length (next_level B) = (length L - 2 * q + 1) / 2) by (rewrite next_length, L2; reflexivity).
  assert (N2l : 1 <= length (next_level B)).
  { rewrite N2. apply Nat.div_le_lower_bound; lia. }
  assert (N2u : length (next_level B) <= q).
  { rewrite N2. apply Nat.lt_succ_r. apply Nat.div_lt_upper_bound; lia. }
  assert (NL : length (next_level L) = q + length (next_level B)) by (rewrite EN, app_length, N1; reflexivity).
  assert (Ek : 2 ^ Nat.log2 (length (next_level L) - 1) = q).
  { rewrite NL. unfold q at 2. f_equal. apply Nat.log2_unique; [lia|]. cbn [Nat.pow]. fold q. lia. }
  rewrite (merkle_root_split (next_level L)) by lia. rewrite Ek, EN.
  assert (F1 : firstn q (next_level A ++ next_level B) = next_level A).
  { rewrite <- N1. rewrite firstn_app, Nat.sub_diag, firstn_all. cbn [firstn]. apply app_nil_r. }
  assert (F2 : skipn q (next_level A ++ next_level B) = next_level B).
  { rewrite <- N1. rewrite skipn_app, Nat.sub_diag, skipn_all. reflexivity. }
  rewrite F1, F2, !IH.
  - rewrite (merkle_root_split L) by lia. fold j. rewrite Ej. cbn [Nat.pow]. fold q. reflexivity.
  - lia.
  - intros E. rewrite E in L2. cbn in L2. lia.
  - lia.
  - intros E. rewrite E in L1. cbn in L1. lia.
Qed.
Lemma merkle_root_next : forall l, l <> [] -> merkle_root (next_level l) = merkle_root l.
Proof. intros l. apply (merkle_root_next_n (length l)). lia. Qed.

(** ** The levels, bottom first *)
Inductive chain : list bytes -> list (list bytes) -> Prop :=
  | chain_end : forall l, length l <= 1 -> chain l [l]
  | chain_step : forall l c, 2 <= length l -> chain (next_level l) c -> chain l (l :: c).

Lemma build_total : forall f l below, length l <= S f -> exists c, chain l c /\ build f l below = Some (rev c ++ below).
Proof.
  induction f as [|f IH]; intros l below Hl.
  - exists [l]. split; [constructor; lia|]. cbn [build]. destruct (Nat.leb_spec (length l) 1); [reflexivity|lia].
  - cbn [build]. destruct (Nat.leb_spec (length l) 1) as [Hs|Hs].
    + exists [l]. split; [constructor; lia|reflexivity].
    + destruct (IH (next_level l) (l :: below)) as (c & Hc & E).
      { rewrite next_length. apply Nat.lt_succ_r. apply Nat.div_lt_upper_bound; lia. }
      exists (l :: c). split; [constructor; [lia|exact Hc]|]. rewrite E. cbn [rev]. rewrite <- app_assoc. reflexivity.
Qed.

Lemma chain_det : forall l c, chain l c -> forall c', chain l c' -> c = c'.
Proof.
  induction 1 as [l Hl|l c Hl Hc IH]; intros c' Hc'; inversion Hc'; subst; try lia; [reflexivity|].
  f_equal. apply IH. assumption.
Qed.

Lemma next_ne : forall l, l <> [] -> next_level l <> [].
Proof. intros [|a [|b l]] Hn; [congruence|discriminate|rewrite next_cons; discriminate]. Qed.

Lemma chain_top : forall l c, chain l c -> l <> [] -> exists c', c = c' ++ [[merkle_root l]].
Proof.
  induction 1 as [l Hl|l c Hl Hc IH]; intros Hne.
  - exists []. destruct l as [|a [|b l]]; [congruence|reflexivity|cbn in Hl; lia].
  - destruct (IH (next_ne l Hne)) as [c' E]. exists (l :: c'). rewrite E, merkle_root_next by exact Hne. reflexivity.
Qed.

Lemma chain_head : forall l c, chain l c -> exists c', c = l :: c'.
Proof. destruct 1; eauto. Qed.

(** One step up from position [i]. *)
Lemma next_nth : forall l i v, nth_error l i = Some v ->
  (i = length l - 1 /\ Nat.odd (length l) = true /\ nth_error (next_level l) (i / 2) = Some v) \/
  (~ (i = length l - 1 /\ Nat.odd (length l) = true) /\ exists sib,
   nth_error l (if Nat.odd i then i - 1 else i + 1) = Some sib /\
   nth_error (next_level l) (i / 2) = Some (keccak (if Nat.odd i then sib ++ v else v ++ sib))).
Proof.
  intros l. pattern l. revert l. apply list_ind2.
  - intros [|i] v E; discriminate.
  - intros a [|[|i]] v E; try discriminate. injection E as E. subst v. left. cbn. auto.
  - intros a b l IH i v E. rewrite next_cons. destruct i as [|[|i]].
    + right. injection E as E. subst v. split; [cbn [length]; lia|]. exists b. split; reflexivity.
    + right. injection E as E. subst v. split.
      * cbn [length]. intros [E1 E2]. assert (length l = 0) by lia. rewrite H0 in E2. discriminate.
      * exists a. split; reflexivity.
    + cbn [nth_error] in E. replace (S (S i) / 2) with (S (i / 2)).
      2:{ replace (S (S i)) with (i + 1 * 2) by lia. rewrite Nat.div_add by lia. lia. }
      assert (Eo : Nat.odd (S (S i)) = Nat.odd i) by reflexivity. rewrite Eo.
      assert (Eol : Nat.odd (length (a :: b :: l)) = Nat.odd (length l)) by reflexivity. rewrite Eol.
      cbn [nth_error length]. destruct (IH i v E) as [(E1 & E2 & E3)|(E1 & sib & E2 & E3)].
      * left. split; [|split; [exact E2|exact E3]].
        assert (i < length l) by (apply nth_error_Some; rewrite E; discriminate). lia.
      * right. split.
        -- intros [F1 F2]. apply E1. split; [lia|exact F2].
        -- exists sib. split; [|exact E3].
           assert (i < length l) by (apply nth_error_Some; rewrite E; discriminate).
           destruct (Nat.odd i) eqn:Ei.
           ++ destruct i as [|i]; [discriminate|]. replace (S (S (S i)) - 1) with (S (S (S i - 1))) by lia. exact E2.
           ++ replace (S (S i) + 1) with (S (S (i + 1))) by lia. exact E2.
Qed.

Definition side_of (b : bool) : bytes := if b then s_left else s_right.
(** The proof of position [i] along the levels: it exists, has well-formed hexadecimal siblings and leads to the root. *)
Lemma poi_chain : forall l c, chain l c -> forall i v, nth_error l i = Some v ->
  exists pa, poi_loop (removelast c) i = Ok (map (fun s => (side_of (fst s), to_hex (snd s))) pa) /\
             path_root v pa = merkle_root l.
Proof.
  induction 1 as [l Hl|l c Hl Hc IH]; intros i v E.
  - exists []. split; [reflexivity|]. destruct l as [|a [|b l]]; [destruct i; discriminate| |cbn in Hl; lia].
    destruct i as [|[|i]]; try discriminate. injection E as E. subst. reflexivity.
  - assert (Hne : l <> []) by (intros E0; subst l; destruct i; discriminate).
    destruct (chain_head _ _ Hc) as [c' Ec].
    assert (Er : removelast (l :: c) = l :: removelast c) by (rewrite Ec; reflexivity). rewrite Er. cbn [poi_loop].
    destruct (next_nth l i v E) as [(E1 & E2 & E3)|(E1 & sib & E2 & E3)].
    + rewrite E2. replace (i =? length l - 1) with true by (symmetry; apply Nat.eqb_eq; exact E1). cbn [andb].
      destruct (IH _ _ E3) as (pa & P1 & P2). exists pa. split; [exact P1|]. rewrite P2. apply merkle_root_next. exact Hne.
    + destruct ((i =? length l - 1) && Nat.odd (length l)) eqn:Eb.
      { exfalso. apply E1. apply andb_prop in Eb as [Eb1 Eb2]. split; [apply Nat.eqb_eq; exact Eb1|exact Eb2]. }
      rewrite E2. destruct (IH _ _ E3) as (pa & P1 & P2). rewrite P1.
      exists ((Nat.odd i, sib) :: pa). cbn [bind map fst snd]. split.
      * destruct (Nat.odd i); reflexivity.
      * cbn [path_root]; unfold combine_step; cbn [fst snd]. rewrite P2. apply merkle_root_next. exact Hne.
Qed.


Lemma tl_rev : forall (A : Type) (c : list A), rev (tl (rev c)) = removelast c.
Proof.
  intros A c. destruct c as [|a c] using rev_ind; [reflexivity|].
  rewrite rev_app_distr. cbn [rev app tl]. rewrite rev_involutive, removelast_last. reflexivity.
Qed.
End WithHash.

Section Nonempty.
Context {H : Hash}.
(** In a tree of at least two leaves every position has a sibling. *)
Lemma poi_chain_ne : forall l c, chain l c -> forall i v r, nth_error l i = Some v -> 2 <= length l ->
  poi_loop (removelast c) i = Ok r -> r <> [].
Proof.
  induction 1 as [l Hl|l c Hl Hc IH]; intros i v r E H2 P; [lia|].
  destruct (chain_head _ _ Hc) as [c' Ec].
  assert (Er : removelast (l :: c) = l :: removelast c) by (rewrite Ec; reflexivity). rewrite Er in P. cbn [poi_loop] in P.
  destruct (next_nth l i v E) as [(E1 & E2 & E3)|(E1 & sib & E2 & E3)].
  - rewrite E2 in P. replace (i =? length l - 1) with true in P by (symmetry; apply Nat.eqb_eq; exact E1). cbn [andb] in P.
    apply (IH _ _ _ E3) with (2 := P). rewrite next_length.
    apply Nat.div_le_lower_bound; [lia|]. assert (length l <> 2) by (intros F; rewrite F in E2; discriminate E2). lia.
  - destruct ((i =? length l - 1) && Nat.odd (length l)) eqn:Eb.
    { exfalso. apply E1. apply andb_prop in Eb as [Eb1 Eb2]. split; [apply Nat.eqb_eq; exact Eb1|exact Eb2]. }
    rewrite E2 in P. destruct (poi_loop (removelast c) (i / 2)); [|discriminate]. cbn [bind] in P.
    intros F. subst r. discriminate.
Qed.
End Nonempty.
