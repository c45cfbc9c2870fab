(** Proofs made by MerkleTree are audit paths. *)
From Coq Require Import List Bool Arith NArith ZArith Lia.
From Verif Require Import Base BaseProofs ProofObj MptEq MerkleTree SpecMt SpecText MtProofs MtProofs2 SpecAudit.
Import ListNotations.

Section S.
Context {H : Hash}.

Definition stp (l : list bytes) (i : nat) : path :=
  if (i =? length l - 1) && Nat.odd (length l) then []
  else [(Nat.odd i, nth (if Nat.odd i then i - 1 else i + 1) l [])].

Lemma odd_dbl : forall q j, Nat.odd (2 * q + j) = Nat.odd j.
Proof. intros q j. rewrite Nat.odd_add, Nat.odd_mul. destruct (Nat.odd j); reflexivity. Qed.
Lemma half_dbl : forall q j, (2 * q + j) / 2 = q + j / 2.
Proof. intros q j. rewrite Nat.mul_comm, Nat.div_add_l by lia. reflexivity. Qed.
Lemma odd_nz : forall i, Nat.odd i = true -> 1 <= i.
Proof. intros [|i]; [discriminate|lia]. Qed.
Lemma odd_lt : forall i q, i < 2 * q -> Nat.odd i = false -> i + 1 < 2 * q.
Proof.
  intros i q L E. destruct (Nat.eq_dec (i + 1) (2 * q)) as [X|X]; [|lia]. exfalso.
  assert (Y : Nat.odd (i + 1) = Nat.odd (2 * q)) by (rewrite X; reflexivity).
  rewrite Nat.add_1_r, Nat.odd_succ, <- Nat.negb_odd, E, Nat.odd_mul in Y. discriminate.
Qed.

Lemma audit_next_n : forall n l i, length l <= n -> 2 <= length l -> i < length l ->
  audit (tree_of l) i = stp l i ++ audit (tree_of (next_level l)) (i / 2).
Proof.
  induction n as [|n IH]; intros l i Hn H2 Hi; [lia|].
  destruct l as [|a [|b [|c l]]]; [cbn in H2; lia|cbn in H2; lia|destruct i as [|[|i]]; [reflexivity|reflexivity|cbn in Hi; lia]|].
  set (L := a :: b :: c :: l) in *. assert (HL : 3 <= length L) by (cbn; lia). clearbody L.
  pose proof (log2_split (length L) ltac:(lia)) as [B1 B2].
  set (j := Nat.log2 (length L - 1)) in *. assert (Hj : 1 <= j).
  { unfold j. pose proof (Nat.log2_le_mono 2 (length L - 1)) as Hm.
    assert (E2 : Nat.log2 2 = 1) by reflexivity. rewrite E2 in Hm. apply Hm. lia. }
  destruct j as [|j'] eqn:Ej; [lia|]. cbn [Nat.pow] in B1, B2. set (q := 2 ^ j') in *.
  assert (Hq : 1 <= q) by (unfold q; pose proof (Nat.pow_nonzero 2 j'); lia).
  assert (EL : L = firstn (2 * q) L ++ skipn (2 * q) L) by (symmetry; apply firstn_skipn).
  assert (L1 : length (firstn (2 * q) L) = 2 * q) by (rewrite firstn_length; lia).
  assert (L2 : length (skipn (2 * q) L) = length L - 2 * q) by (rewrite skipn_length; lia).
  assert (TL : tree_of L = Node (tree_of (firstn (2 * q) L)) (tree_of (skipn (2 * q) L))).
  { rewrite (tree_of_split L) by lia. fold j. rewrite Ej. reflexivity. }
  set (A := firstn (2 * q) L) in *. set (B := skipn (2 * q) L) in *.
  assert (EN : next_level L = next_level A ++ next_level B).
  { rewrite EL. apply next_app. rewrite L1. rewrite Nat.even_mul. reflexivity. }
  assert (N1 : length (next_level A) = q).
  { rewrite next_length, L1. replace (2 * q + 1) with (1 + q * 2) by lia. rewrite Nat.div_add by lia. reflexivity. }
  assert (N2 : length (next_level B) = (length L - 2 * q + 1) / 2) by (rewrite next_length, L2; reflexivity).
  assert (N2l : 1 <= length (next_level B)).
  { rewrite N2. apply Nat.div_le_lower_bound; lia. }
  assert (N2u : length (next_level B) <= q).
  { rewrite N2. apply Nat.lt_succ_r. apply Nat.div_lt_upper_bound; lia. }
  assert (NL : length (next_level L) = q + length (next_level B)) by (rewrite EN, app_length, N1; reflexivity).
  assert (Ek : 2 ^ Nat.log2 (length (next_level L) - 1) = q).
  { rewrite NL. unfold q at 2. f_equal. apply Nat.log2_unique; [lia|]. cbn [Nat.pow]. fold q. lia. }
  assert (F1 : firstn q (next_level A ++ next_level B) = next_level A).
  { rewrite <- N1. rewrite firstn_app, Nat.sub_diag, firstn_all. cbn [firstn]. apply app_nil_r. }
  assert (F2 : skipn q (next_level A ++ next_level B) = next_level B).
  { rewrite <- N1. rewrite skipn_app, Nat.sub_diag, skipn_all. reflexivity. }
  assert (TN : tree_of (next_level L) = Node (tree_of (next_level A)) (tree_of (next_level B))).
  { rewrite (tree_of_split (next_level L)) by lia. rewrite Ek, EN, F1, F2. reflexivity. }
  assert (An : A <> []) by (intros E; rewrite E in L1; cbn in L1; lia).
  assert (Bn : B <> []) by (intros E; rewrite E in L2; cbn in L2; lia).
  rewrite TL, TN. cbn [audit]. rewrite !fringe_tree_of by auto using next_ne. rewrite L1, N1.
  assert (RA : thash (tree_of (next_level A)) = thash (tree_of A)) by (apply merkle_root_next; exact An).
  assert (RB : thash (tree_of (next_level B)) = thash (tree_of B)) by (apply merkle_root_next; exact Bn).
  rewrite RA, RB. destruct (Nat.ltb_spec i (2 * q)) as [Lt|Ge].
  - assert (Lq : i / 2 < q) by (apply Nat.div_lt_upper_bound; lia). apply Nat.ltb_lt in Lq. rewrite Lq.
    rewrite (IH A i) by lia. rewrite app_assoc. f_equal. f_equal. unfold stp. rewrite L1.
    replace (Nat.odd (2 * q)) with false by (rewrite Nat.odd_mul; reflexivity). rewrite andb_false_r.
    replace (i =? length L - 1) with false by (symmetry; apply Nat.eqb_neq; lia). cbn [andb]. f_equal. f_equal.
    rewrite EL. rewrite app_nth1; [reflexivity|]. rewrite L1. destruct (Nat.odd i) eqn:Eo; [lia|]. apply odd_lt; auto.
  - set (k := i - 2 * q). assert (Ei : i = 2 * q + k) by lia.
    assert (Eh : i / 2 = q + k / 2) by (rewrite Ei; apply half_dbl).
    assert (Lq : (i / 2 <? q) = false) by (apply Nat.ltb_ge; lia). rewrite Lq. rewrite Eh. replace (q + k / 2 - q) with (k / 2) by lia.
    assert (Es : stp L i = if length B =? 1 then [] else stp B k).
    { unfold stp. rewrite Ei, odd_dbl.
      assert (El : length L = 2 * q + length B) by lia. rewrite El, odd_dbl.
      replace (2 * q + k =? 2 * q + length B - 1) with (k =? length B - 1)
        by (destruct (Nat.eqb_spec k (length B - 1)), (Nat.eqb_spec (2 * q + k) (2 * q + length B - 1)); auto; lia).
      destruct (Nat.eqb_spec (length B) 1) as [E1|E1].
      { rewrite E1. replace (k =? 1 - 1) with true by (symmetry; apply Nat.eqb_eq; lia). reflexivity. }
      destruct ((k =? length B - 1) && Nat.odd (length B)) eqn:Eb; [reflexivity|].
      f_equal. f_equal. rewrite EL. destruct (Nat.odd k) eqn:Eo.
      - apply odd_nz in Eo. rewrite app_nth2 by lia. f_equal. lia.
      - rewrite app_nth2 by lia. f_equal. lia. }
    rewrite Es. destruct (Nat.eqb_spec (length B) 1) as [E1|E1].
    + cbn [app]. destruct B as [|x [|y B']]; [congruence| |cbn in E1; lia]. reflexivity.
    + rewrite (IH B k) by lia. rewrite app_assoc. reflexivity.
Qed.
Lemma audit_next : forall l i, 2 <= length l -> i < length l ->
  audit (tree_of l) i = stp l i ++ audit (tree_of (next_level l)) (i / 2).
Proof. intros l i. apply (audit_next_n (length l)). lia. Qed.

Lemma loop_audit : forall l c, chain l c -> forall i, i < length l ->
  poi_loop (removelast c) i = Ok (hex_path (audit (tree_of l) i)).
Proof.
  induction 1 as [l Hl|l c Hl Hc IH]; intros i Hi.
  - destruct l as [|a [|b l]]; [cbn in Hi; lia|reflexivity|cbn in Hl; lia].
  - destruct (chain_head _ _ Hc) as [c' Ec].
    assert (Er : removelast (l :: c) = l :: removelast c) by (rewrite Ec; reflexivity). rewrite Er. cbn [poi_loop].
    assert (Hh : i / 2 < length (next_level l)).
    { rewrite next_length. apply Nat.div_lt_upper_bound; [lia|].
      pose proof (Nat.div_mod (length l + 1) 2 ltac:(lia)). pose proof (Nat.mod_upper_bound (length l + 1) 2 ltac:(lia)). lia. }
    rewrite (audit_next l i Hl Hi), (IH _ Hh). unfold stp.
    destruct ((i =? length l - 1) && Nat.odd (length l)) eqn:Eb; [reflexivity|].
    assert (Hs : (if Nat.odd i then i - 1 else i + 1) < length l).
    { destruct (Nat.odd i) eqn:Eo; [lia|]. destruct (Nat.eq_dec i (length l - 1)) as [E|E]; [|lia]. exfalso.
      rewrite E, Nat.eqb_refl in Eb. cbn [andb] in Eb. replace (length l) with (S i) in Eb by lia.
      rewrite Nat.odd_succ, <- Nat.negb_odd, Eo in Eb. discriminate. }
    rewrite (nth_error_nth' l [] Hs). cbn [bind app]. unfold hex_path. cbn [map fst snd]. destruct (Nat.odd i); reflexivity.
Qed.

Lemma index_of_first : forall k l, In k l -> exists i, index_of k l = Some i /\ first_at l i k /\ i < length l.
Proof.
  induction l as [|x l IH]; intros Hin; [destruct Hin|]. cbn [index_of]. destruct (bytes_eqb k x) eqn:E.
  - exists 0. apply bytes_eqb_eq in E. subst. split; [reflexivity|]. split; [split; [reflexivity|intros j Hj; lia]|cbn; lia].
  - destruct IH as (i & E1 & [E2 E3] & E4).
    { destruct Hin as [Hin|Hin]; [|exact Hin]. exfalso. subst x. rewrite bytes_eqb_refl in E. discriminate. }
    exists (S i). rewrite E1. split; [reflexivity|]. split; [split; [exact E2|]|cbn; lia].
    intros [|j] Hj; cbn [nth_error]; [|apply E3; lia]. intros X. injection X as X. subst x. rewrite bytes_eqb_refl in E. discriminate.
Qed.

Theorem poi_is_audit : forall s t vs v time, built_over s t vs -> In v vs -> exists i,
  first_at (leaves_of s vs) i (stored s v) /\
  get_poi t time (VBytes v) =
    (Ok (mkProof MT_POI time v (to_hex (merkle_root (leaves_of s vs))) (pairs (hex_path (audit (tree_of (leaves_of s vs)) i)))), t).
Proof.
  intros s t vs v time Hb Hin. pose proof (built_over_holds _ _ _ Hb) as ([B1 B2] & R & Hm & c & C & U). rewrite firstn_all in C.
  destruct (index_of_first (stored s v) (leaves_of s vs)) as (i & E1 & E2 & E3).
  { unfold leaves_of, stored. apply (in_map (fun v => if s then keccak v else v)). exact Hin. }
  exists i. split; [exact E2|]. unfold get_poi, tools_poi, levels. rewrite U, R, B1, B2. cbn [option_map]. rewrite E1.
  assert (E : rev (tl (rev c ++ [leaves_of s vs])) = removelast (leaves_of s vs :: c)).
  { change (rev c ++ [leaves_of s vs]) with (rev (leaves_of s vs :: c)). apply tl_rev. }
  rewrite E, (loop_audit _ _ C i E3), (built_root _ _ _ Hb). reflexivity.
Qed.

Lemma hexdigit_value : forall n, (n < 16)%N -> hex_value (hexdigit n) n.
Proof.
  intros n L. unfold hexdigit, hex_value. destruct (n <? 10)%N eqn:E.
  - apply N.ltb_lt in E. left. split; [exact E|]. rewrite bN_nB by lia. lia.
  - apply N.ltb_ge in E. right. split; [lia|]. rewrite bN_nB by lia. lia.
Qed.
Lemma to_hex_lower : forall b, lower_hex (to_hex b) b.
Proof.
  induction b as [|x b IH]; [constructor|]. cbn [to_hex flat_map app]. pose proof (bN_lt x) as L.
  apply lower_byte with (n := (bN x / 16)%N) (m := (bN x mod 16)%N); auto.
  - apply hexdigit_value. apply N.div_lt_upper_bound; lia.
  - apply hexdigit_value. apply N.mod_lt. lia.
  - apply N.div_mod. lia.
Qed.
Lemma written_pairs : forall pa, written pa (pairs (hex_path pa)).
Proof.
  intros pa. unfold written, pairs, hex_path. rewrite map_map. induction pa as [|[b x] pa IH]; [constructor|]. cbn [map fst snd].
  constructor; [|exact IH]. exists (to_hex x). split; [apply to_hex_lower|]. destruct b; reflexivity.
Qed.
Theorem poi_written : forall s t vs v time, built_over s t vs -> In v vs -> exists i p,
  first_at (leaves_of s vs) i (if s then keccak v else v) /\ get_poi t time (VBytes v) = (Ok p, t) /\
  pf_type p = [x4d; x54; x2d; x50; x4f; x49] /\ pf_time p = time /\ pf_key p = v /\ lower_hex (pf_root p) (merkle_root (leaves_of s vs)) /\
  written (audit (tree_of (leaves_of s vs)) i) (pf_proof p).
Proof.
  intros s t vs v time Hb Hin. destruct (poi_is_audit s t vs v time Hb Hin) as (i & F & E). exists i. eexists. split; [exact F|]. split; [exact E|].
  cbn [pf_type pf_time pf_key pf_root pf_proof]. split; [reflexivity|]. split; [reflexivity|]. split; [reflexivity|]. split; [apply to_hex_lower|apply written_pairs].
Qed.

Lemma audit_len_n : forall d l i, length l <= 2 ^ d -> length (audit (tree_of l) i) <= d.
Proof.
  induction d as [|d IH]; intros l i Hl.
  - destruct l as [|a [|b l]]; [cbn; lia|cbn; lia|cbn in Hl; lia].
  - destruct (le_lt_dec (length l) 1) as [L|L]; [destruct l as [|a [|b l]]; [cbn; lia|cbn; lia|cbn in L; lia]|].
    rewrite (tree_of_split l) by lia. pose proof (log2_split (length l) ltac:(lia)) as [B1 B2].
    assert (Hk : 2 ^ Nat.log2 (length l - 1) <= 2 ^ d).
    { apply Nat.pow_le_mono_r; [lia|]. destruct (le_lt_dec (Nat.log2 (length l - 1)) d) as [X|X]; [exact X|exfalso].
      assert (Y : 2 ^ S d <= 2 ^ Nat.log2 (length l - 1)) by (apply Nat.pow_le_mono_r; lia). lia. }
    set (k := 2 ^ Nat.log2 (length l - 1)) in *. cbn [audit].
    destruct (i <? _); rewrite app_length; cbn [length].
    + assert (X : length (audit (tree_of (firstn k l)) i) <= d); [|lia]. apply IH. rewrite firstn_length. lia.
    + match goal with |- length (audit ?a ?b) + 1 <= _ => assert (X : length (audit a b) <= d); [|lia] end.
      apply IH. rewrite skipn_length. lia.
Qed.
Theorem audit_len : forall l i, l <> [] -> length (audit (tree_of l) i) <= Nat.log2_up (length l).
Proof.
  intros l i Hn. apply audit_len_n. destruct (le_lt_dec (length l) 1) as [L|L].
  - pose proof (Nat.pow_nonzero 2 (Nat.log2_up (length l))). lia.
  - apply Nat.log2_up_spec. lia.
Qed.

Theorem poi_len : forall s t vs v time p, built_over s t vs -> In v vs -> get_poi t time (VBytes v) = (Ok p, t) ->
  length (pf_proof p) <= Nat.log2_up (length vs).
Proof.
  intros s t vs v time p Hb Hin E. destruct (poi_is_audit s t vs v time Hb Hin) as (i & _ & E'). rewrite E in E'. injection E' as ->.
  cbn [pf_proof]. unfold pairs, hex_path. rewrite !map_length. rewrite <- (leaves_of_length s vs). apply audit_len.
  apply leaves_of_ne. destruct Hb as (? & ? & _ & _ & _ & Hn). exact Hn.
Qed.
End S.
