(** Further facts: what calls leave as it was, the positions of Merkle proofs, the characters of JSON texts. *)
From Coq Require Import String.
From Coq Require Import List Bool Arith NArith ZArith Lia.
From Verif Require Import Base BaseProofs Rlp RlpProofs NibblePath NibbleProofs Node ProofObj Mpt Tree TreeEnc
  StoreProofs UpdateProofs DeleteProofs ReadProofs Spec SpecCodec MptRefine MptProofs CostProofs SpecShared SimProofs SharedProofs
  Empt SpecEmpt EmptProofs SpecSparse SparseProofs.
Import ListNotations.

Section S.
Context {H : Hash}.
Hypothesis keccak_len : forall b, length (keccak b) = 32.

Lemma rd_keeps : forall r s, let s1 := snd (rd_node r s) in s_map s1 = s_map s /\ s_log s1 = s_log s.
Proof.
  intros r s. unfold rd_node, mbind, tick, ret. destruct (length r =? 32); [|split; reflexivity].
  destruct (s_faults s) as [|[|] fs]; split; reflexivity.
Qed.

Lemma delete_absent_keeps : forall fuel t path s, wf t -> small t -> stored (s_map s) t -> t <> TEmpty ->
  lookup t (nibs path) = None ->
  exists e s', delete_ fuel (tref t) path s = (Err e, s') /\ s_map s' = s_map s /\ s_log s' = s_log s.
Proof.
  induction fuel as [|f IH]; intros t path s Hw Hs St Hn El; cbn [delete_]; [exists RecursionError, s; repeat split; reflexivity|].
  unfold mbind at 1. pose proof (rd_keeps (tref t) s) as [K1 K2]. destruct (rd_stored keccak_len t s Hn Hw Hs St) as [E|(n & s1 & E & Hm & Em)].
  { destruct (rd_node (tref t) s) as [[n|e] s1]; cbn in E; [discriminate|]. injection E as ->.
    exists StorageFault, s1. split; [reflexivity|split; assumption]. }
  rewrite E in *. cbn [snd] in K1, K2. destruct n as [lp d|ep nr|bs d], t as [|q w|q c|cs w]; cbn [nmatch] in Hm; try contradiction.
  - destruct Hm as [<- <-]. destruct (np_eq path lp) eqn:Eq; [|exists LeafPathError, s1; split; [reflexivity|split; assumption]].
    apply np_eq_spec in Eq. rewrite Eq, lookup_leaf_self in El. discriminate.
  - destruct Hm as [<- ->]. destruct Hw as (Hq & Hq0 & Hb & Hwc). destruct (np_starts_with path ep) eqn:Esw; [|exists ExtensionPathError, s1; split; [reflexivity|split; assumption]].
    rewrite np_starts_with_spec in Esw. destruct (strip (nibs ep) (nibs path)) as [z|] eqn:Es; [|discriminate].
    apply strip_spec in Es. assert (Hc : c <> TEmpty) by (intros ->; contradiction). apply stored_ext in St.
    destruct (IH c (np_consume path (np_len ep)) s1 Hwc) as (e & s2 & Ee & Hk); [eapply small_ext; eauto|rewrite Em; apply St|exact Hc| |].
    { rewrite nibs_consume, np_len_spec, Es, skipn_app, Nat.sub_diag, skipn_all. cbn [skipn app]. rewrite Es, lookup_ext_app in El. exact El. }
    unfold mbind at 1. rewrite Ee. exists e, s2. split; [reflexivity|]. destruct Hk. split; congruence.
  - destruct Hm as [-> ->]. apply wf_branch in Hw as Hw'. destruct (nibs path) as [|i q] eqn:Ep.
    + assert (L0 : np_len path = 0) by (rewrite np_len_spec, Ep; reflexivity). rewrite L0. cbn [Nat.eqb andb].
      destruct w as [|x w]; [exists AssertionError, s1; split; [reflexivity|split; assumption]|].
      rewrite lookup_branch_nil in El by discriminate. discriminate.
    + assert (L0 : np_len path = S (length q)) by (rewrite np_len_spec, Ep; reflexivity). rewrite L0. cbn [Nat.eqb andb].
      assert (Ei : np_at path 0 = i) by (rewrite np_at_spec, Ep; reflexivity). rewrite Ei, nth_map_tref.
      destruct (length (tref (nth i cs TEmpty)) =? 0) eqn:Ez; [exists BranchPathError, s1; split; [reflexivity|split; assumption]|].
      destruct (IH (nth i cs TEmpty) (np_consume path 1) s1) as (e & s2 & Ee & Hk);
        [apply wf_nth; apply Hw'|eapply small_nth; eauto|rewrite Em; apply stored_nth; apply stored_branch in St; apply St
        |intros X; rewrite X in Ez; discriminate| |].
      { rewrite nibs_consume, Ep. cbn [skipn]. rewrite lookup_branch in El. exact El. }
      unfold mbind at 1. rewrite Ee. exists e, s2. split; [reflexivity|]. destruct Hk. split; congruence.
Qed.

(** Deleting an absent key raises and changes nothing at all, not even the storage. *)
Theorem delete_absent_same : forall secure l t k lim fl, reachable secure l t -> keys_ok secure (k :: map op_key l) ->
  dict_after l k = None -> exists e, mpt_delete lim fl t k = (Err e, t).
Proof.
  intros secure l t k lim fl R Hk Ed.
  destruct (reach_lookup keccak_len _ _ _ _ R Hk) as (tr & Rt & Hh & Es & El).
  destruct (tree_empty_dec tr) as [->|Hne].
  { destruct (repr_empty_root t Rt) as [E1 _]. unfold mpt_delete. rewrite E1. eauto. }
  destruct (repr_nonempty keccak_len t tr Rt Hne) as (E1 & E2 & E3 & E4). unfold mpt_delete. rewrite E2, E3.
  destruct Rt as (Hw & Hs & St & _).
  destruct (delete_absent_keeps lim tr (np_of (eff_key t k)) (mkStore (m_map t) (m_log t) fl) Hw Hs St Hne) as (e & s & Ee & K1 & K2).
  { rewrite nibs_np_of. congruence. }
  unfold run_op. rewrite Ee, K1, K2.
  exists e. destruct t. reflexivity.
Qed.

Theorem sparse_delete_absent_same : forall secure l t k lim cf fl, sreachable secure l t -> keys_ok secure (k :: map op_key l) ->
  dict_after l k = None -> exists e, sparse_delete lim cf fl t k = (Err e, t).
Proof.
  intros secure l t k lim cf fl R Hk Ed. destruct (sreach_inv keccak_len _ _ _ R) as (l' & R' & Rf & Ki).
  unfold sparse_delete. destruct cf; [eauto|].
  destruct (mpt_contains lim t k) as [[]|x]; eauto.
  apply (delete_absent_same secure l' t k lim fl R' (skeys_ok _ _ _ _ Ki Hk)). apply (refs_none _ _ _ Rf). exact Ed.
Qed.
End S.

(** ** Merkle trees *)
From Verif Require Import MptEq MerkleTree SpecMt SpecText MtProofs MtProofs2 SpecAudit AuditProofs MtRefutations.
Section M.
Context {H : Hash}.
Lemma question_keeps_values : forall t o, op_values o = [] -> o <> OReset -> o <> OMake ->
  t_leaves (snd (mt_call t o)) = t_leaves t.
Proof.
  intros t o Hv Hr Hm. destruct (reads_frame t o Hv Hr Hm) as [E|[_ E]]; [rewrite E; reflexivity|].
  destruct (make_tree_ok t) as (t' & E' & El & _). rewrite E in E'. injection E' as ->. exact El.
Qed.

(** Two leaves of a tree with the same sides on their ways are one. *)
Lemma sides_position : forall (t : mtree) i j, i < length (fringe t) -> j < length (fringe t) ->
  map fst (audit t i) = map fst (audit t j) -> i = j.
Proof.
  induction t as [b|l IHl r IHr]; intros i j Hi Hj E; cbn [fringe length] in *; [lia|]. rewrite app_length in Hi, Hj. cbn [audit] in E.
  destruct (i <? length (fringe l)) eqn:Ei, (j <? length (fringe l)) eqn:Ej; rewrite !map_app in E; cbn [map fst] in E;
    apply app_inj_tail in E; destruct E as [E F]; try discriminate F;
    rewrite ?Nat.ltb_lt, ?Nat.ltb_ge in *.
  - apply IHl; auto.
  - assert (i - length (fringe l) = j - length (fringe l)) by (apply IHr; auto; lia). lia.
Qed.
Definition side (e : pelem) : bytes := match e with PPair s _ => s | PB b => b end.
Lemma sides_of_path : forall pa, map side (pairs (hex_path pa)) = map (fun b : bool => if b then s_left else s_right) (map fst pa).
Proof. intros pa. unfold pairs, hex_path. rewrite !map_map. apply map_ext. intros [[] x]; reflexivity. Qed.
Lemma sides_names : forall l m : list bool, map (fun b : bool => if b then s_left else s_right) l = map (fun b : bool => if b then s_left else s_right) m -> l = m.
Proof.
  induction l as [|a l IH]; intros [|b m] E; try discriminate E; [reflexivity|]. injection E as E1 E2. f_equal; [|apply IH, E2].
  destruct a, b; auto; discriminate E1.
Qed.
Theorem same_sides : forall s t vs v w time time' p q, built_over s t vs -> In v vs -> In w vs ->
  get_poi t time (VBytes v) = (Ok p, t) -> get_poi t time' (VBytes w) = (Ok q, t) ->
  (map side (pf_proof p) = map side (pf_proof q) <-> exists i, first_at (leaves_of s vs) i (if s then keccak v else v) /\
    first_at (leaves_of s vs) i (if s then keccak w else w)).
Proof.
  intros s t vs v w time time' p q Hb Hv Hw Ep Eq.
  destruct (poi_is_audit s t vs v time Hb Hv) as (i & Fi & Ei). destruct (poi_is_audit s t vs w time' Hb Hw) as (j & Fj & Ej).
  rewrite Ep in Ei. rewrite Eq in Ej. injection Ei as ->. injection Ej as ->. cbn [pf_proof]. rewrite !sides_of_path. split.
  - intros E. apply sides_names in E.
    assert (Hne : leaves_of s vs <> []) by (destruct Fi as [Fi _]; intros X; rewrite X in Fi; destruct i; discriminate Fi).
    apply sides_position in E.
    + subst j. exists i. split; assumption.
    + rewrite fringe_tree_of by exact Hne. apply nth_error_Some. destruct Fi as [-> _]. discriminate.
    + rewrite fringe_tree_of by exact Hne. apply nth_error_Some. destruct Fj as [-> _]. discriminate.
  - intros (n & F1 & F2).
    assert (U : forall a x y, first_at (leaves_of s vs) x a -> first_at (leaves_of s vs) y a -> x = y).
    { intros a x y [A1 A2] [B1 B2]. destruct (lt_eq_lt_dec x y) as [[L|L]|L]; [exfalso; apply (B2 x L A1)|exact L|exfalso; apply (A2 y L B1)]. }
    rewrite (U _ _ _ Fi F1), (U _ _ _ Fj F2). reflexivity.
Qed.
End M.

(** ** Characters of JSON texts *)
From Verif Require Import Json JsonProofs SpecJson Keccak ProofJson ProofJsonProofs.
Local Open Scope N_scope.
Lemma hexd_range : forall n, n < 16 -> 32 <= hexd n <= 126.
Proof. intros n L. unfold hexd. destruct (n <? 10) eqn:E; [apply N.ltb_lt in E|apply N.ltb_ge in E]; lia. Qed.
Definition plain_char (c : N) : Prop := 32 <= c <= 126.
Lemma pair_plain : forall a b, 32 <= a <= 126 -> 32 <= b <= 126 -> Forall plain_char [a; b].
Proof. intros a b A B. constructor; [exact A|]. constructor; [exact B|constructor]. Qed.
Lemma u_esc_plain : forall n, Forall plain_char (u_esc n).
Proof.
  intros n. unfold u_esc. apply (Forall_app _ [92; 117]). split; [apply pair_plain; lia|].
  repeat (apply Forall_cons; [apply hexd_range, N.mod_lt; lia|]). constructor.
Qed.
Lemma esc_plain : forall c, Forall plain_char (esc_char c).
Proof.
  intros c. unfold esc_char. repeat match goal with |- context [if ?b then _ else _] => destruct b eqn:? end;
    try (apply pair_plain; lia).
  - apply andb_prop in Heqb6 as [A B]. apply N.leb_le in A. apply N.leb_le in B. constructor; [unfold plain_char; lia|constructor].
  - apply u_esc_plain.
  - apply Forall_app. split; apply u_esc_plain.
Qed.
Lemma dump_str_plain : forall s, Forall plain_char (dump_str s).
Proof.
  intros s. unfold dump_str. constructor; [unfold plain_char; lia|]. apply Forall_app. split; [|constructor; [unfold plain_char; lia|constructor]].
  apply Forall_flat_map. apply Forall_forall. intros c _. apply esc_plain.
Qed.
Lemma join_plain : forall sep l, Forall plain_char sep -> Forall (Forall plain_char) l -> Forall plain_char (join sep l).
Proof.
  intros sep l Hs. induction l as [|x l IH]; intros F; [constructor|]. inversion F; subst. cbn [join]. destruct l; [assumption|].
  apply Forall_app. split; [assumption|]. apply Forall_app. split; [assumption|]. apply IH. assumption.
Qed.
Theorem encode_json_plain : forall p s, pf_type p = MT_POI -> proof_encode_json p = Ok s -> Forall (fun c => 32 <= c <= 126) s.
Proof.
  intros p s Ty E. destruct (encode_json_form p s Ty E) as [tm [key [root [els [_ [_ [_ [_ ->]]]]]]]].
  change (Forall plain_char (dumps (JObj [(k_type, JStr (txt "MT-POI")); (k_time, JStr tm); (k_key, JStr key); (k_root, JStr root); (k_proof, JArr (map JStr els))]))).
  assert (Q : forall a b : N, 32 <= a <= 126 -> 32 <= b <= 126 -> Forall plain_char [a; b]) by (exact pair_plain).
  cbn [dumps]. constructor; [unfold plain_char; lia|]. apply Forall_app. split; [|constructor; [unfold plain_char; lia|constructor]].
  apply join_plain; [apply Q; lia|]. cbn [map fst snd].
  assert (R : forall k v, Forall plain_char v -> Forall plain_char (dump_str k ++ [58; 32] ++ v)).
  { intros k v F. apply Forall_app. split; [apply dump_str_plain|]. apply Forall_app. split; [apply Q; lia|exact F]. }
  do 4 (apply Forall_cons; [apply R, dump_str_plain|]). apply Forall_cons; [apply R|constructor].
  constructor; [unfold plain_char; lia|]. apply Forall_app. split; [|constructor; [unfold plain_char; lia|constructor]].
  apply join_plain; [apply Q; lia|]. apply Forall_forall. intros x I. rewrite map_map in I. apply in_map_iff in I as (e & <- & _). apply dump_str_plain.
Qed.
