(** How a tree is laid out in nodes, references and storage. *)
From Coq Require Import List Bool Arith NArith ZArith Lia ZifyBool ZifyNat ZifyN.
From Verif Require Import Base BaseProofs Rlp RlpProofs NibblePath NibbleProofs Node Mpt Tree.
Import ListNotations.
Ltac Zify.zify_post_hook ::= Z.div_mod_to_equations.

(** Keys and values below 2^60 (nibbles resp. bytes): nothing overflows RLP. *)
Definition SZ : N := (2 ^ 60)%N.
Definition small (t : tree) : Prop :=
  forall q v, lookup t q = Some v -> (N.of_nat (length q) < SZ)%N /\ (blen v < SZ)%N.

Section Enc.
Context {H : Hash}.
Hypothesis keccak_len : forall b, length (keccak b) = 32.

Definition cap (i : item) : item :=
  if length (renc i) <? 32 then i else IBytes (keccak (renc i)).

(** The RLP item of a node, with references to its children. *)
Fixpoint titem (t : tree) : item :=
  match t with
  | TEmpty => IBytes []
  | TLeaf p v => IList [IBytes (hp p true); IBytes v]
  | TExt p c => IList [IBytes (hp p false); cap (titem c)]
  | TBranch cs v => IList (map (fun c => cap (titem c)) cs ++ [IBytes v])
  end.
Definition tenc (t : tree) : bytes := renc (titem t).
Definition ritem (t : tree) : item := cap (titem t).
(** The reference of a node: empty, its encoding, or the hash of it. *)
Definition tref (t : tree) : bytes :=
  match t with
  | TEmpty => []
  | _ => if length (tenc t) <? 32 then tenc t else keccak (tenc t)
  end.

(** All the nodes of [t] that need a storage entry have one. *)
Definition here (m : dict bytes) (t : tree) : Prop :=
  t <> TEmpty -> 32 <= length (tenc t) -> dget m (keccak (tenc t)) = Some (tenc t).
Fixpoint stored (m : dict bytes) (t : tree) : Prop :=
  here m t /\
  match t with
  | TEmpty | TLeaf _ _ => True
  | TExt _ c => stored m c
  | TBranch cs _ =>
      (fix all (l : list tree) : Prop := match l with [] => True | c :: l' => stored m c /\ all l' end) cs
  end.

Lemma stored_branch : forall m cs v,
  stored m (TBranch cs v) <-> here m (TBranch cs v) /\ Forall (stored m) cs.
Proof.
  intros m cs v. cbn [stored].
  assert (E : forall l, (fix all (l : list tree) : Prop :=
     match l with [] => True | c :: l' => stored m c /\ all l' end) l <-> Forall (stored m) l).
  { induction l as [|c l IH]; [split; auto|]. rewrite IH. split; [intros []; auto|].
    intros Hf. inversion Hf; auto. }
  rewrite E. tauto.
Qed.

Lemma stored_ext : forall m p c, stored m (TExt p c) <-> here m (TExt p c) /\ stored m c.
Proof. intros. cbn [stored]. tauto. Qed.

Lemma here_of_stored : forall m t, stored m t -> here m t.
Proof. intros m t. destruct t; cbn [stored]; tauto. Qed.

Lemma stored_empty : forall m, stored m TEmpty.
Proof. intros. cbn. split; auto. intros Hn. congruence. Qed.

Lemma stored_nth : forall m cs i, Forall (stored m) cs -> stored m (nth i cs TEmpty).
Proof.
  intros m cs i Hf. destruct (nth_in_or_default i cs TEmpty) as [Hi| ->]; [|apply stored_empty].
  rewrite Forall_forall in Hf. auto.
Qed.

Lemma stored_mono : forall m m' t,
  (forall k e, dget m k = Some e -> dget m' k = Some e) -> stored m t -> stored m' t.
Proof.
  intros m m' t Hm. assert (Hh : forall t, here m t -> here m' t).
  { intros u Hu Hn Hl. apply Hm. auto. }
  induction t as [|p v|p c IH|cs v IH] using tree_ind2; intros Hs.
  - apply stored_empty.
  - cbn [stored] in *. destruct Hs. split; auto.
  - apply stored_ext in Hs. destruct Hs. apply stored_ext. split; auto.
  - apply stored_branch in Hs. destruct Hs as [Hs Hf]. apply stored_branch. split; auto.
    rewrite Forall_forall in *. intros c Hc. auto.
Qed.

(** ** References *)
Lemma tenc_ne : forall t, tenc t <> [].
Proof. intros. apply renc_nonempty. Qed.

Lemma tref_eq : forall t, t <> TEmpty ->
  tref t = if length (tenc t) <? 32 then tenc t else keccak (tenc t).
Proof. intros t Hn. destruct t; [congruence|reflexivity..]. Qed.

Lemma tref_len0 : forall t, length (tref t) = 0 <-> t = TEmpty.
Proof.
  intros t. split; [|intros ->; reflexivity].
  destruct (tree_empty_dec t) as [->|Hn]; auto. rewrite tref_eq by auto.
  destruct (length (tenc t) <? 32); [|rewrite keccak_len; lia].
  intros Hl. destruct (tenc t) eqn:E; [|discriminate]. exfalso. eapply tenc_ne; eauto.
Qed.

Lemma tref_nil : forall t, tref t = [] <-> t = TEmpty.
Proof.
  intros t. rewrite <- tref_len0. destruct (tref t); cbn; split; try discriminate; auto.
Qed.

Lemma tref_pos : forall t, (0 <? length (tref t)) = true <-> t <> TEmpty.
Proof.
  intros t. rewrite Nat.ltb_lt. pose proof (tref_len0 t) as Hl.
  destruct (tree_empty_dec t) as [->|Hn]; [cbn; split; [lia|congruence]|].
  split; auto. intros _. destruct (length (tref t)); [|lia]. exfalso. tauto.
Qed.

Lemma tref_le32 : forall t, length (tref t) <= 32.
Proof.
  intros t. destruct (tree_empty_dec t) as [->|Hn]; [cbn; lia|]. rewrite tref_eq by auto.
  destruct (Nat.ltb_spec (length (tenc t)) 32); [lia|]. rewrite keccak_len. lia.
Qed.

(** A reference is 32 bytes long exactly if the node is hashed. *)
Lemma tref_32 : forall t, t <> TEmpty -> (length (tref t) =? 32) = negb (length (tenc t) <? 32).
Proof.
  intros t Hn. rewrite tref_eq by auto. destruct (Nat.ltb_spec (length (tenc t)) 32); cbn [negb].
  - apply Nat.eqb_neq. lia.
  - rewrite keccak_len. reflexivity.
Qed.

Lemma titem_list : forall t, t <> TEmpty -> exists l, titem t = IList l.
Proof. intros t Hn. destruct t; cbn; eauto. congruence. Qed.

Lemma blen_small : forall b, length b < 100 -> (blen b < 2 ^ 64)%N.
Proof. intros b Hb. unfold blen. lia. Qed.

Lemma inline_small : forall i, length (renc i) < 32 -> (blen (payload i) < 2 ^ 64)%N.
Proof. intros i Hi. pose proof (payload_len i). unfold blen in *. lia. Qed.

Lemma usage_ritem : forall t, prep_usage (ritem t) = Ok (tref t).
Proof.
  intros t. destruct (tree_empty_dec t) as [->|Hn]; [reflexivity|]. rewrite tref_eq by auto.
  unfold ritem, cap. fold (tenc t). destruct (Nat.ltb_spec (length (tenc t)) 32) as [Hl|Hl]; [|reflexivity].
  destruct (titem_list t Hn) as [l El]. unfold tenc in *. rewrite El in *. cbn [prep_usage]. unfold rlp_encode.
  apply inline_small in Hl. destruct (N.ltb_spec (blen (payload (IList l))) (2 ^ 64)); [reflexivity|lia].
Qed.

Lemma encoding_tref : forall t, prep_encoding (tref t) = Ok (ritem t).
Proof.
  intros t. destruct (tree_empty_dec t) as [->|Hn]; [reflexivity|]. rewrite tref_eq by auto.
  unfold ritem, cap, prep_encoding. fold (tenc t). destruct (Nat.ltb_spec (length (tenc t)) 32) as [Hl|Hl].
  - replace (0 <? length (tenc t)) with true.
    2:{ symmetry. apply Nat.ltb_lt. pose proof (tenc_ne t). destruct (tenc t); [congruence|cbn; lia]. }
    replace (length (tenc t) <? 32) with true by (symmetry; apply Nat.ltb_lt; lia).
    apply rlp_decode_renc. apply inline_small. exact Hl.
  - rewrite keccak_len. reflexivity.
Qed.

Lemma mapM_usage : forall cs, mapM prep_usage (map ritem cs) = Ok (map tref cs).
Proof. induction cs as [|c cs IH]; auto. cbn [map mapM]. rewrite usage_ritem, IH. reflexivity. Qed.
Lemma mapM_encoding : forall cs, mapM prep_encoding (map tref cs) = Ok (map ritem cs).
Proof. induction cs as [|c cs IH]; auto. cbn [map mapM]. rewrite encoding_tref, IH. reflexivity. Qed.

(** ** Sizes *)
Lemma renc_ritem_len : forall t, length (renc (ritem t)) <= 33.
Proof.
  intros t. unfold ritem, cap. destruct (Nat.ltb_spec (length (renc (titem t))) 32) as [Hl|Hl]; [lia|].
  assert (Hb : length (renc (IBytes (keccak (renc (titem t))))) = 33); [|lia].
  generalize (keccak_len (renc (titem t))). generalize (keccak (renc (titem t))).
  intros b Eb. cbn [renc]. rewrite app_length, Eb. unfold hdr.
  destruct b as [|x [|y b]]; try discriminate. unfold len_prefix, blen. rewrite Eb. reflexivity.
Qed.

Lemma blen_renc_bytes : forall b, (blen b < 2 ^ 64)%N -> (blen (renc (IBytes b)) <= blen b + 9)%N.
Proof. intros b Hb. apply (blen_renc (IBytes b)). exact Hb. Qed.

Lemma flat_ritems_len : forall cs, (blen (flat_map renc (map ritem cs)) <= 33 * N.of_nat (length cs))%N.
Proof.
  induction cs as [|c cs IH]; [cbn; lia|]. cbn [map flat_map length]. rewrite blen_app.
  pose proof (renc_ritem_len c). unfold blen in *. lia.
Qed.

Lemma blen_hp : forall p f, (blen (hp p f) <= N.of_nat (length p) + 1)%N.
Proof. intros. unfold blen. rewrite hp_length. lia. Qed.

Lemma small_ext : forall p c, small (TExt p c) -> small c.
Proof.
  intros p c Hs q v E. destruct (Hs (p ++ q) v) as [H1 H2]; [rewrite lookup_ext_app; auto|].
  rewrite app_length in H1. split; [lia|auto].
Qed.
Lemma small_nth : forall cs v i, small (TBranch cs v) -> small (nth i cs TEmpty).
Proof.
  intros cs v i Hs q w E. destruct (Hs (i :: q) w) as [H1 H2]; [rewrite lookup_branch; auto|].
  cbn [length] in H1. split; [lia|auto].
Qed.

Lemma payload_small : forall t, wf t -> small t -> (blen (payload (titem t)) < 2 ^ 64)%N.
Proof.
  intros t Hw Hs. unfold SZ in *. destruct t as [|p v|p c|cs v].
  - cbn. lia.
  - destruct (Hs p v (lookup_leaf_self p v)) as [H1 H2]. unfold SZ in *.
    cbn [titem payload flat_map]. rewrite app_nil_r, blen_app.
    pose proof (blen_hp p true).
    pose proof (blen_renc_bytes (hp p true) ltac:(lia)). pose proof (blen_renc_bytes v ltac:(lia)). lia.
  - destruct (wf_has_key _ Hw) as (q & v & E); [discriminate|]. apply ext_key_inv in E as E'.
    destruct E' as (r & -> & _). destruct (Hs _ _ E) as [H1 _]. unfold SZ in *. rewrite app_length in H1.
    cbn [titem payload flat_map]. rewrite app_nil_r, blen_app. fold (ritem c).
    pose proof (blen_hp p false).
    pose proof (blen_renc_bytes (hp p false) ltac:(lia)). pose proof (renc_ritem_len c).
    unfold blen in *. lia.
  - assert (Hv : (blen v < 2 ^ 60)%N).
    { destruct v as [|x v]; [cbn; lia|]. apply (Hs [] (x :: v)). reflexivity. }
    apply wf_branch in Hw. destruct Hw as [Hl _]. cbn [titem payload].
    change (fun c => cap (titem c)) with ritem. rewrite flat_map_app, blen_app. cbn [flat_map]. rewrite app_nil_r.
    pose proof (flat_ritems_len cs). pose proof (blen_renc_bytes v ltac:(lia)). lia.
Qed.

(** ** Nodes *)
Definition nmatch (n : node) (t : tree) : Prop :=
  match n, t with
  | Leaf p v, TLeaf q w => nibs p = q /\ v = w
  | Extension p r, TExt q c => nibs p = q /\ r = tref c
  | Branch bs v, TBranch cs w => bs = map tref cs /\ v = w
  | _, _ => False
  end.

Lemma node_decode_tenc : forall t, t <> TEmpty -> wf t -> small t ->
  exists n, node_decode (tenc t) = Ok n /\ nmatch n t.
Proof.
  intros t Hn Hw Hs. unfold node_decode, tenc.
  rewrite (rlp_decode_renc _ (payload_small t Hw Hs)). cbn [bind].
  destruct t as [|p v|p c|cs v]; [congruence| | |].
  - cbn [titem length Nat.eqb]. destruct (decode_hp p true) as (q & E & En); [apply Hw|].
    rewrite E. cbn [bind]. exists (Leaf q v). split; [reflexivity|]. cbn. auto.
  - cbn [titem length Nat.eqb]. destruct (decode_hp p false) as (q & E & En); [apply Hw|].
    rewrite E. cbn [bind]. fold (ritem c). rewrite usage_ritem. exists (Extension q (tref c)).
    split; [reflexivity|]. cbn. auto.
  - apply wf_branch in Hw. destruct Hw as [Hl _]. cbn [titem].
    change (fun c => cap (titem c)) with ritem.
    rewrite app_length, map_length, Hl. cbn [length Nat.eqb Nat.add].
    rewrite firstn_app, map_length, Hl, Nat.sub_diag, firstn_O, app_nil_r.
    rewrite firstn_all2 by (rewrite map_length; lia). rewrite mapM_usage. cbn [bind].
    rewrite app_nth2 by (rewrite map_length; lia). rewrite map_length, Hl. cbn [Nat.sub nth].
    exists (Branch (map tref cs) v). split; [reflexivity|]. cbn. auto.
Qed.

Lemma node_encode_match : forall n t, nmatch n t -> wf t -> small t -> node_encode n = Ok (tenc t).
Proof.
  intros n t Hm Hw Hs. pose proof (payload_small t Hw Hs) as Hp. unfold tenc.
  assert (He : rlp_encode (titem t) = Ok (renc (titem t))).
  { unfold rlp_encode. destruct (N.ltb_spec (blen (payload (titem t))) (2 ^ 64)); [reflexivity|lia]. }
  destruct n as [p v|p r|bs v], t as [|q w|q c|cs w]; cbn [nmatch] in Hm; try contradiction.
  - destruct Hm as [<- <-]. cbn [node_encode]. rewrite np_encode_hp. exact He.
  - destruct Hm as [<- ->]. cbn [node_encode]. rewrite encoding_tref. cbn [bind]. rewrite np_encode_hp. exact He.
  - destruct Hm as [-> <-]. cbn [node_encode]. rewrite mapM_encoding. cbn [bind]. exact He.
Qed.

Lemma into_reference_match : forall n t, nmatch n t -> wf t -> small t -> into_reference n = Ok (tref t).
Proof.
  intros n t Hm Hw Hs. unfold into_reference. rewrite (node_encode_match n t) by auto. cbn [bind].
  rewrite tref_eq; auto. intros ->. destruct n; contradiction.
Qed.

Lemma get_node_stored : forall m t, t <> TEmpty -> wf t -> small t -> here m t ->
  exists n, get_node m (tref t) = Ok n /\ nmatch n t.
Proof.
  intros m t Hn Hw Hs Hh. unfold get_node. rewrite tref_32 by auto. rewrite tref_eq by auto.
  destruct (Nat.ltb_spec (length (tenc t)) 32) as [Hl|Hl]; cbn [negb].
  - apply node_decode_tenc; auto.
  - rewrite Hh by auto. apply node_decode_tenc; auto.
Qed.

End Enc.
