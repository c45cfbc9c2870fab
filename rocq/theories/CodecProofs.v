(** Codec statements in terms of SpecCodec.v. *)
From Coq Require Import List Bool Arith NArith ZArith Lia.
From Verif Require Import Base BaseProofs Rlp RlpProofs NibblePath NibbleProofs Node SpecCodec Spec.
Import ListNotations.

Lemma path_nibbles_nibs : forall p, path_nibbles p = nibs p.
Proof. reflexivity. Qed.

Lemma path_ops : forall p q,
  np_len p = length (path_nibbles p) /\
  (forall i, i < length (path_nibbles p) -> np_at_py p (Z.of_nat i) = Ok (nth i (path_nibbles p) 0)) /\
  (forall i, np_off p <= 2 * length (np_data p) -> length (path_nibbles p) <= i -> np_at_py p (Z.of_nat i) = Err IndexError) /\
  (np_eq p q = true <-> path_nibbles p = path_nibbles q) /\
  (np_starts_with p q = true <-> exists r, path_nibbles p = path_nibbles q ++ r) /\
  (forall n, path_nibbles (np_consume p n) = skipn n (path_nibbles p)) /\
  longest_common_prefix (path_nibbles p) (path_nibbles q) (path_nibbles (np_common_prefix p q)) /\
  path_nibbles (np_combine p q) = path_nibbles p ++ path_nibbles q.
Proof.
  intros p q. rewrite !path_nibbles_nibs.
  split; [apply np_len_spec|]. split; [apply np_at_py_in|]. split; [apply np_at_py_out|].
  split; [apply np_eq_spec|]. split.
  { rewrite np_starts_with_spec. destruct (strip (nibs q) (nibs p)) as [r|] eqn:E.
    - apply strip_spec in E. split; eauto.
    - split; [discriminate|]. intros [r Er]. apply strip_None with (r := r) in E. contradiction. }
  split; [intros; apply nibs_consume|]. split; [|apply nibs_combine].
  rewrite nibs_common_prefix. destruct (lcp_split (nibs p) (nibs q)) as [E1 E2].
  eexists _, _. split; [exact E1|]. split; [exact E2|].
  destruct (skipn _ (nibs p)) eqn:F1; auto. destruct (skipn _ (nibs q)) eqn:F2; auto.
  eapply lcp_diverge; eauto.
Qed.

Lemma hex_prefix_round_trip : forall p leaf, exists p',
  np_decode_with_type (np_encode p leaf) = Ok (p', leaf) /\ path_nibbles p' = path_nibbles p.
Proof.
  intros p leaf. rewrite np_encode_hp. destruct (decode_hp (nibs p) leaf (nibs_ok p)) as (p' & E1 & E2).
  exists p'. auto.
Qed.

Lemma hex_prefix_injective : forall p q f g, np_encode p f = np_encode q g ->
  path_nibbles p = path_nibbles q /\ f = g.
Proof. intros p q f g E. rewrite !np_encode_hp in E. apply hp_inj in E; auto using nibs_ok. Qed.

Lemma rlp_canonical : forall b1 b2 i, rlp_decode b1 = Ok i -> rlp_decode b2 = Ok i -> b1 = b2.
Proof.
  intros b1 b2 i E1 E2. apply rlp_decode_encode in E1, E2. congruence.
Qed.

(** ** Nodes *)
Lemma valid_ref_prep : forall r, valid_ref r ->
  exists i, prep_encoding r = Ok i /\ prep_usage i = Ok r.
Proof.
  intros r [->|[Hl|(Hl & l & E)]].
  - exists (IBytes []). split; reflexivity.
  - exists (IBytes r). split; [|reflexivity]. unfold prep_encoding.
    destruct (Nat.ltb_spec (length r) 32); [lia|]. rewrite andb_false_r. reflexivity.
  - exists (IList l). split.
    + unfold prep_encoding. destruct r as [|x r]; [discriminate|].
      destruct (Nat.ltb_spec (length (x :: r)) 32); [|lia]. cbn [length Nat.ltb Nat.leb andb]. exact E.
    + cbn [prep_usage]. apply rlp_decode_encode. exact E.
Qed.

Lemma valid_refs_prep : forall bs, Forall valid_ref bs ->
  exists is, mapM prep_encoding bs = Ok is /\ mapM prep_usage is = Ok bs /\ length is = length bs.
Proof.
  induction 1 as [|r bs Hr _ (is & E1 & E2 & E3)]; [exists []; auto|].
  destruct (valid_ref_prep r Hr) as (i & F1 & F2). exists (i :: is). cbn [mapM]. rewrite F1, E1, F2, E2.
  cbn [bind length]. auto.
Qed.

Lemma node_round_trip : forall n e, valid_node n -> node_encode n = Ok e ->
  exists n', node_decode e = Ok n' /\ same_node n n'.
Proof.
  intros n e Hv E. destruct n as [p v|p r|bs v]; cbn [node_encode valid_node] in *.
  - apply rlp_encode_decode in E. unfold node_decode. rewrite E. cbn [bind length Nat.eqb].
    destruct (hex_prefix_round_trip p true) as (p' & -> & Ep). cbn [bind]. eexists. split; [reflexivity|].
    cbn. auto.
  - destruct (valid_ref_prep r Hv) as (i & F1 & F2). rewrite F1 in E. cbn [bind] in E.
    apply rlp_encode_decode in E. unfold node_decode. rewrite E. cbn [bind length Nat.eqb].
    destruct (hex_prefix_round_trip p false) as (p' & -> & Ep). cbn [bind]. rewrite F2. cbn [bind].
    eexists. split; [reflexivity|]. cbn. auto.
  - destruct Hv as [Hl Hv]. destruct (valid_refs_prep bs Hv) as (is & F1 & F2 & F3). rewrite F1 in E. cbn [bind] in E.
    apply rlp_encode_decode in E. unfold node_decode. rewrite E. cbn [bind].
    rewrite app_length, F3, Hl. change (16 + length [IBytes v] =? 17) with true. cbv iota.
    rewrite firstn_app, F3, Hl. change (firstn (16 - 16) [IBytes v]) with (@nil item). rewrite app_nil_r.
    rewrite firstn_all2 by lia. rewrite F2. cbn [bind].
    rewrite app_nth2 by lia. rewrite F3, Hl. change (nth (16 - 16) [IBytes v] (IBytes [])) with (IBytes v). cbv iota.
    eexists. split; [reflexivity|]. cbn. auto.
Qed.

Lemma same_node_trans : forall a b c, same_node a b -> same_node a c -> same_node b c.
Proof.
  intros a b c H1 H2. destruct a, b; cbn in H1; try contradiction; destruct c; cbn in H2; try contradiction; cbn;
  destruct H1, H2; split; congruence.
Qed.
Lemma same_node_sym : forall a b, same_node a b -> same_node b a.
Proof. intros a b H1. destruct a, b; cbn in *; try contradiction; destruct H1; auto. Qed.

Lemma node_injective : forall a b e, valid_node a -> valid_node b -> node_encode a = Ok e -> node_encode b = Ok e ->
  same_node a b.
Proof.
  intros a b e Ha Hb Ea Eb. destruct (node_round_trip a e Ha Ea) as (x & E1 & S1).
  destruct (node_round_trip b e Hb Eb) as (y & E2 & S2). rewrite E1 in E2. injection E2 as <-.
  apply same_node_sym in S1, S2. eapply same_node_trans; eauto.
Qed.

Lemma same_node_encode : forall a b, same_node a b -> node_encode a = node_encode b.
Proof.
  intros a b S. destruct a, b; cbn in S; try contradiction; destruct S as [E1 E2]; subst; auto; cbn [node_encode];
  rewrite !np_encode_hp; rewrite !path_nibbles_nibs in E1; rewrite E1; reflexivity.
Qed.

Section Refs.
Context {H : Hash}.
Hypothesis keccak_len : forall b, length (keccak b) = 32.

Lemma reference_faithful : forall a b ea eb r, valid_node a -> valid_node b ->
  node_encode a = Ok ea -> node_encode b = Ok eb -> no_collision [ea; eb] ->
  into_reference a = Ok r -> into_reference b = Ok r -> same_node a b.
Proof.
  intros a b ea eb r Ha Hb Ea Eb Hn Ra Rb. unfold into_reference in *. rewrite Ea in Ra. rewrite Eb in Rb.
  cbn [bind] in Ra, Rb. injection Ra as Ra. injection Rb as Rb.
  assert (ea = eb) as ->.
  { destruct (Nat.ltb_spec (length ea) 32), (Nat.ltb_spec (length eb) 32); subst r.
    - auto.
    - pose proof (keccak_len eb) as Hk. rewrite Rb in Hk. lia.
    - pose proof (keccak_len ea) as Hk. rewrite <- Rb in Hk. lia.
    - apply Hn; cbn; auto. }
  eapply node_injective; eauto.
Qed.
End Refs.

Section Refs2.
Context {H : Hash}.
Hypothesis keccak_len : forall b, length (keccak b) = 32.

(** The references the library makes are valid. *)
Lemma into_reference_valid : forall n r, into_reference n = Ok r -> valid_ref r.
Proof.
  intros n r E. unfold into_reference in E. destruct (node_encode n) as [e|] eqn:En; [|discriminate].
  cbn [bind] in E. injection E as <-. destruct (Nat.ltb_spec (length e) 32).
  - right. right. split; auto. destruct n as [p v|p q|bs v]; cbn [node_encode] in En.
    + apply rlp_encode_decode in En. eauto.
    + destruct (prep_encoding q); [|discriminate]. cbn [bind] in En. apply rlp_encode_decode in En. eauto.
    + destruct (mapM prep_encoding bs); [|discriminate]. cbn [bind] in En. apply rlp_encode_decode in En. eauto.
  - right. left. rewrite keccak_len. lia.
Qed.
End Refs2.

Lemma rlp_encode_total : forall i, (N.of_nat (length (payload i)) < 2 ^ 64)%N -> exists b, rlp_encode i = Ok b.
Proof.
  intros i Hi. unfold rlp_encode, blen in *. destruct (N.ltb_spec (N.of_nat (length (payload i))) (2 ^ 64)); [eauto|lia].
Qed.
