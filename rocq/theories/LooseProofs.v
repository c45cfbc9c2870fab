(** Trees that plain tries with empty values are laid out as: a branch may have a single child and no value.  Copies of
    the proofs for well-formed trees, with the weaker condition. *)
From Coq Require Import List Bool Arith NArith ZArith Lia ZifyBool ZifyNat ZifyN.
From Verif Require Import Base BaseProofs Rlp RlpProofs NibblePath NibbleProofs Node Mpt Tree TreeEnc StoreProofs UpdateProofs DeleteProofs ReadProofs Spec SpecLoose.
Import ListNotations.

Fixpoint lwf (t : tree) : Prop :=
  match t with
  | TEmpty => True
  | TLeaf p v => nib_ok p
  | TExt p c => nib_ok p /\ p <> [] /\ is_branch c /\ lwf c
  | TBranch cs v =>
      length cs = 16 /\ (exists i, nth i cs TEmpty <> TEmpty) /\
      (fix all (l : list tree) : Prop := match l with [] => True | c :: l' => lwf c /\ all l' end) cs
  end.

Lemma lwf_branch : forall cs v,
  lwf (TBranch cs v) <-> length cs = 16 /\ (exists i, nth i cs TEmpty <> TEmpty) /\ Forall lwf cs.
Proof.
  intros cs v. cbn [lwf].
  assert (E : forall l, (fix all (l : list tree) : Prop :=
     match l with [] => True | c :: l' => lwf c /\ all l' end) l <-> Forall lwf l).
  { induction l as [|c l IH]; [split; auto|]. rewrite IH. split; [intros []; auto|].
    intros Hf. inversion Hf; auto. }
  rewrite E. tauto.
Qed.

Lemma lwf_nth : forall cs i, Forall lwf cs -> lwf (nth i cs TEmpty).
Proof.
  intros cs i Hf. destruct (nth_in_or_default i cs TEmpty) as [Hi| ->]; [|exact I].
  rewrite Forall_forall in Hf. auto.
Qed.

Lemma lwf_has_key : forall t, lwf t -> t <> TEmpty -> exists q v, lookup t q = Some v.
Proof.
  induction t as [|p v|p c IH|cs v IH] using tree_ind2; intros Hw Hne.
  - congruence.
  - exists p, v. apply lookup_leaf_self.
  - destruct Hw as (_ & _ & Hb & Hc). destruct IH as (q & v & E); auto.
    { destruct c; try contradiction; discriminate. }
    exists (p ++ q), v. rewrite lookup_ext_app. exact E.
  - apply lwf_branch in Hw. destruct Hw as (Hl & [i Hi] & Hf).
    assert (Hin : In (nth i cs TEmpty) cs) by (apply nth_In, nth_ne_lt; auto).
    rewrite Forall_forall in IH, Hf. destruct (IH _ Hin (Hf _ Hin) Hi) as (q & w & E).
    exists (i :: q), w. rewrite lookup_branch. exact E.
Qed.

Lemma wf_lwf : forall t, wf t -> lwf t.
Proof.
  induction t as [|p v|p c IH|cs v IH] using tree_ind2; intros Hw; auto.
  - destruct Hw as (A & B & C & D). cbn. auto.
  - apply wf_branch in Hw. destruct Hw as (Hl & Hok & Hf). apply lwf_branch. split; auto. split.
    + destruct Hok as [(i & _ & _ & Hi & _)|(_ & i & Hi)]; eauto.
    + rewrite Forall_forall in *. auto.
Qed.

Section Loose.
Context {H : Hash}.
Hypothesis keccak_len : forall b, length (keccak b) = 32.

Lemma lpayload_small : forall t, lwf t -> small t -> (blen (payload (titem t)) < 2 ^ 64)%N.
Proof.
  intros t Hw Hs. unfold SZ in *. destruct t as [|p v|p c|cs v].
  - cbn. lia.
  - destruct (Hs p v (lookup_leaf_self p v)) as [H1 H2]. unfold SZ in *.
    cbn [titem payload flat_map]. rewrite app_nil_r, blen_app.
    pose proof (blen_hp p true).
    pose proof (blen_renc_bytes (hp p true) ltac:(lia)). pose proof (blen_renc_bytes v ltac:(lia)). lia.
  - destruct (lwf_has_key _ Hw) as (q & v & E); [discriminate|]. apply ext_key_inv in E as E'.
    destruct E' as (r & -> & _). destruct (Hs _ _ E) as [H1 _]. unfold SZ in *. rewrite app_length in H1.
    cbn [titem payload flat_map]. rewrite app_nil_r, blen_app. fold (ritem c).
    pose proof (blen_hp p false).
    pose proof (blen_renc_bytes (hp p false) ltac:(lia)). pose proof ((renc_ritem_len keccak_len) c).
    unfold blen in *. lia.
  - assert (Hv : (blen v < 2 ^ 60)%N).
    { destruct v as [|x v]; [cbn; lia|]. apply (Hs [] (x :: v)). reflexivity. }
    apply lwf_branch in Hw. destruct Hw as [Hl _]. cbn [titem payload].
    change (fun c => cap (titem c)) with ritem. rewrite flat_map_app, blen_app. cbn [flat_map]. rewrite app_nil_r.
    pose proof ((flat_ritems_len keccak_len) cs). pose proof (blen_renc_bytes v ltac:(lia)). lia.
Qed.

Lemma lnode_decode_tenc : forall t, t <> TEmpty -> lwf t -> small t ->
  exists n, node_decode (tenc t) = Ok n /\ nmatch n t.
Proof.
  intros t Hn Hw Hs. unfold node_decode, tenc.
  rewrite (rlp_decode_renc _ (lpayload_small t Hw Hs)). cbn [bind].
  destruct t as [|p v|p c|cs v]; [congruence| | |].
  - cbn [titem length Nat.eqb]. destruct (decode_hp p true) as (q & E & En); [apply Hw|].
    rewrite E. cbn [bind]. exists (Leaf q v). split; [reflexivity|]. cbn. auto.
  - cbn [titem length Nat.eqb]. destruct (decode_hp p false) as (q & E & En); [apply Hw|].
    rewrite E. cbn [bind]. fold (ritem c). rewrite usage_ritem. exists (Extension q (tref c)).
    split; [reflexivity|]. cbn. auto.
  - apply lwf_branch in Hw. destruct Hw as [Hl _]. cbn [titem].
    change (fun c => cap (titem c)) with ritem.
    rewrite app_length, map_length, Hl. cbn [length Nat.eqb Nat.add].
    rewrite firstn_app, map_length, Hl, Nat.sub_diag, firstn_O, app_nil_r.
    rewrite firstn_all2 by (rewrite map_length; lia). rewrite mapM_usage. cbn [bind].
    rewrite app_nth2 by (rewrite map_length; lia). rewrite map_length, Hl. cbn [Nat.sub nth].
    exists (Branch (map tref cs) v). split; [reflexivity|]. cbn. auto.
Qed.

Lemma lnode_encode_match : forall n t, nmatch n t -> lwf t -> small t -> node_encode n = Ok (tenc t).
Proof.
  intros n t Hm Hw Hs. pose proof (lpayload_small t Hw Hs) as Hp. unfold tenc.
  assert (He : rlp_encode (titem t) = Ok (renc (titem t))).
  { unfold rlp_encode. destruct (N.ltb_spec (blen (payload (titem t))) (2 ^ 64)); [reflexivity|lia]. }
  destruct n as [p v|p r|bs v], t as [|q w|q c|cs w]; cbn [nmatch] in Hm; try contradiction.
  - destruct Hm as [<- <-]. cbn [node_encode]. rewrite np_encode_hp. exact He.
  - destruct Hm as [<- ->]. cbn [node_encode]. rewrite (encoding_tref keccak_len). cbn [bind]. rewrite np_encode_hp. exact He.
  - destruct Hm as [-> <-]. cbn [node_encode]. rewrite (mapM_encoding keccak_len). cbn [bind]. exact He.
Qed.

Lemma linto_reference_match : forall n t, nmatch n t -> lwf t -> small t -> into_reference n = Ok (tref t).
Proof.
  intros n t Hm Hw Hs. unfold into_reference. rewrite (lnode_encode_match n t) by auto. cbn [bind].
  rewrite tref_eq; auto. intros ->. destruct n; contradiction.
Qed.

Lemma lget_node_stored : forall m t, t <> TEmpty -> lwf t -> small t -> here m t ->
  exists n, get_node m (tref t) = Ok n /\ nmatch n t.
Proof.
  intros m t Hn Hw Hs Hh. unfold get_node. rewrite (tref_32 keccak_len) by auto. rewrite tref_eq by auto.
  destruct (Nat.ltb_spec (length (tenc t)) 32) as [Hl|Hl]; cbn [negb].
  - apply lnode_decode_tenc; auto.
  - rewrite Hh by auto. apply lnode_decode_tenc; auto.
Qed.

Lemma lspec_store_node : forall n t s (F : exn -> Prop),
  sinv s -> (s_faults s <> [] -> F StorageFault) -> nmatch n t -> lwf t -> small t ->
  spec (store_node n) s F (fun r s' => r = tref t /\ here (s_map s') t).
Proof.
  intros n t s F Hs HF Hm Hw Hsm Hn. unfold store_node, mbind, lift in *.
  assert (Hne : t <> TEmpty) by (intros ->; destruct n; contradiction).
  rewrite (linto_reference_match n t) in * by auto.
  rewrite (tref_32 keccak_len) in * by auto.
  rewrite (lnode_encode_match n t) in * by auto.
  unfold here. rewrite tref_eq in * by auto.
  destruct (Nat.ltb_spec (length (tenc t)) 32) as [Hl|Hl]; cbn [negb] in *.
  - cbn. split; [reflexivity|]. intros _ Hc. lia.
  - unfold write, mbind, tick in *. destruct (s_faults s) as [|[|] fs] eqn:Ef; cbn in *.
    + split; auto. intros _ _. apply dget_dset_same.
    + apply HF. discriminate.
    + split; auto. intros _ _. apply dget_dset_same.
Qed.

Lemma lspec_rd_node : forall t s (F : exn -> Prop),
  (s_faults s <> [] -> F StorageFault) -> t <> TEmpty -> lwf t -> small t -> stored (s_map s) t ->
  spec (rd_node (tref t)) s F (fun n s' => nmatch n t).
Proof.
  intros t s F HF Hne Hw Hsm Hst Hn. unfold rd_node, mbind in *.
  destruct (lget_node_stored (s_map s) t Hne Hw Hsm (here_of_stored _ _ Hst)) as (n & E & Hm).
  destruct (length (tref t) =? 32) eqn:El; cbn in *.
  - unfold tick in *. destruct (s_faults s) as [|[|] fs] eqn:Ef; cbn in *.
    + rewrite E. exact Hm.
    + apply HF. discriminate.
    + rewrite E. exact Hm.
  - rewrite E. exact Hm.
Qed.

Lemma lmkext_wf : forall p t, nib_ok p -> is_branch t -> lwf t -> lwf (mkext p t).
Proof. intros p t Hp Hb Hw. destruct p; cbn [mkext lwf]; auto. repeat split; auto. discriminate. Qed.
Lemma lno_cs_wf : Forall lwf no_cs.
Proof. unfold no_cs. cbn. repeat constructor. Qed.

Lemma lbleaf_wf : forall a v cs, nib_ok a -> Forall lwf cs -> Forall lwf (bleaf a v cs).
Proof.
  intros a v cs Ha Hc. destruct a as [|i r]; auto. inversion Ha; subst.
  apply Forall_set_nth; auto.
Qed.

Lemma strip_both : forall k y z, strip (k ++ y) (k ++ z) = strip y z.
Proof. intros k y z. induction k as [|a l IHl]; auto. cbn. rewrite Nat.eqb_refl. auto. Qed.
Definition hold (x : list nat) (v : bytes) : option bytes := match x, v with [], [] => None | _, _ => Some v end.
Lemma hold_ne : forall x v, x <> [] -> hold x v = Some v.
Proof. intros [|a x] v Hx; [congruence|]. reflexivity. Qed.
Lemma hold_some : forall x v w, hold x v = Some w -> w = v.
Proof. intros [|a x] [|b v] w E; cbn in E; congruence. Qed.
Lemma lookup_branch_nil' : forall cs v, lookup (TBranch cs v) [] = hold [] v.
Proof. intros cs [|x v]; reflexivity. Qed.

Lemma llookup_two_leaves : forall a v b d q, nib_ok a -> nib_ok b -> diverge a b ->
  lookup (two_leaves a v b d) q
  = if path_dec q a then hold a v else if path_dec q b then hold b d else None.
Proof.
  intros a v b d q Ha Hb Hdiv. unfold two_leaves.
  destruct q as [|i r].
  - rewrite lookup_branch_nil'. destruct (path_dec [] a) as [<-|Hna]; [reflexivity|].
    destruct a as [|x a]; [congruence|]. destruct (path_dec [] b) as [<-|Hnb]; [reflexivity|].
    destruct b; [congruence|]. reflexivity.
  - rewrite lookup_branch.
    assert (Hla := bleaf_length a v no_cs Ha no_cs_length).
    destruct a as [|x a], b as [|y b]; cbn [bleaf diverge] in *.
    + contradiction.
    + inversion Hb; subst. rewrite nth_set_nth by (rewrite no_cs_length; lia).
      destruct (path_dec (i :: r) []) as [F|_]; [discriminate|].
      destruct (Nat.eqb_spec i y) as [->|Hn].
      * cbn [lookup]. destruct (path_dec r b), (path_dec (y :: r) (y :: b)); cgr.
      * rewrite nth_no_cs. destruct (path_dec (i :: r) (y :: b)) as [F|_]; [congruence|reflexivity].
    + inversion Ha; subst. rewrite nth_set_nth by (rewrite no_cs_length; lia).
      destruct (Nat.eqb_spec i x) as [->|Hn].
      * cbn [lookup]. pd.
      * rewrite nth_no_cs. destruct (path_dec (i :: r) (x :: a)) as [F|_]; [congruence|].
        destruct (path_dec (i :: r) []); [discriminate|reflexivity].
    + inversion Ha; inversion Hb; subst. rewrite nth_set_nth by lia.
      rewrite nth_set_nth by (rewrite no_cs_length; lia).
      destruct (Nat.eqb_spec i y) as [->|Hny].
      * cbn [lookup]. destruct (path_dec (y :: r) (x :: a)) as [F|_]; [congruence|].
        destruct (path_dec r b), (path_dec (y :: r) (y :: b)); cgr.
      * destruct (Nat.eqb_spec i x) as [->|Hnx].
        -- cbn [lookup]. pd.
        -- rewrite nth_no_cs. destruct (path_dec (i :: r) (x :: a)) as [F|_]; [congruence|].
           destruct (path_dec (i :: r) (y :: b)) as [F|_]; [congruence|reflexivity].
Qed.

Lemma ltwo_leaves_wf : forall a v b d, nib_ok a -> nib_ok b -> diverge a b -> lwf (two_leaves a v b d).
Proof.
  intros a v b d Ha Hb Hdiv. unfold two_leaves. apply lwf_branch.
  assert (Hla := bleaf_length a v no_cs Ha no_cs_length).
  split; [|split].
  - apply bleaf_length; auto.
  - destruct b as [|y b]; cbn [bleaf].
    + destruct a as [|x a]; [destruct Hdiv|]. cbn [bleaf]. exists x. inversion Ha; subst. rewrite nth_set_nth by (rewrite no_cs_length; lia).
      rewrite Nat.eqb_refl. discriminate.
    + exists y. inversion Hb; subst. rewrite nth_set_nth by lia. rewrite Nat.eqb_refl. discriminate.
  - repeat apply lbleaf_wf; auto using lno_cs_wf.
Qed.

Lemma llookup_leaf_and_sub : forall a v b c q, nib_ok a -> nib_ok b -> b <> [] -> diverge a b ->
  lookup (leaf_and_sub a v b c) q
  = if path_dec q a then hold a v else match strip b q with Some r => lookup c r | None => None end.
Proof.
  intros a v b c q Ha Hb Hbn Hdiv. unfold leaf_and_sub.
  destruct b as [|y b]; [congruence|]. inversion Hb as [|? ? Hy Hb']; subst.
  assert (Hla := bleaf_length a v no_cs Ha no_cs_length).
  destruct q as [|i r].
  - rewrite lookup_branch_nil'. destruct (path_dec [] a) as [<-|Hna]; [reflexivity|].
    destruct a as [|x a]; [congruence|]. reflexivity.
  - rewrite lookup_branch. cbn [bsub]. rewrite nth_set_nth by lia.
    cbn [strip]. destruct (Nat.eqb_spec i y) as [->|Hn].
    + rewrite Nat.eqb_refl, lookup_mkext. destruct (path_dec (y :: r) a) as [<-|_]; [|reflexivity].
      cbn in Hdiv. congruence.
    + destruct (Nat.eqb_spec y i); [congruence|]. destruct a as [|x a]; cbn [bleaf].
      * rewrite nth_no_cs. destruct (path_dec (i :: r) []); [discriminate|reflexivity].
      * inversion Ha; subst. rewrite nth_set_nth by (rewrite no_cs_length; lia).
        destruct (Nat.eqb_spec i x) as [->|Hnx].
        -- cbn [lookup]. destruct (path_dec r a), (path_dec (x :: r) (x :: a)); cgr.
        -- rewrite nth_no_cs. destruct (path_dec (i :: r) (x :: a)) as [F|_]; [congruence|reflexivity].
Qed.

Lemma lleaf_and_sub_wf : forall a v b c, nib_ok a -> nib_ok b -> b <> [] -> diverge a b ->
  is_branch c -> lwf c -> lwf (leaf_and_sub a v b c).
Proof.
  intros a v b c Ha Hb Hbn Hdiv Hbr Hw. unfold leaf_and_sub.
  destruct b as [|y b]; [congruence|]. inversion Hb as [|? ? Hy Hb']; subst.
  assert (Hla := bleaf_length a v no_cs Ha no_cs_length). apply lwf_branch. cbn [bsub].
  assert (Hc : mkext b c <> TEmpty) by auto using mkext_ne, branch_ne.
  split; [|split].
  - rewrite set_nth_length; lia.
  - exists y. rewrite nth_set_nth by lia. rewrite Nat.eqb_refl. auto.
  - apply Forall_set_nth; [apply lbleaf_wf; auto using lno_cs_wf|]. apply lmkext_wf; auto.
Qed.

(** ** The rule for assignments below a prefix *)
Definition pre (c : list nat) (g : list nat -> option bytes) (q : list nat) : option bytes :=
  match strip c q with Some z => g z | None => None end.
Lemma pre_app : forall c g q, pre c g (c ++ q) = g q.
Proof. intros. unfold pre. rewrite strip_app. reflexivity. Qed.
Lemma pre_inv : forall c g q w, pre c g q = Some w -> exists z, q = c ++ z /\ g z = Some w.
Proof. intros c g q w E. unfold pre in E. destruct (strip c q) as [z|] eqn:Es; [|discriminate]. apply strip_spec in Es. eauto. Qed.
Lemma below_app : forall (c q k : list nat), below (c ++ q) (c ++ k) <-> below q k.
Proof.
  intros c q k. split; intros (x & r & E); exists x, r.
  - rewrite <- app_assoc in E. apply app_inv_head in E. exact E.
  - rewrite <- app_assoc. congruence.
Qed.
Lemma below_ne : forall A (q k : list A), below q k -> q <> k.
Proof. intros A q k (x & r & ->) E. apply (f_equal (@length A)) in E. rewrite app_length in E. cbn in E. lia. Qed.

Lemma takes_pre : forall c g x v g', takes g x v g' -> takes (pre c g) (c ++ x) v (pre c g').
Proof.
  intros c g x v g' (T1 & T2 & T3). split; [|split].
  - intros q Hq Hn. destruct (strip c q) as [z|] eqn:Es.
    + apply strip_spec in Es. subst q. rewrite !pre_app. apply T1; [congruence|].
      intros [A B]. apply Hn. rewrite pre_app, below_app. auto.
    + unfold pre. rewrite Es. reflexivity.
  - intros q E B. apply pre_inv in E. destruct E as (z & -> & E). rewrite below_app in B. rewrite pre_app. auto.
  - rewrite pre_app. destruct T3 as [[A B]|(A & B & q & w & C & D)].
    + left. split; auto. intros Hv q w E. apply pre_inv in E. destruct E as (z & -> & E). rewrite below_app. eauto.
    + right. split; auto. split; auto. exists (c ++ q), w. rewrite pre_app, below_app. auto.
Qed.
Lemma takes_ext : forall (g1 g2 : list nat -> option bytes) x v g1' g2', (forall q, g2 q = g1 q) -> (forall q, g2' q = g1' q) ->
  takes g1 x v g1' -> takes g2 x v g2'.
Proof.
  intros g1 g2 x v g1' g2' E E' (T1 & T2 & T3). split; [|split].
  - intros q. rewrite E, E'. auto.
  - intros q. rewrite E, E'. auto.
  - rewrite E'. destruct T3 as [[A B]|(A & B & q & w & C & D)]; [left|right].
    + split; auto. intros Hv q w. rewrite E. eauto.
    + split; auto. split; auto. exists q, w. rewrite E. auto.
Qed.

(** Into a branch. *)
Lemma takes_child : forall cs d i q v t', i < length cs -> takes (lookup (nth i cs TEmpty)) q v (lookup t') ->
  takes (lookup (TBranch cs d)) (i :: q) v (lookup (TBranch (set_nth i t' cs) d)).
Proof.
  intros cs d i q v t' Hi (T1 & T2 & T3).
  assert (L : forall j u, lookup (TBranch (set_nth i t' cs) d) (j :: u) = if j =? i then lookup t' u else lookup (nth j cs TEmpty) u).
  { intros j u. rewrite lookup_branch, nth_set_nth by auto. destruct (j =? i); reflexivity. }
  assert (Bl : forall j u, below (j :: u) (i :: q) -> j = i /\ below u q).
  { intros j u (x & r & E). injection E as <- E. split; auto. exists x, r. exact E. }
  assert (Bi : forall u, below u q -> below (i :: u) (i :: q)).
  { intros u (x & r & ->). exists x, r. reflexivity. }
  split; [|split].
  - intros [|j u] Hq Hn; [reflexivity|]. rewrite L, lookup_branch. rewrite lookup_branch in Hn. destruct (Nat.eqb_spec j i) as [->|Hj]; auto.
    apply T1; [congruence|]. intros [A B]. auto.
  - intros [|j u] E B.
    + cbn in E. destruct d; discriminate.
    + apply Bl in B. destruct B as [-> B]. rewrite lookup_branch in E. rewrite L, Nat.eqb_refl. auto.
  - rewrite L, Nat.eqb_refl. destruct T3 as [[A B]|(A & B & u & w & C & D)]; [left|right].
    + split; auto. intros Hv [|j u] w E (x & r & F); [discriminate|]. injection F as -> F. rewrite lookup_branch in E.
      apply (B Hv u w E). exists x, r. exact F.
    + split; auto. split; auto. exists (i :: u), w. rewrite lookup_branch. split; auto. destruct D as (x & r & ->). exists x, r. reflexivity.
Qed.

Definition leafmap (y : list nat) (d : bytes) (q : list nat) : option bytes := if path_dec q y then Some d else None.

Lemma takes_two : forall x v y d, diverge x y ->
  takes (leafmap y d) x v (fun q => if path_dec q x then hold x v else if path_dec q y then hold y d else None).
Proof.
  intros x v y d Hd. unfold leafmap. split; [|split].
  - intros q Hq Hn. destruct (path_dec q x); [congruence|]. destruct (path_dec q y) as [->|]; auto.
    destruct y as [|a y]; [|reflexivity]. destruct d as [|b d]; [|reflexivity]. exfalso. apply Hn. split; auto.
    destruct x as [|a x]; [destruct Hd|]. exists a, x. reflexivity.
  - intros q E B. destruct (path_dec q y) as [->|]; [|discriminate]. injection E as ->.
    destruct (path_dec y x) as [->|]; [apply below_ne in B; congruence|].
    destruct B as (a & r & ->). destruct y as [|b y]; [reflexivity|]. cbn in Hd. congruence.
  - destruct (path_dec x x); [|congruence]. destruct x as [|a x].
    + destruct v as [|b v].
      * right. split; [reflexivity|]. split; auto. exists y, d. destruct (path_dec y y); [|congruence]. split; auto.
        destruct y as [|b y]; [destruct Hd|]. exists b, y. reflexivity.
      * left. split; [reflexivity|discriminate].
    + left. split; [reflexivity|]. intros _ q w E (b & r & ->). destruct (path_dec _ y) as [E'|]; [|discriminate].
      subst y. cbn in Hd. congruence.
Qed.

Lemma takes_sub : forall x v y c, y <> [] -> diverge x y -> lwf c -> c <> TEmpty ->
  takes (pre y (lookup c)) x v (fun q => if path_dec q x then hold x v else pre y (lookup c) q).
Proof.
  intros x v y c Hy Hd Hw Hc. split; [|split].
  - intros q Hq Hn. destruct (path_dec q x); [congruence|reflexivity].
  - intros q E (b & r & ->). apply pre_inv in E. destruct E as (z & -> & E). destruct y as [|a y]; [congruence|]. cbn in Hd. congruence.
  - destruct (path_dec x x); [|congruence]. destruct x as [|a x].
    + destruct v as [|b v].
      * right. split; [reflexivity|]. split; auto. destruct (lwf_has_key c Hw Hc) as (z & w & E).
        exists (y ++ z), w. rewrite pre_app. split; auto. destruct y as [|b y]; [congruence|]. exists b, (y ++ z). reflexivity.
      * left. split; [reflexivity|discriminate].
    + left. split; [reflexivity|]. intros _ q w E (b & r & ->). apply pre_inv in E. destruct E as (z & E & _).
      destruct y as [|b' y]; [congruence|]. cbn in Hd, E. congruence.
Qed.

Lemma takes_branch_value : forall cs d v, lwf (TBranch cs d) -> takes (lookup (TBranch cs d)) [] v (lookup (TBranch cs v)).
Proof.
  intros cs d v Hw. split; [|split].
  - intros [|i q] Hq _; [congruence|]. rewrite !lookup_branch. reflexivity.
  - intros q _ (x & r & E). destruct q; discriminate.
  - rewrite lookup_branch_nil'. destruct v as [|b v]; [right|left; split; [reflexivity|discriminate]].
    split; [reflexivity|]. split; auto. apply lwf_branch in Hw. destruct Hw as (_ & [i Hi] & Hf).
    destruct (lwf_has_key _ (lwf_nth cs i Hf) Hi) as (q & w & E). exists (i :: q), w. rewrite lookup_branch. split; auto.
    exists i, q. reflexivity.
Qed.

Lemma takes_empty : forall k v, takes (lookup TEmpty) k v (lookup (TLeaf k v)).
Proof.
  intros k v. split; [|split].
  - intros q Hq _. cbn. destruct (path_dec q k); [congruence|reflexivity].
  - discriminate.
  - left. rewrite lookup_leaf_self. split; auto. discriminate.
Qed.
Lemma takes_same_leaf : forall k d v, takes (lookup (TLeaf k d)) k v (lookup (TLeaf k v)).
Proof.
  intros k d v. split; [|split].
  - intros q Hq _. cbn. destruct (path_dec q k); [congruence|reflexivity].
  - intros q E B. apply leaf_key_inv in E. destruct E as [-> _]. apply below_ne in B. congruence.
  - left. rewrite lookup_leaf_self. split; auto. intros _ q w E B. apply leaf_key_inv in E. destruct E as [-> _].
    apply below_ne in B. congruence.
Qed.

Definition lupd_of (t : tree) (path : list nat) (v : bytes) (t' : tree) : Prop :=
  lwf t' /\ t' <> TEmpty /\ takes (lookup t) path v (lookup t') /\ (is_branch t -> is_branch t').

Lemma takes_inv : forall (g : list nat -> option bytes) k v g' q w, takes g k v g' -> g' q = Some w -> (q = k /\ w = v) \/ g q = Some w.
Proof.
  intros g k v g' q w (T1 & T2 & T3) E. destruct (path_dec q k) as [->|Hq].
  - destruct T3 as [[A _]|[A _]]; [|congruence]. left. split; congruence.
  - right. destruct (g q) as [[|b u]|] eqn:Eg.
    + destruct (strip q k) as [[|x r]|] eqn:Es.
      * apply strip_spec in Es. rewrite app_nil_r in Es. congruence.
      * apply strip_spec in Es. rewrite (T2 q Eg) in E; [discriminate|]. exists x, r. exact Es.
      * rewrite T1 in E; auto; [congruence|]. intros [_ (x & r & F)]. rewrite strip_None in Es. eapply Es; eauto.
    + rewrite T1 in E; auto; [congruence|]. intros [F _]. congruence.
    + rewrite T1 in E; auto; [congruence|]. intros [F _]. congruence.
Qed.

Lemma lupd_small : forall t path v t', small t -> small_kv path v -> lupd_of t path v t' -> small t'.
Proof.
  intros t path v t' Hs Hk (_ & _ & Hl & _) q w E. destruct (takes_inv _ _ _ _ _ _ Hl E) as [[-> ->]|E']; [exact Hk|eauto].
Qed.

Lemma lspec_branch_leaf : forall p v cs s (F : exn -> Prop),
  sinv s -> (s_faults s <> [] -> F StorageFault) ->
  small_kv (nibs p) v -> length cs = 16 -> Forall (stored (s_map s)) cs ->
  spec (create_branch_leaf p v (map tref cs)) s F
    (fun bs s' => bs = map tref (bleaf (nibs p) v cs) /\ Forall (stored (s_map s')) (bleaf (nibs p) v cs)).
Proof.
  intros p v cs s F Hs HF Hk Hl Hc. unfold create_branch_leaf.
  destruct (path_cases p) as [[Hz Hn]|(i & r & Hn & Hz & Hi & Hr)].
  - rewrite Hz, Hn. cbn [Nat.ltb Nat.leb bleaf]. apply spec_ret. auto.
  - rewrite Hz. cbn [Nat.ltb Nat.leb]. rewrite Hi.
    pose proof (nibs_ok p) as Hok. rewrite Hn in *. inversion Hok; subst.
    apply spec_bind with (Q1 := fun x s' => x = tref (TLeaf (nibs (np_consume p 1)) v)
                                  /\ here (s_map s') (TLeaf (nibs (np_consume p 1)) v)); auto.
    + apply (keeps_store_node keccak_len); auto.
    + intros. apply keeps_ret.
    + apply lspec_store_node; auto.
      * cbn. auto.
      * apply small_leaf. destruct Hk as [B1 B2]. cbn [length] in B1. split; auto. lia.
    + intros x s1 Hst [-> Hh]. apply spec_ret. cbn [bleaf]. split.
      * rewrite map_set_nth. reflexivity.
      * apply Forall_set_nth; [eapply step_Forall; eauto|]. apply stored_leaf. exact Hh.
Qed.

Lemma lspec_branch_ext : forall p c cs s (F : exn -> Prop),
  sinv s -> (s_faults s <> [] -> F StorageFault) ->
  nibs p <> [] -> is_branch c -> lwf c -> small (TExt (nibs p) c) -> length cs = 16 ->
  Forall (stored (s_map s)) cs -> stored (s_map s) c ->
  spec (create_branch_extension p (tref c) (map tref cs)) s F
    (fun bs s' => bs = map tref (bsub (nibs p) c cs) /\ Forall (stored (s_map s')) (bsub (nibs p) c cs)).
Proof.
  intros p c cs s F Hs HF Hne Hb Hw Hsm Hl Hc Hcs. unfold create_branch_extension.
  destruct (path_cases p) as [[Hz Hn]|(i & r & Hn & Hz & Hi & Hr)]; [congruence|].
  pose proof (nibs_ok p) as Hok. rewrite Hn in *. inversion Hok; subst. rewrite Hz.
  set (r := nibs (np_consume p 1)) in *.
  replace (S (length r) <? 1) with false by reflexivity.
  cbn [Nat.eqb]. destruct (Nat.eqb_spec (length r) 0) as [Hl0|Hl0].
  - apply spec_ret. destruct r as [|]; [|discriminate]. cbn [bsub mkext]. split.
    + rewrite map_set_nth. reflexivity.
    + apply Forall_set_nth; auto.
  - assert (Hm : mkext r c = TExt r c) by (destruct r; [cbn in Hl0; lia|reflexivity]).
    assert (Hwf : lwf (TExt r c)).
    { cbn. repeat split; auto. intros E. rewrite E in Hl0. cbn in Hl0. lia. }
    apply spec_bind with (Q1 := fun x s' => x = tref (TExt r c) /\ here (s_map s') (TExt r c)); auto.
    + apply (keeps_store_node keccak_len); auto.
    + intros. apply keeps_ret.
    + apply lspec_store_node; auto.
      * cbn. auto.
      * intros q w E. apply ext_key_inv in E. destruct E as (z & -> & E).
        destruct (Hsm (np_at p 0 :: r ++ z) w) as [B1 B2].
        { change (np_at p 0 :: r ++ z) with ((np_at p 0 :: r) ++ z). rewrite lookup_ext_app. exact E. }
        cbn [length] in B1. split; auto. lia.
    + intros x s1 Hst [-> Hh]. apply spec_ret. cbn [bsub]. rewrite Hm. split.
      * rewrite map_set_nth. reflexivity.
      * apply Forall_set_nth; [eapply step_Forall; eauto|]. apply stored_ext. split; auto.
        eapply step_stored; eauto.
Qed.

Lemma lspec_wrap_ext : forall c t s (F : exn -> Prop),
  sinv s -> (s_faults s <> [] -> F StorageFault) -> nocoll (s_log s) ->
  is_branch t -> lwf t -> small (mkext (nibs c) t) -> stored (s_map s) t ->
  spec (if np_len c =? 0 then ret (tref t) else store_node (Extension c (tref t))) s F
    (fun r s' => r = tref (mkext (nibs c) t) /\ stored (s_map s') (mkext (nibs c) t)).
Proof.
  intros c t s F Hs HF Hnc Hb Hw Hsm Hst. rewrite np_len_spec.
  destruct (Nat.eqb_spec (length (nibs c)) 0) as [Hl|Hl].
  - apply spec_ret. destruct (nibs c); [|discriminate]. cbn. auto.
  - assert (Hm : mkext (nibs c) t = TExt (nibs c) t) by (destruct (nibs c); [cbn in Hl; lia|reflexivity]).
    rewrite Hm in *.
    assert (Hwf : lwf (TExt (nibs c) t)).
    { cbn. repeat split; auto using nibs_ok. intros E. rewrite E in Hl. cbn in Hl. lia. }
    assert (Hm2 : nmatch (Extension c (tref t)) (TExt (nibs c) t)) by (cbn; auto).
    intros Hn. pose proof (lspec_store_node _ _ s F Hs HF Hm2 Hwf Hsm Hn) as S.
    destruct (keeps_store_node keccak_len (Extension c (tref t)) s Hs) as [K1 K2].
    destruct (store_node _ s) as [[a|e] s1]; auto. destruct S as [-> Hh]. split; auto.
    apply stored_ext. split; auto. eapply step_stored; [|exact Hst]. unfold step. auto.
Qed.

Theorem lupdate_spec : forall fuel t r path v s,
  sinv s -> nocoll (s_log s) -> lwf t -> small t -> stored (s_map s) t ->
  (r = tref t \/ (t = TEmpty /\ r = EMPTY_HASH)) ->
  small_kv (nibs path) v ->
  spec (update_ fuel r path v) s (bad s fuel (length (nibs path)))
    (fun r' s' => exists t', r' = tref t' /\ lupd_of t (nibs path) v t' /\ stored (s_map s') t').
Proof.
  induction fuel as [|f IH]; intros t r path v s Hs Hnc Hw Hsm Hst Hr Hk; cbn [update_].
  { apply spec_raise. right. split; auto. lia. }
  assert (HF : s_faults s <> [] -> bad s (S f) (length (nibs path)) StorageFault) by (left; auto).
  destruct (ref_is_empty r) eqn:Er.
  { (* empty trie or slot: a new leaf *)
    assert (t = TEmpty) as ->.
    { destruct Hr as [->|[-> _]]; auto. eapply (ref_empty_tref keccak_len); eauto. }
    assert (U : lupd_of TEmpty (nibs path) v (TLeaf (nibs path) v)).
    { split; [cbn; auto using nibs_ok|]. split; [discriminate|]. split; [apply takes_empty|intros []]. }
    eapply spec_conseq; [apply lspec_store_node with (t := TLeaf (nibs path) v)|exact (fun e h => h)|]; auto.
    - cbn. auto.
    - apply U.
    - apply small_leaf. exact Hk.
    - cbv beta. intros a s' [-> Hh]. exists (TLeaf (nibs path) v). split; auto. split; auto.
      apply stored_leaf. exact Hh. }
  assert (Hne : t <> TEmpty).
  { intros ->. destruct Hr as [->|[_ ->]]; cbn in Er; [discriminate|].
    unfold ref_is_empty in Er. rewrite bytes_eqb_refl in Er. destruct EMPTY_HASH; discriminate. }
  destruct Hr as [->|[E _]]; [|congruence].
  apply spec_bind with (Q1 := fun n _ => nmatch n t); auto using keeps_rd.
  { intros n. pose proof ((keeps_update keccak_len) (S f) (tref t) path v) as Ku. cbn [update_] in Ku.
    (* keeps of the continuation *)
    destruct n as [lp d|ep nr|bs d].
    - destruct (np_eq lp path); [apply (keeps_store_node keccak_len); auto|].
      apply keeps_bind; [apply (keeps_branch_node keccak_len)|]. intros. apply (keeps_wrap_ext keccak_len).
    - destruct (np_starts_with path ep).
      + apply keeps_bind; [apply (keeps_update keccak_len)|]. intros. apply (keeps_store_node keccak_len); auto.
      + apply keeps_bind; [apply (keeps_branch_leaf keccak_len)|]. intros.
        apply keeps_bind; [apply (keeps_branch_extension keccak_len)|]. intros.
        apply keeps_bind; [apply (keeps_store_node keccak_len); auto|]. intros. apply (keeps_wrap_ext keccak_len).
    - destruct (np_len path =? 0); [apply (keeps_store_node keccak_len); auto|].
      apply keeps_bind; [apply (keeps_update keccak_len)|]. intros. apply (keeps_store_node keccak_len); auto. }
  { apply lspec_rd_node; auto. }
  intros n s1 St1 Hm.
  assert (I1 := step_inv _ _ St1). assert (N1 := step_nocoll _ _ St1).
  assert (HF1 : s_faults s1 <> [] -> bad s (S f) (length (nibs path)) StorageFault).
  { intros Hf. apply HF. eapply step_faults; eauto. }
  assert (Hst1 : stored (s_map s1) t) by (eapply step_stored; eauto).
  destruct n as [lp d|ep nr|bs d], t as [|p w|p c|cs w]; cbn [nmatch] in Hm; try contradiction.
  - (* leaf *)
    destruct Hm as [<- <-]. assert (Hp := Hw).
    destruct (np_eq lp path) eqn:Eq.
    + apply np_eq_spec in Eq.
      eapply spec_conseq; [apply lspec_store_node with (t := TLeaf (nibs path) v)|exact (fun e h => h)|]; auto.
      * cbn. auto.
      * cbn. auto using nibs_ok.
      * apply small_leaf. exact Hk.
      * cbv beta. intros a s' [-> Hh]. exists (TLeaf (nibs path) v). split; auto. split.
        -- split; [cbn; auto using nibs_ok|]. split; [discriminate|]. split; [|intros []]. rewrite Eq. apply takes_same_leaf.
        -- apply stored_leaf. exact Hh.
    + apply np_eq_false in Eq.
      set (c := np_common_prefix path lp) in *.
      assert (Hc : nibs c = lcp (nibs path) (nibs lp)) by apply nibs_common_prefix.
      set (x := skipn (length (nibs c)) (nibs path)).
      set (y := skipn (length (nibs c)) (nibs lp)).
      assert (Ex : nibs path = nibs c ++ x) by (unfold x; rewrite Hc; apply lcp_split).
      assert (Ey : nibs lp = nibs c ++ y) by (unfold y; rewrite Hc; apply lcp_split).
      assert (Nx : nibs (np_consume path (np_len c)) = x) by (rewrite nibs_consume, np_len_spec; reflexivity).
      assert (Ny : nibs (np_consume lp (np_len c)) = y) by (rewrite nibs_consume, np_len_spec; reflexivity).
      set (pa := np_consume path (np_len c)) in *. set (pb := np_consume lp (np_len c)) in *.
      assert (Hdv : diverge x y) by (unfold x, y; rewrite Hc; apply lcp_diverge_skip; auto).
      assert (Ox : nib_ok x) by (apply nib_ok_skip, nibs_ok).
      assert (Oy : nib_ok y) by (apply nib_ok_skip, nibs_ok).
      assert (Kx : small_kv x v) by (apply (small_kv_skip keccak_len); auto).
      assert (Ky : small_kv y d).
      { apply (small_kv_skip keccak_len). apply (Hsm (nibs lp) d). apply lookup_leaf_self. }
      set (B := two_leaves x v y d).
      assert (LB : forall q, lookup B q = if path_dec q x then hold x v else if path_dec q y then hold y d else None).
      { intros q. apply llookup_two_leaves; auto. }
      assert (WB : lwf B) by (apply ltwo_leaves_wf; auto).
      assert (UB : lupd_of (TLeaf (nibs lp) d) (nibs path) v (mkext (nibs c) B)).
      { split; [apply lmkext_wf; auto using nibs_ok; exact I|]. split; [apply mkext_ne; discriminate|]. split; [|intros []].
        rewrite Ex. eapply takes_ext; [| |apply takes_pre, (takes_two x v y d Hdv)].
        - intros q. cbn [lookup]. rewrite Ey. unfold pre, leafmap. destruct (strip (nibs c) q) as [z|] eqn:Ez.
          + apply strip_spec in Ez. subst q. destruct (path_dec z y) as [->|Hn].
            * destruct (path_dec (nibs c ++ y) (nibs c ++ y)); congruence.
            * destruct (path_dec (nibs c ++ z) (nibs c ++ y)) as [F|_]; auto. apply app_inv_head in F. congruence.
          + destruct (path_dec q (nibs c ++ y)) as [->|_]; auto. rewrite strip_app in Ez. discriminate.
        - intros q. rewrite lookup_mkext. unfold pre. destruct (strip (nibs c) q) as [z|]; auto. }
      assert (SB : small (mkext (nibs c) B)) by (eapply lupd_small; [exact Hsm|exact Hk|eauto]).
      assert (SB' : small B).
      { intros q u E. rewrite LB in E.
        destruct (path_dec q x) as [->|_]; [rewrite (hold_some _ _ _ E); exact Kx|].
        destruct (path_dec q y) as [->|_]; [rewrite (hold_some _ _ _ E); exact Ky|discriminate]. }
      apply spec_bind with (Q1 := fun r' s' => r' = tref B /\ stored (s_map s') B); auto.
      * apply (keeps_branch_node keccak_len).
      * intros. apply (keeps_wrap_ext keccak_len).
      * (* create_branch_node *)
        unfold create_branch_node. rewrite !np_len_spec, Nx, Ny.
        replace ((length x =? 0) && (length y =? 0)) with false.
        2:{ symmetry. destruct x, y; cbn in Hdv |- *; auto; contradiction. }
        rewrite empty_slots_no_cs.
        apply spec_bind with (Q1 := fun bs s' => bs = map tref (bleaf x v no_cs)
                                    /\ Forall (stored (s_map s')) (bleaf x v no_cs)); auto.
        -- apply (keeps_branch_leaf keccak_len).
        -- intros. apply keeps_bind; [apply (keeps_branch_leaf keccak_len)|]. intros. apply (keeps_store_node keccak_len); auto.
        -- rewrite <- Nx. apply lspec_branch_leaf; auto; [rewrite Nx; auto|].
           apply Forall_forall. intros u Hu. apply repeat_spec in Hu. subst u. apply stored_empty.
        -- intros bs s2 St2 [-> Hf2].
           assert (I2 := step_inv _ _ St2).
           assert (HF2 : s_faults s2 <> [] -> bad s (S f) (length (nibs path)) StorageFault).
           { intros Hf. apply HF1. eapply step_faults; eauto. }
           apply spec_bind with (Q1 := fun bs s' => bs = map tref (bleaf y d (bleaf x v no_cs))
                                    /\ Forall (stored (s_map s')) (bleaf y d (bleaf x v no_cs))); auto.
           ++ apply (keeps_branch_leaf keccak_len).
           ++ intros. apply (keeps_store_node keccak_len); auto.
           ++ rewrite <- Ny. apply lspec_branch_leaf; auto; [rewrite Ny; auto|].
              apply bleaf_length; auto.
           ++ intros bs s3 St3 [-> Hf3].
              assert (I3 := step_inv _ _ St3).
              intros Hn. pose proof (lspec_store_node (Branch (map tref (bleaf y d (bleaf x v no_cs)))
                   (if length x =? 0 then v else if length y =? 0 then d else [])) B s3
                   (bad s (S f) (length (nibs path))) I3) as S.
              specialize (S ltac:(intros Hf; apply HF2; eapply step_faults; eauto)).
              specialize (S ltac:(cbn; split; [reflexivity|]; destruct x, y; reflexivity) WB SB' Hn).
              destruct (keeps_store_node keccak_len (Branch (map tref (bleaf y d (bleaf x v no_cs)))
                   (if length x =? 0 then v else if length y =? 0 then d else [])) s3 I3) as [K1 K2].
              destruct (store_node _ s3) as [[a|e] s4]; auto. destruct S as [-> Hh]. split; auto.
              apply stored_branch. split; auto. eapply step_Forall; [|exact Hf3]. unfold step. auto.
      * intros r' s2 St2 [-> HB].
        assert (I2 := step_inv _ _ St2). assert (N2 := step_nocoll _ _ St2).
        eapply spec_conseq; [apply lspec_wrap_ext with (t := B)|exact (fun e h => h)|]; auto.
        -- intros Hf. apply HF1. eapply step_faults; eauto.
        -- exact I.
        -- cbv beta. intros a s' [-> Hs']. eauto.
  - (* extension *)
    destruct Hm as [<- ->]. destruct Hw as (Hp & Hpn & Hb & Hwc). apply stored_ext in Hst1 as [_ Hsc1].
    rewrite np_starts_with_spec. destruct (strip (nibs ep) (nibs path)) as [q|] eqn:Eq.
    + pose proof (np_starts_with_skip _ _ _ Eq) as Hq. apply strip_spec in Eq.
      assert (Hlen : length (nibs path) = length (nibs ep) + length q) by (rewrite Eq, app_length; auto).
      assert (Hep : 0 < length (nibs ep)) by (destruct (nibs ep); [congruence|cbn; lia]).
      apply spec_bind with (Q1 := fun r' s' => exists t', r' = tref t' /\ lupd_of c q v t' /\ stored (s_map s') t'); auto.
      * apply (keeps_update keccak_len).
      * intros. apply (keeps_store_node keccak_len); auto.
      * rewrite <- Hq. eapply spec_conseq; [apply (IH c)|idtac|exact (fun a s' h => h)]; auto.
        -- eapply (small_ext keccak_len); eauto.
        -- rewrite Hq. destruct Hk as [K1 K2]. split; auto. lia.
        -- intros e [[-> Hf]|[-> Hf]]; [apply HF1; auto|]. right. split; auto. rewrite Hq in Hf. lia.
      * intros r' s2 St2 (t' & -> & U & Hst2).
        assert (I2 := step_inv _ _ St2).
        destruct U as (Hwt & Hnt & Hlt & Hbt).
        assert (UT : lupd_of (TExt (nibs ep) c) (nibs path) v (TExt (nibs ep) t')).
        { split; [cbn; auto|]. split; [discriminate|]. split; [|intros []]. rewrite Eq. exact (takes_pre _ _ _ _ _ Hlt). }
        intros Hn.
        assert (ST : small (TExt (nibs ep) t')) by (eapply lupd_small; [exact Hsm|exact Hk|eauto]).
        pose proof (lspec_store_node (Extension ep (tref t')) (TExt (nibs ep) t') s2
                   (bad s (S f) (length (nibs path))) I2) as S.
        specialize (S ltac:(intros Hf; apply HF1; eapply step_faults; eauto)).
        specialize (S ltac:(cbn; auto) ltac:(apply UT) ST Hn).
        destruct (keeps_store_node keccak_len (Extension ep (tref t')) s2 I2) as [K1 K2].
        destruct (store_node _ s2) as [[a|e] s3]; auto. destruct S as [-> Hh].
        eexists. split; [reflexivity|]. split; [exact UT|]. apply stored_ext. split; auto.
        eapply step_stored; [|exact Hst2]. unfold step. auto.
    + set (k := np_common_prefix path ep) in *.
      assert (Hc : nibs k = lcp (nibs path) (nibs ep)) by apply nibs_common_prefix.
      set (x := skipn (length (nibs k)) (nibs path)).
      set (y := skipn (length (nibs k)) (nibs ep)).
      assert (Ex : nibs path = nibs k ++ x) by (unfold x; rewrite Hc; apply lcp_split).
      assert (Ey : nibs ep = nibs k ++ y) by (unfold y; rewrite Hc; apply lcp_split).
      assert (Nx : nibs (np_consume path (np_len k)) = x) by (rewrite nibs_consume, np_len_spec; reflexivity).
      assert (Ny : nibs (np_consume ep (np_len k)) = y) by (rewrite nibs_consume, np_len_spec; reflexivity).
      set (pa := np_consume path (np_len k)) in *. set (pb := np_consume ep (np_len k)) in *.
      assert (Hneq : nibs path <> nibs ep).
      { intros E. rewrite strip_None in Eq. apply (Eq []). rewrite app_nil_r. auto. }
      assert (Hdv : diverge x y) by (unfold x, y; rewrite Hc; apply lcp_diverge_skip; auto).
      assert (Hy : y <> []).
      { intros E. rewrite E, app_nil_r in Ey. rewrite strip_None in Eq. apply (Eq x). congruence. }
      assert (Ox : nib_ok x) by (apply nib_ok_skip, nibs_ok).
      assert (Oy : nib_ok y) by (apply nib_ok_skip, nibs_ok).
      assert (Kx : small_kv x v) by (apply (small_kv_skip keccak_len); auto).
      assert (Sy : small (TExt y c)).
      { intros q u E. apply ext_key_inv in E. destruct E as (z & -> & E).
        destruct (Hsm (nibs ep ++ z) u) as [B1 B2]; [rewrite lookup_ext_app; auto|]. split; auto.
        rewrite Ey, !app_length in B1. rewrite app_length. lia. }
      set (B := leaf_and_sub x v y c).
      assert (LB : forall q, lookup B q = if path_dec q x then hold x v
                      else match strip y q with Some r => lookup c r | None => None end).
      { intros q. apply llookup_leaf_and_sub; auto. }
      assert (WB : lwf B) by (apply lleaf_and_sub_wf; auto).
      assert (UB : lupd_of (TExt (nibs ep) c) (nibs path) v (mkext (nibs k) B)).
      { split; [apply lmkext_wf; auto using nibs_ok; exact I|]. split; [apply mkext_ne; discriminate|]. split; [|intros []].
        rewrite Ex. eapply takes_ext; [| |apply takes_pre, (takes_sub x v y c Hy Hdv Hwc (branch_ne _ Hb))].
        - intros q. cbn [lookup]. rewrite Ey. unfold pre. destruct (strip (nibs k) q) as [z|] eqn:Ez.
          + apply strip_spec in Ez. subst q. rewrite strip_both. reflexivity.
          + destruct (strip (nibs k ++ y) q) as [z|] eqn:E2; auto. apply strip_spec in E2. rewrite <- app_assoc in E2.
            rewrite strip_None in Ez. exfalso. eapply Ez; eauto.
        - intros q. rewrite lookup_mkext. unfold pre. destruct (strip (nibs k) q) as [z|]; [rewrite LB|]; reflexivity. }
      assert (SB : small (mkext (nibs k) B)) by (eapply lupd_small; [exact Hsm|exact Hk|eauto]).
      assert (SB' : small B).
      { intros q u E. rewrite LB in E.
        destruct (path_dec q x) as [->|_]; [rewrite (hold_some _ _ _ E); exact Kx|]. apply (Sy q u). exact E. }
      rewrite (np_len_spec pa), Nx. rewrite empty_slots_no_cs.
      apply spec_bind with (Q1 := fun bs s' => bs = map tref (bleaf x v no_cs)
                                    /\ Forall (stored (s_map s')) (bleaf x v no_cs)); auto.
      * apply (keeps_branch_leaf keccak_len).
      * intros. apply keeps_bind; [apply (keeps_branch_extension keccak_len)|]. intros.
        apply keeps_bind; [apply (keeps_store_node keccak_len); auto|]. intros. apply (keeps_wrap_ext keccak_len).
      * rewrite <- Nx. apply lspec_branch_leaf; auto; [rewrite Nx; auto|].
        apply Forall_forall. intros u Hu. apply repeat_spec in Hu. subst u. apply stored_empty.
      * intros bs s2 St2 [-> Hf2].
        assert (I2 := step_inv _ _ St2).
        assert (HF2 : s_faults s2 <> [] -> bad s (S f) (length (nibs path)) StorageFault).
        { intros Hf. apply HF1. eapply step_faults; eauto. }
        apply spec_bind with (Q1 := fun bs s' => bs = map tref (bsub y c (bleaf x v no_cs))
                                    /\ Forall (stored (s_map s')) (bsub y c (bleaf x v no_cs))); auto.
        -- apply (keeps_branch_extension keccak_len).
        -- intros. apply keeps_bind; [apply (keeps_store_node keccak_len); auto|]. intros. apply (keeps_wrap_ext keccak_len).
        -- rewrite <- Ny. apply lspec_branch_ext; auto; try (rewrite Ny; auto; fail).
           ++ apply bleaf_length; auto.
           ++ eapply step_stored; eauto.
        -- intros bs s3 St3 [-> Hf3].
           assert (I3 := step_inv _ _ St3).
           assert (HF3 : s_faults s3 <> [] -> bad s (S f) (length (nibs path)) StorageFault).
           { intros Hf. apply HF2. eapply step_faults; eauto. }
           apply spec_bind with (Q1 := fun r' s' => r' = tref B /\ here (s_map s') B); auto.
           ++ apply (keeps_store_node keccak_len); auto.
           ++ intros. apply (keeps_wrap_ext keccak_len).
           ++ apply lspec_store_node; auto. cbn. split; [reflexivity|]. destruct x; reflexivity.
           ++ intros r' s4 St4 [-> HB].
              assert (I4 := step_inv _ _ St4). assert (N4 := step_nocoll _ _ St4).
              eapply spec_conseq; [apply lspec_wrap_ext with (t := B)|exact (fun e h => h)|]; auto.
              ** intros Hf. apply HF3. eapply step_faults; eauto.
              ** exact I.
              ** apply stored_branch. split; auto. eapply step_Forall; eauto.
              ** cbv beta. intros a s' [-> Hs']. eauto.
  - (* branch *)
    destruct Hm as [-> <-]. apply lwf_branch in Hw. destruct Hw as (Hl & Hok & Hf).
    apply stored_branch in Hst1. destruct Hst1 as [_ Hsc1].
    destruct (path_cases path) as [[Hz Hn]|(i & q & Hn & Hz & Hi & Hq)].
    + rewrite Hz. cbn [Nat.eqb].
      assert (UB : lupd_of (TBranch cs d) (nibs path) v (TBranch cs v)).
      { split; [apply lwf_branch; auto|]. split; [discriminate|]. split; [|intros _; exact I].
        rewrite Hn. apply takes_branch_value. apply lwf_branch. auto. }
      intros Hnc'.
      assert (SB : small (TBranch cs v)) by (eapply lupd_small; [exact Hsm|exact Hk|eauto]).
      pose proof (lspec_store_node (Branch (map tref cs) v) (TBranch cs v) s1
                 (bad s (S f) (length (nibs path))) I1 HF1 ltac:(cbn; auto) ltac:(apply UB) SB Hnc') as S.
      destruct (keeps_store_node keccak_len (Branch (map tref cs) v) s1 I1) as [K1 K2].
      destruct (store_node _ s1) as [[a|e] s3]; auto. destruct S as [-> Hh].
      eexists. split; [reflexivity|]. split; [exact UB|]. apply stored_branch. split; auto.
      eapply step_Forall; [|exact Hsc1]. unfold step. auto.
    + rewrite Hz. cbn [Nat.eqb]. rewrite Hi.
      pose proof (nibs_ok path) as Hpo. rewrite Hn in Hpo. inversion Hpo as [|? ? Hi16 Hqo]; subst.
      set (i := np_at path 0) in *. set (q := nibs (np_consume path 1)) in *.
      assert (Hnth : nth i (map tref cs) [] = tref (nth i cs TEmpty)).
      { change (@nil byte) with (tref TEmpty). apply map_nth. }
      rewrite Hnth.
      apply spec_bind with (Q1 := fun r' s' => exists t', r' = tref t' /\ lupd_of (nth i cs TEmpty) q v t'
                                   /\ stored (s_map s') t'); auto.
      * apply (keeps_update keccak_len).
      * intros. apply (keeps_store_node keccak_len); auto.
      * eapply spec_conseq; [apply (IH (nth i cs TEmpty))|idtac|exact (fun a s' h => h)];
          auto using lwf_nth, stored_nth.
        -- eapply (small_nth keccak_len); eauto.
        -- fold q. destruct Hk as [K1 K2]. rewrite Hn in K1. cbn [length] in K1. split; auto. lia.
        -- intros e [[-> Hff]|[-> Hff]]; [apply HF1; auto|]. right. split; auto.
           rewrite Hn. fold q in Hff. cbn [length]. lia.
      * intros r' s2 St2 (t' & -> & U & Hst2).
        assert (I2 := step_inv _ _ St2).
        destruct U as (Hwt & Ht' & Hlt & Hbt).
        set (cs' := set_nth i t' cs).
        assert (Hl' : length cs' = 16) by (unfold cs'; rewrite set_nth_length; lia).
        assert (Hnt : forall j, nth j cs' TEmpty = if j =? i then t' else nth j cs TEmpty).
        { intros j. apply nth_set_nth. lia. }
        assert (UB : lupd_of (TBranch cs d) (nibs path) v (TBranch cs' d)).
        { split; [|split; [discriminate|split; [|intros _; exact I]]].
          - apply lwf_branch. split; auto. split; [|apply Forall_set_nth; auto].
            exists i. rewrite Hnt, Nat.eqb_refl. exact Ht'.
          - rewrite Hn. apply takes_child; auto. lia. }
        intros Hnc'.
        assert (SB : small (TBranch cs' d)) by (eapply lupd_small; [exact Hsm|exact Hk|eauto]).
        assert (Hnm : nmatch (Branch (set_nth i (tref t') (map tref cs)) d) (TBranch cs' d)).
        { cbn. split; auto. unfold cs'. rewrite map_set_nth. reflexivity. }
        pose proof (lspec_store_node _ _ s2 (bad s (S f) (length (nibs path))) I2
           ltac:(intros Hff; apply HF1; eapply step_faults; eauto) Hnm ltac:(apply UB) SB Hnc') as S.
        destruct (keeps_store_node keccak_len (Branch (set_nth i (tref t') (map tref cs)) d) s2 I2) as [K1 K2].
        destruct (store_node _ s2) as [[a|e] s3]; auto. destruct S as [-> Hh].
        eexists. split; [reflexivity|]. split; [exact UB|]. apply stored_branch. split; auto.
        assert (St3 : step s2 s3) by (unfold step; auto).
        apply Forall_set_nth; [|eapply step_stored; eauto].
        eapply step_Forall; [exact St3|]. eapply step_Forall; eauto.
Qed.

Definition loutcome (br : Prop) (g : list nat -> option bytes) (a : daction) (s' : store) : Prop :=
  match a with
  | DDeleted => forall q, g q = None
  | DUpdated r => exists t', r = tref t' /\ lwf t' /\ t' <> TEmpty /\ (forall q, lookup t' q = g q) /\
                             stored (s_map s') t' /\ (br -> is_branch t')
  | DUseless p r => exists t', r = tref t' /\ lwf t' /\ (forall q, lookup t' q = g q) /\
                             stored (s_map s') t' /\ br /\
                             ((exists d, t' = TLeaf (nibs p) d) \/ (exists c, t' = TExt (nibs p) c))
  end.

(** Store a node whose children are stored and return its action. *)
Lemma lspec_store_ret : forall n t s (F : exn -> Prop) (k : bytes -> daction) (Q : daction -> store -> Prop),
  sinv s -> nocoll (s_log s) -> (s_faults s <> [] -> F StorageFault) -> nmatch n t -> lwf t -> small t ->
  (forall s', step s s' -> here (s_map s') t -> Q (k (tref t)) s') ->
  spec (mbind (store_node n) (fun r => ret (k r))) s F Q.
Proof.
  intros n t s F k Q Hs Hn HF Hm Hw Hsm HQ.
  apply spec_bind with (Q1 := fun r s' => r = tref t /\ here (s_map s') t); auto.
  - apply (keeps_store_node keccak_len); auto.
  - intros. apply keeps_ret.
  - apply lspec_store_node; auto.
  - intros r s1 St [-> Hh]. apply spec_ret. auto.
Qed.
Lemma lspec_build_new : forall cs s (F : exn -> Prop),
  sinv s -> nocoll (s_log s) -> (s_faults s <> [] -> F StorageFault) ->
  length cs = 16 -> Forall lwf cs -> Forall (stored (s_map s)) cs -> small (TBranch cs []) ->
  count_slots (map tref cs) = 1 ->
  spec (build_new_node (map tref cs)) s F (loutcome True (lookup (TBranch cs []))).
Proof.
  intros cs s F Hs Hn HF Hl Hw Hst Hsm Hc. unfold build_new_node.
  destruct ((count_one keccak_len) cs Hc) as [Hi Hj]. set (i := first_slot (map tref cs) 0) in *.
  pose proof (nth_ne_lt _ _ Hi) as Hi16. rewrite Hl in Hi16.
  assert (Hnth : nth i (map tref cs) [] = tref (nth i cs TEmpty)).
  { change (@nil byte) with (tref TEmpty). apply map_nth. }
  rewrite Hnth. set (c := nth i cs TEmpty) in *.
  assert (Hwc : lwf c) by (apply lwf_nth; auto).
  assert (Hsc : stored (s_map s) c) by (apply stored_nth; auto).
  assert (Hsmc : small c) by (eapply (small_nth keccak_len); eauto).
  (* lookups of the collapsed branch *)
  assert (HL : forall q, lookup (TBranch cs []) q
                = match strip [i] q with Some r => lookup c r | None => None end).
  { intros [|j q]; [reflexivity|]. rewrite lookup_branch. cbn [strip].
    destruct (Nat.eqb_spec i j) as [<-|Hne]; [reflexivity|]. rewrite (Hj j) by auto. reflexivity. }
  apply spec_bind with (Q1 := fun n _ => nmatch n c); auto.
  - apply keeps_rd.
  - intros [|cp nr|]; (apply keeps_bind; [apply (keeps_store_node keccak_len); auto|intros; apply keeps_ret]).
  - apply lspec_rd_node; auto.
  - intros n s1 St Hm.
    assert (I1 := step_inv _ _ St). assert (N1 := step_nocoll _ _ St).
    assert (HF1 : s_faults s1 <> [] -> F StorageFault) by (intros Hf; apply HF; eapply step_faults; eauto).
    assert (Hsc1 : stored (s_map s1) c) by (eapply step_stored; eauto).
    set (pre := mkNp [mkb 0 i] 1). assert (Hpre : nibs pre = [i]) by (apply nibs_pre; auto).
    destruct n as [cp d|cp nr|bs d] eqn:En, c as [|p w|p cc|ccs w] eqn:Ec; cbn [nmatch] in Hm; try contradiction.
    + destruct Hm as [<- <-].
      assert (Hsame : forall q, lookup (TLeaf (nibs (np_combine pre cp)) d) q = lookup (TBranch cs []) q).
      { intros q. rewrite HL, nibs_combine, Hpre. cbn [lookup]. rewrite !leaf_lookup_strip.
        destruct q as [|j q]; [reflexivity|]. cbn [app strip].
        destruct (Nat.eqb_spec i j) as [<-|Hne]; [|reflexivity]. rewrite leaf_lookup_strip. reflexivity. }
      apply lspec_store_ret with (t := TLeaf (nibs (np_combine pre cp)) d); auto.
      * cbn. auto.
      * cbn. apply nibs_ok.
      * eapply small_same; [exact Hsm|]; auto.
      * intros s' St' Hh. cbn [loutcome]. eexists. split; [reflexivity|]. split; [cbn; apply nibs_ok|].
        split; auto. split; [apply stored_leaf; exact Hh|]. split; auto. left. eauto.
    + destruct Hm as [<- ->].
      assert (Hsame : forall q, lookup (TExt (nibs (np_combine pre cp)) cc) q = lookup (TBranch cs []) q).
      { intros q. rewrite HL, nibs_combine, Hpre. cbn [lookup app].
        destruct q as [|j q]; [reflexivity|]. cbn [strip].
        destruct (Nat.eqb_spec i j) as [<-|Hne]; reflexivity. }
      assert (Hwf : lwf (TExt (nibs (np_combine pre cp)) cc)).
      { destruct Hwc as (H1 & H2 & H3 & H4). cbn. repeat split; auto using nibs_ok.
        rewrite nibs_combine, Hpre. discriminate. }
      apply lspec_store_ret with (t := TExt (nibs (np_combine pre cp)) cc); auto.
      * cbn. auto.
      * eapply small_same; [exact Hsm|]; auto.
      * intros s' St' Hh. cbn [loutcome]. eexists. split; [reflexivity|]. split; auto.
        split; auto. split; [|split; auto; right; eauto].
        apply stored_ext. split; auto. eapply step_stored; [exact St'|]. apply stored_ext in Hsc1. apply Hsc1.
    + destruct Hm as [-> <-].
      assert (Hsame : forall q, lookup (TExt (nibs pre) (TBranch ccs d)) q = lookup (TBranch cs []) q).
      { intros q. rewrite HL, Hpre. cbn [lookup strip]. reflexivity. }
      assert (Hwf : lwf (TExt (nibs pre) (TBranch ccs d))).
      { cbn [lwf]. split; [apply nibs_ok|]. split; [rewrite Hpre; discriminate|]. split; [exact I|exact Hwc]. }
      apply lspec_store_ret with (t := TExt (nibs pre) (TBranch ccs d)); auto.
      * cbn [nmatch]. auto.
      * eapply small_same; [exact Hsm|]; auto.
      * intros s' St' Hh. cbn [loutcome]. eexists. split; [reflexivity|]. split; auto.
        split; auto. split; [|split; auto; right; eauto].
        apply stored_ext. split; auto. eapply step_stored; [exact St'|]; auto.
Qed.

Lemma lspec_branch_deleted : forall cs d s (F : exn -> Prop),
  sinv s -> nocoll (s_log s) -> (s_faults s <> [] -> F StorageFault) ->
  length cs = 16 -> Forall lwf cs -> Forall (stored (s_map s)) cs -> small (TBranch cs d) ->
  spec (branch_deleted (map tref cs) d) s F (loutcome True (lookup (TBranch cs d))).
Proof.
  intros cs d s F Hs Hn HF Hl Hw Hst Hsm. unfold branch_deleted.
  destruct (count_slots (map tref cs)) as [|[|c]] eqn:Ec; cbn [Nat.eqb andb].
  - pose proof ((count_zero keccak_len) cs Ec) as Hz.
    destruct (length d =? 0) eqn:Ed; cbn [negb andb].
    + apply len0_eqb in Ed. subst d. apply spec_ret. cbn [loutcome]. intros [|i q]; [reflexivity|].
      rewrite lookup_branch, Hz. reflexivity.
    + assert (Hd : d <> []) by (intros E; apply len0_eqb in E; congruence).
      assert (Hsame : forall q, lookup (TLeaf (nibs (mkNp [] 0)) d) q = lookup (TBranch cs d) q).
      { intros [|j q].
        - rewrite lookup_branch_nil by auto. reflexivity.
        - rewrite lookup_branch, Hz. reflexivity. }
      apply lspec_store_ret with (t := TLeaf (nibs (mkNp [] 0)) d); auto.
      * cbn. auto.
      * cbn. constructor.
      * eapply small_same; [exact Hsm|]; auto.
      * intros s' St' Hh. cbn [loutcome]. eexists. split; [reflexivity|].
        split; [cbn; constructor|]. split; auto.
        split; [apply stored_leaf; exact Hh|]. split; auto. left. eauto.
  - destruct (length d =? 0) eqn:Ed; cbn [negb andb].
    + apply len0_eqb in Ed. subst d. apply lspec_build_new; auto.
    + assert (Hd : d <> []) by (intros E; apply len0_eqb in E; congruence).
      assert (Hwf : lwf (TBranch cs d)).
      { apply lwf_branch. repeat split; auto. apply (count_pos keccak_len). lia. }
      apply lspec_store_ret with (t := TBranch cs d); auto.
      * cbn. auto.
      * intros s' St' Hh. cbn [loutcome]. eexists. split; [reflexivity|]. split; auto.
        split; [discriminate|]. split; auto. split; [|intros _; exact I].
        apply stored_branch. split; auto. eapply step_Forall; eauto.
  - assert (Hwf : lwf (TBranch cs d)).
    { apply lwf_branch. repeat split; auto. apply (count_pos keccak_len). lia. }
    apply lspec_store_ret with (t := TBranch cs d); auto.
    + cbn. auto.
    + intros s' St' Hh. cbn [loutcome]. eexists. split; [reflexivity|]. split; auto.
      split; [discriminate|]. split; auto. split; [|intros _; exact I].
      apply stored_branch. split; auto. eapply step_Forall; eauto.
Qed.

Lemma loutcome_ext : forall (br : Prop) g g' a s, (forall q, g q = g' q) -> loutcome br g a s -> loutcome br g' a s.
Proof.
  intros br g g' a s E. destruct a as [|r|p r]; cbn [loutcome].
  - intros H1 q. rewrite <- E. auto.
  - intros (t' & H1 & H2 & H3 & H4 & H5). exists t'. repeat split; auto. 
    + intros q. rewrite <- E. auto.
    + apply H5.
    + apply H5.
  - intros (t' & H1 & H2 & H3 & H4). exists t'. repeat split; auto; try apply H4.
    intros q. rewrite <- E. auto.
Qed.

Theorem ldelete_spec : forall fuel t path s,
  sinv s -> nocoll (s_log s) -> t <> TEmpty -> lwf t -> small t -> stored (s_map s) t ->
  spec (delete_ fuel (tref t) path) s (badD s fuel t (nibs path))
    (fun a s' => lookup t (nibs path) <> None /\ loutcome (is_branch t) (without (lookup t) (nibs path)) a s').
Proof.
  induction fuel as [|f IH]; intros t path s Hs Hnc Hne Hw Hsm Hst.
  { apply spec_raise. left. right. split; auto. lia. }
  rewrite delete_unfold.
  assert (HF : s_faults s <> [] -> badD s (S f) t (nibs path) StorageFault) by (left; left; auto).
  apply spec_bind with (Q1 := fun n _ => nmatch n t); auto using keeps_rd, (keeps_delete_cont keccak_len).
  { apply lspec_rd_node; auto. }
  intros n s1 St1 Hm.
  assert (I1 := step_inv _ _ St1). assert (N1 := step_nocoll _ _ St1).
  assert (HF1 : s_faults s1 <> [] -> badD s (S f) t (nibs path) StorageFault).
  { intros Hf. apply HF. eapply step_faults; eauto. }
  assert (Hst1 : stored (s_map s1) t) by (eapply step_stored; eauto).
  destruct n as [lp d|ep nr|bs d], t as [|p w|p c|cs w]; cbn [nmatch] in Hm; try contradiction; cbn [delete_cont].
  - (* leaf *)
    destruct Hm as [<- <-]. destruct (np_eq path lp) eqn:Eq.
    + apply np_eq_spec in Eq. apply spec_ret. rewrite Eq, lookup_leaf_self. split; [discriminate|].
      cbn [loutcome is_branch]. intros q. unfold without. cbn [lookup].
      destruct (path_dec q (nibs lp)); reflexivity.
    + apply np_eq_false in Eq. apply spec_raise. right. cbn.
      destruct (path_dec (nibs path) (nibs lp)); congruence.
  - (* extension *)
    destruct Hm as [<- ->]. destruct Hw as (Hp & Hpn & Hb & Hwc). apply stored_ext in Hst1 as [_ Hsc1].
    rewrite np_starts_with_spec. destruct (strip (nibs ep) (nibs path)) as [q|] eqn:Eq.
    2:{ apply spec_raise. right. cbn. rewrite Eq. reflexivity. }
    pose proof (np_starts_with_skip _ _ _ Eq) as Hq. apply strip_spec in Eq.
    assert (Hlen : length (nibs path) = length (nibs ep) + length q) by (rewrite Eq, app_length; auto).
    assert (Hep : 0 < length (nibs ep)) by (destruct (nibs ep); [congruence|cbn; lia]).
    assert (Hlk : lookup (TExt (nibs ep) c) (nibs path) = lookup c q) by (rewrite Eq; apply lookup_ext_app).
    assert (Hwo : forall u, without (lookup (TExt (nibs ep) c)) (nibs path) u
                  = match strip (nibs ep) u with Some z => without (lookup c) q z | None => None end).
    { intros u. unfold without. cbn [lookup]. rewrite Eq. destruct (strip (nibs ep) u) as [z|] eqn:Eu.
      - apply strip_spec in Eu. subst u. destruct (path_dec (nibs ep ++ z) (nibs ep ++ q)) as [F|Hn].
        + apply app_inv_head in F. destruct (path_dec z q); congruence.
        + destruct (path_dec z q); [congruence|reflexivity].
      - destruct (path_dec u (nibs ep ++ q)); reflexivity. }
    apply spec_bind with (Q1 := fun a s' => lookup c q <> None /\
                                  loutcome (is_branch c) (without (lookup c) q) a s'); auto.
    + apply (keeps_delete keccak_len).
    + intros [|cr|sp sr]; [apply keeps_ret| |].
      * apply keeps_bind; [apply (keeps_store_node keccak_len); auto|intros; apply keeps_ret].
      * apply keeps_bind; [apply keeps_rd|]. intros.
        apply keeps_bind; [apply (keeps_store_node keccak_len); auto|intros; apply keeps_ret].
    + rewrite <- Hq. eapply spec_conseq; [apply (IH c)|idtac|exact (fun a s' h => h)]; auto using branch_ne.
      * eapply (small_ext keccak_len); eauto.
      * rewrite Hq. intros e [[[-> Hf]|[-> Hf]]|Hf].
        -- apply HF1; auto.
        -- left. right. split; auto. lia.
        -- right. rewrite Hlk. exact Hf.
    + intros a s2 St2 [Hpres Hout].
      assert (I2 := step_inv _ _ St2). assert (N2 := step_nocoll _ _ St2).
      assert (HF2 : s_faults s2 <> [] -> badD s (S f) (TExt (nibs ep) c) (nibs path) StorageFault).
      { intros Hf. apply HF1. eapply step_faults; eauto. }
      destruct a as [|cr|sp sr]; cbn [loutcome] in Hout.
      * apply spec_ret. split; [rewrite Hlk; exact Hpres|]. cbn [loutcome]. intros u. rewrite Hwo.
        destruct (strip (nibs ep) u); auto.
      * destruct Hout as (t' & -> & Hwt & Htn & Hlt & Hst2 & Hbt).
        assert (Hsame : forall u, lookup (TExt (nibs ep) t') u
                          = without (lookup (TExt (nibs ep) c)) (nibs path) u).
        { intros u. rewrite Hwo. cbn [lookup]. destruct (strip (nibs ep) u); auto. }
        assert (Hwf : lwf (TExt (nibs ep) t')) by (cbn; auto).
        apply lspec_store_ret with (t := TExt (nibs ep) t'); auto.
        -- cbn. auto.
        -- eapply without_small; [exact Hsm|]; auto.
        -- intros s' St' Hh. split; [rewrite Hlk; exact Hpres|]. cbn [loutcome is_branch].
           eexists. split; [reflexivity|]. split; auto. split; [discriminate|]. split; auto.
           split; [|tauto]. apply stored_ext. split; auto. eapply step_stored; [exact St'|]; auto.
      * destruct Hout as (t' & -> & Hwt & Hlt & Hst2 & _ & Hshape).
        assert (Htn : t' <> TEmpty) by (destruct Hshape as [[? ->]|[? ->]]; discriminate).
        assert (Hsmt : small t').
        { eapply without_small; [|exact Hlt]. eapply (small_ext keccak_len); eauto. }
        apply spec_bind with (Q1 := fun n _ => nmatch n t'); auto using keeps_rd.
        -- intros. apply keeps_bind; [apply (keeps_store_node keccak_len); auto|intros; apply keeps_ret].
        -- apply lspec_rd_node; auto.
        -- intros child s3 St3 Hm3.
           assert (I3 := step_inv _ _ St3). assert (N3 := step_nocoll _ _ St3).
           assert (HF3 : s_faults s3 <> [] -> badD s (S f) (TExt (nibs ep) c) (nibs path) StorageFault).
           { intros Hf. apply HF2. eapply step_faults; eauto. }
           assert (Hst3 : stored (s_map s3) t') by (eapply step_stored; eauto).
           destruct Hshape as [[d ->]|[cc ->]]; destruct child as [cp d'|cp cr|]; cbn [nmatch] in Hm3; try contradiction.
           ++ destruct Hm3 as [Hcp ->].
              assert (Hsame : forall u, lookup (TLeaf (nibs (np_combine ep cp)) d) u
                          = without (lookup (TExt (nibs ep) c)) (nibs path) u).
              { intros u. rewrite Hwo, nibs_combine. cbn [lookup].
                destruct (strip (nibs ep) u) as [z|] eqn:Eu.
                - apply strip_spec in Eu. subst u. rewrite <- Hlt. cbn [lookup]. rewrite Hcp.
                  destruct (path_dec z (nibs sp)) as [->|Hn].
                  + destruct (path_dec (nibs ep ++ nibs sp) (nibs ep ++ nibs sp)); congruence.
                  + destruct (path_dec (nibs ep ++ z) (nibs ep ++ nibs sp)) as [F|_]; auto.
                    apply app_inv_head in F. congruence.
                - destruct (path_dec u (nibs ep ++ nibs cp)) as [->|_]; auto.
                  exfalso. rewrite strip_None in Eu. eapply Eu; eauto. }
              assert (Hwf : lwf (TLeaf (nibs (np_combine ep cp)) d)).
              { cbn. apply nibs_ok. }
              apply lspec_store_ret with (t := TLeaf (nibs (np_combine ep cp)) d); auto.
              ** cbn. auto.
              ** eapply without_small; [exact Hsm|]; auto.
              ** intros s' St' Hh. split; [rewrite Hlk; exact Hpres|]. cbn [loutcome is_branch].
                 eexists. split; [reflexivity|]. split; auto. split; [discriminate|]. split; auto.
                 split; [|tauto]. apply stored_leaf. exact Hh.
           ++ destruct Hm3 as [Hcp ->].
              assert (Hsame : forall u, lookup (TExt (nibs (np_combine ep cp)) cc) u
                          = without (lookup (TExt (nibs ep) c)) (nibs path) u).
              { intros u. rewrite Hwo, nibs_combine. cbn [lookup].
                destruct (strip (nibs ep) u) as [z|] eqn:Eu.
                - apply strip_spec in Eu. subst u. rewrite <- Hlt. cbn [lookup]. rewrite Hcp.
                  replace (strip (nibs ep ++ nibs sp) (nibs ep ++ z)) with (strip (nibs sp) z); auto.
                  clear. induction (nibs ep) as [|a l IHl]; auto. cbn. rewrite Nat.eqb_refl. auto.
                - destruct (strip (nibs ep ++ nibs cp) u) as [z|] eqn:Ez; auto.
                  exfalso. apply strip_spec in Ez. rewrite <- app_assoc in Ez.
                  rewrite strip_None in Eu. eapply Eu; eauto. }
              assert (Hwf : lwf (TExt (nibs (np_combine ep cp)) cc)).
              { destruct Hwt as (A1 & A2 & A3 & A4). cbn. repeat split; auto using nibs_ok.
                rewrite nibs_combine. destruct (nibs ep); [congruence|discriminate]. }
              apply lspec_store_ret with (t := TExt (nibs (np_combine ep cp)) cc); auto.
              ** cbn. auto.
              ** eapply without_small; [exact Hsm|]; auto.
              ** intros s' St' Hh. split; [rewrite Hlk; exact Hpres|]. cbn [loutcome is_branch].
                 eexists. split; [reflexivity|]. split; auto. split; [discriminate|]. split; auto.
                 split; [|tauto]. apply stored_ext. split; auto. eapply step_stored; [exact St'|].
                 apply stored_ext in Hst3. apply Hst3.
  - (* branch *)
    destruct Hm as [-> <-]. apply lwf_branch in Hw. destruct Hw as (Hl & Hok & Hf).
    apply stored_branch in Hst1. destruct Hst1 as [_ Hsc1].
    destruct (path_cases path) as [[Hz Hn]|(i & q & Hn & Hz & Hi & Hq)].
    + rewrite Hz. cbn [Nat.eqb andb]. destruct (length d =? 0) eqn:Ed.
      { apply spec_raise. right. apply len0_eqb in Ed. subst d. rewrite Hn. reflexivity. }
      assert (Hd : d <> []) by (intros E; apply len0_eqb in E; congruence).
      assert (Hsame : forall u, lookup (TBranch cs []) u = without (lookup (TBranch cs d)) (nibs path) u).
      { intros u. unfold without. rewrite Hn. destruct u as [|j u]; [reflexivity|].
        destruct (path_dec (j :: u) []); [discriminate|]. rewrite !lookup_branch. reflexivity. }
      eapply spec_conseq; [apply lspec_branch_deleted with (F := badD s (S f) (TBranch cs d) (nibs path))|exact (fun e h => h)|]; auto.
      * eapply without_small; [exact Hsm|]; auto.
      * cbv beta. intros a s' Ho. split; [rewrite Hn, lookup_branch_nil by auto; discriminate|].
        eapply loutcome_ext; eauto.
    + rewrite Hz. cbn [Nat.eqb andb]. rewrite Hi.
      pose proof (nibs_ok path) as Hpo. rewrite Hn in Hpo. inversion Hpo as [|? ? Hi16 Hqo]. subst x l.
      assert (Hnth : nth i (map tref cs) [] = tref (nth i cs TEmpty)).
      { change (@nil byte) with (tref TEmpty). apply map_nth. }
      rewrite Hnth.
      assert (Hlk : lookup (TBranch cs d) (nibs path) = lookup (nth i cs TEmpty) q) by (rewrite Hn; apply lookup_branch).
      destruct (Nat.eqb_spec (length (tref (nth i cs TEmpty))) 0) as [E0|E0].
      { apply spec_raise. right. apply (tref_len0 keccak_len) in E0. rewrite Hlk, E0. reflexivity. }
      assert (Hce : nth i cs TEmpty <> TEmpty) by (intros E; rewrite E in E0; apply E0; reflexivity).
      set (c := nth i cs TEmpty) in *.
      assert (Hwo : forall t', (forall u, lookup t' u = without (lookup c) q u) ->
                forall u, lookup (TBranch (set_nth i t' cs) d) u = without (lookup (TBranch cs d)) (nibs path) u).
      { intros t' Ht' u. unfold without in *. rewrite Hn. destruct u as [|j u].
        - destruct (path_dec [] (i :: q)); [discriminate|reflexivity].
        - rewrite !lookup_branch, nth_set_nth by lia. destruct (Nat.eqb_spec j i) as [->|Hj].
          + rewrite Ht'. fold c. destruct (path_dec u q), (path_dec (i :: u) (i :: q)); cgr.
          + destruct (path_dec (j :: u) (i :: q)); [congruence|reflexivity]. }
      apply spec_bind with (Q1 := fun a s' => lookup c q <> None /\
                                  loutcome (is_branch c) (without (lookup c) q) a s'); auto.
      * apply (keeps_delete keccak_len).
      * intros [|nr|sp nr]; [apply (keeps_branch_deleted keccak_len)| |];
          (apply keeps_bind; [apply (keeps_store_node keccak_len); auto|intros; apply keeps_ret]).
      * rewrite <- Hq. eapply spec_conseq; [apply (IH c)|idtac|exact (fun a s' h => h)]; auto.
        -- apply lwf_nth; auto.
        -- eapply (small_nth keccak_len); eauto.
        -- apply stored_nth; auto.
        -- rewrite Hq. intros e [[[-> Hff]|[-> Hff]]|Hff].
           ++ apply HF1; auto.
           ++ left. right. split; auto. rewrite Hn. cbn [length]. lia.
           ++ right. rewrite Hlk. exact Hff.
      * intros a s2 St2 [Hpres Hout].
        assert (I2 := step_inv _ _ St2). assert (N2 := step_nocoll _ _ St2).
        assert (HF2 : s_faults s2 <> [] -> badD s (S f) (TBranch cs d) (nibs path) StorageFault).
        { intros Hff. apply HF1. eapply step_faults; eauto. }
        assert (Hsc2 : Forall (stored (s_map s2)) cs) by (eapply step_Forall; eauto).
        (* the child is replaced by a non-empty tree *)
        assert (Hrepl : forall t', lwf t' -> t' <> TEmpty -> (forall u, lookup t' u = without (lookup c) q u) ->
                  stored (s_map s2) t' ->
                  spec (mbind (store_node (Branch (set_nth i (tref t') (map tref cs)) d)) (fun r' => ret (DUpdated r')))
                    s2 (badD s (S f) (TBranch cs d) (nibs path))
                    (fun a s' => lookup (TBranch cs d) (nibs path) <> None /\
                       loutcome (is_branch (TBranch cs d)) (without (lookup (TBranch cs d)) (nibs path)) a s')).
        { intros t' Hwt Htn Hlt Hst2.
          assert (Hwf : lwf (TBranch (set_nth i t' cs) d)).
          { apply lwf_branch. split; [rewrite set_nth_length; lia|]. split; [|apply Forall_set_nth; auto].
            exists i. rewrite nth_set_nth by lia. rewrite Nat.eqb_refl. exact Htn. }
          apply lspec_store_ret with (t := TBranch (set_nth i t' cs) d); auto.
          - cbn. rewrite map_set_nth. auto.
          - eapply without_small; [exact Hsm|]. apply Hwo. auto.
          - intros s' St' Hh. split; [rewrite Hlk; exact Hpres|]. cbn [loutcome].
            eexists. split; [reflexivity|]. split; auto. split; [discriminate|]. split; [apply Hwo; auto|].
            split; [|intros _; exact I]. apply stored_branch. split; auto.
            apply Forall_set_nth; [eapply step_Forall; eauto|eapply step_stored; eauto]. }
        destruct a as [|nr|sp nr]; cbn [loutcome] in Hout.
        -- rename Hout into Hnone.
           change (@nil byte) with (tref TEmpty). rewrite <- map_set_nth.
           assert (Hsame := Hwo TEmpty ltac:(intros u; symmetry; apply Hnone)).
           eapply spec_conseq; [apply lspec_branch_deleted with (F := badD s (S f) (TBranch cs d) (nibs path))|exact (fun e h => h)|]; auto.
           ++ rewrite set_nth_length; lia.
           ++ apply Forall_set_nth; auto. exact I.
           ++ apply Forall_set_nth; auto. apply stored_empty.
           ++ eapply without_small; [exact Hsm|]; auto.
           ++ cbv beta. intros a s' Ho. split; [rewrite Hlk; exact Hpres|].
              eapply loutcome_ext; eauto.
        -- destruct Hout as (t' & -> & Hwt & Htn & Hlt & Hst2 & _). apply Hrepl; auto.
        -- destruct Hout as (t' & -> & Hwt & Hlt & Hst2 & _ & Hshape). apply Hrepl; auto.
           destruct Hshape as [[? ->]|[? ->]]; discriminate.
Qed.

Lemma lget_present : forall fuel m t path v, lwf t -> small t -> stored m t ->
  lookup t (nibs path) = Some v -> length (nibs path) < fuel ->
  exists n, get_ fuel m (tref t) path = Ok n /\ node_data n = Ok v.
Proof.
  induction fuel as [|f IH]; intros m t path v Hw Hs St El Hf; [lia|].
  assert (Hne : t <> TEmpty) by (intros ->; discriminate).
  destruct (lget_node_stored m t Hne Hw Hs (here_of_stored _ _ St)) as (n & En & Hm).
  cbn [get_]. rewrite En.
  destruct n as [lp d|ep nr|bs d], t as [|p w|p c|cs w]; cbn [nmatch] in Hm; try contradiction.
  - destruct Hm as [<- <-]. apply leaf_key_inv in El. destruct El as [Ep ->].
    replace (np_eq lp path) with true by (symmetry; apply np_eq_spec; auto).
    destruct (np_len path =? 0); eexists; split; reflexivity.
  - destruct Hm as [<- ->]. cbn [lookup] in El.
    destruct (strip (nibs ep) (nibs path)) as [r|] eqn:Es; [|discriminate].
    rewrite np_starts_with_spec, Es. pose proof (np_starts_with_skip _ _ _ Es) as Er.
    apply strip_spec in Es. destruct Hw as (_ & Hep & _ & Hwc).
    assert (Hep' : length (nibs ep) <> 0) by (destruct (nibs ep); cbn; congruence).
    assert (Hl := f_equal (@length nat) Es). rewrite app_length in Hl.
    replace (np_len path =? 0) with false by (symmetry; apply Nat.eqb_neq; rewrite np_len_spec; lia).
    apply IH; auto; try (rewrite Er; auto; lia).
    + eapply (small_ext keccak_len); eauto.
    + apply stored_ext in St. apply St.
  - destruct Hm as [-> <-]. apply lwf_branch in Hw. destruct Hw as (_ & _ & Hwc).
    apply stored_branch in St. destruct St as [_ St].
    destruct (path_cases path) as [[Hz Hn]|(i & q & Hn & Hz & Hi & Hq)]; rewrite Hz; cbn [Nat.eqb].
    + rewrite Hn in El. cbn in El. destruct d; [discriminate|]. eexists. split; [reflexivity|exact (f_equal _ (eq_sym (f_equal (fun o => match o with Some x => x | None => [] end) El))) || (cbn; congruence)].
    + rewrite Hi, nth_map_tref. rewrite Hn, lookup_branch in El.
      assert (Hc : nth i cs TEmpty <> TEmpty) by (intros Ec; rewrite Ec in El; discriminate).
      replace (0 <? length (tref (nth i cs TEmpty))) with true by (symmetry; apply (tref_pos keccak_len); auto).
      apply IH; auto using lwf_nth, stored_nth; try (rewrite Hq; auto).
      * eapply (small_nth keccak_len); eauto.
      * rewrite Hn in Hf. cbn [length] in Hf. lia.
Qed.

(** Whatever [get_] returns: the value of the key, or something found on the way to a proper extension. *)
Lemma lget_Ok_inv : forall fuel m t path n v, t <> TEmpty -> lwf t -> small t -> stored m t ->
  get_ fuel m (tref t) path = Ok n -> node_data n = Ok v ->
  lookup t (nibs path) = Some v \/
  (lookup t (nibs path) = None /\ exists x r w, lookup t (nibs path ++ x :: r) = Some w /\ (v = [] \/ v = w)).
Proof.
  induction fuel as [|f IH]; intros m t path n v Hne Hw Hs St; cbn [get_]; [discriminate|].
  destruct (lget_node_stored m t Hne Hw Hs (here_of_stored _ _ St)) as (n0 & E0 & En). rewrite E0. intros Eg Ev.
  destruct n0 as [lp d|ep nr|bs d], t as [|p w|p c|cs w]; cbn [nmatch] in En; try contradiction.
  - destruct En as [<- <-].
    assert (Hd : n = Leaf lp d).
    { destruct (np_len path =? 0); [congruence|]. destruct (np_eq lp path); congruence. }
    subst n. injection Ev as <-.
    destruct (np_eq lp path) eqn:Eq.
    + apply np_eq_spec in Eq. left. rewrite <- Eq. apply lookup_leaf_self.
    + destruct (path_cases path) as [[Hz Hn]|(i & q & Hn & Hz & Hi & Hq)]; rewrite Hz in Eg; cbn [Nat.eqb] in Eg; [|discriminate].
      right. apply np_eq_false in Eq. rewrite Hn in *. destruct (nibs lp) as [|x r] eqn:El; [congruence|].
      split; [cbn; destruct (path_dec [] (x :: r)); [discriminate|reflexivity]|].
      exists x, r, d. split; auto. cbn [app]. apply lookup_leaf_self.
  - destruct En as [<- ->]. destruct Hw as (Hep & Hep0 & Hb & Hwc).
    destruct (np_len path =? 0) eqn:Ez; [injection Eg as <-; discriminate|].
    rewrite np_starts_with_spec in Eg. destruct (strip (nibs ep) (nibs path)) as [r|] eqn:Es; [|discriminate].
    pose proof (np_starts_with_skip _ _ _ Es) as Er. apply strip_spec in Es.
    assert (Hc : c <> TEmpty) by (intros ->; contradiction).
    apply stored_ext in St. destruct St as [_ St].
    destruct (IH m c _ n v Hc Hwc (small_ext keccak_len _ _ Hs) St Eg Ev) as [E|(E1 & x & r' & w & E2 & Hv)]; rewrite Er in *.
    + left. rewrite Es, lookup_ext_app. exact E.
    + right. rewrite Es, lookup_ext_app. split; auto. exists x, r', w. split; auto. rewrite <- app_assoc, lookup_ext_app. exact E2.
  - destruct En as [-> <-]. assert (Hw0 := Hw). apply lwf_branch in Hw. destruct Hw as (Hlen & Hok & Hwc).
    apply stored_branch in St. destruct St as [_ St].
    destruct (path_cases path) as [[Hz Hn]|(i & q & Hn & Hz & Hi & Hq)]; rewrite Hz in Eg; cbn [Nat.eqb] in Eg.
    + injection Eg as <-. injection Ev as <-. rewrite Hn. destruct d as [|x d].
      * right. destruct Hok as (i & Hi). split; [reflexivity|].
        destruct (lwf_has_key _ (lwf_nth cs i Hwc) Hi) as (q & w & E). exists i, q, w.
        cbn [app]. rewrite lookup_branch. auto.
      * left. reflexivity.
    + rewrite Hi, nth_map_tref in Eg. destruct (0 <? _) eqn:Ep; [|discriminate]. apply (tref_pos keccak_len) in Ep; auto.
      destruct (IH m (nth i cs TEmpty) _ n v Ep (lwf_nth _ _ Hwc) (small_nth keccak_len _ _ _ Hs) (stored_nth _ _ _ St) Eg Ev)
        as [E|(E1 & x & r' & w & E2 & Hv)]; rewrite Hq in *; rewrite Hn, lookup_branch.
      * left. exact E.
      * right. split; auto. exists x, r', w. split; auto. cbn [app]. rewrite lookup_branch. exact E2.
Qed.

Lemma lcontains_stored : forall fuel m t path, t <> TEmpty -> lwf t -> small t -> stored m t ->
  match contains_ fuel m (tref t) path with
  | Ok x => verdict x = true <-> lookup t (nibs path) <> None \/ false_hit t (nibs path)
  | Err e => e = RecursionError /\ fuel <= length (nibs path)
  end.
Proof.
  induction fuel as [|f IH]; intros m t path Hne Hw Hs St; cbn [contains_]; [split; [auto|lia]|].
  destruct (lget_node_stored m t Hne Hw Hs (here_of_stored _ _ St)) as (n & En & Hm). rewrite En.
  destruct n as [lp d|ep nr|bs d], t as [|p w|p c|cs w]; cbn [nmatch] in Hm; try contradiction.
  - destruct Hm as [<- <-].
    replace (if np_len path =? 0 then Ok (Leaf lp d, path) else Ok (Leaf lp d, path))
      with (@Ok (node * np) (Leaf lp d, path)) by (destruct (np_len path =? 0); reflexivity).
    cbn [verdict]. rewrite np_eq_spec. split.
    + intros <-. left. rewrite lookup_leaf_self. discriminate.
    + intros [E|(pre & x & r & w & _ & E & (r' & w' & Hr & E') & _)].
      * destruct (lookup _ _) eqn:El; [|congruence]. apply leaf_key_inv in El. destruct El. congruence.
      * apply leaf_key_inv in E. apply leaf_key_inv in E'. destruct E as [-> _], E' as [E' _].
        exfalso. apply Hr. apply (app_inv_head (nibs lp)). rewrite app_nil_r. exact E'.
  - destruct Hm as [<- ->]. destruct Hw as (Hep & Hep0 & Hb & Hwc).
    assert (Hep' : length (nibs ep) <> 0) by (destruct (nibs ep); cbn; congruence).
    assert (Hc : c <> TEmpty) by (intros ->; contradiction).
    apply stored_ext in St. destruct St as [_ St].
    assert (Hff : forall r, nibs path = nibs ep ++ r ->
              (false_hit (TExt (nibs ep) c) (nibs path) <-> false_hit c r)).
    { intros r Er. rewrite Er. split.
      - intros (pre & x & q & w & Eq & E & (r' & w' & Hr & E') & Hn).
        apply ext_key_inv in E. destruct E as (pre' & -> & E). rewrite <- app_assoc in Eq.
        apply app_inv_head in Eq. exists pre', x, q, w. split; auto. split; auto. split.
        + exists r', w'. split; auto. rewrite <- app_assoc, lookup_ext_app in E'. exact E'.
        + intros z. specialize (Hn z). rewrite <- app_assoc, lookup_ext_app in Hn. exact Hn.
      - intros (pre & x & q & w & -> & E & (r' & w' & Hr & E') & Hn).
        exists (nibs ep ++ pre), x, q, w. rewrite app_assoc. split; auto. rewrite lookup_ext_app. split; auto. split.
        + exists r', w'. split; auto. rewrite <- app_assoc, lookup_ext_app. exact E'.
        + intros z. rewrite <- app_assoc, lookup_ext_app. auto. }
    destruct (strip (nibs ep) (nibs path)) as [r|] eqn:Es.
    + rewrite np_starts_with_spec, Es. pose proof (np_starts_with_skip _ _ _ Es) as Er. apply strip_spec in Es.
      assert (Hl := f_equal (@length nat) Es). rewrite app_length in Hl.
      replace (np_len path =? 0) with false by (symmetry; apply Nat.eqb_neq; rewrite np_len_spec; lia).
      specialize (IH m c (np_consume path (np_len ep)) Hc Hwc (small_ext keccak_len _ _ Hs) St).
      destruct (contains_ f m (tref c) _) as [x|e]; rewrite Er in IH.
      * rewrite IH, (Hff _ Es), Es, lookup_ext_app. tauto.
      * destruct IH as [-> Hf]. split; auto. lia.
    + rewrite np_starts_with_spec, Es.
      replace (if np_len path =? 0 then Ok (Extension ep (tref c), path) else Ok (Extension ep (tref c), path))
        with (@Ok (node * np) (Extension ep (tref c), path)) by (destruct (np_len path =? 0); reflexivity).
      cbn [verdict lookup]. rewrite Es. split; [discriminate|].
      intros [E|(pre & x & r & w & Eq & E & _)]; [congruence|]. exfalso.
      apply ext_key_inv in E. destruct E as (pre' & -> & _). rewrite <- app_assoc in Eq.
      apply (proj1 (strip_None _ _) Es _ Eq).
  - destruct Hm as [-> <-]. assert (Hw0 := Hw). apply lwf_branch in Hw. destruct Hw as (Hlen & Hok & Hwc).
    apply stored_branch in St. destruct St as [_ St].
    destruct (path_cases path) as [[Hz Hn]|(i & q & Hn & Hz & Hi & Hq)]; rewrite Hz; cbn [Nat.eqb].
    + rewrite Hn. cbn [verdict lookup]. destruct d as [|x d]; cbn.
      * split; [discriminate|]. intros [E|(pre & x & r & w & Eq & _)]; [congruence|].
        destruct pre; discriminate.
      * split; [|reflexivity]. intros _. left. discriminate.
    + rewrite Hi, nth_map_tref, Hn, lookup_branch.
      destruct (0 <? _) eqn:Ep.
      * apply (tref_pos keccak_len) in Ep; auto.
        assert (Hff : false_hit (TBranch cs d) (i :: q) <-> false_hit (nth i cs TEmpty) q).
        { split.
          - intros (pre & x & r & w & Eq & E & (r' & w' & Hr & E') & Hx). destruct pre as [|j pre].
            + injection Eq as <- <-. exfalso. destruct (lwf_has_key _ (lwf_nth cs i Hwc) Ep) as (z & u & Ez).
              specialize (Hx z). cbn [app] in Hx. rewrite lookup_branch in Hx. congruence.
            + injection Eq as <- ->. rewrite lookup_branch in E. exists pre, x, r, w. split; auto. split; auto.
              split.
              * exists r', w'. split; auto. cbn [app] in E'. rewrite lookup_branch in E'. exact E'.
              * intros z. specialize (Hx z). cbn [app] in Hx. rewrite lookup_branch in Hx. exact Hx.
          - intros (pre & x & r & w & -> & E & (r' & w' & Hr & E') & Hx).
            exists (i :: pre), x, r, w. split; auto. rewrite lookup_branch. split; auto. split.
            + exists r', w'. split; auto. cbn [app]. rewrite lookup_branch. exact E'.
            + intros z. cbn [app]. rewrite lookup_branch. auto. }
        specialize (IH m (nth i cs TEmpty) (np_consume path 1) Ep (lwf_nth _ _ Hwc) (small_nth keccak_len _ _ _ Hs) (stored_nth _ _ _ St)).
        destruct (contains_ f m _ _) as [x|e]; rewrite Hq in IH.
        -- rewrite IH, Hff. tauto.
        -- destruct IH as [-> Hf]. split; auto. cbn [length]. lia.
      * assert (Hc : nth i cs TEmpty = TEmpty).
        { destruct (tree_empty_dec (nth i cs TEmpty)) as [->|Hc]; [reflexivity|].
          apply (tref_pos keccak_len) in Hc. congruence. }
        rewrite Hc. cbn [verdict lookup]. destruct d as [|y d]; cbn.
        -- split; [discriminate|]. intros [E|(pre & x & r & w & Eq & E & _)]; [congruence|].
           destruct pre as [|j pre]; [discriminate|]. injection Eq as <- ->.
           rewrite lookup_branch, Hc in E. discriminate.
        -- split; [|reflexivity]. intros _. right. exists [], i, q, (y :: d). split; auto. split; auto. split.
           ++ destruct Hok as (a & Ha);
              destruct (lwf_has_key _ (lwf_nth cs a Hwc) Ha) as (z & u & Ez); exists (a :: z), u;
              (split; [discriminate|]); cbn [app]; rewrite lookup_branch; exact Ez.
           ++ intros z. cbn [app]. rewrite lookup_branch, Hc. reflexivity.
Qed.


End Loose.
