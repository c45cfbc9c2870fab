(** Proofs of exclusion: when the generated proof is accepted, and forgeries. *)
From Coq Require Import List Bool Arith NArith ZArith Lia.
From Verif Require Import Base BaseProofs Rlp RlpProofs NibblePath NibbleProofs Node ProofObj Mpt Tree TreeEnc
  StoreProofs UpdateProofs DeleteProofs ReadProofs Spec SpecCodec SpecProof MptRefine MptProofs PoiProofs.
Import ListNotations.

Section Poe.
Context {H : Hash}.
Hypothesis keccak_len : forall b, length (keccak b) = 32.

(** ** Values of 32 bytes and more: every node is filed by hash. *)
Definition big_values (t : tree) : Prop := forall q v, lookup t q = Some v -> 32 <= length v.

Lemma big_ext : forall p c, big_values (TExt p c) -> big_values c.
Proof. intros p c Hb q v E. apply (Hb (p ++ q)). rewrite lookup_ext_app. exact E. Qed.
Lemma big_nth : forall cs v i, big_values (TBranch cs v) -> big_values (nth i cs TEmpty).
Proof. intros cs v i Hb q w E. apply (Hb (i :: q)). rewrite lookup_branch. exact E. Qed.

Lemma renc_ge : forall i, length (payload i) <= length (renc i).
Proof. intros i. pose proof (payload_len i) as Hp. unfold blen in Hp. lia. Qed.

Lemma flat_map_in_length : forall i l, In i l -> length (renc i) <= length (flat_map renc l).
Proof. intros i l Hi. pose proof (flat_map_len_in i l Hi) as Hp. unfold blen in Hp. lia. Qed.

Lemma renc_list_in : forall i l, In i l -> length (renc i) <= length (renc (IList l)).
Proof.
  intros i l Hi. pose proof (renc_ge (IList l)) as Hp. pose proof (flat_map_in_length i l Hi) as Hq. cbn [payload] in Hp. lia.
Qed.

Lemma ritem_big : forall t, t <> TEmpty -> 32 <= length (tenc t) -> 32 <= length (renc (ritem t)).
Proof.
  intros t Hn Hl. unfold ritem, cap. fold (tenc t). destruct (Nat.ltb_spec (length (tenc t)) 32); [lia|].
  pose proof (renc_ge (IBytes (keccak (tenc t)))) as Hp. cbn [payload] in Hp. rewrite keccak_len in Hp. exact Hp.
Qed.

Lemma big_hashed : forall t, t <> TEmpty -> wf t -> big_values t -> 32 <= length (tenc t).
Proof.
  induction t as [|p v|p c IH|cs v IH] using tree_ind2; intros Hn Hw Hb.
  - congruence.
  - assert (Hv : 32 <= length v) by (apply (Hb p); apply lookup_leaf_self). unfold tenc. cbn [titem].
    pose proof (renc_list_in (IBytes v) [IBytes (hp p true); IBytes v] ltac:(cbn; auto)).
    pose proof (renc_ge (IBytes v)) as Hp. cbn [payload] in Hp. lia.
  - destruct Hw as (_ & _ & Hbr & Hwc). assert (Hc : c <> TEmpty) by (intros ->; contradiction).
    pose proof (IH Hc Hwc (big_ext _ _ Hb)) as Hlc. unfold tenc. cbn [titem]. fold (ritem c).
    pose proof (renc_list_in (ritem c) [IBytes (hp p false); ritem c] ltac:(cbn; auto)).
    pose proof (ritem_big c Hc Hlc). lia.
  - apply wf_branch in Hw. destruct Hw as (Hl & Hok & Hf).
    assert (Hi : exists i, nth i cs TEmpty <> TEmpty) by (destruct Hok as [(i & j & _ & Hi & _)|[_ Hi]]; eauto).
    destruct Hi as [i Hi]. assert (Hin : In (nth i cs TEmpty) cs) by (apply nth_In; apply nth_ne_lt; auto).
    rewrite Forall_forall in IH. pose proof (IH _ Hin Hi (wf_nth _ _ Hf) (big_nth _ _ _ Hb)) as Hlc.
    unfold tenc. cbn [titem]. change (fun c => cap (titem c)) with ritem.
    pose proof (renc_list_in (ritem (nth i cs TEmpty)) (map ritem cs ++ [IBytes v])
      ltac:(apply in_or_app; left; apply in_map; auto)).
    pose proof (ritem_big _ Hi Hlc). lia.
Qed.

Lemma big_tref : forall t, good t -> big_values t -> tref t = keccak (tenc t).
Proof.
  intros t (Hn & Hw & _) Hb. rewrite tref_eq by auto. pose proof (big_hashed t Hn Hw Hb).
  destruct (Nat.ltb_spec (length (tenc t)) 32); [lia|reflexivity].
Qed.

Lemma big_tref32 : forall t, good t -> big_values t -> (length (tref t) =? 32) = true.
Proof. intros t Hg Hb. rewrite big_tref by auto. rewrite keccak_len. reflexivity. Qed.

(** ** The way to an absent key of the same length as the present ones. *)
Inductive dwalk : tree -> list nat -> list tree -> Prop :=
  | d_leaf : forall p v q, q <> [] -> p <> q -> length p = length q -> dwalk (TLeaf p v) q [TLeaf p v]
  | d_miss : forall p c q, q <> [] -> strip p q = None -> dwalk (TExt p c) q []
  | d_ext : forall p c r L, dwalk c r L -> dwalk (TExt p c) (p ++ r) (TExt p c :: L)
  | d_slot : forall cs i r, nth i cs TEmpty = TEmpty -> dwalk (TBranch cs []) (i :: r) [TBranch cs []]
  | d_branch : forall cs v i r L, dwalk (nth i cs TEmpty) r L -> dwalk (TBranch cs v) (i :: r) (TBranch cs v :: L).

Definition even_keys (t : tree) (n : nat) : Prop := forall q v, lookup t q = Some v -> length q = n.

Lemma dwalk_exists : forall t q, wf t -> t <> TEmpty -> even_keys t (length q) -> lookup t q = None ->
  exists L, dwalk t q L.
Proof.
  induction t as [|p v|p c IH|cs v IH] using tree_ind2; intros q Hw Hn Hk E.
  - congruence.
  - assert (Hpq : p <> q) by (intros ->; rewrite lookup_leaf_self in E; discriminate).
    assert (Hl : length p = length q) by (apply (Hk p v); apply lookup_leaf_self).
    exists [TLeaf p v]. constructor; auto. intros ->. destruct p; [congruence|discriminate].
  - destruct Hw as (_ & Hp & Hb & Hwc). assert (Hc : c <> TEmpty) by (intros ->; contradiction).
    destruct (strip p q) as [r|] eqn:Es.
    + assert (Er := Es). apply strip_spec in Er. subst q. rewrite lookup_ext_app in E.
      destruct (IH r Hwc Hc) as [L W]; eauto using dwalk.
      intros q w Ew. specialize (Hk (p ++ q) w). rewrite lookup_ext_app in Hk. specialize (Hk Ew).
      rewrite !app_length in Hk. lia.
    + exists []. constructor; auto. intros ->. destruct (wf_has_key c Hwc Hc) as (q & w & Ew).
      specialize (Hk (p ++ q) w). rewrite lookup_ext_app in Hk. specialize (Hk Ew).
      rewrite app_length in Hk. destruct p; [congruence|discriminate].
  - assert (Hw' := Hw). apply wf_branch in Hw'. destruct Hw' as (Hl & Hok & Hf).
    destruct q as [|i r].
    { exfalso. destruct (wf_branch_keys cs v Hw) as (q1 & q2 & v1 & v2 & Hd & E1 & E2).
      apply Hk in E1, E2. destruct q1, q2; try discriminate. congruence. }
    rewrite lookup_branch in E. destruct (tree_empty_dec (nth i cs TEmpty)) as [Hi|Hi].
    + assert (v = []) as ->; [|eauto using dwalk].
      destruct v as [|x v]; auto. exfalso. specialize (Hk [] (x :: v) eq_refl). discriminate.
    + assert (Hin : In (nth i cs TEmpty) cs) by (apply nth_In; apply nth_ne_lt; auto).
      rewrite Forall_forall in IH. destruct (IH _ Hin r (wf_nth _ _ Hf) Hi) as [L W]; eauto using dwalk.
      intros q w Ew. specialize (Hk (i :: q) w). rewrite lookup_branch in Hk. specialize (Hk Ew). cbn in Hk. lia.
Qed.

Lemma dwalk_ne : forall t q L, dwalk t q L -> t <> TEmpty /\ q <> [].
Proof.
  induction 1; split; try discriminate; auto. intros E. apply app_eq_nil in E. apply IHdwalk. apply E.
Qed.

Lemma dwalk_good : forall t q L, dwalk t q L -> wf t -> small t -> Forall good L.
Proof.
  induction 1 as [p v q Hq Hp Hl|p c q Hq Es|p c r L W IH|cs i r Hi|cs v i r L W IH]; intros Hw Hs.
  - constructor; [split; [discriminate|split; auto]|constructor].
  - constructor.
  - constructor; [split; [discriminate|split; auto]|]. apply IH; [apply Hw|eapply small_ext; eauto].
  - constructor; [split; [discriminate|split; auto]|constructor].
  - constructor; [split; [discriminate|split; auto]|]. assert (Hw' := Hw). apply wf_branch in Hw'.
    apply IH; [apply wf_nth; apply Hw'|eapply small_nth; eauto].
Qed.

Fixpoint tsize (t : tree) : nat :=
  match t with
  | TEmpty => 0
  | TLeaf _ _ => 1
  | TExt _ c => S (tsize c)
  | TBranch cs _ => S (list_sum (map tsize cs))
  end.

Lemma tsize_child : forall cs i v, tsize (nth i cs TEmpty) < tsize (TBranch cs v).
Proof.
  intros cs i v. cbn [tsize]. apply -> Nat.lt_succ_r. revert i.
  induction cs as [|c cs IH]; intros [|i]; cbn [nth tsize]; try lia.
  - cbn. lia.
  - specialize (IH i). cbn [map list_sum fold_right]. unfold list_sum in IH. lia.
Qed.

Inductive sub : tree -> tree -> Prop :=
  | s_refl : forall t, sub t t
  | s_ext : forall s p c, sub s c -> sub s (TExt p c)
  | s_child : forall s cs v i, sub s (nth i cs TEmpty) -> sub s (TBranch cs v).

Lemma sub_size : forall s t, sub s t -> tsize s <= tsize t.
Proof.
  induction 1; auto.
  - cbn [tsize]. lia.
  - pose proof (tsize_child cs i v). lia.
Qed.

Lemma sub_encs : forall s t, sub s t -> incl (encs s) (encs t).
Proof.
  induction 1; intros e He; auto.
  - apply encs_ext. auto.
  - apply IHsub in He. destruct (nth_in_or_default i cs TEmpty) as [Hin|Hd]; [eapply encs_child; eauto|].
    rewrite Hd in He. contradiction.
Qed.

Lemma sub_big : forall s t, sub s t -> big_values t -> big_values s.
Proof. induction 1; intros Hb; eauto using big_ext, big_nth. Qed.

Lemma dwalk_sub : forall t q L, dwalk t q L -> forall s, In s L -> sub s t.
Proof.
  induction 1 as [p v q Hq Hp Hl|p c q Hq Es|p c r L W IH|cs i r Hi|cs v i r L W IH]; intros s Hs.
  - destruct Hs as [<-|[]]. constructor.
  - contradiction.
  - destruct Hs as [<-|Hs]; constructor; auto.
  - destruct Hs as [<-|[]]. constructor.
  - destruct Hs as [<-|Hs]; [constructor|]. apply (s_child s cs v i). auto.
Qed.

Lemma tree_of_tref : forall tr a b, nocoll (encs tr) -> sub a tr -> sub b tr -> good a -> good b ->
  big_values tr -> tref a = tref b -> a = b.
Proof.
  intros tr a b Hn Ha Hb Ga Gb Hv E.
  rewrite !big_tref in E by (eauto using sub_big).
  assert (La : 32 <= length (tenc a)) by (apply big_hashed; [apply Ga|apply Ga|eauto using sub_big]).
  assert (Lb : 32 <= length (tenc b)) by (apply big_hashed; [apply Gb|apply Gb|eauto using sub_big]).
  apply (tenc_inj keccak_len); try apply Ga; try apply Gb.
  - eapply nocoll_incl; [|exact Hn]. intros x Hx. apply in_app_or in Hx. destruct Hx as [Hx|Hx].
    + apply (sub_encs _ _ Ha). exact Hx.
    + apply (sub_encs _ _ Hb). exact Hx.
  - apply Hn; auto.
    + apply (sub_encs _ _ Ha). apply encs_here; [apply Ga|auto].
    + apply (sub_encs _ _ Hb). apply encs_here; [apply Gb|auto].
Qed.

Lemma dwalk_nodup : forall t q L, dwalk t q L -> forall tr, sub t tr -> nocoll (encs tr) -> big_values tr ->
  wf t -> small t -> NoDup (map tref L).
Proof.
  induction 1 as [p v q Hq Hp Hl|p c q Hq Es|p c r L W IH|cs i r Hi|cs v i r L W IH]; intros tr Ht Hn Hb Hw Hs.
  - constructor; [intros []|constructor].
  - constructor.
  - assert (Hwc : wf c) by apply Hw. assert (Hsc : small c) by (eapply small_ext; eauto).
    assert (Hcb : forall s, sub s c -> sub s tr).
    { clear - Ht. intros s Hs. remember (TExt p c) as x eqn:Ex. revert Ex. induction Ht; intros ->.
      - constructor. auto.
      - constructor. auto.
      - eapply s_child. auto. }
    constructor.
    + intros Hin. apply in_map_iff in Hin. destruct Hin as (s & E & Hin).
      assert (Gs : good s) by (pose proof (dwalk_good _ _ _ W Hwc Hsc) as Hg; rewrite Forall_forall in Hg; auto).
      assert (Ss : sub s c) by (eapply dwalk_sub; eauto).
      assert (Gt : good (TExt p c)) by (split; [discriminate|split; auto]).
      pose proof (tree_of_tref tr s (TExt p c) Hn (Hcb _ Ss) Ht Gs Gt Hb E) as ->.
      apply sub_size in Ss. cbn [tsize] in Ss. lia.
    + apply (IH tr); auto. apply Hcb. constructor.
  - constructor; [intros []|constructor].
  - assert (Hw' := Hw). apply wf_branch in Hw'. destruct Hw' as (_ & _ & Hf).
    assert (Hwc : wf (nth i cs TEmpty)) by (apply wf_nth; auto).
    assert (Hsc : small (nth i cs TEmpty)) by (eapply small_nth; eauto).
    assert (Hcb : forall s, sub s (nth i cs TEmpty) -> sub s tr).
    { clear - Ht. intros s Hs. remember (TBranch cs v) as x eqn:Ex. revert Ex. induction Ht; intros ->.
      - eapply s_child. eauto.
      - constructor. auto.
      - eapply s_child. auto. }
    constructor.
    + intros Hin. apply in_map_iff in Hin. destruct Hin as (s & E & Hin).
      assert (Gs : good s) by (pose proof (dwalk_good _ _ _ W Hwc Hsc) as Hg; rewrite Forall_forall in Hg; auto).
      assert (Ss : sub s (nth i cs TEmpty)) by (eapply dwalk_sub; eauto).
      assert (Gt : good (TBranch cs v)) by (split; [discriminate|split; auto]).
      pose proof (tree_of_tref tr s (TBranch cs v) Hn (Hcb _ Ss) Ht Gs Gt Hb E) as ->.
      apply sub_size in Ss. pose proof (tsize_child cs i v). lia.
    + apply (IH tr); auto. apply Hcb. constructor.
Qed.

(** ** Generating the proof *)
Definition poe_end (n : node) (path : np) : Prop :=
  match n with Branch _ v => v = [] | Leaf lp _ => np_eq lp path = false | Extension _ _ => True end.

Lemma get_poe_dwalk : forall t q L, dwalk t q L -> forall fuel m path acc, nibs path = q -> wf t -> small t -> stored m t ->
  length q < fuel -> exists n path', get_poe_ fuel m (tref t) path acc = Ok (n, acc ++ map tenc L, path') /\ poe_end n path' /\
    length (nibs path') <= length q.
Proof.
  intros t q L W. induction W as [p v q Hq Hpq Hlen|p c q Hq Es|p c r L W IH|cs i r Hi|cs v i r L W IH];
    intros fuel m path acc Hp Hw Hs St Hf; (destruct fuel as [|f]; [cbn in Hf; lia|]); cbn [get_poe_];
    match goal with |- context [get_node m (tref ?t)] =>
      destruct (get_node_stored keccak_len m t ltac:(discriminate) Hw Hs (here_of_stored _ _ St)) as (n & En & Hm);
      pose proof (node_encode_match keccak_len n t Hm Hw Hs) as Ee end;
    rewrite En; cbn [bind].
  - destruct n as [lp d| |]; cbn [nmatch] in Hm; try contradiction. destruct Hm as [E1 E2]. rewrite Ee. cbn [bind].
    exists (Leaf lp d), path. split; [destruct (np_len path =? 0); reflexivity|]. split; [|rewrite Hp; lia].
    cbn. apply np_eq_false. congruence.
  - destruct n as [|ep nr|]; cbn [nmatch] in Hm; try contradiction. destruct Hm as [E1 ->].
    replace (np_len path =? 0) with false
      by (symmetry; apply Nat.eqb_neq; rewrite np_len_spec, Hp; destruct q; cbn; congruence).
    rewrite np_starts_with_spec, E1, Hp, Es. exists (Extension ep (tref c)), path. rewrite app_nil_r.
    split; [reflexivity|]. split; [exact I|rewrite Hp; lia].
  - destruct n as [|ep nr|]; cbn [nmatch] in Hm; try contradiction. destruct Hm as [E1 ->].
    destruct Hw as (_ & Hpn & _ & Hwc). assert (Hpl : length p <> 0) by (destruct p; cbn; congruence).
    replace (np_len path =? 0) with false
      by (symmetry; apply Nat.eqb_neq; rewrite np_len_spec, Hp, app_length; lia).
    assert (Es : strip (nibs ep) (nibs path) = Some r) by (apply strip_spec; congruence).
    rewrite np_starts_with_spec, Es, Ee. cbn [bind]. pose proof (np_starts_with_skip _ _ _ Es) as Er.
    rewrite app_length in Hf.
    destruct (IH f m (np_consume path (np_len ep)) (acc ++ [tenc (TExt p c)])) as (n & path' & E & He & Hl); auto.
    + eapply small_ext; eauto.
    + apply stored_ext in St. apply St.
    + lia.
    + exists n, path'. rewrite E, <- app_assoc. split; [reflexivity|]. split; auto. rewrite app_length. lia.
  - destruct n as [| |bs d]; cbn [nmatch] in Hm; try contradiction. destruct Hm as [-> ->].
    rewrite np_len_spec, Hp. cbn [length Nat.eqb]. rewrite np_at_spec, Hp. cbn [nth]. rewrite nth_map_tref, Ee, Hi.
    cbn [bind tref length Nat.ltb Nat.leb]. exists (Branch (map tref cs) []), path. split; [reflexivity|].
    split; [reflexivity|]. rewrite Hp. cbn. lia.
  - destruct n as [| |bs d]; cbn [nmatch] in Hm; try contradiction. destruct Hm as [-> ->].
    rewrite np_len_spec, Hp. cbn [length Nat.eqb]. rewrite np_at_spec, Hp. cbn [nth]. rewrite nth_map_tref, Ee.
    cbn [bind].
    replace (0 <? length (tref (nth i cs TEmpty))) with true
      by (symmetry; apply (tref_pos keccak_len); apply (dwalk_ne _ _ _ W)).
    assert (Hw' := Hw). apply wf_branch in Hw'. apply stored_branch in St. cbn [length] in Hf.
    destruct (IH f m (np_consume path 1) (acc ++ [tenc (TBranch cs v)])) as (n & path' & E & He & Hl).
    + rewrite nibs_consume, Hp. reflexivity.
    + apply wf_nth; apply Hw'.
    + eapply small_nth; eauto.
    + apply stored_nth. apply St.
    + lia.
    + exists n, path'. rewrite E, <- app_assoc. split; [reflexivity|]. split; auto.
Qed.

(** ** Checking it *)
Definition plist (L : list tree) : dict bytes := map (fun s => (tref s, tenc s)) L.

Lemma dset_fresh : forall (V : Type) (d : dict V) k v, ~ In k (dkeys d) -> dset d k v = d ++ [(k, v)].
Proof.
  induction d as [|[k0 v0] d IH]; intros k v Hk; [reflexivity|]. cbn [dset app].
  destruct (bytes_eqb_spec k k0) as [->|]; [exfalso; apply Hk; left; reflexivity|]. f_equal. apply IH.
  intros Hi. apply Hk. right. exact Hi.
Qed.

Lemma pstore_plist : forall L d, NoDup (dkeys d ++ map tref L) -> pstore L d = d ++ plist L.
Proof.
  induction L as [|s L IH]; intros d Hn; [cbn; rewrite app_nil_r; reflexivity|]. cbn [pstore fold_left].
  fold (pstore L (dset d (tref s) (tenc s))). cbn [map] in Hn.
  assert (Hf : ~ In (tref s) (dkeys d)).
  { intros Hi. apply NoDup_remove_2 in Hn. apply Hn. apply in_or_app. auto. }
  rewrite dset_fresh by auto. rewrite IH.
  - cbn [plist map]. rewrite <- app_assoc. reflexivity.
  - unfold dkeys in *. rewrite map_app, <- app_assoc. exact Hn.
Qed.

Lemma poe_storage_good : forall L d, Forall good L -> poe_storage (map PB (map tenc L)) d = Ok (pstore L d).
Proof.
  induction L as [|s L IH]; intros d Hg; [reflexivity|]. inversion Hg; subst. cbn [map poe_storage].
  rewrite (store_proof_good keccak_len) by auto. cbn [bind]. apply IH; auto.
Qed.

Definition not_the_leaf (o : option node) (q : list nat) : Prop :=
  match o with Some (Leaf lp _) => length (nibs lp) <= length q /\ nibs lp <> q | _ => True end.

Lemma verify_step : forall f L t path, good t -> big_values t -> exists n, nmatch n t /\
  verify_poe_ (S f) (plist (t :: L)) (tref t) path =
    (if np_len path =? 0 then Ok (Some n, plist L)
     else match n with
          | Leaf _ _ => Ok (Some n, plist L)
          | Extension ep nr =>
              if np_starts_with path ep then verify_poe_ f (plist L) nr (np_consume path (np_len ep)) else Ok (Some n, plist L)
          | Branch bs _ =>
              let b := nth (np_at path 0) bs [] in
              if 0 <? length b then verify_poe_ f (plist L) b (np_consume path 1) else Ok (Some n, plist L)
          end).
Proof.
  intros f L t path Hg Hb. destruct (node_decode_tenc keccak_len t) as (n & En & Hm); try apply Hg.
  exists n. split; auto. cbn [verify_poe_]. rewrite big_tref32 by auto.
  assert (E1 : dget (plist (t :: L)) (tref t) = Some (tenc t)).
  { unfold plist. cbn [map dget]. rewrite bytes_eqb_refl. reflexivity. }
  assert (E2 : ddel (plist (t :: L)) (tref t) = plist L).
  { unfold plist. cbn [map ddel]. rewrite bytes_eqb_refl. reflexivity. }
  rewrite E1, En. cbn [bind]. rewrite E2. reflexivity.
Qed.

Lemma verify_dwalk : forall t q L, dwalk t q L -> forall fuel path, nibs path = q -> wf t -> small t -> big_values t ->
  length q < fuel -> exists o, verify_poe_ fuel (plist L) (tref t) path = Ok (o, []) /\ not_the_leaf o q.
Proof.
  intros t q L W. induction W as [p v q Hq Hpq Hlen|p c q Hq Es|p c r L W IH|cs i r Hi|cs v i r L W IH];
    intros fuel path Hp Hw Hs Hb Hf; (destruct fuel as [|f]; [cbn in Hf; lia|]).
  - destruct (verify_step f [] (TLeaf p v) path) as (n & Hm & E); auto; [split; [discriminate|auto]|]. rewrite E.
    destruct n as [lp d| |]; cbn [nmatch] in Hm; try contradiction. destruct Hm as [E1 E2].
    exists (Some (Leaf lp d)). split; [destruct (np_len path =? 0); reflexivity|].
    cbn. split; [rewrite E1; lia|congruence].
  - exists None. split; [|exact I]. cbn [verify_poe_].
    rewrite big_tref32; auto. split; [discriminate|auto].
  - destruct (verify_step f L (TExt p c) path) as (n & Hm & E); auto; [split; [discriminate|auto]|]. rewrite E.
    destruct n as [|ep nr|]; cbn [nmatch] in Hm; try contradiction. destruct Hm as [E1 ->].
    destruct Hw as (_ & Hpn & Hbr & Hwc). assert (Hpl : length p <> 0) by (destruct p; cbn; congruence).
    replace (np_len path =? 0) with false
      by (symmetry; apply Nat.eqb_neq; rewrite np_len_spec, Hp, app_length; lia).
    assert (Es : strip (nibs ep) (nibs path) = Some r) by (apply strip_spec; congruence).
    rewrite np_starts_with_spec, Es. pose proof (np_starts_with_skip _ _ _ Es) as Er.
    rewrite app_length in Hf.
    destruct (IH f (np_consume path (np_len ep))) as (o & E' & Ho); auto.
    + eapply small_ext; eauto.
    + eapply big_ext; eauto.
    + lia.
    + exists o. split; auto. destruct o as [[lp d| |]|]; auto. cbn in *. rewrite app_length. split; [lia|].
      intros Eq. apply (f_equal (@length nat)) in Eq. rewrite app_length in Eq. lia.
  - destruct (verify_step f [] (TBranch cs []) path) as (n & Hm & E); auto; [split; [discriminate|auto]|]. rewrite E.
    destruct n as [| |bs d]; cbn [nmatch] in Hm; try contradiction. destruct Hm as [-> ->].
    rewrite np_len_spec, Hp. cbn [length Nat.eqb]. rewrite np_at_spec, Hp. cbn [nth]. rewrite nth_map_tref, Hi.
    cbn [tref length Nat.ltb Nat.leb]. exists (Some (Branch (map tref cs) [])). split; [reflexivity|exact I].
  - destruct (verify_step f L (TBranch cs v) path) as (n & Hm & E); auto; [split; [discriminate|auto]|]. rewrite E.
    destruct n as [| |bs d]; cbn [nmatch] in Hm; try contradiction. destruct Hm as [-> ->].
    rewrite np_len_spec, Hp. cbn [length Nat.eqb]. rewrite np_at_spec, Hp. cbn [nth]. rewrite nth_map_tref.
    replace (0 <? length (tref (nth i cs TEmpty))) with true
      by (symmetry; apply (tref_pos keccak_len); apply (dwalk_ne _ _ _ W)).
    assert (Hw' := Hw). apply wf_branch in Hw'. cbn [length] in Hf.
    destruct (IH f (np_consume path 1)) as (o & E' & Ho).
    + rewrite nibs_consume, Hp. reflexivity.
    + apply wf_nth; apply Hw'.
    + eapply small_nth; eauto.
    + eapply big_nth; eauto.
    + lia.
    + exists o. split; auto. destruct o as [[lp d| |]|]; auto. cbn in *. split; [lia|].
      intros Eq. apply (f_equal (@length nat)) in Eq. cbn in Eq. lia.
Qed.

(** The last element of the proof: a leaf that says null. *)
Lemma null_leaf : forall path, (N.of_nat (length (nibs path)) < SZ)%N ->
  exists e n, node_encode (Leaf path null_bytes) = Ok e /\ node_decode e = Ok n /\ node_data n = Ok null_bytes.
Proof.
  intros path Hs.
  assert (Hg : good (TLeaf (nibs path) null_bytes)).
  { split; [discriminate|]. split; [apply nibs_ok|].
    intros q v E. apply leaf_key_inv in E. destruct E as [-> ->]. split; [exact Hs|]. reflexivity. }
  destruct Hg as (Hn & Hw & Hsm). exists (tenc (TLeaf (nibs path) null_bytes)).
  destruct (node_decode_tenc keccak_len _ Hn Hw Hsm) as (n & En & Hm). exists n.
  split; [apply (node_encode_match keccak_len); cbn; auto|]. split; auto.
  destruct n; cbn in Hm; try contradiction. destruct Hm as [_ ->]. reflexivity.
Qed.

Lemma removelast_snoc : forall (A : Type) (l : list A) x, removelast (l ++ [x]) = l.
Proof. intros. apply removelast_last. Qed.

Lemma nocoll_encs : forall t tr, repr t tr -> nocoll (encs tr).
Proof.
  intros t tr (_ & _ & St & (_ & _ & D) & Hn & _). eapply nocoll_incl; [|exact Hn].
  intros e He. apply (D (keccak e) e). eapply encs_stored; eauto.
Qed.

(** C21 *)
Lemma poe_complete : forall secure l t k lim lim' time t', reachable secure l t -> keys_ok secure (k :: map op_key l) ->
  dict_after l k = None -> (exists k0 v0, dict_after l k0 = Some v0) ->
  long_values (dict_after l) -> same_length secure (dict_after l) k -> shares_prefix secure (dict_after l) k ->
  frames secure k < lim -> frames secure k < lim' -> m_root t' = m_root t ->
  exists p, mpt_get_poe lim time t k = Ok p /\ mpt_verify_poe lim' t' p = Ok true.
Proof.
  intros secure l t k lim lim' time t' R Hk Ed (k0 & v0 & Ed0) Hlv Hsl Hsp Hl Hl' Hr'.
  destruct (reach_lookup keccak_len _ _ _ k R Hk) as (tr & Rt & Hh & Es & El). rewrite Ed in El.
  assert (Hkl : keys_ok secure (map op_key l)) by (eapply keys_ok_incl; [|exact Hk]; intros x Hx; right; exact Hx).
  set (q := nibs_of (eff_key t k)) in *.
  assert (Hkeys : forall q' v, lookup tr q' = Some v -> exists k', dict_after l k' = Some v /\ q' = nibs_of (eff secure k')).
  { intros q' v Eq. destruct Hh as [H1 H2]. destruct (H2 _ _ Eq) as [x ->]. rewrite H1 in Eq.
    destruct (dict_after_eff_inv secure l x v Hkl Eq) as (k' & Ek' & Ev). exists k'. rewrite Ek'. auto. }
  assert (Hkeys' : forall k' v, dict_after l k' = Some v -> lookup tr (nibs_of (eff secure k')) = Some v).
  { intros k' v E'. destruct Hh as [H1 _]. rewrite H1. rewrite (dict_eff secure l k'); auto.
    eapply keys_ok_incl; [|exact Hkl]. intros x [<-|Hx]; auto. eapply dict_after_keys; eauto. }
  assert (Hne : tr <> TEmpty) by (intros ->; specialize (Hkeys' _ _ Ed0); discriminate).
  assert (Hb : big_values tr).
  { intros q' v Eq. destruct (Hkeys _ _ Eq) as (k' & E' & _). eapply Hlv; eauto. }
  assert (Hev : even_keys tr (length q)).
  { intros q' v Eq. destruct (Hkeys _ _ Eq) as (k' & E' & ->). subst q. rewrite !nibs_of_length. f_equal.
    rewrite eff_key_eff, Es. unfold eff. destruct secure; [rewrite !keccak_len; reflexivity|].
    destruct Hsl as [Hsl|Hsl]; [discriminate|]. eapply Hsl; eauto. }
  destruct (repr_nonempty keccak_len t tr Rt Hne) as (E1 & E2 & E3 & E4).
  assert (Rt' := Rt). destruct Rt' as (Hw & Hs & St & Hd & Hn & _).
  destruct (dwalk_exists tr q Hw Hne Hev El) as [L W].
  assert (Hq : length q < lim /\ length q < lim').
  { subst q. rewrite nibs_of_length, eff_key_eff, Es, (eff_frames keccak_len). auto. }
  assert (Hsq : (N.of_nat (length q) < SZ)%N).
  { specialize (Hkeys' _ _ Ed0). rewrite <- (Hev _ _ Hkeys'). apply Hs in Hkeys'. apply Hkeys'. }
  (* the root is not a diverging extension *)
  assert (HL : exists L', L = tr :: L').
  { inversion W as [p v q0 Hq0 Hpq Hlen|p c q0 Hq0 Est|p c r L0 W0|cs i r Hi|cs v i r L0 W0]; subst; eauto.
    exfalso. destruct (wf_ext_keys p c Hw) as (q1 & q2 & v1 & v2 & Hd12 & F1 & F2).
    destruct (Hkeys _ _ F1) as (k1 & G1 & ->). destruct (Hkeys _ _ F2) as (k2 & G2 & ->).
    destruct (Hsp) with (c := p) as [r Er].
    - exists k1, k2, v1, v2. split; auto. intros ->. auto.
    - intros k' v E'. specialize (Hkeys' _ _ E'). cbn [lookup] in Hkeys'.
      destruct (strip p (nibs_of (eff (m_secure t) k'))) as [r|] eqn:Ess; [|discriminate].
      apply strip_spec in Ess. exists r. exact Ess.
    - change (nibbles (trie_key (m_secure t) k)) with (nibs_of (eff_key t k)) in Er. subst q.
      rewrite Er, strip_app in Est. discriminate. }
  (* generation *)
  assert (Hc : mpt_contains lim t k = Ok false).
  { pose proof (repr_contains keccak_len t tr lim k Rt) as C. destruct (mpt_contains lim t k) as [b|e].
    - destruct b; auto. exfalso. destruct C as [C _]. destruct (C eq_refl) as [C'|(pre & x & r & w & Eq & Ew & _)].
      + apply C'. exact El.
      + apply Hev in Ew. fold q in Eq. rewrite Eq, app_length in Ew. cbn in Ew. lia.
    - exfalso. destruct C as [_ C]. subst q. rewrite nibs_of_length in Hq. lia. }
  destruct (get_poe_dwalk tr q L W lim (m_map t) (np_of (eff_key t k)) []) as (n & path' & Eg & He & Hpl); auto; [apply Hq|].
  cbn [app] in Eg. destruct (null_leaf path') as (e & nn & N1 & N2 & N3).
  { assert ((N.of_nat (length (nibs path')) <= N.of_nat (length q))%N) by lia. lia. }
  assert (Eget : mpt_get_poe lim time t k = Ok (mkProof MPT_POE time (eff_key t k) (root_hash t) (map PB (map tenc L ++ [e])))).
  { unfold mpt_get_poe. rewrite E2, Hc, E3, Eg. cbn [bind]. rewrite N1. cbn [bind].
    destruct n as [lp d|ep nr|bs d]; cbn [poe_end] in He.
    - rewrite He. reflexivity.
    - reflexivity.
    - subst d. reflexivity. }
  eexists. split; [exact Eget|].
  (* verification *)
  assert (F : root_is_empty t' = false /\ root_ref t' = tref tr /\ root_hash t' = keccak (tenc tr)).
  { rewrite <- (root_hash_repr keccak_len t tr Rt Hne), <- E2, <- E3.
    unfold root_hash, root_falsy, root_is_empty, root_ref. rewrite Hr'. auto. }
  destruct F as (F1 & F2 & F3). unfold mpt_verify_poe. cbn [pf_type pf_proof pf_key].
  rewrite bytes_eqb_refl, F1, F2, F3. cbn [negb]. destruct HL as [L' ->].
  unfold hash_first. cbn [pf_proof map app]. cbn [bind]. rewrite bytes_eqb_refl. cbn [negb].
  change (PB (tenc tr) :: map PB (map tenc L' ++ [e])) with (map PB (map tenc (tr :: L') ++ [e])).
  unfold decode_last. rewrite map_app. cbn [map]. rewrite last_last, N2. cbn [bind]. rewrite N3. cbn [bind].
  rewrite bytes_eqb_refl. cbn [negb]. change (PB (tenc tr) :: map PB (map tenc L')) with (map PB (map tenc (tr :: L'))).
  rewrite removelast_snoc. rewrite poe_storage_good by (eapply dwalk_good; eauto). cbn [bind].
  rewrite pstore_plist.
  2: { cbn [dkeys map app]. eapply (dwalk_nodup tr q (tr :: L') W tr); auto; [constructor|eapply nocoll_encs; eauto]. }
  cbn [app]. destruct (verify_dwalk tr q (tr :: L') W lim' (np_of (eff_key t k))) as (o & Ev & Ho); auto; [apply Hq|].
  rewrite Ev. cbn [bind length Nat.eqb negb]. destruct o as [[lp d|ep nr|bs d]|]; auto.
  cbn in Ho. destruct Ho as [_ Ho]. replace (np_eq lp (np_of (eff_key t k))) with false; auto.
  symmetry. apply np_eq_false. rewrite nibs_np_of. exact Ho.
Qed.

(** C22: with two keys and long values anybody can deny any key that is present. *)
Lemma poe_forgery : forall secure l t k v lim time, reachable secure l t -> keys_ok secure (map op_key l) ->
  long_values (dict_after l) -> two_keys (dict_after l) -> dict_after l k = Some v -> 2 <= lim ->
  exists p, pf_type p = MPT_POE /\ pf_time p = time /\ pf_key p = trie_key secure k /\ pf_root p = root_hash t /\
    mpt_verify_poe lim t p = Ok true.
Proof.
  intros secure l t k v lim time R Hkl Hlv Htk Ed Hlim.
  destruct (reachable_repr keccak_len _ _ _ R) as (Es & tr & Rt & Hh).
  assert (Hkeys : forall q' v, lookup tr q' = Some v -> exists k', dict_after l k' = Some v /\ q' = nibs_of (eff secure k')).
  { intros q' w Eq. destruct Hh as [H1 H2]. destruct (H2 _ _ Eq) as [x ->]. rewrite H1 in Eq.
    destruct (dict_after_eff_inv secure l x w Hkl Eq) as (k' & Ek' & Ev). exists k'. rewrite Ek'. auto. }
  assert (Hkeys' : forall k' v, dict_after l k' = Some v -> lookup tr (nibs_of (eff secure k')) = Some v).
  { intros k' w E'. destruct Hh as [H1 _]. rewrite H1. rewrite (dict_eff secure l k'); auto.
    eapply keys_ok_incl; [|exact Hkl]. intros x [<-|Hx]; auto. eapply dict_after_keys; eauto. }
  assert (El := Hkeys' _ _ Ed).
  assert (Hne : tr <> TEmpty) by (intros ->; discriminate).
  assert (Hb : big_values tr).
  { intros q' w Eq. destruct (Hkeys _ _ Eq) as (k' & E' & _). eapply Hlv; eauto. }
  destruct (repr_nonempty keccak_len t tr Rt Hne) as (E1 & E2 & E3 & E4).
  assert (Hrh := root_hash_repr keccak_len t tr Rt Hne).
  destruct Rt as (Hw & Hs & St & Hd & Hn & _). assert (Hg : good tr) by (split; auto).
  destruct (null_leaf (np_of [])) as (e & nn & N1 & N2 & N3); [cbn; reflexivity|].
  exists (mkProof MPT_POE time (trie_key secure k) (root_hash t) [PB (tenc tr); PB e]).
  split; auto. split; auto. split; auto. split; auto.
  unfold mpt_verify_poe. cbn [pf_type pf_proof pf_key]. rewrite bytes_eqb_refl, E2, E3, Hrh. cbn [negb].
  unfold hash_first. cbn [pf_proof bind]. rewrite bytes_eqb_refl. cbn [negb].
  unfold decode_last. cbn [last]. rewrite N2. cbn [bind]. rewrite N3. cbn [bind]. rewrite bytes_eqb_refl. cbn [negb].
  cbn [removelast poe_storage]. rewrite (store_proof_good keccak_len) by auto. cbn [bind dset].
  change [(tref tr, tenc tr)] with (plist [tr]).
  destruct lim as [|[|f]]; [lia|lia|]. set (path := np_of (trie_key secure k)).
  destruct (verify_step (S f) [] tr path Hg Hb) as (n & Hm & ->). cbn [plist map].
  assert (Hp : nibs path = nibs_of (eff secure k)) by apply nibs_np_of. rewrite <- Hp in El.
  (* a child that is not in the proof *)
  assert (Hmiss : forall c pth, good c -> big_values c -> verify_poe_ (S f) [] (tref c) pth = Ok (None, [])).
  { intros c pth Gc Bc. cbn [verify_poe_]. rewrite big_tref32 by auto. reflexivity. }
  destruct tr as [|p w|p c|cs w]; [congruence|..].
  - exfalso. destruct Htk as (k1 & k2 & v1 & v2 & Hd12 & F1 & F2). apply Hd12.
    assert (X1 := F1). assert (X2 := F2). apply Hkeys' in F1, F2. apply leaf_key_inv in F1, F2.
    destruct F1 as [F1 _], F2 as [F2 _]. rewrite <- F2 in F1. apply nibs_of_inj in F1. unfold eff in F1.
    destruct secure; [|exact F1]. apply (Hkl eq_refl); auto; eapply dict_after_keys; eauto.
  - destruct n as [|ep nr|]; cbn [nmatch] in Hm; try contradiction. destruct Hm as [Ep ->].
    destruct (np_len path =? 0); [reflexivity|]. rewrite np_starts_with_spec.
    destruct (strip (nibs ep) (nibs path)) as [r|] eqn:Er; [|reflexivity].
    destruct Hw as (_ & _ & Hbr & Hwc). rewrite Hmiss; [reflexivity| |eapply big_ext; eauto].
    split; [intros ->; contradiction|]. split; auto. eapply small_ext; eauto.
  - destruct n as [| |bs d]; cbn [nmatch] in Hm; try contradiction. destruct Hm as [-> ->].
    destruct (np_len path =? 0); [reflexivity|]. cbn zeta. rewrite nth_map_tref.
    destruct (0 <? _) eqn:E0; [|reflexivity]. apply tref_pos in E0; auto. apply wf_branch in Hw.
    rewrite Hmiss; [reflexivity| |eapply big_nth; eauto].
    split; auto. split; [apply wf_nth; apply Hw|eapply small_nth; eauto].
Qed.
End Poe.
