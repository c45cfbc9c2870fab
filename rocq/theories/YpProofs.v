(** The trie object holds the tree that the Yellow Paper defines for its pairs. *)
From Coq Require Import List Bool Arith NArith ZArith Lia.
From Verif Require Import Base BaseProofs Rlp RlpProofs NibblePath NibbleProofs Node ProofObj Mpt Tree TreeEnc
  StoreProofs UpdateProofs DeleteProofs ReadProofs Spec SpecCodec SpecRlp RlpExact MptRefine MptProofs PoiProofs PoeProofs SpecProof SpecWalk WalkProofs PoeExact SpecYp.
Import ListNotations.

Definition held (J : pairs) (tr : tree) : Prop := forall q v, J q v <-> lookup tr q = Some v.

Lemma held_ext : forall J p c, held J (TExt p c) -> held (under p J) c.
Proof. intros J p c Hj q v. unfold under. rewrite (Hj (p ++ q) v), lookup_ext_app. tauto. Qed.
Lemma held_nth : forall J cs v i, held J (TBranch cs v) -> held (under [i] J) (nth i cs TEmpty).
Proof. intros J cs v i Hj q w. unfold under. cbn [app]. rewrite (Hj (i :: q) w), lookup_branch. tauto. Qed.

Lemma branch_keys : forall J cs v, held J (TBranch cs v) -> wf (TBranch cs v) ->
  exists a x b y, J a x /\ J b y /\ a <> b /\ forall p, (exists r, a = p ++ r) -> (exists r, b = p ++ r) -> p = [].
Proof.
  intros J cs v Hj Hw. apply wf_branch in Hw. destruct Hw as (_ & Hb & Hf).
  assert (K : forall i, nth i cs TEmpty <> TEmpty -> exists q w, J (i :: q) w).
  { intros i Hi. destruct (wf_has_key _ (wf_nth cs i Hf) Hi) as (q & w & E). exists q, w. apply Hj.
    rewrite lookup_branch. exact E. }
  destruct Hb as [(i & j & Hij & Hi & Hk)|[Hv [i Hi]]].
  - destruct (K i Hi) as (q & w & E). destruct (K j Hk) as (q' & w' & E').
    exists (i :: q), w, (j :: q'), w'. split; [exact E|]. split; [exact E'|]. split; [congruence|].
    intros [|x p] [r Er] [r' Er']; [reflexivity|]. cbn in Er, Er'. congruence.
  - destruct (K i Hi) as (q & w & E). exists (i :: q), w, [], v. split; [exact E|].
    split; [apply Hj; apply lookup_branch_nil; exact Hv|]. split; [discriminate|].
    intros [|x p] _ [r' Er']; [reflexivity|discriminate].
Qed.

Lemma branch_longest : forall J cs v, held J (TBranch cs v) -> wf (TBranch cs v) -> longest_common J [].
Proof.
  intros J cs v Hj Hw. destruct (branch_keys J cs v Hj Hw) as (a & x & b & y & Ha & Hb & Hab & Hp).
  split; [exists a, x, b, y; auto|]. split; [intros q w _; exists q; reflexivity|].
  intros p' Hc. rewrite (Hp p'); [reflexivity|eapply Hc; eauto..].
Qed.

Lemma ext_longest : forall J p c, held J (TExt p c) -> wf (TExt p c) -> longest_common J p.
Proof.
  intros J p c Hj (Hn & Hp & Hb & Hw). pose proof (held_ext J p c Hj) as Hc.
  destruct c as [| | |cs v]; try contradiction.
  destruct (branch_keys _ cs v Hc Hw) as (a & x & b & y & Ha & Hb' & Hab & Hq). unfold under in Ha, Hb'.
  split; [exists (p ++ a), x, (p ++ b), y; split; [exact Ha|]; split; [exact Hb'|]; intros E; apply app_inv_head in E; contradiction|].
  split.
  - intros q w E. apply Hj in E. apply ext_key_inv in E. destruct E as (r & -> & _). eauto.
  - intros p' Hc'. destruct (Hc' _ _ Ha) as [r1 E1]. destruct (Hc' _ _ Hb') as [r2 E2].
    destruct (le_lt_dec (length p') (length p)) as [L|L]; [exact L|exfalso].
    assert (F : exists s, p' = p ++ s).
    { exists (skipn (length p) p'). rewrite <- (firstn_skipn (length p) p') at 1. f_equal.
      assert (firstn (length p) (p' ++ r1) = firstn (length p) (p ++ a)) by congruence.
      rewrite firstn_app, (firstn_app (length p) p) in H. replace (length p - length p') with 0 in H by lia.
      rewrite Nat.sub_diag, !firstn_O, !app_nil_r, firstn_all in H. exact H. }
    destruct F as [s ->]. rewrite <- app_assoc in E1, E2. apply app_inv_head in E1, E2.
    assert (s = []) by (apply Hq; eauto). subst s. rewrite app_nil_r in L. lia.
Qed.

Lemma nth_error_eq : forall (A : Type) (l l' : list A), (forall i, nth_error l i = nth_error l' i) -> l = l'.
Proof.
  intros A. induction l as [|x l IH]; intros [|y l'] E; auto.
  - specialize (E 0). discriminate.
  - specialize (E 0). discriminate.
  - f_equal; [specialize (E 0); injection E as E; exact E|]. apply IH. intros i. apply (E (S i)).
Qed.

Section Yp.
Context {H : Hash}.
Hypothesis keccak_len : forall b, length (keccak b) = 32.

Lemma hp_form : forall p f, nib_ok p -> hex_prefix (hp p f) p f.
Proof.
  intros p f Hp. destruct (decode_hp p f Hp) as (q & _ & En). pose proof (proj1 (encode_path_form q f _) eq_refl) as X.
  rewrite np_encode_hp in X. change (path_nibbles q) with (nibs q) in X. rewrite En in X. exact X.
Qed.

Lemma titem_form : forall t, wf t -> small t -> rlp_form (tenc t) (titem t).
Proof. intros t Hw Hs. apply renc_form. apply payload_small; auto. Qed.

Lemma held_item : forall t J, held J t -> wf t -> small t -> (t <> TEmpty -> yp_c J (titem t)) /\ yp_n J (ritem t).
Proof.
  assert (N : forall t J, held J t -> wf t -> small t -> (t <> TEmpty -> yp_c J (titem t)) -> yp_n J (ritem t)).
  { intros t J Hj Hw Hs Hc. destruct (tree_empty_dec t) as [->|Hn].
    - apply yp_none. intros q v E. apply Hj in E. discriminate.
    - unfold ritem, cap. fold (tenc t). pose proof (titem_form t Hw Hs) as Hf.
      destruct (Nat.ltb_spec (length (tenc t)) 32) as [L|L]; [eapply yp_inline; eauto|eapply yp_digest; eauto]. }
  induction t as [|p v|p c IH|cs v IH] using tree_ind2; intros J Hj Hw Hs;
    (match goal with |- (?t <> TEmpty -> _) /\ _ => assert (C : t <> TEmpty -> yp_c J (titem t)); [intros Hn|split; [exact C|apply N; auto]] end).
  - congruence.
  - cbn [titem]. apply yp_leaf with p; [|apply hp_form, Hw]. split; [apply Hj, lookup_leaf_self|].
    intros q w E. apply Hj in E. apply leaf_key_inv in E. destruct E as [-> E]; split; auto.
  - cbn [titem]. fold (ritem c). apply yp_extension with p.
    + eapply ext_longest; eauto.
    + apply Hw.
    + apply hp_form, Hw.
    + apply IH; [eapply held_ext; eauto|apply Hw|eapply small_ext; eauto].
  - cbn [titem]. change (fun c => cap (titem c)) with ritem. assert (Hw' := Hw). apply wf_branch in Hw'.
    destruct Hw' as (Hl & _ & Hf). apply yp_branch.
    + eapply branch_longest; eauto.
    + rewrite map_length. exact Hl.
    + intros i r E. assert (L : i < length cs) by (rewrite <- (map_length ritem); apply nth_error_Some; congruence).
      rewrite (nth_error_nth' _ (ritem TEmpty)) in E by (rewrite map_length; exact L). rewrite map_nth in E. injection E as <-.
      rewrite Forall_forall in IH. apply IH; [apply nth_In; exact L|eapply held_nth; eauto|apply wf_nth; auto|eapply small_nth; eauto].
    + destruct v as [|x v]; [right|left; apply Hj; reflexivity]. split; [reflexivity|].
      intros w E. apply Hj in E. discriminate.
Qed.

Lemma held_text : forall t J, held J t -> wf t -> small t -> t <> TEmpty -> yp_text J (tenc t).
Proof. intros t J Hj Hw Hs Hn. exists (titem t). split; [apply held_item; auto|apply titem_form; auto]. Qed.

Lemma held_root : forall t J, held J t -> wf t -> small t -> yp_root J (keccak (tenc t)).
Proof.
  intros t J Hj Hw Hs. destruct (tree_empty_dec t) as [->|Hn].
  - apply yp_root_none. intros q v E. apply Hj in E. discriminate.
  - apply yp_root_some. apply held_text; auto.
Qed.

Lemma held_way : forall q L t, walk t q L -> forall J, held J t -> wf t -> small t -> yp_way J q (map tenc L).
Proof.
  induction 1 as [p v|p c r L W IH|cs v|cs v i r L W IH]; intros J Hj Hw Hs; cbn [map].
  - apply way_leaf with v; [|apply held_text; auto; discriminate]. split; [apply Hj, lookup_leaf_self|].
    intros q w E. apply Hj in E. apply leaf_key_inv in E. destruct E as [-> E]; split; auto.
  - apply way_extension; [eapply ext_longest; eauto|apply Hw|apply held_text; auto; discriminate|].
    apply IH; [eapply held_ext; eauto|apply Hw|eapply small_ext; eauto].
  - apply way_value; [eapply branch_longest; eauto|apply held_text; auto; discriminate].
  - apply way_branch; [eapply branch_longest; eauto|apply held_text; auto; discriminate|].
    assert (Hw' := Hw). apply wf_branch in Hw'.
    apply IH; [eapply held_nth; eauto|apply wf_nth; apply Hw'|eapply small_nth; eauto].
Qed.

(** ** The relations determine the texts *)
Definition same (J J' : pairs) : Prop := forall q v, J q v <-> J' q v.
Definition functional (J : pairs) : Prop := forall q v w, J q v -> J q w -> v = w.

Lemma same_under : forall J J' p, same J J' -> same (under p J) (under p J').
Proof. intros J J' p E q v. apply E. Qed.
Lemma functional_under : forall J p, functional J -> functional (under p J).
Proof. intros J p F q v w. apply F. Qed.
Lemma same_sym : forall J J', same J J' -> same J' J.
Proof. intros J J' E q v. symmetry. apply E. Qed.

Lemma one_not_two : forall J J' k v, same J J' -> one_pair J k v -> two_keys J' -> False.
Proof.
  intros J J' k v E (_ & U) (a & x & b & y & Ha & Hb & Hab). apply E in Ha, Hb.
  destruct (U _ _ Ha) as [-> _]. destruct (U _ _ Hb) as [-> _]. contradiction.
Qed.

Lemma same_longest : forall J J' p p', same J J' -> longest_common J p -> longest_common J' p' -> p = p'.
Proof.
  intros J J' p p' E (T & C & M) (T' & C' & M').
  assert (X : common J p') by (intros q v Hq; apply (C' q v), E; exact Hq).
  assert (X' : common J' p) by (intros q v Hq; apply (C q v), E; exact Hq).
  pose proof (M _ X). pose proof (M' _ X'). destruct T as (a & x & _ & _ & Ha & _).
  destruct (C _ _ Ha) as [r Er]. destruct (X _ _ Ha) as [r' Er']. rewrite Er in Er'.
  assert (L : length p = length p') by lia. apply (f_equal (firstn (length p))) in Er'.
  rewrite firstn_app, Nat.sub_diag, firstn_O, app_nil_r, firstn_all in Er'.
  rewrite L, firstn_app, Nat.sub_diag, firstn_O, app_nil_r, firstn_all in Er'. exact Er'.
Qed.

Lemma hex_prefix_ok : forall h p f, hex_prefix h p f -> nib_ok p.
Proof.
  intros h p f X. inversion X as [f' d lf F|f' d lf n L F]; subst; change (nibbles d) with (nibs_of d).
  - apply nibs_of_ok.
  - constructor; [exact L|apply nibs_of_ok].
Qed.
Lemma hex_prefix_hp : forall h p f, hex_prefix h p f -> h = hp p f.
Proof.
  intros h p f X. pose proof (hex_prefix_ok _ _ _ X) as O. destruct (decode_hp p f O) as (q & _ & En).
  assert (Y : hex_prefix h (path_nibbles q) f) by (change (path_nibbles q) with (nibs q); rewrite En; exact X).
  apply encode_path_form in Y. rewrite np_encode_hp, En in Y. symmetry. exact Y.
Qed.

Scheme yp_c_mut := Induction for yp_c Sort Prop with yp_n_mut := Induction for yp_n Sort Prop.
Combined Scheme yp_mut from yp_c_mut, yp_n_mut.

Lemma c_not_none : forall J c, yp_c J c -> ~ no_pair J.
Proof.
  intros J c Hc Hn. inversion Hc as [J0 k v h (O & _) _|J0 p h r ((a & x & _ & _ & Ha & _) & _) _ _ _|J0 rs v ((a & x & _ & _ & Ha & _) & _) _ _ _]; subst;
    eapply Hn; eauto.
Qed.
Lemma same_none : forall J J', same J J' -> no_pair J -> no_pair J'.
Proof. intros J J' E N q v Hq. apply (N q v), E, Hq. Qed.

Lemma yp_unique : (forall J c, yp_c J c -> forall J' c', same J J' -> functional J -> yp_c J' c' -> c = c') /\
  (forall J c, yp_n J c -> forall J' c', same J J' -> functional J -> yp_n J' c' -> c = c').
Proof.
  apply (yp_mut H (fun J c _ => forall J' c', same J J' -> functional J -> yp_c J' c' -> c = c')
                (fun J c _ => forall J' c', same J J' -> functional J -> yp_n J' c' -> c = c')).
  - intros J k v h O X J' c' E F C. inversion C as [J0 k' v' h' O' X' E1 E2|J0 p h' r L P X' N E1 E2|J0 rs v' L Le R V E1 E2]; subst.
    + destruct O as [O U]. destruct O' as [O' U']. apply E in O'. destruct (U _ _ O') as [-> ->].
      rewrite (hex_prefix_hp _ _ _ X), (hex_prefix_hp _ _ _ X'). reflexivity.
    + exfalso. eapply one_not_two; [exact E|exact O|apply L].
    + exfalso. eapply one_not_two; [exact E|exact O|apply L].
  - intros J p h r L P X N IH J' c' E F C. inversion C as [J0 k' v' h' O' X' E1 E2|J0 p' h' r' L' P' X' N' E1 E2|J0 rs v' L' Le R V E1 E2]; subst.
    + exfalso. eapply one_not_two; [apply same_sym; exact E|exact O'|apply L].
    + pose proof (same_longest _ _ _ _ E L L') as <-. rewrite (hex_prefix_hp _ _ _ X), (hex_prefix_hp _ _ _ X'). f_equal. f_equal. f_equal.
      eapply IH; [apply same_under; exact E|apply functional_under; exact F|exact N'].
    + exfalso. apply P. exact (same_longest _ _ _ _ E L L').
  - intros J rs v L Le R IH V J' c' E F C. inversion C as [J0 k' v' h' O' X' E1 E2|J0 p' h' r' L' P' X' N' E1 E2|J0 rs' v' L' Le' R' V' E1 E2]; subst.
    + exfalso. eapply one_not_two; [apply same_sym; exact E|exact O'|apply L].
    + exfalso. apply P'. symmetry. exact (same_longest _ _ _ _ E L L').
    + f_equal. f_equal.
      * apply nth_error_eq. intros i. destruct (nth_error rs i) as [r|] eqn:Er.
        -- destruct (nth_error rs' i) as [r'|] eqn:Er'.
           ++ f_equal. eapply IH; [exact Er|apply same_under; exact E|apply functional_under; exact F|apply R'; exact Er'].
           ++ apply nth_error_None in Er'. assert (i < length rs) by (apply nth_error_Some; congruence). lia.
        -- apply nth_error_None in Er. symmetry. apply nth_error_None. lia.
      * f_equal. f_equal. destruct V as [V|[-> V]], V' as [V'|[-> V']].
        -- apply E in V'. exact (F _ _ _ V V').
        -- apply E in V. exfalso. eapply V'; eauto.
        -- apply E in V'. exfalso. eapply V; eauto.
        -- reflexivity.
  - intros J N J' c' E F C. inversion C as [J0 N'|J0 c b C' _ _|J0 c b C' _ _]; subst; [reflexivity|exfalso..];
      eapply c_not_none; eauto; eapply same_none; eauto.
  - intros J c b C IH X L J' c' E F N. inversion N as [J0 N'|J0 c0 b' C' X' L'|J0 c0 b' C' X' L']; subst.
    + exfalso. eapply c_not_none; eauto. eapply same_none; [apply same_sym|]; eauto.
    + eapply IH; eauto.
    + exfalso. assert (c = c0) by (eapply IH; eauto). subst c0. pose proof (form_unique_text _ _ _ X X'). subst. lia.
  - intros J c b C IH X L J' c' E F N. inversion N as [J0 N'|J0 c0 b' C' X' L'|J0 c0 b' C' X' L']; subst.
    + exfalso. eapply c_not_none; eauto. eapply same_none; [apply same_sym|]; eauto.
    + exfalso. assert (c = c') by (eapply IH; eauto). subst c'. pose proof (form_unique_text _ _ _ X X'). subst. lia.
    + assert (c = c0) by (eapply IH; eauto). subst c0. pose proof (form_unique_text _ _ _ X X'). subst. reflexivity.
Qed.

Lemma held_same : forall t J J', held J t -> held J' t -> same J J'.
Proof. intros t J J' A B q v. rewrite (A q v), (B q v). reflexivity. Qed.
Lemma held_functional : forall t J, held J t -> functional J.
Proof. intros t J A q v w Hv Hw. apply A in Hv, Hw. rewrite Hv in Hw. injection Hw as E. exact E. Qed.

Lemma text_unique : forall t J b, held J t -> wf t -> small t -> yp_text J b -> t <> TEmpty /\ b = tenc t.
Proof.
  intros t J b Hj Hw Hs (c & C & X). assert (Hn : t <> TEmpty).
  { intros ->. eapply c_not_none; eauto. intros q v E. apply Hj in E. discriminate. }
  split; [exact Hn|]. destruct (held_item t J Hj Hw Hs) as [C' _]. specialize (C' Hn).
  assert (c = titem t) as -> by (eapply (proj1 yp_unique); eauto; [intros q v; reflexivity|eapply held_functional; eauto]).
  eapply form_unique_text; [exact X|]. apply titem_form; auto.
Qed.

Lemma root_unique : forall t J r, held J t -> wf t -> small t -> yp_root J r -> r = keccak (tenc t).
Proof.
  intros t J r Hj Hw Hs R. inversion R as [J0 N|J0 b T]; subst.
  - destruct (tree_empty_dec t) as [->|Hn]; [reflexivity|]. exfalso. destruct (wf_has_key t Hw Hn) as (q & v & E). apply (N q v), Hj, E.
  - destruct (text_unique t J b Hj Hw Hs T) as [_ ->]. reflexivity.
Qed.

(** The shape of the tree, told from the pairs. *)
Lemma one_leaf : forall t J k v, held J t -> wf t -> one_pair J k v -> t = TLeaf k v.
Proof.
  intros t J k v Hj Hw O. destruct t as [|p w|p c|cs w].
  - destruct O as [O _]. apply Hj in O. discriminate.
  - destruct O as [O U]. apply Hj in O. apply leaf_key_inv in O. destruct O as [-> ->]. reflexivity.
  - exfalso. eapply one_not_two; [|exact O|apply (ext_longest J p c Hj Hw)]. intros q x; reflexivity.
  - exfalso. eapply one_not_two; [|exact O|apply (branch_longest J cs w Hj Hw)]. intros q x; reflexivity.
Qed.
Lemma longest_tree : forall t J p, held J t -> wf t -> longest_common J p ->
  match p with [] => exists cs v, t = TBranch cs v | _ => exists c, t = TExt p c end.
Proof.
  intros t J p Hj Hw L. assert (R : same J J) by (intros q x; reflexivity). destruct t as [|p' w|p' c|cs w].
  - exfalso. destruct L as ((a & x & _ & _ & Ha & _) & _). apply Hj in Ha. discriminate.
  - exfalso. eapply one_not_two; [exact R| |apply L]. split; [apply Hj, lookup_leaf_self|].
    intros q x E. apply Hj in E. apply leaf_key_inv in E. destruct E as [-> E]; split; auto.
  - pose proof (same_longest _ _ _ _ R L (ext_longest J p' c Hj Hw)) as ->. destruct p' as [|i p']; [|eauto].
    exfalso. destruct Hw as (_ & Hp & _). contradiction.
  - pose proof (same_longest _ _ _ _ R L (branch_longest J cs w Hj Hw)) as ->. eauto.
Qed.

Lemma way_walk : forall J q L, yp_way J q L -> forall t, held J t -> wf t -> small t -> exists L', walk t q L' /\ L = map tenc L'.
Proof.
  induction 1 as [J k v b O T|J p q b L Lc P T W IH|J i q b L Lc T W IH|J b Lc T]; intros t Hj Hw Hs;
    destruct (text_unique t J b Hj Hw Hs T) as [Hn ->].
  - pose proof (one_leaf t J k v Hj Hw O) as ->. exists [TLeaf k v]. split; [constructor|reflexivity].
  - pose proof (longest_tree t J p Hj Hw Lc) as Ht. destruct p as [|i0 p0]; [contradiction|]. destruct Ht as [c ->].
    destruct (IH c) as (L' & W' & ->); [eapply held_ext; eauto|apply Hw|eapply small_ext; eauto|].
    exists (TExt (i0 :: p0) c :: L'). split; [constructor; exact W'|reflexivity].
  - destruct (longest_tree t J [] Hj Hw Lc) as (cs & v & ->). assert (Hw' := Hw). apply wf_branch in Hw'.
    destruct (IH (nth i cs TEmpty)) as (L' & W' & ->); [eapply held_nth; eauto|apply wf_nth; apply Hw'|eapply small_nth; eauto|].
    exists (TBranch cs v :: L'). split; [constructor; exact W'|reflexivity].
  - destruct (longest_tree t J [] Hj Hw Lc) as (cs & v & ->). exists [TBranch cs v]. split; [constructor|reflexivity].
Qed.

Lemma walk_fun : forall t q L, walk t q L -> forall L', walk t q L' -> L' = L.
Proof.
  induction 1 as [p v|p c r L W IH|cs v|cs v i r L W IH]; intros L' W'; inversion W'; subst; auto.
  - match goal with E : p ++ _ = p ++ _ |- _ => apply app_inv_head in E; subst end. f_equal. auto.
  - f_equal. auto.
Qed.

Lemma walk_length : forall t q L, walk t q L -> wf t -> 1 <= length L <= S (length q).
Proof.
  induction 1 as [p v|p c r L W IH|cs v|cs v i r L W IH]; intros Hw; cbn [length]; try lia.
  - destruct Hw as (_ & Hp & _ & Hc). specialize (IH Hc). rewrite app_length. destruct p; [contradiction|cbn [length]; lia].
  - apply wf_branch in Hw. specialize (IH (wf_nth cs i (proj2 (proj2 Hw)))). lia.
Qed.

(** ** Trails *)
Lemma held_trail : forall t q u r J, t <> TEmpty -> halt t q = (u, r) -> held J t -> wf t -> small t -> yp_trail J q r (map tenc (trail t q)).
Proof.
  induction t as [|p v|p c IH|cs v IH] using tree_ind2; intros q u r J Hn Eh Hj Hw Hs.
  - congruence.
  - cbn [halt] in Eh. injection Eh as <- <-. cbn [trail map]. apply trail_leaf with p v; [|apply held_text; auto].
    split; [apply Hj, lookup_leaf_self|]. intros q' w E. apply Hj in E. apply leaf_key_inv in E. destruct E as [-> E]; split; auto.
  - pose proof (ext_longest J p c Hj Hw) as Lc. assert (Hp : p <> []) by apply Hw. cbn [halt] in Eh. cbn [trail].
    destruct (strip p q) as [z|] eqn:Es.
    + apply strip_spec in Es. subst q. cbn [map]. apply trail_extension; auto; [apply held_text; auto|].
      eapply IH; [|exact Eh|eapply held_ext; eauto|apply Hw|eapply small_ext; eauto].
      destruct Hw as (_ & _ & Hb & _). destruct c; try contradiction; discriminate.
    + injection Eh as <- <-. destruct q as [|i q].
      * cbn [map]. eapply trail_extension_end; eauto. apply held_text; auto.
      * cbn [map]. eapply trail_extension_left; eauto; [discriminate|]. intros z Ez.
        assert (strip p (i :: q) = Some z) by (apply strip_spec; exact Ez). congruence.
  - pose proof (branch_longest J cs v Hj Hw) as Lc. assert (Ht : yp_text J (tenc (TBranch cs v))) by (apply held_text; auto).
    destruct q as [|i q].
    + cbn [halt] in Eh. injection Eh as <- <-. cbn [trail map]. apply trail_branch_end; auto.
    + rewrite halt_branch in Eh. rewrite PoeExact.trail_branch. cbn [map]. assert (Hw' := Hw). apply wf_branch in Hw'.
      destruct (tree_empty_dec (nth i cs TEmpty)) as [Ec|Ec].
      * injection Eh as <- <-. rewrite Ec. cbn [trail map]. apply trail_branch_left; auto.
        intros z w E. apply (held_nth J cs v i Hj) in E. rewrite Ec in E. discriminate.
      * apply SpecYp.trail_branch; auto. rewrite Forall_forall in IH. eapply IH; eauto.
        -- apply nth_In, nth_ne_lt; auto.
        -- eapply held_nth; eauto.
        -- apply wf_nth; apply Hw'.
        -- eapply small_nth; eauto.
Qed.

Lemma trail_unique : forall J q r L, yp_trail J q r L -> forall t, held J t -> wf t -> small t ->
  t <> TEmpty /\ snd (halt t q) = r /\ L = map tenc (trail t q).
Proof.
  induction 1 as [J k v q b O T|J p q r b L Lc P T W IH|J p b Lc P T|J p q Lc P Q N|J i q r b L Lc T W IH|J i q b Lc T N|J b Lc T];
    intros t Hj Hw Hs; try (destruct (text_unique t J b Hj Hw Hs T) as [Hn ->]).
  - pose proof (one_leaf t J k v Hj Hw O) as ->. repeat split; auto.
  - pose proof (longest_tree t J p Hj Hw Lc) as Ht. destruct p as [|i0 p0]; [contradiction|]. destruct Ht as [c ->].
    destruct (IH c) as (Hc & E & ->); [eapply held_ext; eauto|apply Hw|eapply small_ext; eauto|].
    split; [exact Hn|]. cbn [halt trail]. assert (Es : strip (i0 :: p0) ((i0 :: p0) ++ q) = Some q) by (apply strip_spec; reflexivity).
    rewrite Es. split; [exact E|reflexivity].
  - pose proof (longest_tree t J p Hj Hw Lc) as Ht. destruct p as [|i0 p0]; [contradiction|]. destruct Ht as [c ->].
    split; [exact Hn|]. split; reflexivity.
  - pose proof (longest_tree t J p Hj Hw Lc) as Ht. destruct p as [|i0 p0]; [contradiction|]. destruct Ht as [c ->].
    split; [discriminate|]. cbn [halt trail]. destruct (strip (i0 :: p0) q) as [z|] eqn:Es; [apply strip_spec in Es; exfalso; eapply N; eauto|].
    split; [reflexivity|]. destruct q; [contradiction|reflexivity].
  - destruct (longest_tree t J [] Hj Hw Lc) as (cs & v & ->). assert (Hw' := Hw). apply wf_branch in Hw'.
    destruct (IH (nth i cs TEmpty)) as (Hc & E & ->); [eapply held_nth; eauto|apply wf_nth; apply Hw'|eapply small_nth; eauto|].
    split; [discriminate|]. rewrite halt_branch, PoeExact.trail_branch. destruct (tree_empty_dec (nth i cs TEmpty)); [contradiction|]. split; auto.
  - destruct (longest_tree t J [] Hj Hw Lc) as (cs & v & ->). split; [discriminate|]. rewrite halt_branch, PoeExact.trail_branch.
    assert (Hw' := Hw). apply wf_branch in Hw'. destruct (tree_empty_dec (nth i cs TEmpty)) as [E|E].
    + rewrite E. split; reflexivity.
    + exfalso. destruct (wf_has_key _ (wf_nth cs i (proj2 (proj2 Hw'))) E) as (z & w & Ez).
      apply (N z w). apply (held_nth J cs v i Hj). exact Ez.
  - destruct (longest_tree t J [] Hj Hw Lc) as (cs & v & ->). split; [discriminate|]. split; reflexivity.
Qed.

Lemma trail_length : forall t q, wf t -> length (trail t q) <= S (length q).
Proof.
  induction t as [|p v|p c IH|cs v IH] using tree_ind2; intros q Hw.
  - cbn; lia.
  - cbn; lia.
  - cbn [trail]. destruct (strip p q) as [z|] eqn:Es.
    + apply strip_spec in Es. subst q. destruct Hw as (_ & Hp & _ & Hc). specialize (IH z Hc). cbn [length]. rewrite app_length.
      destruct p; [contradiction|cbn [length]; lia].
    + destruct q; cbn [length]; lia.
  - destruct q as [|i q]; [cbn; lia|]. rewrite PoeExact.trail_branch. cbn [length]. apply wf_branch in Hw.
    destruct (nth_in_or_default i cs TEmpty) as [Hi|Hd]; [|rewrite Hd; cbn; lia].
    rewrite Forall_forall in IH. specialize (IH _ Hi q (wf_nth cs i (proj2 (proj2 Hw)))). lia.
Qed.

(** ** Stored nodes *)
Lemma node_stored : forall J b, yp_node J b -> forall t m, held J t -> wf t -> small t -> stored m t -> 32 <= length b -> dget m (keccak b) = Some b.
Proof.
  induction 1 as [J b T|J p b Lc P W IH|J i b Lc W IH]; intros t m Hj Hw Hs St Hl.
  - destruct (text_unique t J b Hj Hw Hs T) as [Hn ->]. apply (here_of_stored _ _ St); auto.
  - pose proof (longest_tree t J p Hj Hw Lc) as Ht. destruct p as [|i0 p0]; [contradiction|]. destruct Ht as [c ->].
    apply stored_ext in St. apply (IH c); [eapply held_ext; eauto|apply Hw|eapply small_ext; eauto|apply St|exact Hl].
  - destruct (longest_tree t J [] Hj Hw Lc) as (cs & v & ->). assert (Hw' := Hw). apply wf_branch in Hw'. apply stored_branch in St.
    apply (IH (nth i cs TEmpty)); [eapply held_nth; eauto|apply wf_nth; apply Hw'|eapply small_nth; eauto|apply stored_nth; apply St|exact Hl].
Qed.

(** ** Reachable tries *)
Lemma reach_held : forall secure l t, reachable secure l t -> keys_ok secure (map op_key l) ->
  m_secure t = secure /\ exists tr, repr t tr /\ held (pairs_of secure (dict_after l)) tr.
Proof.
  intros secure l t R Hk. destruct (reachable_repr keccak_len _ _ _ R) as (Es & tr & Rt & H1 & H2). split; [exact Es|]. exists tr. split; [exact Rt|].
  intros q v. split.
  - intros (k & Ek & ->). change (nibbles (if secure then keccak k else k)) with (nibs_of (eff secure k)). rewrite H1.
    rewrite (dict_eff secure l k); [exact Ek|]. apply dict_after_keys in Ek. intros S. intros a b Ha Hb.
    apply (Hk S); [destruct Ha as [<-|Ha]|destruct Hb as [<-|Hb]]; auto.
  - intros E. destruct (H2 _ _ E) as [x ->]. rewrite H1 in E. apply dict_after_eff_inv in E; auto. destruct E as (k & -> & Ek).
    exists k. split; [exact Ek|reflexivity].
Qed.

Theorem root_is_yp : forall secure l t, reachable secure l t -> keys_ok secure (map op_key l) ->
  forall r, yp_root (pairs_of secure (dict_after l)) r <-> root_hash t = r.
Proof.
  intros secure l t R Hk r. destruct (reach_held _ _ _ R Hk) as (_ & tr & Rt & Hj). rewrite (root_hash_tenc keccak_len t tr Rt).
  destruct Rt as (Hw & Hs & _). split.
  - intros Y. symmetry. eapply root_unique; eauto.
  - intros <-. apply held_root; auto.
Qed.

Theorem root_reference_is_yp : forall secure l t b, reachable secure l t -> keys_ok secure (map op_key l) ->
  yp_text (pairs_of secure (dict_after l)) b -> m_root t = Some (if length b <? 32 then b else keccak b).
Proof.
  intros secure l t b R Hk T. destruct (reach_held _ _ _ R Hk) as (_ & tr & Rt & Hj).
  destruct (text_unique tr _ b Hj) as [Hn ->]; [apply Rt..|exact T|].
  destruct (repr_nonempty keccak_len t tr Rt Hn) as (_ & _ & _ & ->). rewrite tref_eq by auto. reflexivity.
Qed.

Theorem poi_is_way : forall secure l t k v lim time, reachable secure l t -> keys_ok secure (map op_key l) ->
  dict_after l k = Some v -> frames secure k < lim ->
  let J := pairs_of secure (dict_after l) in let q := nibbles (trie_key secure k) in
  exists p L, mpt_get_poi lim time t k = Ok p /\ pf_proof p = map PB L /\
    (forall L', yp_way J q L' <-> L' = L) /\ 1 <= length L <= frames secure k + 1.
Proof.
  intros secure l t k v lim time R Hk Ek Hl J q. destruct (reach_held _ _ _ R Hk) as (Es & tr & Rt & Hj). fold J in Hj.
  assert (Eq : nibs_of (eff_key t k) = q) by (unfold q, eff_key, trie_key; rewrite Es; reflexivity).
  assert (Hq : length q = frames secure k) by (rewrite <- Eq, nibs_of_length, eff_key_eff, Es; apply (eff_frames keccak_len)).
  assert (Elk : lookup tr q = Some v) by (apply Hj; exists k; split; [exact Ek|reflexivity]).
  destruct (walk_of_lookup tr q v Elk) as [L W].
  assert (Hn : tr <> TEmpty) by (eapply walk_ne; eauto).
  destruct (repr_nonempty keccak_len t tr Rt Hn) as (_ & E2 & E3 & _). destruct Rt as (Hw & Hs & St & _).
  assert (G : get_poi_ lim (m_map t) (tref tr) (np_of (eff_key t k)) [] = Ok (map tenc L)).
  { apply (get_poi_walk keccak_len q L tr W); auto; try lia; rewrite nibs_np_of; exact Eq. }
  eexists. exists (map tenc L). split; [unfold mpt_get_poi; rewrite E2, E3, G; cbn [bind]; reflexivity|].
  split; [reflexivity|]. split.
  - intros L'. split.
    + intros Y. destruct (way_walk _ _ _ Y tr Hj Hw Hs) as (L2 & W2 & ->). rewrite (walk_fun _ _ _ W _ W2). reflexivity.
    + intros ->. eapply held_way; eauto.
  - rewrite map_length. pose proof (walk_length _ _ _ W Hw). lia.
Qed.

Theorem poe_is_trail : forall secure l t k lim time p, reachable secure l t -> keys_ok secure (k :: map op_key l) ->
  frames secure k < lim -> mpt_get_poe lim time t k = Ok p ->
  let J := pairs_of secure (dict_after l) in let q := nibbles (trie_key secure k) in
  exists r L e h, pf_proof p = map PB (L ++ [e]) /\ (forall r' L', yp_trail J q r' L' <-> r' = r /\ L' = L) /\
    length L <= frames secure k + 1 /\ hex_prefix h r true /\ rlp_form e (IList [IBytes h; IBytes null_bytes]).
Proof.
  intros secure l t k lim time p R Hk Hl G J q.
  assert (Hk' : keys_ok secure (map op_key l)) by (intros S a b Ha Hb; apply (Hk S); right; assumption).
  destruct (reach_held _ _ _ R Hk') as (Es & tr & Rt & Hj). fold J in Hj.
  assert (Eq : nibs_of (eff_key t k) = q) by (unfold q, eff_key, trie_key; rewrite Es; reflexivity).
  assert (Hq : length q = frames secure k) by (rewrite <- Eq, nibs_of_length, eff_key_eff, Es; apply (eff_frames keccak_len)).
  unfold mpt_get_poe in G. destruct (root_is_empty t) eqn:Ee; [discriminate|].
  assert (Hn : tr <> TEmpty) by (intros ->; destruct (repr_empty_root t Rt); congruence).
  destruct (repr_nonempty keccak_len t tr Rt Hn) as (_ & _ & E3 & _). destruct Rt as (Hw & Hs & St & _).
  destruct (mpt_contains lim t k) as [[|]|] eqn:Ec; cbn [bind] in G; try discriminate.
  destruct (halt tr q) as [u r] eqn:Eh.
  destruct (poe_halt keccak_len lim (m_map t) tr (np_of (eff_key t k)) [] u r Hn Hw Hs St) as (n & path' & Hm & Hp & Eg).
  { rewrite nibs_np_of, Eq. lia. }
  { rewrite nibs_np_of, Eq. exact Eh. }
  rewrite E3, Eg, nibs_np_of, Eq in G. cbn [bind app] in G.
  destruct (node_encode (Leaf path' null_bytes)) as [e|] eqn:En; cbn [bind] in G; [|discriminate].
  exists r, (map tenc (trail tr q)), e, (np_encode path' true).
  assert (Gp : pf_proof p = map PB (map tenc (trail tr q) ++ [e])).
  { destruct n as [lp d|ep nr|bs d]; [destruct (np_eq lp path'); [discriminate|]| |destruct (bytes_eqb d []); [|discriminate]];
      unfold new_proof in G; injection G as <-; reflexivity. }
  split; [exact Gp|]. split.
  - intros r' L'. split.
    + intros Y. destruct (trail_unique _ _ _ _ Y tr Hj Hw Hs) as (_ & E & ->). rewrite Eh in E. split; [symmetry; exact E|reflexivity].
    + intros [-> ->]. eapply held_trail; eauto.
  - split; [rewrite map_length; pose proof (trail_length tr q Hw); lia|]. split.
    + rewrite <- Hp. change (nibs path') with (path_nibbles path'). apply encode_path_form. reflexivity.
    + cbn [node_encode] in En. apply encode_form in En. exact En.
Qed.

Theorem storage_has_nodes : forall secure l t b, reachable secure l t -> keys_ok secure (map op_key l) ->
  yp_node (pairs_of secure (dict_after l)) b -> 32 <= length b -> dget (m_map t) (keccak b) = Some b.
Proof.
  intros secure l t b R Hk Y Hl. destruct (reach_held _ _ _ R Hk) as (_ & tr & (Hw & Hs & St & _) & Hj).
  eapply node_stored; eauto.
Qed.
End Yp.
