(** [update_] realises the update of a tree. *)
From Coq Require Import List Bool Arith NArith ZArith Lia.
From Verif Require Import Base BaseProofs NibblePath NibbleProofs Node Mpt Tree TreeEnc StoreProofs.
Import ListNotations.

Ltac cgr := first [reflexivity | congruence | exfalso; congruence].
Ltac pd := repeat match goal with |- context [path_dec ?a ?b] => destruct (path_dec a b) end; cgr.

(** ** Tree building blocks *)
Definition no_cs : list tree := repeat TEmpty 16.
Definition bleaf (a : list nat) (v : bytes) (cs : list tree) : list tree :=
  match a with [] => cs | i :: r => set_nth i (TLeaf r v) cs end.
Definition mkext (p : list nat) (t : tree) : tree := match p with [] => t | _ => TExt p t end.
Definition bsub (b : list nat) (c : tree) (cs : list tree) : list tree :=
  match b with [] => cs | i :: r => set_nth i (mkext r c) cs end.

Lemma no_cs_length : length no_cs = 16.
Proof. reflexivity. Qed.
Lemma nth_no_cs : forall i, nth i no_cs TEmpty = TEmpty.
Proof. intros i. unfold no_cs. do 17 (destruct i as [|i]; [reflexivity|]). reflexivity. Qed.

Lemma lookup_mkext : forall p t q, lookup (mkext p t) q = match strip p q with Some r => lookup t r | None => None end.
Proof. intros. destruct p; reflexivity. Qed.
Lemma lookup_mkext_app : forall p t q, lookup (mkext p t) (p ++ q) = lookup t q.
Proof. intros. rewrite lookup_mkext, strip_app. reflexivity. Qed.

Lemma mkext_wf : forall p t, nib_ok p -> is_branch t -> wf t -> wf (mkext p t).
Proof. intros p t Hp Hb Hw. destruct p; cbn [mkext wf]; auto. repeat split; auto. discriminate. Qed.
Lemma mkext_ne : forall p t, t <> TEmpty -> mkext p t <> TEmpty.
Proof. intros p t Ht. destruct p; cbn; [auto|discriminate]. Qed.

Lemma branch_ne : forall t, is_branch t -> t <> TEmpty.
Proof. intros t Hb ->. exact Hb. Qed.

Lemma strip_diverge : forall b q x y r1 r2, b = x :: r1 -> q = y :: r2 -> x <> y -> strip b q = None.
Proof.
  intros b q x y r1 r2 -> -> Hn. cbn. destruct (Nat.eqb_spec x y); cgr.
Qed.

(** Two leaves below a branch. *)
Definition two_leaves (a : list nat) (v : bytes) (b : list nat) (d : bytes) : tree :=
  TBranch (bleaf b d (bleaf a v no_cs))
          (match a with [] => v | _ => match b with [] => d | _ => [] end end).

Definition diverge (a b : list nat) : Prop :=
  match a, b with [], [] => False | x :: _, y :: _ => x <> y | _, _ => True end.

Lemma bleaf_length : forall a v cs, nib_ok a -> length cs = 16 -> length (bleaf a v cs) = 16.
Proof.
  intros a v cs Ha Hl. destruct a as [|i a]; auto. cbn [bleaf]. inversion Ha; subst.
  rewrite set_nth_length; lia.
Qed.

Lemma lookup_two_leaves : forall a v b d q, nib_ok a -> nib_ok b -> (a = [] -> v <> []) -> (b = [] -> d <> []) -> diverge a b ->
  lookup (two_leaves a v b d) q
  = if path_dec q a then Some v else if path_dec q b then Some d else None.
Proof.
  intros a v b d q Ha Hb Hv Hd Hdiv. unfold two_leaves.
  destruct q as [|i r].
  - destruct (path_dec [] a) as [<-|Hna].
    + apply lookup_branch_nil. auto.
    + destruct a as [|x a]; [congruence|]. destruct (path_dec [] b) as [<-|Hnb].
      * apply lookup_branch_nil. auto.
      * destruct b; [congruence|]. reflexivity.
  - rewrite lookup_branch.
    assert (Hla := bleaf_length a v no_cs Ha no_cs_length).
    destruct a as [|x a], b as [|y b]; cbn [bleaf diverge] in *.
    + contradiction.
    + inversion Hb; subst. rewrite nth_set_nth by (rewrite no_cs_length; lia).
      destruct (path_dec (i :: r) []) as [F|_]; [discriminate|].
      destruct (Nat.eqb_spec i y) as [->|Hn].
      * cbn [lookup]. destruct (path_dec r b), (path_dec (y :: r) (y :: b)); cgr.
      * rewrite nth_no_cs. destruct (path_dec (i :: r) (y :: b)) as [F|_]; [congruence|reflexivity].
    + inversion Ha; subst. rewrite nth_set_nth by (rewrite no_cs_length; lia).
      destruct (Nat.eqb_spec i x) as [->|Hn].
      * cbn [lookup]. pd.
      * rewrite nth_no_cs. destruct (path_dec (i :: r) (x :: a)) as [F|_]; [congruence|].
        destruct (path_dec (i :: r) []); [discriminate|reflexivity].
    + inversion Ha; inversion Hb; subst. rewrite nth_set_nth by lia.
      rewrite nth_set_nth by (rewrite no_cs_length; lia).
      destruct (Nat.eqb_spec i y) as [->|Hny].
      * cbn [lookup]. destruct (path_dec (y :: r) (x :: a)) as [F|_]; [congruence|].
        destruct (path_dec r b), (path_dec (y :: r) (y :: b)); cgr.
      * destruct (Nat.eqb_spec i x) as [->|Hnx].
        -- cbn [lookup]. pd.
        -- rewrite nth_no_cs. destruct (path_dec (i :: r) (x :: a)) as [F|_]; [congruence|].
           destruct (path_dec (i :: r) (y :: b)) as [F|_]; [congruence|reflexivity].
Qed.

Lemma no_cs_wf : Forall wf no_cs.
Proof. unfold no_cs. cbn. repeat constructor. Qed.

Lemma bleaf_wf : forall a v cs, nib_ok a -> Forall wf cs -> Forall wf (bleaf a v cs).
Proof.
  intros a v cs Ha Hc. destruct a as [|i r]; auto. inversion Ha; subst.
  apply Forall_set_nth; auto.
Qed.

Lemma two_leaves_wf : forall a v b d, nib_ok a -> nib_ok b -> (a = [] -> v <> []) -> (b = [] -> d <> []) -> diverge a b ->
  wf (two_leaves a v b d).
Proof.
  intros a v b d Ha Hb Hv Hd Hdiv. unfold two_leaves. apply wf_branch.
  assert (Hla := bleaf_length a v no_cs Ha no_cs_length).
  split; [|split].
  - apply bleaf_length; auto.
  - destruct a as [|x a], b as [|y b]; cbn [diverge bleaf] in *; [contradiction| | |].
    + right. split; auto. exists y. inversion Hb; subst. rewrite nth_set_nth by (rewrite no_cs_length; lia).
      rewrite Nat.eqb_refl. discriminate.
    + right. split; auto. exists x. inversion Ha; subst. rewrite nth_set_nth by (rewrite no_cs_length; lia).
      rewrite Nat.eqb_refl. discriminate.
    + left. exists x, y. inversion Ha; inversion Hb; subst. split; auto.
      rewrite !nth_set_nth by (rewrite ?no_cs_length; lia). rewrite !Nat.eqb_refl.
      destruct (Nat.eqb_spec x y); split; discriminate.
  - repeat apply bleaf_wf; auto using no_cs_wf.
Qed.

(** A leaf (or the value) and an existing subtree below a branch. *)
Definition leaf_and_sub (a : list nat) (v : bytes) (b : list nat) (c : tree) : tree :=
  TBranch (bsub b c (bleaf a v no_cs)) (match a with [] => v | _ => [] end).

Lemma lookup_leaf_and_sub : forall a v b c q, nib_ok a -> nib_ok b -> (a = [] -> v <> []) -> b <> [] -> diverge a b ->
  lookup (leaf_and_sub a v b c) q
  = if path_dec q a then Some v else match strip b q with Some r => lookup c r | None => None end.
Proof.
  intros a v b c q Ha Hb Hv Hbn Hdiv. unfold leaf_and_sub.
  destruct b as [|y b]; [congruence|]. inversion Hb as [|? ? Hy Hb']; subst.
  assert (Hla := bleaf_length a v no_cs Ha no_cs_length).
  destruct q as [|i r].
  - destruct (path_dec [] a) as [<-|Hna].
    + apply lookup_branch_nil. auto.
    + destruct a as [|x a]; [congruence|]. reflexivity.
  - rewrite lookup_branch. cbn [bsub]. rewrite nth_set_nth by lia.
    cbn [strip]. destruct (Nat.eqb_spec i y) as [->|Hn].
    + rewrite Nat.eqb_refl, lookup_mkext. destruct (path_dec (y :: r) a) as [<-|_]; [|reflexivity].
      cbn in Hdiv. congruence.
    + destruct (Nat.eqb_spec y i); [congruence|]. destruct a as [|x a]; cbn [bleaf].
      * rewrite nth_no_cs. destruct (path_dec (i :: r) []); [discriminate|reflexivity].
      * inversion Ha; subst. rewrite nth_set_nth by (rewrite no_cs_length; lia).
        destruct (Nat.eqb_spec i x) as [->|Hnx].
        -- cbn [lookup]. destruct (path_dec r a), (path_dec (x :: r) (x :: a)); cgr.
        -- rewrite nth_no_cs. destruct (path_dec (i :: r) (x :: a)) as [F|_]; [congruence|reflexivity].
Qed.

Lemma leaf_and_sub_wf : forall a v b c, nib_ok a -> nib_ok b -> (a = [] -> v <> []) -> b <> [] -> diverge a b ->
  is_branch c -> wf c -> wf (leaf_and_sub a v b c).
Proof.
  intros a v b c Ha Hb Hv Hbn Hdiv Hbr Hw. unfold leaf_and_sub.
  destruct b as [|y b]; [congruence|]. inversion Hb as [|? ? Hy Hb']; subst.
  assert (Hla := bleaf_length a v no_cs Ha no_cs_length). apply wf_branch. cbn [bsub].
  assert (Hc : mkext b c <> TEmpty) by auto using mkext_ne, branch_ne.
  split; [|split].
  - rewrite set_nth_length; lia.
  - destruct a as [|x a]; cbn [diverge bleaf] in *.
    + right. split; auto. exists y. rewrite nth_set_nth by (rewrite no_cs_length; lia).
      rewrite Nat.eqb_refl. auto.
    + left. exists x, y. inversion Ha; subst. split; auto.
      rewrite !nth_set_nth by (rewrite ?no_cs_length; lia). rewrite !Nat.eqb_refl.
      destruct (Nat.eqb_spec x y); split; auto; discriminate.
  - apply Forall_set_nth; [apply bleaf_wf; auto using no_cs_wf|]. apply mkext_wf; auto.
Qed.

Lemma lcp_diverge_skip : forall a b, a <> b ->
  diverge (skipn (length (lcp a b)) a) (skipn (length (lcp a b)) b).
Proof.
  intros a b Hn. destruct (lcp_split a b) as [Ea Eb].
  destruct (skipn (length (lcp a b)) a) as [|x a'] eqn:E1, (skipn (length (lcp a b)) b) as [|y b'] eqn:E2;
    cbn; auto.
  - apply Hn. congruence.
  - eapply lcp_diverge; eauto.
Qed.

Lemma split_lookup : forall c x y q v (f : list nat -> option bytes),
  (if path_dec q (c ++ x) then Some v else match strip (c ++ y) q with Some r => f r | None => None end)
  = match strip c q with
    | Some z => if path_dec z x then Some v else match strip y z with Some r => f r | None => None end
    | None => None
    end.
Proof.
  intros c x y q v f. destruct (strip c q) as [z|] eqn:E.
  - apply strip_spec in E. subst q. destruct (path_dec (c ++ z) (c ++ x)) as [E|Hn].
    + apply app_inv_head in E. destruct (path_dec z x); cgr.
    + destruct (path_dec z x) as [->|_]; [congruence|].
      replace (strip (c ++ y) (c ++ z)) with (strip y z); auto.
      clear. induction c as [|a c IH]; auto. cbn. rewrite Nat.eqb_refl. auto.
  - rewrite strip_None in E. destruct (path_dec q (c ++ x)) as [->|_]; [exfalso; eapply E; eauto|].
    destruct (strip (c ++ y) q) as [r|] eqn:E2; auto. apply strip_spec in E2. exfalso.
    rewrite <- app_assoc in E2. eapply E; eauto.
Qed.

Lemma leaf_lookup_strip : forall p (d : bytes) q,
  (if path_dec q p then Some d else None)
  = match strip p q with Some r => (match r with [] => Some d | _ => None end) | None => None end.
Proof.
  intros p d q. destruct (strip p q) as [r|] eqn:E.
  - apply strip_spec in E. subst q. destruct r as [|x r].
    + rewrite app_nil_r. destruct (path_dec p p); cgr.
    + destruct (path_dec (p ++ x :: r) p) as [F|_]; auto. exfalso.
      apply (f_equal (@length nat)) in F. rewrite app_length in F. cbn in F. lia.
  - destruct (path_dec q p) as [->|_]; auto. rewrite strip_None in E. exfalso.
    apply (E []). symmetry. apply app_nil_r.
Qed.

Lemma nib_ok_skip : forall n q, nib_ok q -> nib_ok (skipn n q).
Proof.
  intros n q Hq. apply Forall_forall. intros x Hx. unfold nib_ok in Hq. rewrite Forall_forall in Hq.
  apply Hq. rewrite <- (firstn_skipn n). apply in_or_app. auto.
Qed.

(** Matching on the first nibble of a path. *)
Lemma path_cases : forall p, (np_len p = 0 /\ nibs p = []) \/
  (exists i r, nibs p = i :: r /\ np_len p = S (length r) /\ np_at p 0 = i /\ nibs (np_consume p 1) = r).
Proof.
  intros p. rewrite np_len_spec, np_at_spec, nibs_consume. destruct (nibs p) as [|i r] eqn:E.
  - left. auto.
  - right. exists i, r. auto.
Qed.

(** ** Monadic specifications *)
Section Update.
Context {H : Hash}.
Hypothesis keccak_len : forall b, length (keccak b) = 32.

Lemma keeps_branch_leaf : forall p v bs, keeps (create_branch_leaf p v bs).
Proof.
  intros. unfold create_branch_leaf. destruct (0 <? np_len p); [|apply keeps_ret].
  apply keeps_bind; [apply keeps_store_node; auto|]. intros. apply keeps_ret.
Qed.
Lemma keeps_branch_extension : forall p r bs, keeps (create_branch_extension p r bs).
Proof.
  intros. unfold create_branch_extension.
  destruct (np_len p <? 1); [apply keeps_raise|]. destruct (np_len p =? 1); [apply keeps_ret|].
  apply keeps_bind; [apply keeps_store_node; auto|]. intros. apply keeps_ret.
Qed.
Lemma keeps_branch_node : forall pa va pb vb, keeps (create_branch_node pa va pb vb).
Proof.
  intros. unfold create_branch_node. destruct (_ && _); [apply keeps_raise|].
  apply keeps_bind; [apply keeps_branch_leaf|]. intros.
  apply keeps_bind; [apply keeps_branch_leaf|]. intros. apply keeps_store_node; auto.
Qed.

Lemma keeps_wrap_ext : forall c r,
  keeps (if np_len c =? 0 then ret r else store_node (Extension c r)).
Proof. intros. destruct (np_len c =? 0); [apply keeps_ret|apply keeps_store_node; auto]. Qed.

Lemma keeps_update : forall fuel r p v, keeps (update_ fuel r p v).
Proof.
  induction fuel as [|f IH]; intros r p v; cbn [update_]; [apply keeps_raise|].
  destruct (ref_is_empty r); [apply keeps_store_node; auto|].
  apply keeps_bind; [apply keeps_rd|]. intros [lp d|ep nr|bs d].
  - destruct (np_eq lp p); [apply keeps_store_node; auto|].
    apply keeps_bind; [apply keeps_branch_node|]. intros. apply keeps_wrap_ext.
  - destruct (np_starts_with p ep).
    + apply keeps_bind; [apply IH|]. intros. apply keeps_store_node; auto.
    + apply keeps_bind; [apply keeps_branch_leaf|]. intros.
      apply keeps_bind; [apply keeps_branch_extension|]. intros.
      apply keeps_bind; [apply keeps_store_node; auto|]. intros. apply keeps_wrap_ext.
  - destruct (np_len p =? 0); [apply keeps_store_node; auto|].
    apply keeps_bind; [apply IH|]. intros. apply keeps_store_node; auto.
Qed.

Definition small_kv (q : list nat) (v : bytes) : Prop := (N.of_nat (length q) < SZ)%N /\ (blen v < SZ)%N.

Lemma small_leaf : forall p v, small_kv p v -> small (TLeaf p v).
Proof. intros p v Hk q w E. apply leaf_key_inv in E. destruct E as [-> ->]. exact Hk. Qed.

Lemma small_kv_skip : forall n q v, small_kv q v -> small_kv (skipn n q) v.
Proof. intros n q v [H1 H2]. split; auto. rewrite skipn_length. lia. Qed.

Lemma empty_slots_no_cs : empty_slots = map tref no_cs.
Proof. reflexivity. Qed.

Lemma stored_leaf : forall m p v, stored m (TLeaf p v) <-> here m (TLeaf p v).
Proof. intros. cbn [stored]. tauto. Qed.

Lemma spec_branch_leaf : forall p v cs s (F : exn -> Prop),
  sinv s -> (s_faults s <> [] -> F StorageFault) ->
  small_kv (nibs p) v -> length cs = 16 -> Forall (stored (s_map s)) cs ->
  spec (create_branch_leaf p v (map tref cs)) s F
    (fun bs s' => bs = map tref (bleaf (nibs p) v cs) /\ Forall (stored (s_map s')) (bleaf (nibs p) v cs)).
Proof.
  intros p v cs s F Hs HF Hk Hl Hc. unfold create_branch_leaf.
  destruct (path_cases p) as [[Hz Hn]|(i & r & Hn & Hz & Hi & Hr)].
  - rewrite Hz, Hn. cbn [Nat.ltb Nat.leb bleaf]. apply spec_ret. auto.
  - rewrite Hz. cbn [Nat.ltb Nat.leb]. rewrite Hi.
    pose proof (nibs_ok p) as Hok. rewrite Hn in *. inversion Hok; subst.
    apply spec_bind with (Q1 := fun x s' => x = tref (TLeaf (nibs (np_consume p 1)) v)
                                  /\ here (s_map s') (TLeaf (nibs (np_consume p 1)) v)); auto.
    + apply keeps_store_node; auto.
    + intros. apply keeps_ret.
    + apply spec_store_node; auto.
      * cbn. auto.
      * apply small_leaf. destruct Hk as [B1 B2]. cbn [length] in B1. split; auto. lia.
    + intros x s1 Hst [-> Hh]. apply spec_ret. cbn [bleaf]. split.
      * rewrite map_set_nth. reflexivity.
      * apply Forall_set_nth; [eapply step_Forall; eauto|]. apply stored_leaf. exact Hh.
Qed.

Lemma spec_branch_ext : forall p c cs s (F : exn -> Prop),
  sinv s -> (s_faults s <> [] -> F StorageFault) ->
  nibs p <> [] -> is_branch c -> wf c -> small (TExt (nibs p) c) -> length cs = 16 ->
  Forall (stored (s_map s)) cs -> stored (s_map s) c ->
  spec (create_branch_extension p (tref c) (map tref cs)) s F
    (fun bs s' => bs = map tref (bsub (nibs p) c cs) /\ Forall (stored (s_map s')) (bsub (nibs p) c cs)).
Proof.
  intros p c cs s F Hs HF Hne Hb Hw Hsm Hl Hc Hcs. unfold create_branch_extension.
  destruct (path_cases p) as [[Hz Hn]|(i & r & Hn & Hz & Hi & Hr)]; [congruence|].
  pose proof (nibs_ok p) as Hok. rewrite Hn in *. inversion Hok; subst. rewrite Hz.
  set (r := nibs (np_consume p 1)) in *.
  replace (S (length r) <? 1) with false by reflexivity.
  cbn [Nat.eqb]. destruct (Nat.eqb_spec (length r) 0) as [Hl0|Hl0].
  - apply spec_ret. destruct r as [|]; [|discriminate]. cbn [bsub mkext]. split.
    + rewrite map_set_nth. reflexivity.
    + apply Forall_set_nth; auto.
  - assert (Hm : mkext r c = TExt r c) by (destruct r; [cbn in Hl0; lia|reflexivity]).
    assert (Hwf : wf (TExt r c)).
    { cbn. repeat split; auto. intros E. rewrite E in Hl0. cbn in Hl0. lia. }
    apply spec_bind with (Q1 := fun x s' => x = tref (TExt r c) /\ here (s_map s') (TExt r c)); auto.
    + apply keeps_store_node; auto.
    + intros. apply keeps_ret.
    + apply spec_store_node; auto.
      * cbn. auto.
      * intros q w E. apply ext_key_inv in E. destruct E as (z & -> & E).
        destruct (Hsm (np_at p 0 :: r ++ z) w) as [B1 B2].
        { change (np_at p 0 :: r ++ z) with ((np_at p 0 :: r) ++ z). rewrite lookup_ext_app. exact E. }
        cbn [length] in B1. split; auto. lia.
    + intros x s1 Hst [-> Hh]. apply spec_ret. cbn [bsub]. rewrite Hm. split.
      * rewrite map_set_nth. reflexivity.
      * apply Forall_set_nth; [eapply step_Forall; eauto|]. apply stored_ext. split; auto.
        eapply step_stored; eauto.
Qed.

Lemma spec_wrap_ext : forall c t s (F : exn -> Prop),
  sinv s -> (s_faults s <> [] -> F StorageFault) -> nocoll (s_log s) ->
  is_branch t -> wf t -> small (mkext (nibs c) t) -> stored (s_map s) t ->
  spec (if np_len c =? 0 then ret (tref t) else store_node (Extension c (tref t))) s F
    (fun r s' => r = tref (mkext (nibs c) t) /\ stored (s_map s') (mkext (nibs c) t)).
Proof.
  intros c t s F Hs HF Hnc Hb Hw Hsm Hst. rewrite np_len_spec.
  destruct (Nat.eqb_spec (length (nibs c)) 0) as [Hl|Hl].
  - apply spec_ret. destruct (nibs c); [|discriminate]. cbn. auto.
  - assert (Hm : mkext (nibs c) t = TExt (nibs c) t) by (destruct (nibs c); [cbn in Hl; lia|reflexivity]).
    rewrite Hm in *.
    assert (Hwf : wf (TExt (nibs c) t)).
    { cbn. repeat split; auto using nibs_ok. intros E. rewrite E in Hl. cbn in Hl. lia. }
    assert (Hm2 : nmatch (Extension c (tref t)) (TExt (nibs c) t)) by (cbn; auto).
    intros Hn. pose proof (spec_store_node keccak_len _ _ s F Hs HF Hm2 Hwf Hsm Hn) as S.
    destruct (keeps_store_node keccak_len (Extension c (tref t)) s Hs) as [K1 K2].
    destruct (store_node _ s) as [[a|e] s1]; auto. destruct S as [-> Hh]. split; auto.
    apply stored_ext. split; auto. eapply step_stored; [|exact Hst]. unfold step. auto.
Qed.

(** The tree after [t[path] = v]. *)
Definition upd_of (t : tree) (path : list nat) (v : bytes) (t' : tree) : Prop :=
  wf t' /\ (forall q, lookup t' q = if path_dec q path then Some v else lookup t q) /\
  (is_branch t -> is_branch t').

(** An empty value must not get to a branch: there are no empty values, or no key properly extends another. *)
Definition fitting (t : tree) (path : list nat) (v : bytes) : Prop :=
  (v <> [] /\ forall q, lookup t q <> Some []) \/ (forall q w, lookup t q = Some w -> length q = length path).

Lemma fitting_ext : forall p c q v, fitting (TExt p c) (p ++ q) v -> fitting c q v.
Proof.
  intros p c q v [[Hv Hq]|Hl]; [left|right].
  - split; auto. intros z. rewrite <- (lookup_ext_app p). apply Hq.
  - intros z w E. specialize (Hl (p ++ z) w). rewrite lookup_ext_app, !app_length in Hl. specialize (Hl E). lia.
Qed.
Lemma fitting_nth : forall cs d i q v, fitting (TBranch cs d) (i :: q) v -> fitting (nth i cs TEmpty) q v.
Proof.
  intros cs d i q v [[Hv Hq]|Hl]; [left|right].
  - split; auto. intros z. rewrite <- (lookup_branch cs d). apply Hq.
  - intros z w E. specialize (Hl (i :: z) w). rewrite lookup_branch in Hl. specialize (Hl E). cbn [length] in Hl. lia.
Qed.
Lemma fitting_branch : forall cs d v, wf (TBranch cs d) -> fitting (TBranch cs d) [] v -> v <> [].
Proof.
  intros cs d v Hw [[Hv _]|Hl]; auto. exfalso. destruct (wf_branch_keys cs d Hw) as (q1 & q2 & v1 & v2 & Hh & E1 & E2).
  apply Hl in E1, E2. destruct q1, q2; try discriminate. congruence.
Qed.
Lemma fitting_leaf : forall c x y d v, fitting (TLeaf (c ++ y) d) (c ++ x) v -> diverge x y -> (x = [] -> v <> []) /\ (y = [] -> d <> []).
Proof.
  intros c x y d v F Hd. destruct F as [[Hv Hq]|Hl].
  - split; auto. intros _ ->. apply (Hq (c ++ y)). apply lookup_leaf_self.
  - specialize (Hl _ _ (lookup_leaf_self _ _)). rewrite !app_length in Hl.
    split; intros ->; cbn [length] in Hl; [destruct y|destruct x]; cbn [length] in Hl; try lia; destruct Hd.
Qed.
Lemma fitting_split : forall k x y c v, wf c -> c <> TEmpty -> y <> [] -> fitting (TExt (k ++ y) c) (k ++ x) v -> x = [] -> v <> [].
Proof.
  intros k x y c v Hw Hn Hy [[Hv _]|Hl] ->; auto. exfalso. destruct (wf_has_key c Hw Hn) as (q & w & E).
  specialize (Hl ((k ++ y) ++ q) w). rewrite lookup_ext_app in Hl. specialize (Hl E). rewrite !app_length in Hl.
  destruct y; [congruence|]. cbn [length] in Hl. lia.
Qed.

Lemma upd_small : forall t path v t', small t -> small_kv path v -> upd_of t path v t' -> small t'.
Proof.
  intros t path v t' Hs Hk (_ & Hl & _) q w E. rewrite Hl in E.
  destruct (path_dec q path) as [->|]; [injection E as <-; exact Hk|eauto].
Qed.

Lemma ref_empty_tref : forall s t, sinv s -> nocoll (s_log s) -> stored (s_map s) t ->
  ref_is_empty (tref t) = true -> t = TEmpty.
Proof.
  intros s t (Hi & Hd & Hm) Hn Hst E. destruct (tree_empty_dec t) as [->|Hne]; auto. exfalso.
  unfold ref_is_empty in E. destruct (tref t) as [|x l] eqn:Et.
  - apply (tref_nil keccak_len) in Et. contradiction.
  - rewrite <- Et in E. apply bytes_eqb_eq in E. pose proof E as E'.
    rewrite tref_eq in E by auto. destruct (Nat.ltb_spec (length (tenc t)) 32) as [Hl|Hl].
    + assert (length (tenc t) = 32) by (rewrite E; apply keccak_len). lia.
    + apply here_of_stored in Hst. specialize (Hst Hne Hl). destruct (Hm _ _ Hst) as (_ & Hin & _).
      unfold EMPTY_HASH in E. apply Hn in E; auto. rewrite E in Hl. cbn in Hl. lia.
Qed.

Definition bad (s : store) (fuel n : nat) (e : exn) : Prop :=
  (e = StorageFault /\ s_faults s <> []) \/ (e = RecursionError /\ fuel <= n).

Theorem update_spec : forall fuel t r path v s,
  sinv s -> nocoll (s_log s) -> wf t -> small t -> stored (s_map s) t ->
  (r = tref t \/ (t = TEmpty /\ r = EMPTY_HASH)) ->
  fitting t (nibs path) v -> small_kv (nibs path) v ->
  spec (update_ fuel r path v) s (bad s fuel (length (nibs path)))
    (fun r' s' => exists t', r' = tref t' /\ upd_of t (nibs path) v t' /\ stored (s_map s') t').
Proof.
  induction fuel as [|f IH]; intros t r path v s Hs Hnc Hw Hsm Hst Hr Hv Hk; cbn [update_].
  { apply spec_raise. right. split; auto. lia. }
  assert (HF : s_faults s <> [] -> bad s (S f) (length (nibs path)) StorageFault) by (left; auto).
  destruct (ref_is_empty r) eqn:Er.
  { (* empty trie or slot: a new leaf *)
    assert (t = TEmpty) as ->.
    { destruct Hr as [->|[-> _]]; auto. eapply ref_empty_tref; eauto. }
    assert (U : upd_of TEmpty (nibs path) v (TLeaf (nibs path) v)).
    { split; [|split]; [cbn; auto using nibs_ok| |intros []].
      intros q. reflexivity. }
    eapply spec_conseq; [apply spec_store_node with (t := TLeaf (nibs path) v)|exact (fun e h => h)|]; auto.
    - cbn. auto.
    - apply U.
    - apply small_leaf. exact Hk.
    - cbv beta. intros a s' [-> Hh]. exists (TLeaf (nibs path) v). split; auto. split; auto.
      apply stored_leaf. exact Hh. }
  assert (Hne : t <> TEmpty).
  { intros ->. destruct Hr as [->|[_ ->]]; cbn in Er; [discriminate|].
    unfold ref_is_empty in Er. rewrite bytes_eqb_refl in Er. destruct EMPTY_HASH; discriminate. }
  destruct Hr as [->|[E _]]; [|congruence].
  apply spec_bind with (Q1 := fun n _ => nmatch n t); auto using keeps_rd.
  { intros n. pose proof (keeps_update (S f) (tref t) path v) as Ku. cbn [update_] in Ku.
    (* keeps of the continuation *)
    destruct n as [lp d|ep nr|bs d].
    - destruct (np_eq lp path); [apply keeps_store_node; auto|].
      apply keeps_bind; [apply keeps_branch_node|]. intros. apply keeps_wrap_ext.
    - destruct (np_starts_with path ep).
      + apply keeps_bind; [apply keeps_update|]. intros. apply keeps_store_node; auto.
      + apply keeps_bind; [apply keeps_branch_leaf|]. intros.
        apply keeps_bind; [apply keeps_branch_extension|]. intros.
        apply keeps_bind; [apply keeps_store_node; auto|]. intros. apply keeps_wrap_ext.
    - destruct (np_len path =? 0); [apply keeps_store_node; auto|].
      apply keeps_bind; [apply keeps_update|]. intros. apply keeps_store_node; auto. }
  { apply spec_rd_node; auto. }
  intros n s1 St1 Hm.
  assert (I1 := step_inv _ _ St1). assert (N1 := step_nocoll _ _ St1).
  assert (HF1 : s_faults s1 <> [] -> bad s (S f) (length (nibs path)) StorageFault).
  { intros Hf. apply HF. eapply step_faults; eauto. }
  assert (Hst1 : stored (s_map s1) t) by (eapply step_stored; eauto).
  destruct n as [lp d|ep nr|bs d], t as [|p w|p c|cs w]; cbn [nmatch] in Hm; try contradiction.
  - (* leaf *)
    destruct Hm as [<- <-]. assert (Hp := Hw).
    destruct (np_eq lp path) eqn:Eq.
    + apply np_eq_spec in Eq.
      eapply spec_conseq; [apply spec_store_node with (t := TLeaf (nibs path) v)|exact (fun e h => h)|]; auto.
      * cbn. auto.
      * cbn. auto using nibs_ok.
      * apply small_leaf. exact Hk.
      * cbv beta. intros a s' [-> Hh]. exists (TLeaf (nibs path) v). split; auto. split.
        -- split; [cbn; auto using nibs_ok|]. split; [|intros []]. intros q. cbn. rewrite Eq.
           destruct (path_dec q (nibs path)); reflexivity.
        -- apply stored_leaf. exact Hh.
    + apply np_eq_false in Eq.
      set (c := np_common_prefix path lp) in *.
      assert (Hc : nibs c = lcp (nibs path) (nibs lp)) by apply nibs_common_prefix.
      set (x := skipn (length (nibs c)) (nibs path)).
      set (y := skipn (length (nibs c)) (nibs lp)).
      assert (Ex : nibs path = nibs c ++ x) by (unfold x; rewrite Hc; apply lcp_split).
      assert (Ey : nibs lp = nibs c ++ y) by (unfold y; rewrite Hc; apply lcp_split).
      assert (Nx : nibs (np_consume path (np_len c)) = x) by (rewrite nibs_consume, np_len_spec; reflexivity).
      assert (Ny : nibs (np_consume lp (np_len c)) = y) by (rewrite nibs_consume, np_len_spec; reflexivity).
      set (pa := np_consume path (np_len c)) in *. set (pb := np_consume lp (np_len c)) in *.
      assert (Hdv : diverge x y) by (unfold x, y; rewrite Hc; apply lcp_diverge_skip; auto).
      assert (Ox : nib_ok x) by (apply nib_ok_skip, nibs_ok).
      assert (Oy : nib_ok y) by (apply nib_ok_skip, nibs_ok).
      assert (Kx : small_kv x v) by (apply small_kv_skip; auto).
      assert (Ky : small_kv y d).
      { apply small_kv_skip. apply (Hsm (nibs lp) d). apply lookup_leaf_self. }
      rewrite Ex, Ey in Hv. destruct (fitting_leaf _ _ _ _ _ Hv Hdv) as [Hvx Hvy].
      set (B := two_leaves x v y d).
      assert (LB : forall q, lookup B q = if path_dec q x then Some v else if path_dec q y then Some d else None).
      { intros q. apply lookup_two_leaves; auto. }
      assert (WB : wf B) by (apply two_leaves_wf; auto).
      assert (UB : upd_of (TLeaf (nibs lp) d) (nibs path) v (mkext (nibs c) B)).
      { split; [apply mkext_wf; auto using nibs_ok; exact I|]. split; [|intros []].
        intros q. rewrite lookup_mkext. cbn [lookup]. rewrite leaf_lookup_strip, Ex, Ey.
        rewrite (split_lookup (nibs c) x y q v (fun r => match r with [] => Some d | _ => None end)).
        destruct (strip (nibs c) q) as [z|]; auto. rewrite LB, <- leaf_lookup_strip. reflexivity. }
      assert (SB : small (mkext (nibs c) B)) by (eapply upd_small; [exact Hsm|exact Hk|eauto]).
      assert (SB' : small B).
      { intros q u E. rewrite LB in E.
        destruct (path_dec q x) as [->|_]; [injection E as <-; exact Kx|].
        destruct (path_dec q y) as [->|_]; [injection E as <-; exact Ky|discriminate]. }
      apply spec_bind with (Q1 := fun r' s' => r' = tref B /\ stored (s_map s') B); auto.
      * apply keeps_branch_node.
      * intros. apply keeps_wrap_ext.
      * (* create_branch_node *)
        unfold create_branch_node. rewrite !np_len_spec, Nx, Ny.
        replace ((length x =? 0) && (length y =? 0)) with false.
        2:{ symmetry. destruct x, y; cbn in Hdv |- *; auto; contradiction. }
        rewrite empty_slots_no_cs.
        apply spec_bind with (Q1 := fun bs s' => bs = map tref (bleaf x v no_cs)
                                    /\ Forall (stored (s_map s')) (bleaf x v no_cs)); auto.
        -- apply keeps_branch_leaf.
        -- intros. apply keeps_bind; [apply keeps_branch_leaf|]. intros. apply keeps_store_node; auto.
        -- rewrite <- Nx. apply spec_branch_leaf; auto; [rewrite Nx; auto|].
           apply Forall_forall. intros u Hu. apply repeat_spec in Hu. subst u. apply stored_empty.
        -- intros bs s2 St2 [-> Hf2].
           assert (I2 := step_inv _ _ St2).
           assert (HF2 : s_faults s2 <> [] -> bad s (S f) (length (nibs path)) StorageFault).
           { intros Hf. apply HF1. eapply step_faults; eauto. }
           apply spec_bind with (Q1 := fun bs s' => bs = map tref (bleaf y d (bleaf x v no_cs))
                                    /\ Forall (stored (s_map s')) (bleaf y d (bleaf x v no_cs))); auto.
           ++ apply keeps_branch_leaf.
           ++ intros. apply keeps_store_node; auto.
           ++ rewrite <- Ny. apply spec_branch_leaf; auto; [rewrite Ny; auto|].
              apply bleaf_length; auto.
           ++ intros bs s3 St3 [-> Hf3].
              assert (I3 := step_inv _ _ St3).
              intros Hn. pose proof (spec_store_node keccak_len (Branch (map tref (bleaf y d (bleaf x v no_cs)))
                   (if length x =? 0 then v else if length y =? 0 then d else [])) B s3
                   (bad s (S f) (length (nibs path))) I3) as S.
              specialize (S ltac:(intros Hf; apply HF2; eapply step_faults; eauto)).
              specialize (S ltac:(cbn; split; [reflexivity|]; destruct x, y; reflexivity) WB SB' Hn).
              destruct (keeps_store_node keccak_len (Branch (map tref (bleaf y d (bleaf x v no_cs)))
                   (if length x =? 0 then v else if length y =? 0 then d else [])) s3 I3) as [K1 K2].
              destruct (store_node _ s3) as [[a|e] s4]; auto. destruct S as [-> Hh]. split; auto.
              apply stored_branch. split; auto. eapply step_Forall; [|exact Hf3]. unfold step. auto.
      * intros r' s2 St2 [-> HB].
        assert (I2 := step_inv _ _ St2). assert (N2 := step_nocoll _ _ St2).
        eapply spec_conseq; [apply spec_wrap_ext with (t := B)|exact (fun e h => h)|]; auto.
        -- intros Hf. apply HF1. eapply step_faults; eauto.
        -- exact I.
        -- cbv beta. intros a s' [-> Hs']. eauto.
  - (* extension *)
    destruct Hm as [<- ->]. destruct Hw as (Hp & Hpn & Hb & Hwc). apply stored_ext in Hst1 as [_ Hsc1].
    rewrite np_starts_with_spec. destruct (strip (nibs ep) (nibs path)) as [q|] eqn:Eq.
    + pose proof (np_starts_with_skip _ _ _ Eq) as Hq. apply strip_spec in Eq.
      assert (Hlen : length (nibs path) = length (nibs ep) + length q) by (rewrite Eq, app_length; auto).
      assert (Hep : 0 < length (nibs ep)) by (destruct (nibs ep); [congruence|cbn; lia]).
      apply spec_bind with (Q1 := fun r' s' => exists t', r' = tref t' /\ upd_of c q v t' /\ stored (s_map s') t'); auto.
      * apply keeps_update.
      * intros. apply keeps_store_node; auto.
      * rewrite <- Hq. eapply spec_conseq; [apply (IH c)|idtac|exact (fun a s' h => h)]; auto.
        -- eapply small_ext; eauto.
        -- rewrite Hq. rewrite Eq in Hv. apply fitting_ext in Hv. exact Hv.
        -- rewrite Hq. destruct Hk as [K1 K2]. split; auto. lia.
        -- intros e [[-> Hf]|[-> Hf]]; [apply HF1; auto|]. right. split; auto. rewrite Hq in Hf. lia.
      * intros r' s2 St2 (t' & -> & U & Hst2).
        assert (I2 := step_inv _ _ St2).
        destruct U as (Hwt & Hlt & Hbt).
        assert (UT : upd_of (TExt (nibs ep) c) (nibs path) v (TExt (nibs ep) t')).
        { split; [cbn; auto|]. split; [|intros []]. intros z. cbn [lookup].
          destruct (strip (nibs ep) z) as [y|] eqn:Ez.
          - apply strip_spec in Ez. subst z. rewrite Hlt, Eq.
            destruct (path_dec y q) as [->|Hn].
            + destruct (path_dec (nibs ep ++ q) (nibs ep ++ q)); cgr.
            + destruct (path_dec (nibs ep ++ y) (nibs ep ++ q)) as [F|_]; auto.
              apply app_inv_head in F. congruence.
          - destruct (path_dec z (nibs path)) as [->|_]; auto. exfalso.
            rewrite strip_None in Ez. eapply Ez; eauto. }
        intros Hn.
        assert (ST : small (TExt (nibs ep) t')) by (eapply upd_small; [exact Hsm|exact Hk|eauto]).
        pose proof (spec_store_node keccak_len (Extension ep (tref t')) (TExt (nibs ep) t') s2
                   (bad s (S f) (length (nibs path))) I2) as S.
        specialize (S ltac:(intros Hf; apply HF1; eapply step_faults; eauto)).
        specialize (S ltac:(cbn; auto) ltac:(apply UT) ST Hn).
        destruct (keeps_store_node keccak_len (Extension ep (tref t')) s2 I2) as [K1 K2].
        destruct (store_node _ s2) as [[a|e] s3]; auto. destruct S as [-> Hh].
        eexists. split; [reflexivity|]. split; [exact UT|]. apply stored_ext. split; auto.
        eapply step_stored; [|exact Hst2]. unfold step. auto.
    + set (k := np_common_prefix path ep) in *.
      assert (Hc : nibs k = lcp (nibs path) (nibs ep)) by apply nibs_common_prefix.
      set (x := skipn (length (nibs k)) (nibs path)).
      set (y := skipn (length (nibs k)) (nibs ep)).
      assert (Ex : nibs path = nibs k ++ x) by (unfold x; rewrite Hc; apply lcp_split).
      assert (Ey : nibs ep = nibs k ++ y) by (unfold y; rewrite Hc; apply lcp_split).
      assert (Nx : nibs (np_consume path (np_len k)) = x) by (rewrite nibs_consume, np_len_spec; reflexivity).
      assert (Ny : nibs (np_consume ep (np_len k)) = y) by (rewrite nibs_consume, np_len_spec; reflexivity).
      set (pa := np_consume path (np_len k)) in *. set (pb := np_consume ep (np_len k)) in *.
      assert (Hneq : nibs path <> nibs ep).
      { intros E. rewrite strip_None in Eq. apply (Eq []). rewrite app_nil_r. auto. }
      assert (Hdv : diverge x y) by (unfold x, y; rewrite Hc; apply lcp_diverge_skip; auto).
      assert (Hy : y <> []).
      { intros E. rewrite E, app_nil_r in Ey. rewrite strip_None in Eq. apply (Eq x). congruence. }
      assert (Ox : nib_ok x) by (apply nib_ok_skip, nibs_ok).
      assert (Oy : nib_ok y) by (apply nib_ok_skip, nibs_ok).
      assert (Kx : small_kv x v) by (apply small_kv_skip; auto).
      assert (Sy : small (TExt y c)).
      { intros q u E. apply ext_key_inv in E. destruct E as (z & -> & E).
        destruct (Hsm (nibs ep ++ z) u) as [B1 B2]; [rewrite lookup_ext_app; auto|]. split; auto.
        rewrite Ey, !app_length in B1. rewrite app_length. lia. }
      rewrite Ex, Ey in Hv. pose proof (fitting_split _ _ _ _ _ Hwc (branch_ne _ Hb) Hy Hv) as Hvx.
      set (B := leaf_and_sub x v y c).
      assert (LB : forall q, lookup B q = if path_dec q x then Some v
                      else match strip y q with Some r => lookup c r | None => None end).
      { intros q. apply lookup_leaf_and_sub; auto. }
      assert (WB : wf B) by (apply leaf_and_sub_wf; auto).
      assert (UB : upd_of (TExt (nibs ep) c) (nibs path) v (mkext (nibs k) B)).
      { split; [apply mkext_wf; auto using nibs_ok; exact I|]. split; [|intros []].
        intros q. rewrite lookup_mkext. cbn [lookup]. rewrite Ex, Ey.
        rewrite (split_lookup (nibs k) x y q v (lookup c)).
        destruct (strip (nibs k) q) as [z|]; auto. }
      assert (SB : small (mkext (nibs k) B)) by (eapply upd_small; [exact Hsm|exact Hk|eauto]).
      assert (SB' : small B).
      { intros q u E. rewrite LB in E.
        destruct (path_dec q x) as [->|_]; [injection E as <-; exact Kx|]. apply (Sy q u). exact E. }
      rewrite (np_len_spec pa), Nx. rewrite empty_slots_no_cs.
      apply spec_bind with (Q1 := fun bs s' => bs = map tref (bleaf x v no_cs)
                                    /\ Forall (stored (s_map s')) (bleaf x v no_cs)); auto.
      * apply keeps_branch_leaf.
      * intros. apply keeps_bind; [apply keeps_branch_extension|]. intros.
        apply keeps_bind; [apply keeps_store_node; auto|]. intros. apply keeps_wrap_ext.
      * rewrite <- Nx. apply spec_branch_leaf; auto; [rewrite Nx; auto|].
        apply Forall_forall. intros u Hu. apply repeat_spec in Hu. subst u. apply stored_empty.
      * intros bs s2 St2 [-> Hf2].
        assert (I2 := step_inv _ _ St2).
        assert (HF2 : s_faults s2 <> [] -> bad s (S f) (length (nibs path)) StorageFault).
        { intros Hf. apply HF1. eapply step_faults; eauto. }
        apply spec_bind with (Q1 := fun bs s' => bs = map tref (bsub y c (bleaf x v no_cs))
                                    /\ Forall (stored (s_map s')) (bsub y c (bleaf x v no_cs))); auto.
        -- apply keeps_branch_extension.
        -- intros. apply keeps_bind; [apply keeps_store_node; auto|]. intros. apply keeps_wrap_ext.
        -- rewrite <- Ny. apply spec_branch_ext; auto; try (rewrite Ny; auto; fail).
           ++ apply bleaf_length; auto.
           ++ eapply step_stored; eauto.
        -- intros bs s3 St3 [-> Hf3].
           assert (I3 := step_inv _ _ St3).
           assert (HF3 : s_faults s3 <> [] -> bad s (S f) (length (nibs path)) StorageFault).
           { intros Hf. apply HF2. eapply step_faults; eauto. }
           apply spec_bind with (Q1 := fun r' s' => r' = tref B /\ here (s_map s') B); auto.
           ++ apply keeps_store_node; auto.
           ++ intros. apply keeps_wrap_ext.
           ++ apply spec_store_node; auto. cbn. split; [reflexivity|]. destruct x; reflexivity.
           ++ intros r' s4 St4 [-> HB].
              assert (I4 := step_inv _ _ St4). assert (N4 := step_nocoll _ _ St4).
              eapply spec_conseq; [apply spec_wrap_ext with (t := B)|exact (fun e h => h)|]; auto.
              ** intros Hf. apply HF3. eapply step_faults; eauto.
              ** exact I.
              ** apply stored_branch. split; auto. eapply step_Forall; eauto.
              ** cbv beta. intros a s' [-> Hs']. eauto.
  - (* branch *)
    destruct Hm as [-> <-]. apply wf_branch in Hw. destruct Hw as (Hl & Hok & Hf).
    apply stored_branch in Hst1. destruct Hst1 as [_ Hsc1].
    destruct (path_cases path) as [[Hz Hn]|(i & q & Hn & Hz & Hi & Hq)].
    + rewrite Hz. cbn [Nat.eqb]. rewrite Hn in Hv.
      apply fitting_branch in Hv; [|apply wf_branch; auto].
      assert (UB : upd_of (TBranch cs d) (nibs path) v (TBranch cs v)).
      { split; [|split; [|intros _; exact I]].
        - apply wf_branch. split; auto. split; auto. destruct Hok as [?|[_ ?]]; [left|right]; auto.
        - intros z. rewrite Hn. destruct z as [|i z].
          + rewrite lookup_branch_nil by auto. destruct (path_dec [] []); cgr.
          + rewrite !lookup_branch. destruct (path_dec (i :: z) []); [discriminate|reflexivity]. }
      intros Hnc'.
      assert (SB : small (TBranch cs v)) by (eapply upd_small; [exact Hsm|exact Hk|eauto]).
      pose proof (spec_store_node keccak_len (Branch (map tref cs) v) (TBranch cs v) s1
                 (bad s (S f) (length (nibs path))) I1 HF1 ltac:(cbn; auto) ltac:(apply UB) SB Hnc') as S.
      destruct (keeps_store_node keccak_len (Branch (map tref cs) v) s1 I1) as [K1 K2].
      destruct (store_node _ s1) as [[a|e] s3]; auto. destruct S as [-> Hh].
      eexists. split; [reflexivity|]. split; [exact UB|]. apply stored_branch. split; auto.
      eapply step_Forall; [|exact Hsc1]. unfold step. auto.
    + rewrite Hz. cbn [Nat.eqb]. rewrite Hi.
      pose proof (nibs_ok path) as Hpo. rewrite Hn in Hpo. inversion Hpo as [|? ? Hi16 Hqo]; subst.
      set (i := np_at path 0) in *. set (q := nibs (np_consume path 1)) in *.
      assert (Hnth : nth i (map tref cs) [] = tref (nth i cs TEmpty)).
      { change (@nil byte) with (tref TEmpty). apply map_nth. }
      rewrite Hnth.
      apply spec_bind with (Q1 := fun r' s' => exists t', r' = tref t' /\ upd_of (nth i cs TEmpty) q v t'
                                   /\ stored (s_map s') t'); auto.
      * apply keeps_update.
      * intros. apply keeps_store_node; auto.
      * eapply spec_conseq; [apply (IH (nth i cs TEmpty))|idtac|exact (fun a s' h => h)];
          auto using wf_nth, stored_nth.
        -- eapply small_nth; eauto.
        -- fold q. rewrite Hn in Hv. apply fitting_nth in Hv. exact Hv.
        -- fold q. destruct Hk as [K1 K2]. rewrite Hn in K1. cbn [length] in K1. split; auto. lia.
        -- intros e [[-> Hff]|[-> Hff]]; [apply HF1; auto|]. right. split; auto.
           rewrite Hn. fold q in Hff. cbn [length]. lia.
      * intros r' s2 St2 (t' & -> & U & Hst2).
        assert (I2 := step_inv _ _ St2).
        destruct U as (Hwt & Hlt & Hbt).
        assert (Ht' : t' <> TEmpty).
        { intros ->. specialize (Hlt q). cbn in Hlt. destruct (path_dec q q); cgr. }
        set (cs' := set_nth i t' cs).
        assert (Hl' : length cs' = 16) by (unfold cs'; rewrite set_nth_length; lia).
        assert (Hnt : forall j, nth j cs' TEmpty = if j =? i then t' else nth j cs TEmpty).
        { intros j. apply nth_set_nth. lia. }
        assert (UB : upd_of (TBranch cs d) (nibs path) v (TBranch cs' d)).
        { split; [|split; [|intros _; exact I]].
          - apply wf_branch. split; auto. split; [|apply Forall_set_nth; auto].
            assert (Hkeep : forall j, nth j cs TEmpty <> TEmpty -> nth j cs' TEmpty <> TEmpty).
            { intros j Hj. rewrite Hnt. destruct (j =? i); auto. }
            destruct Hok as [(a & b & Hab & Ha & Hbb)|(Hd & a & Ha)].
            + left. exists a, b. auto.
            + right. split; auto. exists a. auto.
          - intros z. rewrite Hn. destruct z as [|j z].
            + destruct (path_dec [] (i :: q)); [discriminate|reflexivity].
            + rewrite !lookup_branch, Hnt. destruct (Nat.eqb_spec j i) as [->|Hj].
              * rewrite Hlt. destruct (path_dec z q), (path_dec (i :: z) (i :: q)); cgr.
              * destruct (path_dec (j :: z) (i :: q)); cgr. }
        intros Hnc'.
        assert (SB : small (TBranch cs' d)) by (eapply upd_small; [exact Hsm|exact Hk|eauto]).
        assert (Hnm : nmatch (Branch (set_nth i (tref t') (map tref cs)) d) (TBranch cs' d)).
        { cbn. split; auto. unfold cs'. rewrite map_set_nth. reflexivity. }
        pose proof (spec_store_node keccak_len _ _ s2 (bad s (S f) (length (nibs path))) I2
           ltac:(intros Hff; apply HF1; eapply step_faults; eauto) Hnm ltac:(apply UB) SB Hnc') as S.
        destruct (keeps_store_node keccak_len (Branch (set_nth i (tref t') (map tref cs)) d) s2 I2) as [K1 K2].
        destruct (store_node _ s2) as [[a|e] s3]; auto. destruct S as [-> Hh].
        eexists. split; [reflexivity|]. split; [exact UB|]. apply stored_branch. split; auto.
        assert (St3 : step s2 s3) by (unfold step; auto).
        apply Forall_set_nth; [|eapply step_stored; eauto].
        eapply step_Forall; [exact St3|]. eapply step_Forall; eauto.
Qed.

End Update.
