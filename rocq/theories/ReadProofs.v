(** Reading: [get_] and [contains_] compute the lookup of the stored tree. *)
From Coq Require Import List Bool Arith NArith ZArith Lia.
From Verif Require Import Base BaseProofs Rlp RlpProofs NibblePath NibbleProofs Node Mpt Tree TreeEnc StoreProofs UpdateProofs.
Import ListNotations.

Section Read.
Context {H : Hash}.
Hypothesis keccak_len : forall b, length (keccak b) = 32.

Lemma nth_map_tref : forall i cs, nth i (map tref cs) [] = tref (nth i cs TEmpty).
Proof. intros. change (@nil byte) with (tref TEmpty). apply map_nth. Qed.

(** ** Storages that cannot lie about a tree: entries may be missing, but what is
    filed under the hash of a node decodes to that node or not at all. *)
Definition hagree (m : dict bytes) (t : tree) : Prop :=
  t <> TEmpty -> 32 <= length (tenc t) ->
  forall e n, dget m (keccak (tenc t)) = Some e -> node_decode e = Ok n -> nmatch n t.
Fixpoint agree (m : dict bytes) (t : tree) : Prop :=
  hagree m t /\
  match t with
  | TEmpty | TLeaf _ _ => True
  | TExt _ c => agree m c
  | TBranch cs _ =>
      (fix all (l : list tree) : Prop := match l with [] => True | c :: l' => agree m c /\ all l' end) cs
  end.

Lemma agree_branch : forall m cs v,
  agree m (TBranch cs v) <-> hagree m (TBranch cs v) /\ Forall (agree m) cs.
Proof.
  intros m cs v. cbn [agree].
  assert (E : forall l, (fix all (l : list tree) : Prop :=
     match l with [] => True | c :: l' => agree m c /\ all l' end) l <-> Forall (agree m) l).
  { induction l as [|c l IH]; [split; auto|]. rewrite IH. split; [intros []; auto|].
    intros Hf. inversion Hf; auto. }
  rewrite E. tauto.
Qed.
Lemma agree_ext : forall m p c, agree m (TExt p c) <-> hagree m (TExt p c) /\ agree m c.
Proof. intros. cbn [agree]. tauto. Qed.
Lemma agree_here : forall m t, agree m t -> hagree m t.
Proof. intros m t. destruct t; cbn [agree]; tauto. Qed.
Lemma agree_empty : forall m, agree m TEmpty.
Proof. intros. cbn. split; auto. intros Hn. congruence. Qed.
Lemma agree_nth : forall m cs i, Forall (agree m) cs -> agree m (nth i cs TEmpty).
Proof.
  intros m cs i Hf. destruct (nth_in_or_default i cs TEmpty) as [Hi| ->]; [|apply agree_empty].
  rewrite Forall_forall in Hf. auto.
Qed.

(** Encodings of the nodes of a tree that are filed by hash. *)
Fixpoint encs (t : tree) : list bytes :=
  (match t with TEmpty => [] | _ => if length (tenc t) <? 32 then [] else [tenc t] end) ++
  match t with
  | TEmpty | TLeaf _ _ => []
  | TExt _ c => encs c
  | TBranch cs _ => flat_map encs cs
  end.

Lemma encs_here : forall t, t <> TEmpty -> 32 <= length (tenc t) -> In (tenc t) (encs t).
Proof.
  intros t Hn Hl. assert (E : (length (tenc t) <? 32) = false) by (apply Nat.ltb_ge; exact Hl).
  destruct t as [|p v|p c|cs v]; [congruence|..]; cbn [encs]; apply in_or_app; left; rewrite E;
  left; reflexivity.
Qed.
Lemma encs_ext : forall p c e, In e (encs c) -> In e (encs (TExt p c)).
Proof. intros. cbn [encs]. apply in_or_app. auto. Qed.
Lemma encs_child : forall cs v c e, In c cs -> In e (encs c) -> In e (encs (TBranch cs v)).
Proof. intros cs v c e Hc He. cbn [encs]. apply in_or_app. right. apply in_flat_map. eauto. Qed.

Lemma encs_ge32 : forall t e, In e (encs t) -> 32 <= length e.
Proof.
  assert (Hg : forall u e, In e (if length (tenc u) <? 32 then [] else [tenc u]) -> 32 <= length e).
  { intros u e He. destruct (Nat.ltb_spec (length (tenc u)) 32); [contradiction|].
    destruct He as [<-|[]]; auto. }
  induction t as [|p v|p c IH|cs v IH] using tree_ind2; intros e He; cbn [encs] in He;
    try contradiction; apply in_app_or in He; destruct He as [He|He]; try contradiction; eauto.
  - apply in_flat_map in He. destruct He as (c & Hc & He). rewrite Forall_forall in IH. eauto.
Qed.

Lemma encs_stored : forall m t e, stored m t -> In e (encs t) -> dget m (keccak e) = Some e.
Proof.
  intros m. induction t as [|p v|p c IH|cs v IH] using tree_ind2; intros e Hs He.
  - contradiction.
  - cbn [encs] in He. rewrite app_nil_r in He.
    destruct (Nat.ltb_spec (length (tenc (TLeaf p v))) 32); [contradiction|]. destruct He as [<-|[]].
    apply (here_of_stored _ _ Hs); auto. discriminate.
  - cbn [encs] in He. apply in_app_or in He. apply stored_ext in Hs. destruct Hs as [Hh Hs].
    destruct He as [He|He]; auto.
    destruct (Nat.ltb_spec (length (tenc (TExt p c))) 32); [contradiction|]. destruct He as [<-|[]].
    apply Hh; auto. discriminate.
  - cbn [encs] in He. apply in_app_or in He. apply stored_branch in Hs. destruct Hs as [Hh Hs].
    destruct He as [He|He].
    + destruct (Nat.ltb_spec (length (tenc (TBranch cs v))) 32); [contradiction|]. destruct He as [<-|[]].
      apply Hh; auto. discriminate.
    + apply in_flat_map in He. destruct He as (c & Hc & He).
      rewrite Forall_forall in IH, Hs. apply (IH c); auto.
Qed.

(** If what [m] files under [k] is a node whose encoding (or re-encoding) hashes
    to [k], and these do not collide with the nodes of [t], then [m] agrees. *)
Lemma agree_intro : forall m t, wf t -> small t ->
  (forall e k n, In e (encs t) -> k = keccak e -> dget m k = Some n -> n = e) -> agree m t.
Proof.
  intros m. induction t as [|p v|p c IH|cs v IH] using tree_ind2; intros Hw Hs Hk.
  - apply agree_empty.
  - cbn [agree]. split; auto. intros Hn Hl e n E1 E2.
    specialize (Hk _ _ _ (encs_here _ Hn Hl) eq_refl E1). subst e.
    destruct (node_decode_tenc keccak_len _ Hn Hw Hs) as (n' & E' & Hm). congruence.
  - apply agree_ext. split.
    + intros Hn Hl e n E1 E2.
      specialize (Hk _ _ _ (encs_here _ Hn Hl) eq_refl E1). subst e.
      destruct (node_decode_tenc keccak_len _ Hn Hw Hs) as (n' & E' & Hm). congruence.
    + apply IH; [apply Hw|eapply small_ext; eauto|]. intros. eapply Hk; eauto using encs_ext.
  - apply agree_branch. split.
    + intros Hn Hl e n E1 E2.
      specialize (Hk _ _ _ (encs_here _ Hn Hl) eq_refl E1). subst e.
      destruct (node_decode_tenc keccak_len _ Hn Hw Hs) as (n' & E' & Hm). congruence.
    + apply wf_branch in Hw. destruct Hw as (Hlen & _ & Hf). rewrite Forall_forall in *.
      intros c Hc. destruct (In_nth _ _ TEmpty Hc) as (i & Hi & <-).
      apply IH; [auto|auto|eapply small_nth; eauto|]. intros. eapply Hk; eauto using encs_child.
Qed.

Lemma stored_agree : forall m t, wf t -> small t -> stored m t -> agree m t.
Proof.
  intros m t Hw Hs St. apply agree_intro; auto. intros e k n He -> E.
  rewrite (encs_stored m t e St He) in E. congruence.
Qed.

Lemma get_node_agree : forall m t n, t <> TEmpty -> wf t -> small t -> agree m t ->
  get_node m (tref t) = Ok n -> nmatch n t.
Proof.
  intros m t n Hn Hw Hs Ha. apply agree_here in Ha. unfold get_node.
  rewrite tref_32 by auto. rewrite tref_eq by auto.
  destruct (node_decode_tenc keccak_len t Hn Hw Hs) as (n' & E' & Hm).
  destruct (Nat.ltb_spec (length (tenc t)) 32) as [Hl|Hl]; cbn [negb].
  - rewrite E'. congruence.
  - destruct (dget m (keccak (tenc t))) as [e|] eqn:Ed; [|discriminate]. intros E. eapply Ha; eauto.
Qed.

(** ** get *)
Lemma get_present : forall fuel m t path v, wf t -> small t -> stored m t ->
  lookup t (nibs path) = Some v -> length (nibs path) < fuel ->
  exists n, get_ fuel m (tref t) path = Ok n /\ node_data n = Ok v.
Proof.
  induction fuel as [|f IH]; intros m t path v Hw Hs St El Hf; [lia|].
  assert (Hne : t <> TEmpty) by (intros ->; discriminate).
  destruct (get_node_stored keccak_len m t Hne Hw Hs (here_of_stored _ _ St)) as (n & En & Hm).
  cbn [get_]. rewrite En.
  destruct n as [lp d|ep nr|bs d], t as [|p w|p c|cs w]; cbn [nmatch] in Hm; try contradiction.
  - destruct Hm as [<- <-]. apply leaf_key_inv in El. destruct El as [Ep ->].
    replace (np_eq lp path) with true by (symmetry; apply np_eq_spec; auto).
    destruct (np_len path =? 0); eexists; split; reflexivity.
  - destruct Hm as [<- ->]. cbn [lookup] in El.
    destruct (strip (nibs ep) (nibs path)) as [r|] eqn:Es; [|discriminate].
    rewrite np_starts_with_spec, Es. pose proof (np_starts_with_skip _ _ _ Es) as Er.
    apply strip_spec in Es. destruct Hw as (_ & Hep & _ & Hwc).
    assert (Hep' : length (nibs ep) <> 0) by (destruct (nibs ep); cbn; congruence).
    assert (Hl := f_equal (@length nat) Es). rewrite app_length in Hl.
    replace (np_len path =? 0) with false by (symmetry; apply Nat.eqb_neq; rewrite np_len_spec; lia).
    apply IH; auto; try (rewrite Er; auto; lia).
    + eapply small_ext; eauto.
    + apply stored_ext in St. apply St.
  - destruct Hm as [-> <-]. apply wf_branch in Hw. destruct Hw as (_ & _ & Hwc).
    apply stored_branch in St. destruct St as [_ St].
    destruct (path_cases path) as [[Hz Hn]|(i & q & Hn & Hz & Hi & Hq)]; rewrite Hz; cbn [Nat.eqb].
    + rewrite Hn in El. cbn in El. destruct d; [discriminate|]. eexists. split; [reflexivity|exact (f_equal _ (eq_sym (f_equal (fun o => match o with Some x => x | None => [] end) El))) || (cbn; congruence)].
    + rewrite Hi, nth_map_tref. rewrite Hn, lookup_branch in El.
      assert (Hc : nth i cs TEmpty <> TEmpty) by (intros Ec; rewrite Ec in El; discriminate).
      replace (0 <? length (tref (nth i cs TEmpty))) with true by (symmetry; apply tref_pos; auto).
      apply IH; auto using wf_nth, stored_nth; try (rewrite Hq; auto).
      * eapply small_nth; eauto.
      * rewrite Hn in Hf. cbn [length] in Hf. lia.
Qed.

Definition extended (t : tree) (p : list nat) : Prop :=
  exists r w, r <> [] /\ lookup t (p ++ r) = Some w.

(** Whatever [get_] returns is the value of the key or the node of a proper extension. *)
Lemma get_Ok_inv : forall fuel m t path n v, t <> TEmpty -> wf t -> small t -> agree m t ->
  get_ fuel m (tref t) path = Ok n -> node_data n = Ok v ->
  lookup t (nibs path) = Some v \/ extended t (nibs path).
Proof.
  induction fuel as [|f IH]; intros m t path n v Hne Hw Hs Ha; cbn [get_]; [discriminate|].
  destruct (get_node m (tref t)) as [n0|] eqn:En; [|discriminate].
  apply get_node_agree in En; auto. intros Eg Ev.
  destruct n0 as [lp d|ep nr|bs d], t as [|p w|p c|cs w]; cbn [nmatch] in En; try contradiction.
  - destruct En as [<- <-].
    assert (Hd : n = Leaf lp d).
    { destruct (np_len path =? 0); [congruence|]. destruct (np_eq lp path); congruence. }
    subst n. injection Ev as <-.
    destruct (np_eq lp path) eqn:Eq.
    + apply np_eq_spec in Eq. left. rewrite <- Eq. apply lookup_leaf_self.
    + destruct (path_cases path) as [[Hz Hn]|(i & q & Hn & Hz & Hi & Hq)]; rewrite Hz in Eg; cbn [Nat.eqb] in Eg; [|discriminate].
      right. apply np_eq_false in Eq. rewrite Hn in *. exists (nibs lp), d. split; auto.
      cbn [app]. apply lookup_leaf_self.
  - destruct En as [<- ->]. destruct Hw as (Hep & Hep0 & Hb & Hwc).
    destruct (np_len path =? 0) eqn:Ez; [injection Eg as <-; discriminate|].
    rewrite np_starts_with_spec in Eg. destruct (strip (nibs ep) (nibs path)) as [r|] eqn:Es; [|discriminate].
    pose proof (np_starts_with_skip _ _ _ Es) as Er. apply strip_spec in Es.
    assert (Hc : c <> TEmpty) by (intros ->; contradiction).
    apply agree_ext in Ha. destruct Ha as [_ Ha].
    destruct (IH m c _ n v Hc Hwc (small_ext keccak_len _ _ Hs) Ha Eg Ev) as [E|(r' & w & Hr & E)]; rewrite Er in E.
    + left. rewrite Es, lookup_ext_app. exact E.
    + right. exists r', w. split; auto. rewrite Es, <- app_assoc, lookup_ext_app. exact E.
  - destruct En as [-> <-]. assert (Hw0 := Hw). apply wf_branch in Hw. destruct Hw as (Hlen & Hok & Hwc).
    apply agree_branch in Ha. destruct Ha as [_ Ha].
    destruct (path_cases path) as [[Hz Hn]|(i & q & Hn & Hz & Hi & Hq)]; rewrite Hz in Eg; cbn [Nat.eqb] in Eg.
    + injection Eg as <-. injection Ev as <-. rewrite Hn. destruct d as [|x d].
      * right. destruct Hok as [(i & j & _ & Hi & _)|[Hd _]]; [|congruence].
        destruct (wf_has_key _ (wf_nth cs i Hwc) Hi) as (q & w & E). exists (i :: q), w. split; [discriminate|].
        cbn [app]. rewrite lookup_branch. exact E.
      * left. reflexivity.
    + rewrite Hi, nth_map_tref in Eg. destruct (0 <? _) eqn:Ep; [|discriminate]. apply tref_pos in Ep; auto.
      destruct (IH m (nth i cs TEmpty) _ n v Ep (wf_nth _ _ Hwc) (small_nth keccak_len _ _ _ Hs) (agree_nth _ _ _ Ha) Eg Ev)
        as [E|(r' & w & Hr & E)]; rewrite Hq in E; rewrite Hn.
      * left. rewrite lookup_branch. exact E.
      * right. exists r', w. split; auto. cbn [app]. rewrite lookup_branch. exact E.
Qed.

(** ** contains *)
Definition verdict (x : node * np) : bool :=
  match x with
  | (Branch _ v, _) => negb (bytes_eqb v [])
  | (Extension _ _, _) => false
  | (Leaf lp _, path) => np_eq lp path
  end.

Definition present (o : option bytes) : bool := match o with Some _ => true | None => false end.

(** [contains_] stops at a branch holding a value although the path goes on. *)
Definition false_hit (t : tree) (q : list nat) : Prop :=
  exists pre x r w, q = pre ++ x :: r /\ lookup t pre = Some w /\ extended t pre /\ forall r', lookup t (pre ++ x :: r') = None.

Lemma false_hit_None : forall t q, false_hit t q -> lookup t q = None.
Proof. intros t q (pre & x & r & w & -> & _ & _ & E). apply E. Qed.

Lemma contains_stored : forall fuel m t path, t <> TEmpty -> wf t -> small t -> stored m t ->
  match contains_ fuel m (tref t) path with
  | Ok x => verdict x = true <-> lookup t (nibs path) <> None \/ false_hit t (nibs path)
  | Err e => e = RecursionError /\ fuel <= length (nibs path)
  end.
Proof.
  induction fuel as [|f IH]; intros m t path Hne Hw Hs St; cbn [contains_]; [split; [auto|lia]|].
  destruct (get_node_stored keccak_len m t Hne Hw Hs (here_of_stored _ _ St)) as (n & En & Hm). rewrite En.
  destruct n as [lp d|ep nr|bs d], t as [|p w|p c|cs w]; cbn [nmatch] in Hm; try contradiction.
  - destruct Hm as [<- <-].
    replace (if np_len path =? 0 then Ok (Leaf lp d, path) else Ok (Leaf lp d, path))
      with (@Ok (node * np) (Leaf lp d, path)) by (destruct (np_len path =? 0); reflexivity).
    cbn [verdict]. rewrite np_eq_spec. split.
    + intros <-. left. rewrite lookup_leaf_self. discriminate.
    + intros [E|(pre & x & r & w & _ & E & (r' & w' & Hr & E') & _)].
      * destruct (lookup _ _) eqn:El; [|congruence]. apply leaf_key_inv in El. destruct El. congruence.
      * apply leaf_key_inv in E. apply leaf_key_inv in E'. destruct E as [-> _], E' as [E' _].
        exfalso. apply Hr. apply (app_inv_head (nibs lp)). rewrite app_nil_r. exact E'.
  - destruct Hm as [<- ->]. destruct Hw as (Hep & Hep0 & Hb & Hwc).
    assert (Hep' : length (nibs ep) <> 0) by (destruct (nibs ep); cbn; congruence).
    assert (Hc : c <> TEmpty) by (intros ->; contradiction).
    apply stored_ext in St. destruct St as [_ St].
    assert (Hff : forall r, nibs path = nibs ep ++ r ->
              (false_hit (TExt (nibs ep) c) (nibs path) <-> false_hit c r)).
    { intros r Er. rewrite Er. split.
      - intros (pre & x & q & w & Eq & E & (r' & w' & Hr & E') & Hn).
        apply ext_key_inv in E. destruct E as (pre' & -> & E). rewrite <- app_assoc in Eq.
        apply app_inv_head in Eq. exists pre', x, q, w. split; auto. split; auto. split.
        + exists r', w'. split; auto. rewrite <- app_assoc, lookup_ext_app in E'. exact E'.
        + intros z. specialize (Hn z). rewrite <- app_assoc, lookup_ext_app in Hn. exact Hn.
      - intros (pre & x & q & w & -> & E & (r' & w' & Hr & E') & Hn).
        exists (nibs ep ++ pre), x, q, w. rewrite app_assoc. split; auto. rewrite lookup_ext_app. split; auto. split.
        + exists r', w'. split; auto. rewrite <- app_assoc, lookup_ext_app. exact E'.
        + intros z. rewrite <- app_assoc, lookup_ext_app. auto. }
    destruct (strip (nibs ep) (nibs path)) as [r|] eqn:Es.
    + rewrite np_starts_with_spec, Es. pose proof (np_starts_with_skip _ _ _ Es) as Er. apply strip_spec in Es.
      assert (Hl := f_equal (@length nat) Es). rewrite app_length in Hl.
      replace (np_len path =? 0) with false by (symmetry; apply Nat.eqb_neq; rewrite np_len_spec; lia).
      specialize (IH m c (np_consume path (np_len ep)) Hc Hwc (small_ext keccak_len _ _ Hs) St).
      destruct (contains_ f m (tref c) _) as [x|e]; rewrite Er in IH.
      * rewrite IH, (Hff _ Es), Es, lookup_ext_app. tauto.
      * destruct IH as [-> Hf]. split; auto. lia.
    + rewrite np_starts_with_spec, Es.
      replace (if np_len path =? 0 then Ok (Extension ep (tref c), path) else Ok (Extension ep (tref c), path))
        with (@Ok (node * np) (Extension ep (tref c), path)) by (destruct (np_len path =? 0); reflexivity).
      cbn [verdict lookup]. rewrite Es. split; [discriminate|].
      intros [E|(pre & x & r & w & Eq & E & _)]; [congruence|]. exfalso.
      apply ext_key_inv in E. destruct E as (pre' & -> & _). rewrite <- app_assoc in Eq.
      apply (proj1 (strip_None _ _) Es _ Eq).
  - destruct Hm as [-> <-]. assert (Hw0 := Hw). apply wf_branch in Hw. destruct Hw as (Hlen & Hok & Hwc).
    apply stored_branch in St. destruct St as [_ St].
    destruct (path_cases path) as [[Hz Hn]|(i & q & Hn & Hz & Hi & Hq)]; rewrite Hz; cbn [Nat.eqb].
    + rewrite Hn. cbn [verdict lookup]. destruct d as [|x d]; cbn.
      * split; [discriminate|]. intros [E|(pre & x & r & w & Eq & _)]; [congruence|].
        destruct pre; discriminate.
      * split; [|reflexivity]. intros _. left. discriminate.
    + rewrite Hi, nth_map_tref, Hn, lookup_branch.
      destruct (0 <? _) eqn:Ep.
      * apply tref_pos in Ep; auto.
        assert (Hff : false_hit (TBranch cs d) (i :: q) <-> false_hit (nth i cs TEmpty) q).
        { split.
          - intros (pre & x & r & w & Eq & E & (r' & w' & Hr & E') & Hx). destruct pre as [|j pre].
            + injection Eq as <- <-. exfalso. destruct (wf_has_key _ (wf_nth cs i Hwc) Ep) as (z & u & Ez).
              specialize (Hx z). cbn [app] in Hx. rewrite lookup_branch in Hx. congruence.
            + injection Eq as <- ->. rewrite lookup_branch in E. exists pre, x, r, w. split; auto. split; auto.
              split.
              * exists r', w'. split; auto. cbn [app] in E'. rewrite lookup_branch in E'. exact E'.
              * intros z. specialize (Hx z). cbn [app] in Hx. rewrite lookup_branch in Hx. exact Hx.
          - intros (pre & x & r & w & -> & E & (r' & w' & Hr & E') & Hx).
            exists (i :: pre), x, r, w. split; auto. rewrite lookup_branch. split; auto. split.
            + exists r', w'. split; auto. cbn [app]. rewrite lookup_branch. exact E'.
            + intros z. cbn [app]. rewrite lookup_branch. auto. }
        specialize (IH m (nth i cs TEmpty) (np_consume path 1) Ep (wf_nth _ _ Hwc) (small_nth keccak_len _ _ _ Hs) (stored_nth _ _ _ St)).
        destruct (contains_ f m _ _) as [x|e]; rewrite Hq in IH.
        -- rewrite IH, Hff. tauto.
        -- destruct IH as [-> Hf]. split; auto. cbn [length]. lia.
      * assert (Hc : nth i cs TEmpty = TEmpty).
        { destruct (tree_empty_dec (nth i cs TEmpty)) as [->|Hc]; [reflexivity|].
          apply (tref_pos keccak_len) in Hc. congruence. }
        rewrite Hc. cbn [verdict lookup]. destruct d as [|y d]; cbn.
        -- split; [discriminate|]. intros [E|(pre & x & r & w & Eq & E & _)]; [congruence|].
           destruct pre as [|j pre]; [discriminate|]. injection Eq as <- ->.
           rewrite lookup_branch, Hc in E. discriminate.
        -- split; [|reflexivity]. intros _. right. exists [], i, q, (y :: d). split; auto. split; auto. split.
           ++ destruct Hok as [(a & b & _ & Ha & _)|(_ & a & Ha)];
              destruct (wf_has_key _ (wf_nth cs a Hwc) Ha) as (z & u & Ez); exists (a :: z), u;
              (split; [discriminate|]); cbn [app]; rewrite lookup_branch; exact Ez.
           ++ intros z. cbn [app]. rewrite lookup_branch, Hc. reflexivity.
Qed.

(** ** Walks depend on the stored nodes of the tree only. *)
Section Same.
Variables m m' : dict bytes.

Lemma get_node_same : forall t, t <> TEmpty -> stored m t -> stored m' t ->
  get_node m (tref t) = get_node m' (tref t).
Proof.
  intros t Hn S1 S2. unfold get_node. rewrite tref_32 by auto. rewrite tref_eq by auto.
  destruct (Nat.ltb_spec (length (tenc t)) 32) as [Hl|Hl]; cbn [negb]; auto.
  rewrite (here_of_stored _ _ S1), (here_of_stored _ _ S2) by auto. reflexivity.
Qed.

Ltac walk_start IH Hn Hw Hs S1 S2 :=
  let n := fresh "n" in let En := fresh "En" in let Hm := fresh "Hm" in
  pose proof (get_node_same _ Hn S1 S2) as Eg; rewrite <- Eg;
  destruct (get_node_stored keccak_len m _ Hn Hw Hs (here_of_stored _ _ S1)) as (n & En & Hm); rewrite En;
  cbn [bind];
  destruct n as [lp d|ep nr|bs d];
  match type of Hm with nmatch _ ?t => destruct t as [|p w|p c|cs w] end;
  cbn [nmatch] in Hm; try contradiction.

Lemma child_ext : forall p c, wf (TExt p c) -> small (TExt p c) -> stored m (TExt p c) -> stored m' (TExt p c) ->
  c <> TEmpty /\ wf c /\ small c /\ stored m c /\ stored m' c.
Proof.
  intros p c (_ & _ & Hb & Hw) Hs S1 S2. apply stored_ext in S1, S2. destruct S1, S2.
  split; [intros ->; contradiction|]. eauto using small_ext.
Qed.
Lemma child_nth : forall cs v i, wf (TBranch cs v) -> small (TBranch cs v) ->
  stored m (TBranch cs v) -> stored m' (TBranch cs v) -> (0 <? length (tref (nth i cs TEmpty))) = true ->
  let c := nth i cs TEmpty in c <> TEmpty /\ wf c /\ small c /\ stored m c /\ stored m' c.
Proof.
  intros cs v i Hw Hs S1 S2 Hp. apply wf_branch in Hw. apply stored_branch in S1, S2. destruct Hw as (_ & _ & Hw), S1, S2.
  apply tref_pos in Hp; auto. cbv zeta. split; auto. split; [apply wf_nth; auto|]. split; [eapply small_nth; eauto|].
  split; apply stored_nth; auto.
Qed.

Lemma get_same : forall fuel t path, t <> TEmpty -> wf t -> small t -> stored m t -> stored m' t ->
  get_ fuel m (tref t) path = get_ fuel m' (tref t) path.
Proof.
  induction fuel as [|f IH]; intros t path Hn Hw Hs S1 S2; [reflexivity|]. cbn [get_].
  walk_start IH Hn Hw Hs S1 S2; auto; destruct (np_len path =? 0); auto.
  - destruct Hm as [_ ->]. destruct (np_starts_with path ep); auto.
    destruct (child_ext _ _ Hw Hs S1 S2) as (? & ? & ? & ? & ?). apply IH; auto.
  - destruct Hm as [-> _]. rewrite nth_map_tref. destruct (0 <? _) eqn:Ep; auto.
    destruct (child_nth _ _ _ Hw Hs S1 S2 Ep) as (? & ? & ? & ? & ?). apply IH; auto.
Qed.

Lemma contains_same : forall fuel t path, t <> TEmpty -> wf t -> small t -> stored m t -> stored m' t ->
  contains_ fuel m (tref t) path = contains_ fuel m' (tref t) path.
Proof.
  induction fuel as [|f IH]; intros t path Hn Hw Hs S1 S2; [reflexivity|]. cbn [contains_].
  walk_start IH Hn Hw Hs S1 S2; auto; destruct (np_len path =? 0); auto.
  - destruct Hm as [_ ->]. destruct (np_starts_with path ep); auto.
    destruct (child_ext _ _ Hw Hs S1 S2) as (? & ? & ? & ? & ?). apply IH; auto.
  - destruct Hm as [-> _]. rewrite nth_map_tref. destruct (0 <? _) eqn:Ep; auto.
    destruct (child_nth _ _ _ Hw Hs S1 S2 Ep) as (? & ? & ? & ? & ?). apply IH; auto.
Qed.

Lemma get_poi_same : forall fuel t path acc, t <> TEmpty -> wf t -> small t -> stored m t -> stored m' t ->
  get_poi_ fuel m (tref t) path acc = get_poi_ fuel m' (tref t) path acc.
Proof.
  induction fuel as [|f IH]; intros t path acc Hn Hw Hs S1 S2; [reflexivity|]. cbn [get_poi_].
  walk_start IH Hn Hw Hs S1 S2; auto; destruct (np_len path =? 0); auto.
  - destruct Hm as [_ ->]. destruct (np_starts_with path ep); auto. destruct (node_encode _); cbn [bind]; auto.
    destruct (child_ext _ _ Hw Hs S1 S2) as (? & ? & ? & ? & ?). apply IH; auto.
  - destruct Hm as [-> _]. rewrite nth_map_tref. destruct (0 <? _) eqn:Ep; auto. destruct (node_encode _); cbn [bind]; auto.
    destruct (child_nth _ _ _ Hw Hs S1 S2 Ep) as (? & ? & ? & ? & ?). apply IH; auto.
Qed.

Lemma get_poe_same : forall fuel t path acc, t <> TEmpty -> wf t -> small t -> stored m t -> stored m' t ->
  get_poe_ fuel m (tref t) path acc = get_poe_ fuel m' (tref t) path acc.
Proof.
  induction fuel as [|f IH]; intros t path acc Hn Hw Hs S1 S2; [reflexivity|]. cbn [get_poe_].
  walk_start IH Hn Hw Hs S1 S2; auto; destruct (np_len path =? 0); auto.
  - destruct Hm as [_ ->]. destruct (np_starts_with path ep); auto. destruct (node_encode _); cbn [bind]; auto.
    destruct (child_ext _ _ Hw Hs S1 S2) as (? & ? & ? & ? & ?). apply IH; auto.
  - destruct Hm as [-> _]. rewrite nth_map_tref. destruct (node_encode _); cbn [bind]; auto.
    destruct (0 <? _) eqn:Ep; auto.
    destruct (child_nth _ _ _ Hw Hs S1 S2 Ep) as (? & ? & ? & ? & ?). apply IH; auto.
Qed.
End Same.

End Read.
