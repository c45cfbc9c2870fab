(** Abstract Patricia trees: the objects that node storages represent.
    Proof artefact, not a model of code.  A tree has a lookup function on nibble
    sequences; well-formed trees are determined by it. *)
From Coq Require Import List Bool Arith NArith ZArith Lia.
From Verif Require Import Base BaseProofs NibblePath NibbleProofs Mpt.
Import ListNotations.

Inductive tree :=
  | TEmpty
  | TLeaf (p : list nat) (v : bytes)
  | TExt (p : list nat) (c : tree)
  | TBranch (cs : list tree) (v : bytes).

Section Ind.
  Variable P : tree -> Prop.
  Hypothesis HE : P TEmpty.
  Hypothesis HL : forall p v, P (TLeaf p v).
  Hypothesis HX : forall p c, P c -> P (TExt p c).
  Hypothesis HB : forall cs v, Forall P cs -> P (TBranch cs v).
  Fixpoint tree_ind2 (t : tree) : P t :=
    match t with
    | TEmpty => HE
    | TLeaf p v => HL p v
    | TExt p c => HX p c (tree_ind2 c)
    | TBranch cs v =>
        HB cs v ((fix go (l : list tree) : Forall P l :=
                    match l with
                    | [] => Forall_nil P
                    | c :: l' => Forall_cons c (tree_ind2 c) (go l')
                    end) cs)
    end.
End Ind.

Definition path_dec : forall a b : list nat, {a = b} + {a <> b} := list_eq_dec Nat.eq_dec.
Arguments path_dec : simpl never.

Fixpoint lookup (t : tree) (q : list nat) : option bytes :=
  match t with
  | TEmpty => None
  | TLeaf p v => if path_dec q p then Some v else None
  | TExt p c => match strip p q with Some r => lookup c r | None => None end
  | TBranch cs v =>
      match q with
      | [] => match v with [] => None | _ => Some v end
      | i :: r =>
          (fix go (l : list tree) (i : nat) : option bytes :=
             match l with
             | [] => None
             | c :: l' => match i with O => lookup c r | S i' => go l' i' end
             end) cs i
      end
  end.

Lemma lookup_branch : forall cs v i r, lookup (TBranch cs v) (i :: r) = lookup (nth i cs TEmpty) r.
Proof.
  intros cs v i r. cbn [lookup]. revert i. induction cs as [|c cs IH]; intros i; destruct i; auto.
  apply IH.
Qed.

Definition is_branch (t : tree) : Prop := match t with TBranch _ _ => True | _ => False end.

(** At least two of: the value, the children. *)
Definition branch_ok (cs : list tree) (v : bytes) : Prop :=
  (exists i j, i <> j /\ nth i cs TEmpty <> TEmpty /\ nth j cs TEmpty <> TEmpty)
  \/ (v <> [] /\ exists i, nth i cs TEmpty <> TEmpty).

Fixpoint wf (t : tree) : Prop :=
  match t with
  | TEmpty => True
  | TLeaf p v => nib_ok p
  | TExt p c => nib_ok p /\ p <> [] /\ is_branch c /\ wf c
  | TBranch cs v =>
      length cs = 16 /\ branch_ok cs v /\
      (fix all (l : list tree) : Prop := match l with [] => True | c :: l' => wf c /\ all l' end) cs
  end.

Lemma wf_branch : forall cs v,
  wf (TBranch cs v) <-> length cs = 16 /\ branch_ok cs v /\ Forall wf cs.
Proof.
  intros cs v. cbn [wf].
  assert (E : forall l, (fix all (l : list tree) : Prop :=
     match l with [] => True | c :: l' => wf c /\ all l' end) l <-> Forall wf l).
  { induction l as [|c l IH]; [split; auto|]. rewrite IH. split; [intros []; auto|].
    intros Hf. inversion Hf; auto. }
  rewrite E. tauto.
Qed.

Lemma wf_nth : forall cs i, Forall wf cs -> wf (nth i cs TEmpty).
Proof.
  intros cs i Hf. destruct (nth_in_or_default i cs TEmpty) as [Hi| ->]; [|exact I].
  rewrite Forall_forall in Hf. auto.
Qed.

Lemma nth_ne_lt : forall cs i, nth i cs TEmpty <> TEmpty -> i < length cs.
Proof.
  intros cs i Hn. destruct (le_lt_dec (length cs) i); auto.
  rewrite nth_overflow in Hn by auto. congruence.
Qed.

Lemma tree_empty_dec : forall t : tree, {t = TEmpty} + {t <> TEmpty}.
Proof. destruct t; auto; right; discriminate. Qed.

(** ** set_nth *)
Lemma set_nth_length : forall (A : Type) i (x : A) l, i < length l -> length (set_nth i x l) = length l.
Proof.
  intros. unfold set_nth. rewrite app_length, firstn_length. cbn [length]. rewrite skipn_length. lia.
Qed.

Lemma nth_set_nth : forall (A : Type) i (x : A) l j d, i < length l ->
  nth j (set_nth i x l) d = if j =? i then x else nth j l d.
Proof.
  intros A i. induction i as [|i IH]; intros x l j d Hi; (destruct l as [|y l]; cbn in Hi; [lia|]).
  - destruct j; reflexivity.
  - destruct j as [|j]; [reflexivity|]. cbn [Nat.eqb nth].
    change (set_nth (S i) x (y :: l)) with (y :: set_nth i x l). cbn [nth]. apply IH. lia.
Qed.

Lemma map_set_nth : forall (A B : Type) (f : A -> B) i x l,
  map f (set_nth i x l) = set_nth i (f x) (map f l).
Proof.
  intros. unfold set_nth. rewrite map_app, firstn_map. cbn [map]. rewrite skipn_map. reflexivity.
Qed.

Lemma Forall_set_nth : forall (A : Type) (P : A -> Prop) i x l, Forall P l -> P x -> Forall P (set_nth i x l).
Proof.
  intros A P i x l Hl Hx. unfold set_nth. apply Forall_app. split.
  - apply Forall_forall. intros y Hy. rewrite Forall_forall in Hl. apply Hl.
    rewrite <- (firstn_skipn i l). apply in_or_app. auto.
  - constructor; auto. apply Forall_forall. intros y Hy. rewrite Forall_forall in Hl. apply Hl.
    rewrite <- (firstn_skipn (S i) l). apply in_or_app. auto.
Qed.

(** ** Keys of well-formed trees *)
Lemma lookup_leaf_self : forall p v, lookup (TLeaf p v) p = Some v.
Proof. intros. cbn. destruct (path_dec p p); congruence. Qed.

Lemma lookup_ext_app : forall p c q, lookup (TExt p c) (p ++ q) = lookup c q.
Proof. intros. cbn. rewrite strip_app. reflexivity. Qed.

Lemma lookup_branch_nil : forall cs v, v <> [] -> lookup (TBranch cs v) [] = Some v.
Proof. intros cs v Hv. cbn. destruct v; [contradiction Hv|]; reflexivity. Qed.

Lemma wf_has_key : forall t, wf t -> t <> TEmpty -> exists q v, lookup t q = Some v.
Proof.
  induction t as [|p v|p c IH|cs v IH] using tree_ind2; intros Hw Hne.
  - congruence.
  - exists p, v. apply lookup_leaf_self.
  - destruct Hw as (_ & _ & Hb & Hc). destruct IH as (q & v & E); auto.
    { destruct c; try contradiction; discriminate. }
    exists (p ++ q), v. rewrite lookup_ext_app. exact E.
  - apply wf_branch in Hw. destruct Hw as (Hl & Hok & Hf).
    assert (Hi : exists i, nth i cs TEmpty <> TEmpty).
    { destruct Hok as [(i & j & _ & Hi & _)|(_ & i & Hi)]; eauto. }
    destruct Hi as [i Hi].
    assert (Hin : In (nth i cs TEmpty) cs) by (apply nth_In, nth_ne_lt; auto).
    rewrite Forall_forall in IH, Hf. destruct (IH _ Hin (Hf _ Hin) Hi) as (q & w & E).
    exists (i :: q), w. rewrite lookup_branch. exact E.
Qed.

(** A branch has two keys that differ at once. *)
Lemma wf_branch_keys : forall cs v, wf (TBranch cs v) ->
  exists q1 q2 v1 v2, hd_error q1 <> hd_error q2 /\
    lookup (TBranch cs v) q1 = Some v1 /\ lookup (TBranch cs v) q2 = Some v2.
Proof.
  intros cs v Hw. apply wf_branch in Hw. destruct Hw as (Hl & Hok & Hf).
  assert (Hk : forall i, nth i cs TEmpty <> TEmpty -> exists q w, lookup (TBranch cs v) (i :: q) = Some w).
  { intros i Hi. destruct (wf_has_key (nth i cs TEmpty)) as (q & w & E); auto using wf_nth.
    exists q, w. rewrite lookup_branch. exact E. }
  destruct Hok as [(i & j & Hij & Hi & Hj)|(Hv & i & Hi)].
  - destruct (Hk i Hi) as (q1 & v1 & E1). destruct (Hk j Hj) as (q2 & v2 & E2).
    exists (i :: q1), (j :: q2), v1, v2. cbn [hd_error]. repeat split; auto. congruence.
  - destruct (Hk i Hi) as (q1 & v1 & E1).
    exists (i :: q1), [], v1, v. repeat split; auto; [discriminate|]. apply lookup_branch_nil. auto.
Qed.

Lemma wf_ext_keys : forall p c, wf (TExt p c) ->
  exists q1 q2 v1 v2, q1 <> q2 /\ lookup (TExt p c) q1 = Some v1 /\ lookup (TExt p c) q2 = Some v2.
Proof.
  intros p c (Hp & Hne & Hb & Hc). destruct c as [| | |cs v]; try contradiction.
  destruct (wf_branch_keys cs v Hc) as (q1 & q2 & v1 & v2 & Hd & E1 & E2).
  exists (p ++ q1), (p ++ q2), v1, v2. rewrite !lookup_ext_app. repeat split; auto.
  intros E. apply app_inv_head in E. congruence.
Qed.

Lemma lookup_nib_ok : forall t q v, wf t -> lookup t q = Some v -> nib_ok q.
Proof.
  induction t as [|p w|p c IH|cs w IH] using tree_ind2; intros q v Hw E.
  - discriminate.
  - cbn in E. destruct (path_dec q p); [|discriminate]. subst. apply Hw.
  - cbn in E. destruct (strip p q) as [r|] eqn:Es; [|discriminate]. apply strip_spec in Es. subst q.
    apply nib_ok_app. split; [apply Hw|]. apply (IH r v); auto. apply Hw.
  - destruct q as [|i r]; [constructor|]. rewrite lookup_branch in E.
    apply wf_branch in Hw. destruct Hw as (Hl & _ & Hf).
    assert (Hi : i < length cs).
    { apply nth_ne_lt. intros F. rewrite F in E. discriminate. }
    constructor; [lia|]. pose proof (nth_In cs TEmpty Hi) as Hin.
    rewrite Forall_forall in IH, Hf. eapply IH; eauto.
Qed.

(** ** Uniqueness *)
Definition same (t1 t2 : tree) : Prop := forall q, lookup t1 q = lookup t2 q.

Lemma same_sym : forall a b, same a b -> same b a.
Proof. intros a b H q. symmetry. apply H. Qed.

Lemma ext_key_inv : forall p c q v, lookup (TExt p c) q = Some v -> exists r, q = p ++ r /\ lookup c r = Some v.
Proof.
  intros p c q v E. cbn in E. destruct (strip p q) as [r|] eqn:Es; [|discriminate].
  apply strip_spec in Es. eauto.
Qed.

Lemma leaf_key_inv : forall p w q v, lookup (TLeaf p w) q = Some v -> q = p /\ v = w.
Proof. intros p w q v E. cbn in E. destruct (path_dec q p); [|discriminate]. split; congruence. Qed.

Lemma two_keys_not_leaf : forall p w t q1 q2 v1 v2, same (TLeaf p w) t -> q1 <> q2 ->
  lookup t q1 = Some v1 -> lookup t q2 = Some v2 -> False.
Proof.
  intros p w t q1 q2 v1 v2 Hs Hn E1 E2. rewrite <- Hs in E1, E2.
  apply leaf_key_inv in E1, E2. destruct E1, E2. congruence.
Qed.

Lemma hd_neq : forall (q1 q2 : list nat), hd_error q1 <> hd_error q2 -> q1 <> q2.
Proof. intros q1 q2 Hn ->. congruence. Qed.

Lemma ext_not_branch : forall p c cs v, wf (TExt p c) -> wf (TBranch cs v) -> same (TExt p c) (TBranch cs v) -> False.
Proof.
  intros p c cs v (_ & Hp & _) Hb Hs. destruct (wf_branch_keys cs v Hb) as (q1 & q2 & v1 & v2 & Hd & E1 & E2).
  rewrite <- Hs in E1, E2. apply ext_key_inv in E1, E2.
  destruct E1 as (r1 & -> & _), E2 as (r2 & -> & _). destruct p; [congruence|]. apply Hd. reflexivity.
Qed.

(** Extension paths of equal trees are comparable and hence equal. *)
Lemma ext_path_prefix : forall p1 c1 p2 c2, wf (TExt p1 c1) -> wf (TExt p2 c2) ->
  same (TExt p1 c1) (TExt p2 c2) -> forall r, p2 = p1 ++ r -> r = [].
Proof.
  intros p1 c1 p2 c2 H1 H2 Hs r ->. destruct r as [|x r]; auto. exfalso.
  destruct H1 as (_ & _ & Hb & Hc). destruct c1 as [| | |cs v]; try contradiction.
  destruct (wf_branch_keys cs v Hc) as (q1 & q2 & v1 & v2 & Hd & E1 & E2).
  assert (Hq : forall q w, lookup (TBranch cs v) q = Some w -> hd_error q = Some x).
  { intros q w E. assert (E' : lookup (TExt p1 (TBranch cs v)) (p1 ++ q) = Some w).
    { rewrite lookup_ext_app. exact E. }
    rewrite Hs in E'. apply ext_key_inv in E'. destruct E' as (s & Es & _).
    rewrite <- app_assoc in Es. apply app_inv_head in Es. subst q. reflexivity. }
  apply Hd. rewrite (Hq _ _ E1), (Hq _ _ E2). reflexivity.
Qed.

Lemma prefixes_comparable : forall (p1 p2 r1 r2 : list nat), p1 ++ r1 = p2 ++ r2 ->
  (exists r, p2 = p1 ++ r) \/ (exists r, p1 = p2 ++ r).
Proof.
  induction p1 as [|x p1 IH]; intros p2 r1 r2 E; [left; exists p2; reflexivity|].
  destruct p2 as [|y p2]; [right; exists (x :: p1); reflexivity|].
  injection E as -> E. destruct (IH _ _ _ E) as [[r ->]|[r ->]]; [left|right]; exists r; reflexivity.
Qed.

Theorem wf_unique : forall t1 t2, wf t1 -> wf t2 -> same t1 t2 -> t1 = t2.
Proof.
  induction t1 as [|p v|p c IH|cs v IH] using tree_ind2; intros t2 H1 H2 Hs.
  - destruct (tree_empty_dec t2) as [->|Hn]; auto.
    destruct (wf_has_key t2 H2 Hn) as (q & w & E). rewrite <- Hs in E. discriminate.
  - destruct t2 as [|p2 v2|p2 c2|cs2 v2].
    + specialize (Hs p). rewrite lookup_leaf_self in Hs. discriminate.
    + specialize (Hs p). rewrite lookup_leaf_self in Hs. symmetry in Hs.
      apply leaf_key_inv in Hs. destruct Hs. congruence.
    + destruct (wf_ext_keys p2 c2 H2) as (q1 & q2 & w1 & w2 & Hn & E1 & E2).
      exfalso. eapply two_keys_not_leaf; eauto.
    + destruct (wf_branch_keys cs2 v2 H2) as (q1 & q2 & w1 & w2 & Hn & E1 & E2).
      exfalso. eapply two_keys_not_leaf; eauto using hd_neq.
  - destruct t2 as [|p2 v2|p2 c2|cs2 v2].
    + destruct (wf_ext_keys p c H1) as (q1 & _ & w1 & _ & _ & E1 & _). rewrite Hs in E1. discriminate.
    + destruct (wf_ext_keys p c H1) as (q1 & q2 & w1 & w2 & Hn & E1 & E2).
      exfalso. eapply two_keys_not_leaf; eauto using same_sym.
    + assert (Hp : p = p2).
      { destruct (wf_ext_keys p c H1) as (q1 & _ & w1 & _ & _ & E1 & _). pose proof E1 as E2.
        rewrite Hs in E2. apply ext_key_inv in E1, E2. destruct E1 as (r1 & -> & _), E2 as (r2 & E2 & _).
        destruct (prefixes_comparable _ _ _ _ E2) as [[r Er]|[r Er]].
        - rewrite (ext_path_prefix _ _ _ _ H1 H2 Hs r Er), app_nil_r in Er. congruence.
        - rewrite (ext_path_prefix _ _ _ _ H2 H1 (same_sym _ _ Hs) r Er), app_nil_r in Er. congruence. }
      subst p2. f_equal. apply IH; [apply H1|apply H2|]. intros q.
      specialize (Hs (p ++ q)). rewrite !lookup_ext_app in Hs. exact Hs.
    + exfalso. eapply ext_not_branch; eauto.
  - destruct t2 as [|p2 v2|p2 c2|cs2 v2].
    + destruct (wf_branch_keys cs v H1) as (q1 & q2 & w1 & w2 & Hn & E1 & E2).
      rewrite Hs in E1. discriminate.
    + destruct (wf_branch_keys cs v H1) as (q1 & q2 & w1 & w2 & Hn & E1 & E2).
      exfalso. eapply two_keys_not_leaf; eauto using same_sym, hd_neq.
    + exfalso. eapply ext_not_branch; eauto using same_sym.
    + f_equal.
      * apply wf_branch in H1, H2. destruct H1 as (L1 & _ & F1), H2 as (L2 & _ & F2).
        apply (nth_ext _ _ TEmpty TEmpty); [congruence|]. intros i Hi.
        rewrite Forall_forall in IH. apply IH; auto using nth_In, wf_nth.
        intros q. specialize (Hs (i :: q)). rewrite !lookup_branch in Hs. exact Hs.
      * specialize (Hs []). cbn in Hs. destruct v, v2; congruence.
Qed.
