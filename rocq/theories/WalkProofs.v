(** Where a walk for an absent key stops, and what it then raises. *)
From Coq Require Import List Bool Arith NArith Lia.
From Verif Require Import Base BaseProofs NibblePath NibbleProofs Node ProofObj Mpt Tree TreeEnc StoreProofs UpdateProofs DeleteProofs
  ReadProofs Spec SpecCodec CodecProofs SpecProof SpecWalk MptRefine MptProofs.
Import ListNotations.

(** ** Sets of nibble sequences *)
Section Sets.
Variable K : nibset.

Lemma below_prefix : forall p r, below K (p ++ r) -> below K p.
Proof. intros p r (s & Hs). exists (r ++ s). rewrite app_assoc. exact Hs. Qed.

Lemma leaves_at_unique : forall q p1 r1 p2 r2, leaves_at K q p1 r1 -> leaves_at K q p2 r2 -> p1 = p2 /\ r1 = r2.
Proof.
  assert (W : forall q p1 r1 p2 r2, leaves_at K q p1 r1 -> leaves_at K q p2 r2 -> forall z, p2 = p1 ++ z -> z = []).
  { intros q p1 r1 p2 r2 (E1 & _ & N1) (E2 & B2 & _) z Ez. destruct z as [|i z]; auto. exfalso.
    subst p2. rewrite E1 in E2. rewrite <- app_assoc in E2. apply app_inv_head in E2. cbn [app] in E2.
    apply (N1 i (z ++ r2) E2). apply (below_prefix _ z). rewrite <- app_assoc. exact B2. }
  intros q p1 r1 p2 r2 L1 L2. assert (E := proj1 L1). assert (E' := proj1 L2). rewrite E in E'.
  assert (Ep : p1 = p2).
  { destruct (prefixes_comparable _ _ _ _ E') as [(z & Ez)|(z & Ez)].
    - rewrite (W _ _ _ _ _ L1 L2 z Ez), app_nil_r in Ez. auto.
    - rewrite (W _ _ _ _ _ L2 L1 z Ez), app_nil_r in Ez. auto. }
  split; auto. subst p2. apply app_inv_head in E'. exact E'.
Qed.

Lemma single_not_forked : forall p, single K p -> forked K p -> False.
Proof. intros p (r & Hr) (a & b & Ha & Hb & Hn). apply Hr in Ha, Hb. congruence. Qed.
Lemma single_not_joined : forall p, single K p -> joined K p -> False.
Proof. intros p (r & Hr) ((a & b & Hn & Ha & Hb) & _). apply Hr in Ha, Hb. congruence. Qed.
Lemma forked_not_joined : forall p, forked K p -> joined K p -> False.
Proof.
  intros p (a & b & Ha & Hb & Hn) (_ & i & Hi). destruct (Hi _ Ha) as (x & ->), (Hi _ Hb) as (y & ->). apply Hn. reflexivity.
Qed.
End Sets.

(** ** The walk on trees *)
Fixpoint halt (t : tree) (q : list nat) : tree * list nat :=
  match t with
  | TEmpty | TLeaf _ _ => (t, q)
  | TExt p c => match strip p q with Some r => halt c r | None => (t, q) end
  | TBranch cs v =>
      match q with
      | [] => (t, q)
      | i :: r =>
          (fix go (l : list tree) (j : nat) : tree * list nat :=
             match l with
             | [] => (t, q)
             | c :: l' => match j with
                          | O => match c with TEmpty => (t, q) | _ => halt c r end
                          | S j' => go l' j'
                          end
             end) cs i
      end
  end.

Lemma halt_branch : forall cs v i r,
  halt (TBranch cs v) (i :: r) =
    if tree_empty_dec (nth i cs TEmpty) then (TBranch cs v, i :: r) else halt (nth i cs TEmpty) r.
Proof.
  intros cs v i r. cbn [halt].
  assert (W : forall (x : tree * list nat) l j,
    (fix go (l : list tree) (j : nat) : tree * list nat :=
       match l with
       | [] => x
       | c :: l' => match j with O => match c with TEmpty => x | _ => halt c r end | S j' => go l' j' end
       end) l j = if tree_empty_dec (nth j l TEmpty) then x else halt (nth j l TEmpty) r).
  { intros x. induction l as [|c l IH]; intros j.
    - replace (nth j [] TEmpty) with TEmpty by (destruct j; reflexivity). destruct (tree_empty_dec TEmpty); congruence.
    - destruct j; cbn [nth]; [|apply IH]. destruct c; destruct (tree_empty_dec _); congruence. }
  apply W.
Qed.

Definition stuck (u : tree) (r : list nat) : Prop :=
  match u with
  | TEmpty => False
  | TLeaf _ _ => True
  | TExt p _ => strip p r = None
  | TBranch cs _ => match r with [] => True | i :: _ => nth i cs TEmpty = TEmpty end
  end.

Definition keys (t : tree) : nibset := fun q => exists v, lookup t q = Some v.

Lemma halt_spec : forall t q u r, t <> TEmpty -> wf t -> halt t q = (u, r) ->
  wf u /\ stuck u r /\ exists p, q = p ++ r /\ (forall x, lookup t (p ++ x) = lookup u x) /\
    (edge (keys t) p \/ is_branch u).
Proof.
  induction t as [|p w|p c IH|cs w IH] using tree_ind2; intros q u r Hne Hw E.
  - congruence.
  - injection E as <- <-. split; auto. split; [exact I|]. exists []. repeat (split; auto). left. left. reflexivity.
  - cbn [halt] in E. destruct Hw as (Hp & Hp0 & Hb & Hwc). destruct (strip p q) as [z|] eqn:Es.
    + apply strip_spec in Es. destruct (IH z u r) as (Hu & Hst & p' & -> & Hl & He); auto.
      { intros ->. contradiction. }
      split; auto. split; auto. exists (p ++ p'). rewrite Es, app_assoc. split; auto. split.
      { intros x. rewrite <- app_assoc, lookup_ext_app. apply Hl. }
      destruct He as [[->|(a & i & b & -> & Hk & Hn)]|He]; [|left|right; auto].
      * right. cbn [app] in Hl. destruct c as [| | |cs w]; try contradiction.
        (* u has the keys of a branch *)
        destruct u as [|lp lv|ep ec|cs' w']; [contradiction| | |exact I]; exfalso.
        -- destruct (wf_branch_keys cs w Hwc) as (q1 & q2 & v1 & v2 & Hn & K1 & K2). rewrite Hl in K1, K2.
           apply leaf_key_inv in K1, K2. destruct K1, K2. congruence.
        -- apply (ext_not_branch ep ec cs w Hu Hwc). intros x. symmetry. apply Hl.
      * right. exists (p ++ a), i, b. rewrite app_assoc. split; auto. split; auto.
        destruct Hk as (v & Hk). exists v. rewrite <- app_assoc, lookup_ext_app. exact Hk.
    + injection E as <- <-. split; [cbn; auto|]. split; [exact Es|]. exists []. split; auto. split; auto. left. left. reflexivity.
  - assert (Hw0 := Hw). apply wf_branch in Hw. destruct Hw as (Hlen & Hok & Hf). destruct q as [|i q].
    + injection E as <- <-. split; auto. split; [exact I|]. exists []. split; auto. split; auto. right. exact I.
    + rewrite halt_branch in E. destruct (tree_empty_dec (nth i cs TEmpty)) as [Hc|Hc].
      * injection E as <- <-. split; auto. split; [exact Hc|]. exists []. split; auto. split; auto. right. exact I.
      * rewrite Forall_forall in IH. assert (Hin : In (nth i cs TEmpty) cs).
        { destruct (nth_in_or_default i cs TEmpty); [auto|congruence]. }
        destruct (IH _ Hin q u r Hc (wf_nth _ _ Hf) E) as (Hu & Hst & p' & -> & Hl & He).
        split; auto. split; auto. exists (i :: p'). split; auto. split.
        { intros x. cbn [app]. rewrite lookup_branch. apply Hl. }
        destruct He as [[->|(a & j & b & -> & Hk & Hn)]|He]; [| |right; auto]; left; right.
        -- destruct Hok as [(x & y & Hxy & Hx & Hy)|(Hd & _)].
           ++ assert (Hz : exists z, z <> i /\ nth z cs TEmpty <> TEmpty).
              { destruct (Nat.eq_dec x i) as [->|]; [exists y|exists x]; auto. }
              destruct Hz as (z & Hz & Hn). destruct (wf_has_key _ (wf_nth cs z Hf) Hn) as (zz & v & Ez).
              exists [], i, (z :: zz). split; auto. split.
              ** exists v. cbn [app]. rewrite lookup_branch. exact Ez.
              ** intros r' Er. injection Er as Er _. auto.
           ++ exists [], i, []. split; auto. split; [|discriminate].
              exists w. cbn [app]. apply lookup_branch_nil. exact Hd.
        -- exists (i :: a), j, b. split; auto. split; auto. destruct Hk as (v & Hk). exists v.
           cbn [app]. rewrite lookup_branch. exact Hk.
Qed.

(** What the stopping place says about the keys. *)
Lemma lcp_split : forall a b : list nat, exists c x y, a = c ++ x /\ b = c ++ y /\
  match x, y with i :: _, j :: _ => i <> j | _, _ => True end.
Proof.
  induction a as [|i a IH]; intros b; [exists [], [], b; auto|].
  destruct b as [|j b]; [exists [], (i :: a), []; auto|].
  destruct (Nat.eq_dec i j) as [->|Hn].
  - destruct (IH b) as (c & x & y & -> & -> & Hxy). exists (j :: c), x, y. auto.
  - exists [], (i :: a), (j :: b). auto.
Qed.

Section Stop.
Variables (t u : tree) (p0 r0 : list nat).
Hypothesis Hl : forall x, lookup t (p0 ++ x) = lookup u x.

Lemma keys_sub : forall x, keys t (p0 ++ x) <-> keys u x.
Proof. intros x. unfold keys. split; intros (v & E); exists v; rewrite Hl in *; exact E. Qed.

Lemma no_edge : forall z i,
  (forall s v, lookup u (z ++ s) = Some v -> exists s', s = i :: s') -> ~ edge (keys t) (p0 ++ z ++ [i]).
Proof.
  intros z i Hz [E|(p & j & r & E & Hk & Hn)].
  - destruct p0; [destruct z|]; discriminate.
  - rewrite app_assoc in E. apply app_inj_tail in E. destruct E as [<- <-].
    rewrite <- app_assoc in Hk. apply keys_sub in Hk. destruct Hk as (v & Hk). destruct (Hz _ _ Hk) as (s' & ->).
    apply (Hn s'). reflexivity.
Qed.

Lemma stop_leaf : forall lp v, u = TLeaf lp v -> r0 <> lp ->
  exists p r, leaves_at (keys t) (p0 ++ r0) p r /\ single (keys t) p /\
    (r = [] -> r0 <> [] -> ~ edge (keys t) (p0 ++ r0)) /\ (r0 = [] -> r = []).
Proof.
  intros lp v Eu Hr. destruct (lcp_split r0 lp) as (c & x & y & -> & -> & Hxy).
  assert (Hk : forall s, keys t ((p0 ++ c) ++ s) <-> s = y).
  { intros s. rewrite <- app_assoc, keys_sub, Eu. unfold keys. split.
    - intros (w & E). apply leaf_key_inv in E. destruct E as [E _]. apply app_inv_head in E. exact E.
    - intros ->. exists v. apply lookup_leaf_self. }
  exists (p0 ++ c), x. split; [|split; [|split]].
  - split; [rewrite app_assoc; reflexivity|]. split; [exists y; apply Hk; reflexivity|].
    intros i r' -> (s & Hs). rewrite <- app_assoc in Hs. apply Hk in Hs. cbn [app] in Hs. subst y.
    cbn in Hxy. congruence.
  - exists y. exact Hk.
  - intros -> Hc. rewrite app_nil_r in *. destruct (exists_last Hc) as (c' & i & ->). apply no_edge; auto.
    intros s w E. rewrite Eu in E. apply leaf_key_inv in E. destruct E as [E _].
    rewrite <- app_assoc in E. apply app_inv_head in E. cbn [app] in E. eauto.
  - intros E. destruct c, x; try discriminate. reflexivity.
Qed.

Lemma stop_ext : forall ep c, u = TExt ep c -> wf u -> strip ep r0 = None ->
  exists p r, leaves_at (keys t) (p0 ++ r0) p r /\ joined (keys t) p /\
    (r = [] -> r0 <> [] -> ~ edge (keys t) (p0 ++ r0)) /\ (r0 = [] -> r = []).
Proof.
  intros ep c0 Eu Hw Es. destruct (lcp_split r0 ep) as (c & x & y & -> & -> & Hxy).
  assert (Hy : y <> []).
  { intros ->. rewrite app_nil_r in Es. apply (proj1 (strip_None _ _) Es x). reflexivity. }
  destruct y as [|j y]; [congruence|]. clear Hy.
  rewrite Eu in Hw. destruct Hw as (_ & _ & Hb & Hwc). destruct c0 as [| | |cs w]; try contradiction.
  destruct (wf_branch_keys cs w Hwc) as (q1 & q2 & v1 & v2 & Hne2 & K1 & K2).
  assert (Hk : forall s, keys t ((p0 ++ c) ++ s) <-> exists s', s = j :: y ++ s' /\ keys (TBranch cs w) s').
  { intros s. rewrite <- app_assoc, keys_sub, Eu. unfold keys. split.
    - intros (v & E). apply ext_key_inv in E. destruct E as (s' & E & El). rewrite <- app_assoc in E.
      apply app_inv_head in E. exists s'. split; [exact E|eauto].
    - intros (s' & -> & v & E). exists v. rewrite app_comm_cons, app_assoc, lookup_ext_app. exact E. }
  exists (p0 ++ c), x. split; [|split; [|split]].
  - split; [rewrite app_assoc; reflexivity|]. split; [exists (j :: y ++ q1); apply Hk; exists q1; unfold keys; eauto|].
    intros i r' -> (s & Hs). rewrite <- app_assoc in Hs. apply Hk in Hs. destruct Hs as (s' & Es' & _).
    injection Es' as -> _. cbn in Hxy. congruence.
  - split.
    + exists (j :: y ++ q1), (j :: y ++ q2). split.
      * intros E. injection E as E. apply app_inv_head in E. rewrite E in Hne2. congruence.
      * split; apply Hk; [exists q1|exists q2]; unfold keys; eauto.
    + exists j. intros s Hs. apply Hk in Hs. destruct Hs as (s' & -> & _). eauto.
  - intros -> Hc. rewrite app_nil_r in *. destruct (exists_last Hc) as (c' & i & ->). apply no_edge; auto.
    intros s v E. rewrite Eu in E. apply ext_key_inv in E. destruct E as (s' & E & _).
    rewrite <- !app_assoc in E. apply app_inv_head in E. cbn [app] in E. eauto.
  - intros E. destruct c, x; try discriminate. reflexivity.
Qed.

Lemma stop_branch : forall cs w, u = TBranch cs w -> wf u -> stuck u r0 ->
  leaves_at (keys t) (p0 ++ r0) p0 r0 /\ forked (keys t) p0.
Proof.
  intros cs w Eu Hw Hs. assert (Hf : forked (keys t) p0).
  { rewrite Eu in Hw. apply wf_branch in Hw. destruct Hw as (Hlen & Hok & Hf).
    destruct Hok as [(x & y & Hxy & Hx & Hy)|(Hd & x & Hx)].
    - destruct (wf_has_key _ (wf_nth cs x Hf) Hx) as (a & va & Ea), (wf_has_key _ (wf_nth cs y Hf) Hy) as (b & vb & Eb).
      exists (x :: a), (y :: b). rewrite !keys_sub, Eu. unfold keys. rewrite !lookup_branch. split; [eauto|]. split; [eauto|].
      cbn. congruence.
    - destruct (wf_has_key _ (wf_nth cs x Hf) Hx) as (a & va & Ea).
      exists (x :: a), []. rewrite !keys_sub, Eu. unfold keys. rewrite lookup_branch, lookup_branch_nil by auto.
      split; [eauto|]. split; [eauto|]. discriminate. }
  split; auto. split; auto. split; [destruct Hf as (r & _ & Hr & _); exists r; exact Hr|].
  intros i r' -> (s & Hk). rewrite <- app_assoc in Hk. apply keys_sub in Hk. rewrite Eu in *. cbn [stuck] in Hs.
  destruct Hk as (v & E). cbn [app] in E. rewrite lookup_branch, Hs in E. discriminate.
Qed.
End Stop.

(** The notions do not depend on how the set is given. *)
Section Same.
Variables (K K' : nibset).
Hypothesis E : forall q, K q <-> K' q.

Lemma below_same : forall p, below K p <-> below K' p.
Proof. intros p. unfold below. split; intros (r & Hr); exists r; apply E; exact Hr. Qed.
Lemma single_same : forall p, single K p <-> single K' p.
Proof.
  intros p. unfold single. split; intros (r & Hr); exists r; intros r'; rewrite <- (Hr r'); [symmetry|]; apply E.
Qed.
Lemma forked_same : forall p, forked K p <-> forked K' p.
Proof. intros p. unfold forked. split; intros (r & s & A & B & C); exists r, s; rewrite !E in *; auto. Qed.
Lemma joined_same : forall p, joined K p <-> joined K' p.
Proof.
  intros p. unfold joined. split; intros ((r & s & A & B & C) & i & D); (split; [exists r, s; rewrite !E in *; auto|]);
  exists i; intros z Hz; apply D; apply E; exact Hz.
Qed.
Lemma leaves_at_same : forall q p r, leaves_at K q p r <-> leaves_at K' q p r.
Proof.
  intros q p r. unfold leaves_at. rewrite below_same.
  split; intros (A & B & C); (split; [auto|split; [auto|]]); intros i r' Er F; apply (C i r' Er); apply below_same; exact F.
Qed.
Lemma edge_same : forall q, edge K q <-> edge K' q.
Proof.
  intros q. unfold edge. split; (intros [A|(p & i & r & A & B & C)]; [left; auto|right; exists p, i, r; rewrite E in *; auto]).
Qed.
End Same.

Lemma get_raises_same : forall K K' : nibset, (forall q, K q <-> K' q) -> forall q e, get_raises K q e <-> get_raises K' q e.
Proof.
  assert (W : forall K K' : nibset, (forall q, K q <-> K' q) -> forall q e, get_raises K q e -> get_raises K' q e).
  { intros K K' E q e (p & r & A & B). exists p, r. rewrite <- (leaves_at_same _ _ E), <- (single_same _ _ E),
      <- (forked_same _ _ E), <- (joined_same _ _ E), <- (edge_same _ _ E). auto. }
  intros K K' E q e. split; apply W; [exact E|]. intros q'. symmetry. apply E.
Qed.
Lemma delete_raises_same : forall K K' : nibset, (forall q, K q <-> K' q) -> forall q e, delete_raises K q e <-> delete_raises K' q e.
Proof.
  assert (W : forall K K' : nibset, (forall q, K q <-> K' q) -> forall q e, delete_raises K q e -> delete_raises K' q e).
  { intros K K' E q e (p & r & A & B). exists p, r. rewrite <- (leaves_at_same _ _ E), <- (single_same _ _ E),
      <- (forked_same _ _ E), <- (joined_same _ _ E). auto. }
  intros K K' E q e. split; apply W; [exact E|]. intros q'. symmetry. apply E.
Qed.
Lemma poi_raises_same : forall K K' : nibset, (forall q, K q <-> K' q) -> forall q e, poi_raises K q e <-> poi_raises K' q e.
Proof.
  assert (W : forall K K' : nibset, (forall q, K q <-> K' q) -> forall q e, poi_raises K q e -> poi_raises K' q e).
  { intros K K' E q e (p & r & A & B). exists p, r. rewrite <- (leaves_at_same _ _ E), <- (single_same _ _ E),
      <- (forked_same _ _ E), <- (joined_same _ _ E), <- (edge_same _ _ E). auto. }
  intros K K' E q e. split; apply W; [exact E|]. intros q'. symmetry. apply E.
Qed.

Ltac same_place L1 L2 := destruct (leaves_at_unique _ _ _ _ _ _ L1 L2) as [? ?]; subst.
Ltac impossible :=
  match goal with
  | A : single ?K ?p, B : forked ?K ?p |- _ => destruct (single_not_forked _ _ A B)
  | A : single ?K ?p, B : joined ?K ?p |- _ => destruct (single_not_joined _ _ A B)
  | A : forked ?K ?p, B : joined ?K ?p |- _ => destruct (forked_not_joined _ _ A B)
  end.

Lemma get_raises_fun : forall K q e1 e2, get_raises K q e1 -> get_raises K q e2 -> e1 = e2.
Proof.
  intros K q e1 e2 (p & r & L1 & C1) (p2 & r2 & L2 & C2). same_place L1 L2.
  destruct C1 as [(-> & A & X)|[(-> & A & X)|[(-> & A & X & Y)|(-> & A & X)]]];
  destruct C2 as [(-> & B & Z)|[(-> & B & Z)|[(-> & B & Z & U)|(-> & B & Z)]]]; try reflexivity; try impossible.
  - destruct (X Z U).
  - destruct (Z X Y).
Qed.
Lemma delete_raises_fun : forall K q e1 e2, delete_raises K q e1 -> delete_raises K q e2 -> e1 = e2.
Proof.
  intros K q e1 e2 (p & r & L1 & C1) (p2 & r2 & L2 & C2). same_place L1 L2.
  destruct C1 as [(-> & A)|[(-> & A)|[(-> & A & X)|(-> & A & X)]]];
  destruct C2 as [(-> & B)|[(-> & B)|[(-> & B & Z)|(-> & B & Z)]]]; try reflexivity; try impossible; congruence.
Qed.
Lemma poi_raises_fun : forall K q e1 e2, poi_raises K q e1 -> poi_raises K q e2 -> e1 = e2.
Proof.
  intros K q e1 e2 (p & r & L1 & C1) (p2 & r2 & L2 & C2). same_place L1 L2.
  destruct C1 as [(-> & A & X)|[(-> & A & X)|(-> & A & X)]];
  destruct C2 as [(-> & B & Z)|[(-> & B & Z)|(-> & B & Z)]]; try reflexivity; try impossible.
Qed.

(** ** The walks on stored tries *)
Section Walks.
Context {H : Hash}.
Hypothesis keccak_len : forall b, length (keccak b) = 32.

Definition get_end (u : tree) (r : list nat) (n : node) : result node :=
  match r with
  | [] => Ok n
  | _ => match u with
         | TLeaf lp _ => if path_dec r lp then Ok n else Err KeyNotFoundError
         | TExt _ _ => Err ExtensionPathError
         | _ => Err BranchPathError
         end
  end.

Lemma get_halt : forall fuel m t path u r, t <> TEmpty -> wf t -> small t -> stored m t -> length (nibs path) < fuel ->
  halt t (nibs path) = (u, r) ->
  exists n, nmatch n u /\ get_ fuel m (tref t) path = get_end u r n.
Proof.
  induction fuel as [|f IH]; intros m t path u r Hne Hw Hs St Hf Eh; [lia|].
  destruct (get_node_stored keccak_len m t Hne Hw Hs (here_of_stored _ _ St)) as (n & En & Hm).
  cbn [get_]. rewrite En.
  destruct n as [lp d|ep nr|bs d], t as [|p w|p c|cs w]; cbn [nmatch] in Hm; try contradiction.
  - destruct Hm as [<- <-]. injection Eh as <- <-. exists (Leaf lp d). split; [cbn; auto|]. unfold get_end.
    destruct (path_cases path) as [[Hz Hn]|(i & q & Hn & Hz & Hi & Hq)]; rewrite Hz; cbn [Nat.eqb].
    + rewrite Hn. reflexivity.
    + rewrite Hn. destruct (np_eq lp path) eqn:Eq.
      * apply np_eq_spec in Eq. destruct (path_dec (i :: q) (nibs lp)); congruence.
      * apply np_eq_false in Eq. destruct (path_dec (i :: q) (nibs lp)); congruence.
  - destruct Hm as [<- ->]. destruct Hw as (Hep & Hep0 & Hb & Hwc).
    assert (Hep' : length (nibs ep) <> 0) by (destruct (nibs ep); cbn; congruence).
    assert (Hc : c <> TEmpty) by (intros ->; contradiction).
    apply stored_ext in St. destruct St as [_ St]. cbn [halt] in Eh.
    destruct (strip (nibs ep) (nibs path)) as [q|] eqn:Es.
    + rewrite np_starts_with_spec, Es. pose proof (np_starts_with_skip _ _ _ Es) as Er. apply strip_spec in Es.
      assert (Hl := f_equal (@length nat) Es). rewrite app_length in Hl.
      replace (np_len path =? 0) with false by (symmetry; apply Nat.eqb_neq; rewrite np_len_spec; lia).
      apply IH; auto; try (rewrite Er; auto; lia). eapply small_ext; eauto.
    + rewrite np_starts_with_spec, Es. injection Eh as <- <-. exists (Extension ep (tref c)). split; [cbn; auto|].
      unfold get_end.
      destruct (path_cases path) as [[Hz Hn]|(i & q & Hn & Hz & Hi & Hq)]; rewrite Hz, Hn; reflexivity.
  - destruct Hm as [-> <-]. apply wf_branch in Hw. destruct Hw as (Hlen & Hok & Hwc).
    apply stored_branch in St. destruct St as [_ St].
    destruct (path_cases path) as [[Hz Hn]|(i & q & Hn & Hz & Hi & Hq)]; rewrite Hz; cbn [Nat.eqb]; rewrite Hn in Eh.
    + injection Eh as <- <-. exists (Branch (map tref cs) d). split; [cbn; auto|reflexivity].
    + rewrite halt_branch in Eh. rewrite Hi, nth_map_tref. destruct (tree_empty_dec (nth i cs TEmpty)) as [Hc|Hc].
      * injection Eh as <- <-. exists (Branch (map tref cs) d). split; [cbn; auto|]. rewrite Hc. reflexivity.
      * replace (0 <? length (tref (nth i cs TEmpty))) with true by (symmetry; apply tref_pos; auto).
        apply IH; auto using wf_nth, stored_nth; try (rewrite Hq; auto).
        -- eapply small_nth; eauto.
        -- rewrite Hn in Hf. cbn [length] in Hf. lia.
Qed.

(** The same for [get_poi_]. *)
Definition poi_end (u : tree) (r : list nat) : option exn :=
  match r with
  | [] => None
  | _ => match u with
         | TLeaf lp _ => if path_dec r lp then None else Some LeafPathError
         | TExt _ _ => Some ExtensionPathError
         | _ => Some BranchPathError
         end
  end.

Lemma poi_halt : forall fuel m t path acc u r, t <> TEmpty -> wf t -> small t -> stored m t -> length (nibs path) < fuel ->
  halt t (nibs path) = (u, r) ->
  match poi_end u r with
  | Some e => get_poi_ fuel m (tref t) path acc = Err e
  | None => exists l, get_poi_ fuel m (tref t) path acc = Ok l
  end.
Proof.
  induction fuel as [|f IH]; intros m t path acc u r Hne Hw Hs St Hf Eh; [lia|].
  destruct (get_node_stored keccak_len m t Hne Hw Hs (here_of_stored _ _ St)) as (n & En & Hm).
  pose proof (node_encode_match keccak_len n t Hm Hw Hs) as Ee.
  cbn [get_poi_]. rewrite En. cbn [bind]. rewrite Ee. cbn [bind].
  destruct n as [lp d|ep nr|bs d], t as [|p w|p c|cs w]; cbn [nmatch] in Hm; try contradiction.
  - destruct Hm as [<- <-]. injection Eh as <- <-. unfold poi_end.
    destruct (path_cases path) as [[Hz Hn]|(i & q & Hn & Hz & Hi & Hq)]; rewrite Hz; cbn [Nat.eqb].
    + rewrite Hn. eauto.
    + rewrite Hn. destruct (np_eq lp path) eqn:Eq.
      * apply np_eq_spec in Eq. destruct (path_dec (i :: q) (nibs lp)); [eauto|congruence].
      * apply np_eq_false in Eq. destruct (path_dec (i :: q) (nibs lp)); congruence.
  - destruct Hm as [<- ->]. destruct Hw as (Hep & Hep0 & Hb & Hwc).
    assert (Hep' : length (nibs ep) <> 0) by (destruct (nibs ep); cbn; congruence).
    assert (Hc : c <> TEmpty) by (intros ->; contradiction).
    apply stored_ext in St. destruct St as [_ St]. cbn [halt] in Eh.
    destruct (strip (nibs ep) (nibs path)) as [q|] eqn:Es.
    + rewrite np_starts_with_spec, Es. pose proof (np_starts_with_skip _ _ _ Es) as Er. apply strip_spec in Es.
      assert (Hl := f_equal (@length nat) Es). rewrite app_length in Hl.
      replace (np_len path =? 0) with false by (symmetry; apply Nat.eqb_neq; rewrite np_len_spec; lia).
      apply IH; auto; try (rewrite Er; auto; lia). eapply small_ext; eauto.
    + rewrite np_starts_with_spec, Es. injection Eh as <- <-. unfold poi_end.
      destruct (path_cases path) as [[Hz Hn]|(i & q & Hn & Hz & Hi & Hq)]; rewrite Hz, Hn; cbn [Nat.eqb]; eauto.
  - destruct Hm as [-> <-]. apply wf_branch in Hw. destruct Hw as (Hlen & Hok & Hwc).
    apply stored_branch in St. destruct St as [_ St].
    destruct (path_cases path) as [[Hz Hn]|(i & q & Hn & Hz & Hi & Hq)]; rewrite Hz; cbn [Nat.eqb]; rewrite Hn in Eh.
    + injection Eh as <- <-. cbn. eauto.
    + rewrite halt_branch in Eh. rewrite Hi, nth_map_tref. destruct (tree_empty_dec (nth i cs TEmpty)) as [Hc|Hc].
      * injection Eh as <- <-. cbn [poi_end]. rewrite Hc. reflexivity.
      * replace (0 <? length (tref (nth i cs TEmpty))) with true by (symmetry; apply tref_pos; auto).
        apply IH; auto using wf_nth, stored_nth; try (rewrite Hq; auto).
        -- eapply small_nth; eauto.
        -- rewrite Hn in Hf. cbn [length] in Hf. lia.
Qed.

(** [delete_] for an absent key, no storage access failing. *)
Definition delete_end (u : tree) (r : list nat) : exn :=
  match u with
  | TLeaf _ _ => LeafPathError
  | TExt _ _ => ExtensionPathError
  | _ => match r with [] => AssertionError | _ => BranchPathError end
  end.

Lemma rd_node_stored : forall m log t, t <> TEmpty -> wf t -> small t -> stored m t ->
  exists n, rd_node (tref t) (mkStore m log []) = (Ok n, mkStore m log []) /\ nmatch n t.
Proof.
  intros m log t Hne Hw Hs St.
  destruct (get_node_stored keccak_len m t Hne Hw Hs (here_of_stored _ _ St)) as (n & En & Hm).
  exists n. split; auto. unfold rd_node, mbind, tick. destruct (length (tref t) =? 32); cbn; rewrite En; reflexivity.
Qed.

Lemma delete_halt : forall fuel m log t path u r, t <> TEmpty -> wf t -> small t -> stored m t -> length (nibs path) < fuel ->
  halt t (nibs path) = (u, r) -> lookup t (nibs path) = None ->
  delete_ fuel (tref t) path (mkStore m log []) = (Err (delete_end u r), mkStore m log []).
Proof.
  induction fuel as [|f IH]; intros m log t path u r Hne Hw Hs St Hf Eh El; [lia|].
  destruct (rd_node_stored m log t Hne Hw Hs St) as (n & En & Hm).
  rewrite delete_unfold. unfold mbind at 1. rewrite En.
  destruct n as [lp d|ep nr|bs d], t as [|p w|p c|cs w]; cbn [nmatch] in Hm; try contradiction; cbn [delete_cont].
  - destruct Hm as [<- <-]. injection Eh as <- <-.
    destruct (np_eq path lp) eqn:Eq; [|reflexivity]. apply np_eq_spec in Eq. rewrite Eq, lookup_leaf_self in El. discriminate.
  - destruct Hm as [<- ->]. destruct Hw as (Hep & Hep0 & Hb & Hwc).
    assert (Hep' : length (nibs ep) <> 0) by (destruct (nibs ep); cbn; congruence).
    assert (Hc : c <> TEmpty) by (intros ->; contradiction).
    apply stored_ext in St. destruct St as [_ St]. cbn [halt] in Eh.
    destruct (strip (nibs ep) (nibs path)) as [q|] eqn:Es.
    + rewrite np_starts_with_spec, Es. pose proof (np_starts_with_skip _ _ _ Es) as Er. cbn [lookup] in El. rewrite Es in El.
      apply strip_spec in Es. assert (Hl := f_equal (@length nat) Es). rewrite app_length in Hl.
      unfold mbind. rewrite (IH m log c (np_consume path (np_len ep)) u r); auto; try (rewrite Er; auto; lia).
      eapply small_ext; eauto.
    + rewrite np_starts_with_spec, Es. injection Eh as <- <-. reflexivity.
  - destruct Hm as [-> <-]. apply wf_branch in Hw. destruct Hw as (Hlen & Hok & Hwc).
    apply stored_branch in St. destruct St as [_ St].
    destruct (path_cases path) as [[Hz Hn]|(i & q & Hn & Hz & Hi & Hq)]; rewrite Hz; cbn [Nat.eqb]; rewrite Hn in Eh, El.
    + injection Eh as <- <-. cbn [lookup] in El. destruct d; [|discriminate]. reflexivity.
    + rewrite lookup_branch in El. rewrite halt_branch in Eh. cbn [andb]. rewrite Hi, nth_map_tref.
      destruct (tree_empty_dec (nth i cs TEmpty)) as [Hc|Hc].
      * injection Eh as <- <-. rewrite Hc. reflexivity.
      * replace (length (tref (nth i cs TEmpty)) =? 0) with false.
        2:{ symmetry. apply Nat.eqb_neq. apply (tref_pos keccak_len) in Hc. apply Nat.ltb_lt in Hc. lia. }
        unfold mbind. rewrite (IH m log (nth i cs TEmpty) (np_consume path 1) u r); auto using wf_nth, stored_nth; try (rewrite Hq; auto).
        -- eapply small_nth; eauto.
        -- rewrite Hn in Hf. cbn [length] in Hf. lia.
Qed.

(** ** Theorems *)
Lemma present_keys_tree : forall secure l t tr, reachable secure l t -> keys_ok secure (map op_key l) ->
  holds tr (dict_after (map (eff_op secure) l)) ->
  forall q, keys tr q <-> present_keys secure (dict_after l) q.
Proof.
  intros secure l t tr R Hk [H1 H2] q. split.
  - intros (v & E). destruct (H2 _ _ E) as (x & ->). rewrite H1 in E.
    destruct (dict_after_eff_inv secure l x v Hk E) as (k' & -> & Ev). exists k', v. auto.
  - intros (k & v & E & ->). exists v. change (nibbles (trie_key secure k)) with (nibs_of (eff secure k)).
    rewrite H1, (dict_eff secure l k); auto.
    eapply keys_ok_incl; [|exact Hk]. intros x [<-|Hx]; auto. eapply dict_after_keys; eauto.
Qed.

Lemma reach_halt : forall secure l t k, reachable secure l t -> keys_ok secure (k :: map op_key l) ->
  dict_after l k = None -> (exists k0 v0, dict_after l k0 = Some v0) ->
  exists tr u r, repr t tr /\ tr <> TEmpty /\ m_secure t = secure /\
    halt tr (nibs_of (eff_key t k)) = (u, r) /\ lookup tr (nibs_of (eff_key t k)) = None /\
    (forall q, keys tr q <-> present_keys secure (dict_after l) q) /\ nibs_of (eff_key t k) = nibbles (trie_key secure k).
Proof.
  intros secure l t k R Hk Ed (k0 & v0 & Ed0).
  assert (Hkl : keys_ok secure (map op_key l)) by (eapply keys_ok_incl; [|exact Hk]; intros x Hx; right; exact Hx).
  destruct (reach_lookup keccak_len _ _ _ k R Hk) as (tr & Rt & Hh & Es & El).
  assert (Hp := present_keys_tree _ _ _ _ R Hkl Hh).
  destruct (halt tr (nibs_of (eff_key t k))) as [u r] eqn:Eh. exists tr, u, r. split; auto. split.
  { intros ->. destruct (proj2 (Hp (nibbles (trie_key secure k0)))) as (v & E); [exists k0, v0; auto|discriminate]. }
  split; auto. split; auto. split; [congruence|]. split; auto. rewrite eff_key_eff, Es. reflexivity.
Qed.

(** The set-level reading of the end of a walk for an absent key. *)
Lemma halt_class : forall t q u r, t <> TEmpty -> wf t -> halt t q = (u, r) -> lookup t q = None ->
  exists p s, leaves_at (keys t) q p s /\
    match u with
    | TEmpty => False
    | TLeaf lp _ => single (keys t) p /\ r <> lp /\ (r = [] -> s = [] /\ edge (keys t) q) /\ (s = [] -> r <> [] -> ~ edge (keys t) q)
    | TExt _ _ => joined (keys t) p /\ (r = [] -> s = [] /\ edge (keys t) q) /\ (s = [] -> r <> [] -> ~ edge (keys t) q)
    | TBranch _ v => forked (keys t) p /\ s = r
    end.
Proof.
  intros t q u r Hne Hw Eh El. destruct (halt_spec t q u r Hne Hw Eh) as (Hu & Hst & p0 & -> & Hl & He).
  destruct u as [|lp v|ep c|cs v]; [contradiction|..].
  - assert (Hr : r <> lp). { intros ->. rewrite Hl, lookup_leaf_self in El. discriminate. }
    destruct (stop_leaf t _ p0 r Hl lp v eq_refl Hr) as (p & s & L & S & N & Z). exists p, s. split; auto. split; auto. split; auto.
    split; auto. intros ->. split; auto. destruct He as [He|[]]. rewrite app_nil_r. exact He.
  - destruct (stop_ext t _ p0 r Hl ep c eq_refl Hu Hst) as (p & s & L & S & N & Z). exists p, s. split; auto. split; auto.
    split; auto. intros ->. split; auto. destruct He as [He|[]]. rewrite app_nil_r. exact He.
  - destruct (stop_branch t _ p0 r Hl cs v eq_refl Hu Hst) as (L & F). exists p0, r. auto.
Qed.

Lemma get_Err_raises : forall secure l t k lim e, reachable secure l t -> keys_ok secure (k :: map op_key l) ->
  dict_after l k = None -> (exists k0 v0, dict_after l k0 = Some v0) -> frames secure k < lim ->
  mpt_get lim t k = Err e <-> get_raises (present_keys secure (dict_after l)) (nibbles (trie_key secure k)) e.
Proof.
  intros secure l t k lim e R Hk Ed Hd Hl.
  destruct (reach_halt _ _ _ _ R Hk Ed Hd) as (tr & u & r & Rt & Hne & Es & Eh & El & HK & Eq).
  rewrite <- (get_raises_same _ _ HK), <- Eq.
  destruct (repr_nonempty keccak_len t tr Rt Hne) as (E1 & E2 & E3 & E4). destruct Rt as (Hw & Hs & St & _).
  destruct (halt_class _ _ _ _ Hne Hw Eh El) as (p & s & L & C).
  assert (G : forall e', mpt_get lim t k = Err e' -> get_raises (keys tr) (nibs_of (eff_key t k)) e').
  { intros e'. unfold mpt_get. rewrite E1, E3.
    destruct (get_halt lim (m_map t) tr (np_of (eff_key t k)) u r) as (n & Hm & ->); auto.
    { rewrite nibs_np_of, nibs_of_length, eff_key_eff, Es, (eff_frames keccak_len). exact Hl. }
    unfold get_end. intros E. exists p, s. split; auto.
    destruct r as [|i r].
    - destruct n as [lp d|ep nr|bs d]; cbn [node_data] in E; try discriminate. injection E as <-.
      destruct u; cbn [nmatch] in Hm; try contradiction. destruct C as (J & Z & _). destruct (Z eq_refl) as [-> Hed].
      right. right. left. auto.
    - destruct u as [|lp v|ep c|cs v]; [contradiction|..].
      + destruct C as (S & Hr & _ & N). destruct (path_dec (i :: r) lp) as [F|_]; [congruence|].
        injection E as <-. left. split; auto. split; auto. intros Z. apply N; [auto|discriminate].
      + destruct C as (J & _ & N). injection E as <-. right. left. split; auto. split; auto. intros Z. apply N; [auto|discriminate].
      + destruct C as (F & ->). injection E as <-. right. right. right. split; auto. split; auto. discriminate. }
  split; [apply G|]. intros F. destruct (mpt_get lim t k) as [v|e'] eqn:Eg.
  2:{ f_equal. eapply get_raises_fun; eauto. }
  exfalso. destruct F as (p2 & s2 & L2 & F). destruct (leaves_at_unique _ _ _ _ _ _ L L2) as [<- <-].
  unfold mpt_get in Eg. rewrite E1, E3 in Eg.
  destruct (get_halt lim (m_map t) tr (np_of (eff_key t k)) u r) as (n & Hm & Egg); auto.
  { rewrite nibs_np_of, nibs_of_length, eff_key_eff, Es, (eff_frames keccak_len). exact Hl. }
  rewrite Egg in Eg. clear Egg. unfold get_end in Eg.
  destruct r as [|i r].
  - destruct u as [|lp lv|ep c|cs lv]; [contradiction|..]; destruct n as [lp' d|ep' nr|bs d]; cbn [nmatch] in Hm; try contradiction;
      try discriminate.
    + destruct C as (S & _ & Z & _). destruct (Z eq_refl) as [-> Hed].
      destruct F as [(_ & A & X)|[(_ & A & X)|[(_ & A & X & Y)|(_ & A & X)]]]; try impossible. apply X; auto.
    + destruct C as (A' & ->). destruct F as [(_ & A & X)|[(_ & A & X)|[(_ & A & X & Y)|(_ & A & X)]]]; try impossible. auto.
  - destruct u as [|lp lv|ep c|cs lv]; [contradiction|..]; try discriminate.
    destruct C as (_ & Hr & _). destruct (path_dec (i :: r) lp); [congruence|discriminate].
Qed.

Lemma delete_Err_raises : forall secure l t k lim e, reachable secure l t -> keys_ok secure (k :: map op_key l) ->
  dict_after l k = None -> (exists k0 v0, dict_after l k0 = Some v0) -> frames secure k < lim ->
  mpt_delete lim [] t k = (Err e, t) <-> delete_raises (present_keys secure (dict_after l)) (nibbles (trie_key secure k)) e.
Proof.
  intros secure l t k lim e R Hk Ed Hd Hl.
  destruct (reach_halt _ _ _ _ R Hk Ed Hd) as (tr & u & r & Rt & Hne & Es & Eh & El & HK & Eq).
  rewrite <- (delete_raises_same _ _ HK), <- Eq.
  destruct (repr_nonempty keccak_len t tr Rt Hne) as (E1 & E2 & E3 & E4). destruct Rt as (Hw & Hs & St & _).
  destruct (halt_class _ _ _ _ Hne Hw Eh El) as (p & s & L & C).
  assert (G : mpt_delete lim [] t k = (Err (delete_end u r), t)).
  { unfold mpt_delete, run_op. rewrite E2, E3, (delete_halt lim (m_map t) (m_log t) tr (np_of (eff_key t k)) u r); auto.
    - cbn. destruct t; reflexivity.
    - rewrite nibs_np_of, nibs_of_length, eff_key_eff, Es, (eff_frames keccak_len). exact Hl.
 }
  assert (F : delete_raises (keys tr) (nibs_of (eff_key t k)) (delete_end u r)).
  { exists p, s. split; auto. destruct u as [|lp v|ep c|cs v]; [contradiction|..]; cbn [delete_end].
    - left. split; auto. apply C.
    - right. left. split; auto. apply C.
    - destruct C as (A & ->). destruct r; [right; right; left|right; right; right]; split; auto. split; auto. discriminate. }
  rewrite G. split.
  - intros E. injection E as <-. exact F.
  - intros F'. rewrite (delete_raises_fun _ _ _ _ F F'). reflexivity.
Qed.

Lemma poi_Err_raises : forall secure l t k lim time, reachable secure l t -> keys_ok secure (k :: map op_key l) ->
  dict_after l k = None -> (exists k0 v0, dict_after l k0 = Some v0) -> frames secure k < lim ->
  let K := present_keys secure (dict_after l) in let q := nibbles (trie_key secure k) in
  (forall e, mpt_get_poi lim time t k = Err e <-> poi_raises K q e) /\
  ((exists p, mpt_get_poi lim time t k = Ok p) <-> below K q /\ (edge K q \/ forked K q)).
Proof.
  intros secure l t k lim time R Hk Ed Hd Hl.
  destruct (reach_halt _ _ _ _ R Hk Ed Hd) as (tr & u & r & Rt & Hne & Es & Eh & El & HK & Eq). cbv zeta.
  rewrite <- (below_same _ _ HK), <- (edge_same _ _ HK), <- (forked_same _ _ HK), <- Eq.
  cut ((forall e, mpt_get_poi lim time t k = Err e <-> poi_raises (keys tr) (nibs_of (eff_key t k)) e) /\
    ((exists p, mpt_get_poi lim time t k = Ok p) <->
      below (keys tr) (nibs_of (eff_key t k)) /\ (edge (keys tr) (nibs_of (eff_key t k)) \/ forked (keys tr) (nibs_of (eff_key t k))))).
  { intros [A B]. split; [|exact B]. intros e. rewrite A. apply (poi_raises_same _ _ HK). }
  destruct (repr_nonempty keccak_len t tr Rt Hne) as (E1 & E2 & E3 & E4). destruct Rt as (Hw & Hs & St & _).
  destruct (halt_class _ _ _ _ Hne Hw Eh El) as (p & s & L & C).
  pose proof (poi_halt lim (m_map t) tr (np_of (eff_key t k)) [] u r Hne Hw Hs St) as G.
  rewrite nibs_np_of, nibs_of_length, eff_key_eff, Es, (eff_frames keccak_len) in G. rewrite eff_key_eff, Es in *.
  specialize (G Hl Eh).
  assert (Em : mpt_get_poi lim time t k = bind (get_poi_ lim (m_map t) (tref tr) (np_of (eff secure k)) [])
            (fun l => new_proof time (eff secure k) (root_ref t) (map PB l) MPT_POI)).
  { unfold mpt_get_poi. rewrite E2, <- E3. unfold eff_key. rewrite Es. reflexivity. }
  assert (Hb : forall i s', s = i :: s' -> below (keys tr) (nibs_of (eff secure k)) -> False).
  { intros i s' -> Hb. destruct L as (Ep & _ & N). rewrite Ep in Hb. apply (N i s' eq_refl).
    apply (below_prefix _ _ s'). rewrite <- app_assoc. exact Hb. }
  destruct (poi_end u r) as [e0|] eqn:Ee.
  - assert (F : poi_raises (keys tr) (nibs_of (eff secure k)) e0 /\ r <> []).
    { split; [|intros ->; discriminate]. exists p, s. split; auto. destruct r as [|i r]; [discriminate|]. cbn [poi_end] in Ee.
      destruct u as [|lp v|ep c|cs v]; [contradiction|..].
      - destruct C as (S & Hr & _ & N). destruct (path_dec (i :: r) lp); [congruence|]. injection Ee as <-. left.
        split; auto. split; auto. intros Z. apply N; [auto|discriminate].
      - destruct C as (S & _ & N). injection Ee as <-. right. left. split; auto. split; auto. intros Z. apply N; [auto|discriminate].
      - destruct C as (S & ->). injection Ee as <-. right. right. split; auto. split; auto. discriminate. }
    destruct F as [F Hr]. rewrite Em, G. cbn [bind]. split.
    + intros e. split; [intros E; injection E as <-; exact F|]. intros F'. rewrite (poi_raises_fun _ _ _ _ F F'). reflexivity.
    + split; [intros (p' & E); discriminate|]. intros (Hbl & Hor). exfalso.
      destruct s as [|i s]; [|eapply Hb; eauto].
      assert (Ep : nibs_of (eff secure k) = p) by (destruct L as (Ep & _); rewrite Ep, app_nil_r; reflexivity).
      rewrite Ep in *. destruct u as [|lp v|ep c|cs v]; [contradiction|..].
      * destruct C as (S & _ & _ & N). destruct Hor as [Hor|Hor]; [apply N; auto|impossible].
      * destruct C as (S & _ & N). destruct Hor as [Hor|Hor]; [apply N; auto|impossible].
      * destruct C as (S & <-). congruence.
  - assert (Er : r = []).
    { destruct r as [|i r]; auto. exfalso. cbn [poi_end] in Ee. destruct u as [|lp v|ep c|cs v]; try discriminate.
      destruct C as (_ & Hr & _). destruct (path_dec (i :: r) lp); [congruence|discriminate]. }
    subst r. destruct G as (l0 & G). rewrite Em, G. cbn [bind].
    assert (En : exists pf, new_proof time (eff secure k) (root_ref t) (map PB l0) MPT_POI = Ok pf) by (eexists; reflexivity).
    destruct En as (pf & ->).
    assert (Hs0 : s = [] /\ (edge (keys tr) (nibs_of (eff secure k)) \/ forked (keys tr) p)).
    { destruct u as [|lp v|ep c|cs v]; [contradiction|..].
      - destruct C as (_ & _ & Z & _). destruct (Z eq_refl). auto.
      - destruct C as (_ & Z & _). destruct (Z eq_refl). auto.
      - destruct C as (A & ->). auto. }
    destruct Hs0 as [-> Hor].
    assert (Ep : nibs_of (eff secure k) = p) by (destruct L as (Ep & _); rewrite Ep, app_nil_r; reflexivity).
    rewrite Ep in *. split.
    + intros e. split; [discriminate|]. intros (p2 & s2 & L2 & F). exfalso.
      destruct (leaves_at_unique _ _ _ _ _ _ L L2) as [<- <-]. destruct u as [|lp v|ep c|cs v]; [contradiction|..].
      * destruct C as (S & _ & Z & _). destruct (Z eq_refl) as [_ Hed].
        destruct F as [(_ & A & X)|[(_ & A & X)|(_ & A & X)]]; try impossible. apply X; auto.
      * destruct C as (S & Z & _). destruct (Z eq_refl) as [_ Hed].
        destruct F as [(_ & A & X)|[(_ & A & X)|(_ & A & X)]]; try impossible. apply X; auto.
      * destruct C as (S & _). destruct F as [(_ & A & X)|[(_ & A & X)|(_ & A & X)]]; try impossible. auto.
    + split; [|eauto]. intros _. split; auto. apply L.
Qed.
End Walks.
