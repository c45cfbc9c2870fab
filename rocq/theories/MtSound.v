(** What an accepted Merkle proof and an equal Merkle root imply. *)
From Coq Require Import List Bool Arith NArith ZArith Lia.
From Verif Require Import Base BaseProofs ProofObj Spec MptEq MerkleTree SpecMt MtProofs MtProofs2.
Import ListNotations.

Lemma app_split_l : forall (A : Type) (a b c d : list A), length a = length c -> a ++ b = c ++ d -> a = c /\ b = d.
Proof.
  induction a as [|x a IH]; intros b c d Hl E; destruct c as [|y c]; cbn in Hl; try lia; [auto|].
  cbn in E. injection E as E1 E2. destruct (IH b c d) as [F1 F2]; [lia|exact E2|]. subst. auto.
Qed.
Lemma app_split_r : forall (A : Type) (a b c d : list A), length b = length d -> a ++ b = c ++ d -> a = c /\ b = d.
Proof.
  intros A a b c d Hl E. apply app_split_l; [|exact E].
  apply (f_equal (@length A)) in E. rewrite !app_length in E. lia.
Qed.

Section WithHash.
Context {H : Hash}.

Lemma nc_incl : forall l l', (forall x, In x l -> In x l') -> no_collision l' -> no_collision l.
Proof. unfold no_collision. intros l l' Hi Hn a b Ha Hb. apply Hn; auto. Qed.

Lemma path_root_snoc : forall pa x s, path_root x (pa ++ [s]) = keccak (combine_step (path_root x pa) s).
Proof. induction pa as [|s0 pa IH]; intros x s; [reflexivity|]. cbn [app path_root]. apply IH. Qed.
Lemma path_hashed_snoc : forall pa x s, path_hashed x (pa ++ [s]) = path_hashed x pa ++ [combine_step (path_root x pa) s].
Proof. induction pa as [|s0 pa IH]; intros x s; [reflexivity|]. cbn [app path_hashed path_root]. rewrite IH. reflexivity. Qed.

Section Digest.
Variable d : nat.
Hypothesis keccak_d : forall b, length (keccak b) = d.

Lemma path_root_length : forall pa x, length x = d -> length (path_root x pa) = d.
Proof. induction pa as [|s pa IH]; intros x Hx; [exact Hx|]. cbn [path_root]. apply IH, keccak_d. Qed.
Lemma thash_length : forall t, (forall b, In b (fringe t) -> length b = d) -> length (thash t) = d.
Proof. intros [b|l r] Hf; [apply Hf; cbn; auto|apply keccak_d]. Qed.

Lemma in_nodes_self : forall t, In (thash t) (nodes t).
Proof. intros [b|l r]; left; reflexivity. Qed.

Lemma accept_node : forall pa x t, path_root x pa = thash t -> length x = d ->
  (forall b, In b (fringe t) -> length b = d) -> no_collision (hashed t ++ path_hashed x pa) ->
  In x (nodes t) \/ exists b y, In b (fringe t) /\ In y (path_hashed x pa) /\ b = keccak y.
Proof.
  induction pa as [|s pa IH] using rev_ind; intros x t E Hx Hf Hn.
  - left. cbn in E. rewrite E. apply in_nodes_self.
  - rewrite path_root_snoc in E. rewrite path_hashed_snoc in *. destruct t as [b|l r].
    + right. exists b, (combine_step (path_root x pa) s). split; [left; reflexivity|].
      split; [apply in_or_app; right; left; reflexivity|]. symmetry. exact E.
    + cbn [thash] in E. apply Hn in E.
      2:{ apply in_or_app. right. apply in_or_app. right. left. reflexivity. }
      2:{ apply in_or_app. left. left. reflexivity. }
      assert (Fl : forall b, In b (fringe l) -> length b = d) by (intros b Hb; apply Hf; cbn; apply in_or_app; auto).
      assert (Fr : forall b, In b (fringe r) -> length b = d) by (intros b Hb; apply Hf; cbn; apply in_or_app; auto).
      pose proof (path_root_length pa x Hx) as L0. pose proof (thash_length l Fl) as L1. pose proof (thash_length r Fr) as L2.
      assert (Hsub : path_root x pa = thash l \/ path_root x pa = thash r).
      { unfold combine_step in E. destruct (fst s).
        - apply app_split_r in E; [right; apply E|lia].
        - apply app_split_l in E; [left; apply E|lia]. }
      destruct Hsub as [Es|Es].
      * destruct (IH x l Es Hx Fl) as [Hi|(b & y & B1 & B2 & B3)].
        -- apply (nc_incl _ _) with (2 := Hn). intros z Hz. cbn [hashed]. apply in_app_or in Hz as [Hz|Hz].
           ++ apply in_or_app. left. right. apply in_or_app. left. exact Hz.
           ++ apply in_or_app. right. apply in_or_app. left. exact Hz.
        -- left. cbn [nodes]. right. apply in_or_app. left. exact Hi.
        -- right. exists b, y. split; [cbn; apply in_or_app; auto|]. split; [apply in_or_app; auto|exact B3].
      * destruct (IH x r Es Hx Fr) as [Hi|(b & y & B1 & B2 & B3)].
        -- apply (nc_incl _ _) with (2 := Hn). intros z Hz. cbn [hashed]. apply in_app_or in Hz as [Hz|Hz].
           ++ apply in_or_app. left. right. apply in_or_app. right. exact Hz.
           ++ apply in_or_app. right. apply in_or_app. left. exact Hz.
        -- left. cbn [nodes]. right. apply in_or_app. right. exact Hi.
        -- right. exists b, y. split; [cbn; apply in_or_app; auto|]. split; [apply in_or_app; auto|exact B3].
Qed.

Lemma same_sides : forall pa pb x y, map fst pa = map fst pb -> length x = length y ->
  path_root x pa = path_root y pb -> no_collision (path_hashed x pa ++ path_hashed y pb) -> x = y /\ pa = pb.
Proof.
  induction pa as [|[s u] pa IH]; intros [|[s' u'] pb] x y Hs Hl E Hn; try discriminate Hs; [auto|].
  cbn [map fst] in Hs. injection Hs as Hs1 Hs2. subst s'. cbn [path_root path_hashed] in *.
  destruct (IH pb (keccak (combine_step x (s, u))) (keccak (combine_step y (s, u'))) Hs2) as [F1 F2]; [|exact E| |].
  - rewrite !keccak_d. reflexivity.
  - apply (nc_incl _ _) with (2 := Hn). intros z Hz. apply in_app_or in Hz as [Hz|Hz].
    + apply in_or_app. left. right. exact Hz.
    + apply in_or_app. right. right. exact Hz.
  - apply Hn in F1; [|apply in_or_app; left; left; reflexivity|apply in_or_app; right; left; reflexivity].
    unfold combine_step in F1. cbn [fst snd] in F1. destruct s.
    + apply app_split_r in F1; [|exact Hl]. destruct F1. subst. auto.
    + apply app_split_l in F1; [|exact Hl]. destruct F1. subst. auto.
Qed.

(** Same number of leaves, with the same lengths. *)
Lemma merkle_root_length : forall (l l' : list bytes), map (@length byte) l = map (@length byte) l' -> l <> [] ->
  length (merkle_root l) = length (merkle_root l').
Proof.
  intros l l' Hl Hne. destruct l as [|a [|b l]]; [congruence| |].
  - destruct l' as [|a' [|b' l']]; try discriminate Hl. injection Hl as Hl. exact Hl.
  - destruct l' as [|a' [|b' l']]; try discriminate Hl. rewrite (merkle_root_split (a :: b :: l)), (merkle_root_split (a' :: b' :: l')) by (cbn; lia). rewrite !keccak_d. reflexivity.
Qed.

Lemma hashed_split : forall l, 2 <= length l -> let k := 2 ^ Nat.log2 (length l - 1) in
  hashed (tree_of l) = (merkle_root (firstn k l) ++ merkle_root (skipn k l))
     :: hashed (tree_of (firstn k l)) ++ hashed (tree_of (skipn k l)).
Proof. intros l Hl k. rewrite tree_of_split by exact Hl. reflexivity. Qed.

Lemma root_commits_n : forall n (l l' : list bytes), length l <= n -> map (@length byte) l = map (@length byte) l' ->
  l <> [] -> merkle_root l = merkle_root l' -> no_collision (hashed (tree_of l) ++ hashed (tree_of l')) -> l = l'.
Proof.
  induction n as [|n IH]; intros l l' Hn Hl Hne E Hc; [destruct l; [congruence|cbn in Hn; lia]|].
  assert (Ell : length l = length l') by (apply (f_equal (@length nat)) in Hl; rewrite !map_length in Hl; exact Hl).
  destruct (Nat.le_gt_cases 2 (length l)) as [H2|H2].
  2:{ destruct l as [|a [|b l]]; [congruence| |cbn in H2; lia]. destruct l' as [|a' [|b' l']]; try discriminate Ell.
      cbn in E. subst. reflexivity. }
  assert (H2' : 2 <= length l') by lia.
  rewrite (merkle_root_split l H2), (merkle_root_split l' H2') in E. rewrite (hashed_split l H2), (hashed_split l' H2') in Hc.
  rewrite <- Ell in E, Hc. pose proof (log2_split (length l) H2) as [B1 B2].
  set (k := 2 ^ Nat.log2 (length l - 1)) in *.
  apply Hc in E; [|left; reflexivity|apply in_or_app; right; left; reflexivity].
  assert (M1 : map (@length byte) (firstn k l) = map (@length byte) (firstn k l')) by (rewrite <- !firstn_map; f_equal; exact Hl).
  assert (M2 : map (@length byte) (skipn k l) = map (@length byte) (skipn k l')) by (rewrite <- !skipn_map; f_equal; exact Hl).
  assert (N1 : firstn k l <> []).
  { intros F. apply (f_equal (@length bytes)) in F. rewrite firstn_length in F. cbn in F. lia. }
  assert (N2 : skipn k l <> []).
  { intros F. apply (f_equal (@length bytes)) in F. rewrite skipn_length in F. cbn in F. lia. }
  apply app_split_l in E; [|apply merkle_root_length; assumption]. destruct E as [E1 E2].
  rewrite <- (firstn_skipn k l), <- (firstn_skipn k l'). f_equal.
  - apply IH; try assumption; [rewrite firstn_length; lia|].
    apply (nc_incl _ _) with (2 := Hc). intros z Hz. apply in_app_or in Hz as [Hz|Hz].
    + apply in_or_app. left. right. apply in_or_app. left. exact Hz.
    + apply in_or_app. right. right. apply in_or_app. left. exact Hz.
  - apply IH; try assumption; [rewrite skipn_length; lia|].
    apply (nc_incl _ _) with (2 := Hc). intros z Hz. apply in_app_or in Hz as [Hz|Hz].
    + apply in_or_app. left. right. apply in_or_app. right. exact Hz.
    + apply in_or_app. right. right. apply in_or_app. right. exact Hz.
Qed.
Lemma root_commits : forall (l l' : list bytes), map (@length byte) l = map (@length byte) l' ->
  l <> [] -> merkle_root l = merkle_root l' -> no_collision (hashed (tree_of l) ++ hashed (tree_of l')) -> l = l'.
Proof. intros l l'. apply (root_commits_n (length l)). lia. Qed.

Lemma keccak_list_inj : forall vs vs' l, (forall x, In x vs -> In x l) -> (forall x, In x vs' -> In x l) -> no_collision l ->
  map keccak vs = map keccak vs' -> vs = vs'.
Proof.
  induction vs as [|v vs IH]; intros [|v' vs'] l Hi Hi' Hn E; try discriminate E; [reflexivity|].
  cbn [map] in E. injection E as E1 E2. f_equal.
  - apply Hn in E1; [exact E1|apply Hi; left; reflexivity|apply Hi'; left; reflexivity].
  - apply (IH vs' l); try assumption; intros x Hx; [apply Hi|apply Hi']; right; exact Hx.
Qed.

Lemma map_length_digests : forall vs vs', length vs = length vs' ->
  map (@length byte) (leaves_of true vs) = map (@length byte) (leaves_of true vs').
Proof.
  induction vs as [|v vs IH]; intros [|v' vs'] Hl; try discriminate Hl; [reflexivity|].
  cbn [leaves_of map]. rewrite !keccak_d. f_equal. apply IH. cbn in Hl. lia.
Qed.

Lemma secure_commits : forall vs vs', length vs = length vs' -> vs <> [] ->
  merkle_root (leaves_of true vs) = merkle_root (leaves_of true vs') ->
  no_collision (all_hashed true vs ++ all_hashed true vs') -> vs = vs'.
Proof.
  intros vs vs' Hl Hne E Hn. unfold all_hashed in Hn.
  apply (keccak_list_inj vs vs' _) with (3 := Hn).
  - intros x Hx. apply in_or_app. left. apply in_or_app. left. exact Hx.
  - intros x Hx. apply in_or_app. right. apply in_or_app. left. exact Hx.
  - apply (root_commits (leaves_of true vs) (leaves_of true vs')); [apply map_length_digests; exact Hl|apply leaves_of_ne; exact Hne|exact E|].
    apply (nc_incl _ _) with (2 := Hn). intros z Hz. apply in_app_or in Hz as [Hz|Hz].
    + apply in_or_app. left. apply in_or_app. right. exact Hz.
    + apply in_or_app. right. apply in_or_app. right. exact Hz.
Qed.

(** Secure trees of any sizes. *)
Definition digest_leaves (V : list bytes) (t : mtree) : Prop :=
  forall b, In b (fringe t) -> exists v, In v V /\ length v <> 2 * d /\ b = keccak v.

Lemma digest_trees : forall V t t', digest_leaves V t -> digest_leaves V t' -> thash t = thash t' ->
  no_collision (V ++ hashed t ++ hashed t') -> t = t'.
Proof.
  intros V. induction t as [b|l IHl r IHr]; intros [b'|l' r'] D D' E Hn.
  - cbn in E. subst. reflexivity.
  - exfalso. destruct (D b) as (v & V1 & V2 & V3); [left; reflexivity|]. cbn [thash] in E. rewrite V3 in E.
    apply Hn in E; [|apply in_or_app; left; exact V1|apply in_or_app; right; left; reflexivity].
    apply V2. rewrite E, app_length, !thash_length; [lia| |]; intros c Hc.
    + destruct (D' c) as (w & _ & _ & W); [cbn; apply in_or_app; auto|]. rewrite W. apply keccak_d.
    + destruct (D' c) as (w & _ & _ & W); [cbn; apply in_or_app; auto|]. rewrite W. apply keccak_d.
  - exfalso. destruct (D' b') as (v & V1 & V2 & V3); [left; reflexivity|]. cbn [thash] in E. rewrite V3 in E. symmetry in E.
    apply Hn in E; [|apply in_or_app; left; exact V1|apply in_or_app; right; left; reflexivity].
    apply V2. rewrite E, app_length, !thash_length; [lia| |]; intros c Hc.
    + destruct (D c) as (w & _ & _ & W); [cbn; apply in_or_app; auto|]. rewrite W. apply keccak_d.
    + destruct (D c) as (w & _ & _ & W); [cbn; apply in_or_app; auto|]. rewrite W. apply keccak_d.
  - cbn [thash] in E. apply Hn in E; [|apply in_or_app; right; left; reflexivity|apply in_or_app; right; apply in_or_app; right; left; reflexivity].
    assert (Dl : digest_leaves V l) by (intros c Hc; apply D; cbn; apply in_or_app; auto).
    assert (Dr : digest_leaves V r) by (intros c Hc; apply D; cbn; apply in_or_app; auto).
    assert (Dl' : digest_leaves V l') by (intros c Hc; apply D'; cbn; apply in_or_app; auto).
    assert (Dr' : digest_leaves V r') by (intros c Hc; apply D'; cbn; apply in_or_app; auto).
    assert (Len : forall u, digest_leaves V u -> length (thash u) = d).
    { intros u Du. apply thash_length. intros c Hc. destruct (Du c Hc) as (w & _ & _ & W). rewrite W. apply keccak_d. }
    apply app_split_l in E; [|rewrite !Len by assumption; reflexivity]. destruct E as [E1 E2].
    f_equal.
    + apply IHl; try assumption. apply (nc_incl _ _) with (2 := Hn). cbn [hashed]. intros z Hz.
      repeat (rewrite ?in_app_iff in *; cbn [In]). tauto.
    + apply IHr; try assumption. apply (nc_incl _ _) with (2 := Hn). cbn [hashed]. intros z Hz.
      repeat (rewrite ?in_app_iff in *; cbn [In]). tauto.
Qed.

Lemma secure_commits_any : forall vs vs', vs <> [] -> vs' <> [] ->
  (forall v, In v (vs ++ vs') -> length v <> 2 * d) ->
  merkle_root (leaves_of true vs) = merkle_root (leaves_of true vs') ->
  no_collision (all_hashed true vs ++ all_hashed true vs') -> vs = vs'.
Proof.
  intros vs vs' Hne Hne' H2 E Hn.
  assert (Et : tree_of (leaves_of true vs) = tree_of (leaves_of true vs')).
  { apply (digest_trees (vs ++ vs')); [| |exact E|].
    - intros b Hb. rewrite fringe_tree_of in Hb by (apply leaves_of_ne; exact Hne). unfold leaves_of in Hb.
      apply in_map_iff in Hb as (v & V1 & V2). exists v. split; [apply in_or_app; auto|]. split; [apply H2; apply in_or_app; auto|auto].
    - intros b Hb. rewrite fringe_tree_of in Hb by (apply leaves_of_ne; exact Hne'). unfold leaves_of in Hb.
      apply in_map_iff in Hb as (v & V1 & V2). exists v. split; [apply in_or_app; auto|]. split; [apply H2; apply in_or_app; auto|auto].
    - apply (nc_incl _ _) with (2 := Hn). unfold all_hashed. intros z Hz. repeat (rewrite ?in_app_iff in * ). tauto. }
  assert (El : leaves_of true vs = leaves_of true vs').
  { rewrite <- (fringe_tree_of (leaves_of true vs)), Et; [apply fringe_tree_of|]; apply leaves_of_ne; assumption. }
  apply (keccak_list_inj vs vs' _) with (3 := Hn); [| |exact El]; intros x Hx; unfold all_hashed; rewrite !in_app_iff; tauto.
Qed.
End Digest.

(** Replacing the target: the path of [k v] does not accept [v]. *)
Lemma path_target : forall pa x y, path_root x pa = path_root y pa -> no_collision (path_hashed x pa ++ path_hashed y pa) -> x = y.
Proof.
  induction pa as [|s pa IH]; intros x y E Hn; [exact E|]. cbn [path_root path_hashed] in *.
  apply IH in E.
  - apply Hn in E; [|apply in_or_app; left; left; reflexivity|apply in_or_app; right; left; reflexivity].
    unfold combine_step in E. destruct (fst s); [apply app_inv_head in E|apply app_inv_tail in E]; exact E.
  - apply (nc_incl _ _) with (2 := Hn). intros z Hz. rewrite !in_app_iff in *. cbn [In]. tauto.
Qed.

(** ** On objects *)
Lemma accepted : forall s t vs p t', built_over s t vs -> verify_poi t p = (Ok true, t') ->
  t' = t /\ pf_root p = to_hex (merkle_root (leaves_of s vs)) /\
  exists pa, proof_path (pf_proof p) = Some pa /\ path_root (pf_key p) pa = merkle_root (leaves_of s vs).
Proof.
  intros s t vs p t' Hb E. apply verify_exact in E as (pa & P1 & P2 & P3). rewrite (built_root _ _ _ Hb) in P3.
  injection P3 as P3 P4. split; [auto|]. split; [auto|]. exists pa. split; [exact P1|].
  rewrite <- P3, from_to_hex in P2. injection P2 as P2. auto.
Qed.

Lemma accepted_iff : forall s t vs p, built_over s t vs ->
  (fst (verify_poi t p) = Ok true <->
   pf_root p = to_hex (merkle_root (leaves_of s vs)) /\
   exists pa, proof_path (pf_proof p) = Some pa /\ path_root (pf_key p) pa = merkle_root (leaves_of s vs)).
Proof.
  intros s t vs p Hb. split.
  - intros E. destruct (verify_poi t p) as [r t'] eqn:Ev. cbn [fst] in E. subst r. apply (accepted s t vs p t' Hb Ev).
  - intros (E1 & pa & E2 & E3). assert (Ev : verify_poi t p = (Ok true, t)); [|rewrite Ev; reflexivity].
    apply verify_exact. exists pa. split; [exact E2|]. rewrite E1, from_to_hex, E3. split; [reflexivity|].
    apply built_root. exact Hb.
Qed.

Lemma accepted_node : forall d, (forall b, length (keccak b) = d) -> forall s t vs p pa, built_over s t vs ->
  fst (verify_poi t p) = Ok true -> proof_path (pf_proof p) = Some pa ->
  length (pf_key p) = d -> (forall b, In b (leaves_of s vs) -> length b = d) ->
  no_collision (hashed (tree_of (leaves_of s vs)) ++ path_hashed (pf_key p) pa) ->
  In (pf_key p) (nodes (tree_of (leaves_of s vs))) \/
  exists b y, In b (leaves_of s vs) /\ In y (path_hashed (pf_key p) pa) /\ b = keccak y.
Proof.
  intros d Hd s t vs p pa Hb Ev Hp Hk Hl Hn. apply (accepted_iff s t vs p Hb) in Ev as (_ & pa' & P1 & P2).
  rewrite Hp in P1. injection P1 as P1. subst pa'.
  assert (Hne : leaves_of s vs <> []) by (destruct Hb as (h & o & _ & _ & _ & Hne); apply leaves_of_ne; exact Hne).
  pose proof (accept_node d Hd pa (pf_key p) (tree_of (leaves_of s vs)) P2 Hk) as A.
  rewrite fringe_tree_of in A by exact Hne. exact (A Hl Hn).
Qed.

Lemma accepted_node_secure : forall d, (forall b, length (keccak b) = d) -> forall t vs p pa, built_over true t vs ->
  fst (verify_poi t p) = Ok true -> proof_path (pf_proof p) = Some pa -> length (pf_key p) = d ->
  no_collision (all_hashed true vs ++ path_hashed (pf_key p) pa) ->
  In (pf_key p) (nodes (tree_of (leaves_of true vs))) \/ exists v, In v vs /\ In v (path_hashed (pf_key p) pa).
Proof.
  intros d Hd t vs p pa Hb Ev Hp Hk Hn.
  destruct (accepted_node d Hd true t vs p pa Hb Ev Hp Hk) as [A|(b & y & B1 & B2 & B3)].
  - intros b Hi. unfold leaves_of in Hi. apply in_map_iff in Hi as (v & V1 & _). subst b. apply Hd.
  - apply (nc_incl _ _) with (2 := Hn). unfold all_hashed. intros z Hz. rewrite !in_app_iff in *. tauto.
  - left. exact A.
  - right. unfold leaves_of in B1. apply in_map_iff in B1 as (v & V1 & V2). exists v. split; [exact V2|].
    assert (E : v = y); [|subst; exact B2]. rewrite <- V1 in B3. apply Hn in B3; [exact B3| |].
    + apply in_or_app. left. unfold all_hashed. apply in_or_app. left. exact V2.
    + apply in_or_app. right. exact B2.
Qed.

Lemma accepted_position : forall d, (forall b, length (keccak b) = d) -> forall s t vs v time p q pa pb, built_over s t vs ->
  In v vs -> fst (get_poi t time (VBytes v)) = Ok q -> fst (verify_poi t p) = Ok true ->
  proof_path (pf_proof p) = Some pa -> proof_path (pf_proof q) = Some pb -> map fst pa = map fst pb ->
  length (pf_key p) = length (stored s v) ->
  no_collision (path_hashed (pf_key p) pa ++ path_hashed (stored s v) pb) ->
  pf_key p = stored s v /\ pa = pb.
Proof.
  intros d Hd s t vs v time p q pa pb Hb Hin Eq Ev Pa Pb Hs Hk Hn.
  destruct (built_poi s t vs v time Hb Hin) as (pb' & B1 & B2). rewrite B2 in Eq. cbn [fst] in Eq. injection Eq as Eq. subst q.
  cbn [pf_proof] in Pb. rewrite proof_path_hex in Pb. injection Pb as Pb. subst pb'.
  apply (accepted_iff s t vs p Hb) in Ev as (_ & pa' & P1 & P2). rewrite Pa in P1. injection P1 as P1. subst pa'.
  apply (same_sides d Hd pa pb _ _ Hs Hk); [congruence|exact Hn].
Qed.

(** The default mode rejects its own proofs. *)
Lemma secure_rejects : forall t vs v time p pa, built_over true t vs -> In v vs -> get_poi t time (VBytes v) = (Ok p, t) ->
  proof_path (pf_proof p) = Some pa -> v <> keccak v ->
  no_collision (path_hashed v pa ++ path_hashed (keccak v) pa) -> verify_poi t p = (Ok false, t).
Proof.
  intros t vs v time p pa Hb Hin E Hp Hv Hn. destruct (built_poi true t vs v time Hb Hin) as (pb & B1 & B2).
  rewrite B2 in E. injection E as E. subst p. cbn [pf_proof] in Hp. rewrite proof_path_hex in Hp. injection Hp as Hp. subst pb.
  apply (verify_wellformed _ _ pa (merkle_root (leaves_of true vs))); [apply proof_path_hex|apply from_to_hex|].
  cbn [pf_key]. intros Er. apply Hv. apply (path_target pa); [|exact Hn]. rewrite Er. symmetry. exact B1.
Qed.

(** ** Equality of trees *)
Lemma digits_hex : forall b acc, digits (to_hex b) acc false true = Some (fold_left (fun a x => 256 * a + Z.of_N (bN x))%Z b acc).
Proof.
  induction b as [|x b IH]; intros acc; [reflexivity|]. rewrite to_hex_cons.
  destruct (hex_byte x) as (p & q & _ & Hp & Hq & _ & Hv). cbn [digits]. rewrite Hp. cbn [digits]. rewrite Hq, IH.
  cbn [fold_left]. do 2 f_equal. lia.
Qed.

Definition no_prefix (b : byte) : bool :=
  match hexdigit (bN b / 16) with x09 | x0a | x0b | x0c | x0d | x20 | x2b | x2d => false | _ => true end &&
  match hexdigit (bN b mod 16) with x78 | x58 => false | _ => true end.
Lemma no_prefix_all : forall b, no_prefix b = true.
Proof. apply byte_case. vm_compute. reflexivity. Qed.

Lemma int_to_hex : forall x b, py_int16 (to_hex (x :: b)) =
  Some (fold_left (fun a x => 256 * a + Z.of_N (bN x))%Z (x :: b) 0%Z).
Proof.
  intros x b. rewrite to_hex_cons. unfold py_int16.
  assert (E1 : skip_space (hexdigit (bN x / 16) :: hexdigit (bN x mod 16) :: to_hex b) = hexdigit (bN x / 16) :: hexdigit (bN x mod 16) :: to_hex b).
  { cbn [skip_space]. destruct (hex_byte x) as (p & q & Hs & _). rewrite Hs. reflexivity. }
  rewrite E1. pose proof (no_prefix_all x) as N. unfold no_prefix in N.
  destruct (hex_byte x) as (p & q & _ & Hp & Hq & _ & Hv).
  set (c1 := hexdigit (bN x / 16)) in *. set (c2 := hexdigit (bN x mod 16)) in *. clearbody c1 c2. clear E1.
  assert (D : digits (c1 :: c2 :: to_hex b) 0%Z true false = Some (fold_left (fun a x => 256 * a + Z.of_N (bN x))%Z (x :: b) 0%Z)).
  { cbn [digits]. rewrite Hp. cbn [digits]. rewrite Hq, digits_hex. cbn [fold_left]. do 2 f_equal. lia. }
  apply andb_prop in N as [N1 N2].
  destruct c1; try discriminate N1; try (rewrite D; cbn [option_map]; rewrite Z.mul_1_l; reflexivity);
  destruct c2; try discriminate N2; rewrite D; cbn [option_map]; rewrite Z.mul_1_l; reflexivity.
Qed.

Lemma fold_value : forall b a, (fold_left (fun a x => 256 * a + Z.of_N (bN x))%Z b a =
  256 ^ Z.of_nat (length b) * a + fold_left (fun a x => 256 * a + Z.of_N (bN x))%Z b 0)%Z.
Proof.
  induction b as [|x b IH]; intros a; [cbn [length fold_left Z.of_nat]; rewrite Z.pow_0_r; lia|]. cbn [fold_left]. rewrite IH. rewrite (IH (256 * 0 + Z.of_N (bN x))%Z).
  cbn [length]. rewrite Nat2Z.inj_succ, Z.pow_succ_r by lia. ring.
Qed.
Lemma bN_inj' : forall x y, bN x = bN y -> x = y.
Proof. intros x y E. apply byte_eqb_true. unfold byte_eqb. apply N.eqb_eq. exact E. Qed.
Lemma fold_bounds : forall b, (0 <= fold_left (fun a x => 256 * a + Z.of_N (bN x)) b 0 < 256 ^ Z.of_nat (length b))%Z.
Proof.
  induction b as [|x b IH]; [cbn; lia|]. cbn [fold_left length]. rewrite fold_value, Nat2Z.inj_succ, Z.pow_succ_r by lia.
  pose proof (bN_lt x) as B. assert (B' : (0 <= 256 * 0 + Z.of_N (bN x) <= 255)%Z) by lia.
  set (P := (256 ^ Z.of_nat (length b))%Z) in *. set (X := (256 * 0 + Z.of_N (bN x))%Z) in *.
  assert (P * X <= P * 255)%Z by (apply Z.mul_le_mono_nonneg_l; lia).
  assert (0 <= P * X)%Z by (apply Z.mul_nonneg_nonneg; lia). lia.
Qed.
Lemma fold_inj : forall a b, length a = length b ->
  fold_left (fun a x => 256 * a + Z.of_N (bN x))%Z a 0%Z = fold_left (fun a x => 256 * a + Z.of_N (bN x))%Z b 0%Z -> a = b.
Proof.
  induction a as [|x a IH]; intros [|y b] Hl E; try discriminate Hl; [reflexivity|]. injection Hl as Hl. cbn [fold_left] in E.
  rewrite (fold_value a), (fold_value b), <- Hl in E. pose proof (fold_bounds a) as Ba. pose proof (fold_bounds b) as Bb.
  rewrite <- Hl in Bb. set (P := (256 ^ Z.of_nat (length a))%Z) in *.
  assert (Hp : (0 < P)%Z) by (apply Z.pow_pos_nonneg; lia).
  apply Z.div_mod_unique in E; [|left; exact Ba|left; exact Bb]. destruct E as [E1 E2].
  f_equal; [apply bN_inj'; lia|]. apply IH; [exact Hl|exact E2].
Qed.

Lemma eq_exact : forall s1 t1 vs1 s2 t2 vs2, built_over s1 t1 vs1 -> built_over s2 t2 vs2 ->
  let r1 := merkle_root (leaves_of s1 vs1) in let r2 := merkle_root (leaves_of s2 vs2) in
  r1 <> [] -> length r1 = length r2 ->
  exists b, mt_eq t1 t2 = (Ok b, (t1, t2)) /\ (b = true <-> r1 = r2).
Proof.
  intros s1 t1 vs1 s2 t2 vs2 B1 B2 r1 r2 Hne Hl. unfold mt_eq, mt_hash.
  rewrite (built_root _ _ _ B1), (built_root _ _ _ B2). fold r1 r2. clearbody r1 r2.
  destruct r1 as [|x1 q1]; [congruence|]. destruct r2 as [|x2 q2]; [discriminate Hl|].
  rewrite !int_to_hex. eexists. split; [reflexivity|]. rewrite Z.eqb_eq. split; [|intros E; rewrite E; reflexivity].
  apply fold_inj. exact Hl.
Qed.
End WithHash.

Section Commit.
Context {H : Hash}.
Lemma root_eq_inv : forall s t vs s' t' vs', built_over s t vs -> built_over s' t' vs' -> fst (get_root t) = fst (get_root t') ->
  merkle_root (leaves_of s vs) = merkle_root (leaves_of s' vs').
Proof.
  intros s t vs s' t' vs' B B' E. rewrite (built_root _ _ _ B), (built_root _ _ _ B') in E. cbn [fst] in E.
  injection E as E. apply to_hex_inj. exact E.
Qed.
Lemma leaves_of_plain : forall vs, leaves_of false vs = vs.
Proof. intros vs. unfold leaves_of. apply map_id. Qed.

Lemma plain_root_commits : forall d, (forall b, length (keccak b) = d) -> forall t vs t' vs',
  built_over false t vs -> built_over false t' vs' -> map (@length byte) vs = map (@length byte) vs' ->
  fst (get_root t) = fst (get_root t') ->
  no_collision (hashed (tree_of vs) ++ hashed (tree_of vs')) -> vs = vs'.
Proof.
  intros d Hd t vs t' vs' B B' Hl E Hn. apply (root_eq_inv _ _ _ _ _ _ B B') in E. rewrite !leaves_of_plain in E.
  apply (root_commits d Hd); try assumption. destruct B as (h & o & _ & _ & _ & Hne). exact Hne.
Qed.
Lemma secure_root_commits : forall d, (forall b, length (keccak b) = d) -> forall t vs t' vs',
  built_over true t vs -> built_over true t' vs' -> length vs = length vs' ->
  fst (get_root t) = fst (get_root t') ->
  no_collision (all_hashed true vs ++ all_hashed true vs') -> vs = vs'.
Proof.
  intros d Hd t vs t' vs' B B' Hl E Hn. apply (root_eq_inv _ _ _ _ _ _ B B') in E.
  apply (secure_commits d Hd); try assumption. destruct B as (h & o & _ & _ & _ & Hne). exact Hne.
Qed.
Lemma secure_root_commits_any : forall d, (forall b, length (keccak b) = d) -> forall t vs t' vs',
  built_over true t vs -> built_over true t' vs' -> (forall v, In v (vs ++ vs') -> length v <> 2 * d) ->
  fst (get_root t) = fst (get_root t') ->
  no_collision (all_hashed true vs ++ all_hashed true vs') -> vs = vs'.
Proof.
  intros d Hd t vs t' vs' B B' Hl E Hn. apply (root_eq_inv _ _ _ _ _ _ B B') in E.
  apply (secure_commits_any d Hd); try assumption.
  - destruct B as (h & o & _ & _ & _ & Hne). exact Hne.
  - destruct B' as (h & o & _ & _ & _ & Hne). exact Hne.
Qed.
End Commit.
