(** [delete_] realises the removal of a key from a tree. *)
From Coq Require Import List Bool Arith NArith ZArith Lia.
From Verif Require Import Base BaseProofs NibblePath NibbleProofs Node Mpt Tree TreeEnc StoreProofs UpdateProofs.
Import ListNotations.

Lemma len0_eqb : forall d : bytes, (length d =? 0) = true <-> d = [].
Proof. intros d. rewrite Nat.eqb_eq. destruct d; cbn; split; try discriminate; auto. Qed.

Section Delete.
Context {H : Hash}.
Hypothesis keccak_len : forall b, length (keccak b) = 32.

(** ** Counting slots *)
Lemma count_cons : forall c cs, count_slots (map tref (c :: cs))
  = (if tree_empty_dec c then 0 else 1) + count_slots (map tref cs).
Proof.
  intros c cs. unfold count_slots. cbn [map filter].
  destruct (tree_empty_dec c) as [->|Hn]; [reflexivity|].
  apply (tref_pos keccak_len) in Hn. rewrite Hn. reflexivity.
Qed.

Lemma count_zero : forall cs, count_slots (map tref cs) = 0 -> forall i, nth i cs TEmpty = TEmpty.
Proof.
  induction cs as [|c cs IH]; intros E i; [destruct i; reflexivity|].
  rewrite count_cons in E. destruct (tree_empty_dec c) as [->|]; [|lia].
  destruct i as [|i]; [reflexivity|]. cbn. apply IH. lia.
Qed.

Lemma count_pos : forall cs, 0 < count_slots (map tref cs) -> exists i, nth i cs TEmpty <> TEmpty.
Proof.
  induction cs as [|c cs IH]; intros E; [cbn in E; lia|].
  rewrite count_cons in E. destruct (tree_empty_dec c) as [->|Hn].
  - destruct IH as [i Hi]; [lia|]. exists (S i). exact Hi.
  - exists 0. exact Hn.
Qed.

Lemma count_two : forall cs, 1 < count_slots (map tref cs) ->
  exists i j, i <> j /\ nth i cs TEmpty <> TEmpty /\ nth j cs TEmpty <> TEmpty.
Proof.
  induction cs as [|c cs IH]; intros E; [cbn in E; lia|].
  rewrite count_cons in E. destruct (tree_empty_dec c) as [->|Hn].
  - destruct IH as (i & j & Hij & Hi & Hj); [lia|]. exists (S i), (S j). repeat split; auto.
  - destruct (count_pos cs) as [i Hi]; [lia|]. exists 0, (S i). repeat split; auto.
Qed.

Lemma count_one_gen : forall cs k, count_slots (map tref cs) = 1 ->
  exists i, first_slot (map tref cs) k = k + i /\ nth i cs TEmpty <> TEmpty /\
            forall j, j <> i -> nth j cs TEmpty = TEmpty.
Proof.
  induction cs as [|c cs IH]; intros k E; [cbn in E; lia|].
  rewrite count_cons in E. cbn [map first_slot].
  destruct (tree_empty_dec c) as [->|Hn].
  - cbn [tref length Nat.ltb Nat.leb]. destruct (IH (S k)) as (i & Hf & Hi & Hj); [lia|].
    exists (S i). split; [lia|]. split; auto. intros [|j] Hne; [reflexivity|]. cbn. apply Hj. lia.
  - rewrite (proj2 (tref_pos keccak_len c) Hn). exists 0. split; [lia|]. split; auto.
    intros [|j] Hne; [congruence|]. cbn. apply count_zero. lia.
Qed.
Lemma count_one : forall cs, count_slots (map tref cs) = 1 ->
  nth (first_slot (map tref cs) 0) cs TEmpty <> TEmpty /\
  forall j, j <> first_slot (map tref cs) 0 -> nth j cs TEmpty = TEmpty.
Proof. intros cs E. destruct (count_one_gen cs 0 E) as (i & -> & Hi & Hj). auto. Qed.

(** ** keeps *)
Lemma keeps_build_new : forall bs, keeps (build_new_node bs).
Proof.
  intros. unfold build_new_node. apply keeps_bind; [apply keeps_rd|].
  intros [|cp nr|]; (apply keeps_bind; [apply keeps_store_node; auto|intros; apply keeps_ret]).
Qed.
Lemma keeps_branch_deleted : forall bs d, keeps (branch_deleted bs d).
Proof.
  intros. unfold branch_deleted. destruct (_ && _); [apply keeps_ret|].
  destruct (_ && _); [apply keeps_bind; [apply keeps_store_node; auto|intros; apply keeps_ret]|].
  destruct (_ && _); [apply keeps_build_new|].
  apply keeps_bind; [apply keeps_store_node; auto|intros; apply keeps_ret].
Qed.

Definition delete_cont (f : nat) (path : np) (n : node) : M daction :=
  match n with
  | Leaf lp _ => if np_eq path lp then ret DDeleted else raise LeafPathError
  | Extension ep nr =>
      if np_starts_with path ep then
        mbind (delete_ f nr (np_consume path (np_len ep))) (fun a =>
        match a with
        | DDeleted => ret DDeleted
        | DUpdated cr => mbind (store_node (Extension ep cr)) (fun r' => ret (DUpdated r'))
        | DUseless sp sr =>
            mbind (rd_node sr) (fun child =>
            mbind (store_node (match child with
                              | Leaf cp d => Leaf (np_combine ep cp) d
                              | Extension cp cr => Extension (np_combine ep cp) cr
                              | Branch _ _ => Extension (np_combine ep sp) sr
                              end)) (fun r' =>
            ret (DUpdated r')))
        end)
      else raise ExtensionPathError
  | Branch bs d =>
      if (np_len path =? 0) && (length d =? 0) then raise AssertionError
      else if np_len path =? 0 then branch_deleted bs []
      else
        if length (nth (np_at path 0) bs []) =? 0 then raise BranchPathError
        else
          mbind (delete_ f (nth (np_at path 0) bs []) (np_consume path 1)) (fun a =>
          match a with
          | DDeleted => branch_deleted (set_nth (np_at path 0) [] bs) d
          | DUpdated nr => mbind (store_node (Branch (set_nth (np_at path 0) nr bs) d)) (fun r' => ret (DUpdated r'))
          | DUseless _ nr => mbind (store_node (Branch (set_nth (np_at path 0) nr bs) d)) (fun r' => ret (DUpdated r'))
          end)
  end.

Lemma delete_unfold : forall f r path, delete_ (S f) r path = mbind (rd_node r) (delete_cont f path).
Proof. reflexivity. Qed.

Lemma keeps_delete : forall fuel r p, keeps (delete_ fuel r p).
Proof.
  induction fuel as [|f IH]; intros r p; [apply keeps_raise|]. rewrite delete_unfold.
  apply keeps_bind; [apply keeps_rd|]. intros [lp d|ep nr|bs d]; cbn [delete_cont].
  - destruct (np_eq p lp); [apply keeps_ret|apply keeps_raise].
  - destruct (np_starts_with p ep); [|apply keeps_raise]. apply keeps_bind; [apply IH|].
    intros [|cr|sp sr]; [apply keeps_ret| |].
    + apply keeps_bind; [apply keeps_store_node; auto|intros; apply keeps_ret].
    + apply keeps_bind; [apply keeps_rd|]. intros.
      apply keeps_bind; [apply keeps_store_node; auto|intros; apply keeps_ret].
  - destruct (_ && _); [apply keeps_raise|]. destruct (_ =? _); [apply keeps_branch_deleted|].
    destruct (_ =? _); [apply keeps_raise|]. apply keeps_bind; [apply IH|].
    intros [|nr|sp nr]; [apply keeps_branch_deleted| |];
      (apply keeps_bind; [apply keeps_store_node; auto|intros; apply keeps_ret]).
Qed.

Lemma keeps_delete_cont : forall f p n, keeps (delete_cont f p n).
Proof.
  intros f p [lp d|ep nr|bs d]; cbn [delete_cont].
  - destruct (np_eq p lp); [apply keeps_ret|apply keeps_raise].
  - destruct (np_starts_with p ep); [|apply keeps_raise]. apply keeps_bind; [apply keeps_delete|].
    intros [|cr|sp sr]; [apply keeps_ret| |].
    + apply keeps_bind; [apply keeps_store_node; auto|intros; apply keeps_ret].
    + apply keeps_bind; [apply keeps_rd|]. intros.
      apply keeps_bind; [apply keeps_store_node; auto|intros; apply keeps_ret].
  - destruct (_ && _); [apply keeps_raise|]. destruct (_ =? _); [apply keeps_branch_deleted|].
    destruct (_ =? _); [apply keeps_raise|]. apply keeps_bind; [apply keeps_delete|].
    intros [|nr|sp nr]; [apply keeps_branch_deleted| |];
      (apply keeps_bind; [apply keeps_store_node; auto|intros; apply keeps_ret]).
Qed.

(** ** Specifications *)

(** What a storage-level result says, relative to the lookup function [g] the
    resulting tree must have. *)
Definition outcome (br : Prop) (g : list nat -> option bytes) (a : daction) (s' : store) : Prop :=
  match a with
  | DDeleted => ~ br /\ forall q, g q = None
  | DUpdated r => exists t', r = tref t' /\ wf t' /\ t' <> TEmpty /\ (forall q, lookup t' q = g q) /\
                             stored (s_map s') t' /\ (br -> is_branch t')
  | DUseless p r => exists t', r = tref t' /\ wf t' /\ (forall q, lookup t' q = g q) /\
                             stored (s_map s') t' /\ br /\
                             ((exists d, t' = TLeaf (nibs p) d) \/ (exists c, t' = TExt (nibs p) c))
  end.

Lemma small_same : forall t t', small t -> (forall q, lookup t' q = lookup t q) -> small t'.
Proof. intros t t' Hs E q v El. rewrite E in El. eauto. Qed.

(** Store a node whose children are stored and return its action. *)
Lemma spec_store_ret : forall n t s (F : exn -> Prop) (k : bytes -> daction) (Q : daction -> store -> Prop),
  sinv s -> nocoll (s_log s) -> (s_faults s <> [] -> F StorageFault) -> nmatch n t -> wf t -> small t ->
  (forall s', step s s' -> here (s_map s') t -> Q (k (tref t)) s') ->
  spec (mbind (store_node n) (fun r => ret (k r))) s F Q.
Proof.
  intros n t s F k Q Hs Hn HF Hm Hw Hsm HQ.
  apply spec_bind with (Q1 := fun r s' => r = tref t /\ here (s_map s') t); auto.
  - apply keeps_store_node; auto.
  - intros. apply keeps_ret.
  - apply spec_store_node; auto.
  - intros r s1 St [-> Hh]. apply spec_ret. auto.
Qed.

Lemma nibs_pre : forall i, i < 16 -> nibs (mkNp [mkb 0 i] 1) = [i].
Proof.
  intros i Hi. unfold nibs. cbn [np_off np_data]. rewrite nibs_of_cons. cbn [skipn].
  rewrite lo_mkb by lia. reflexivity.
Qed.

Lemma spec_build_new : forall cs s (F : exn -> Prop),
  sinv s -> nocoll (s_log s) -> (s_faults s <> [] -> F StorageFault) ->
  length cs = 16 -> Forall wf cs -> Forall (stored (s_map s)) cs -> small (TBranch cs []) ->
  count_slots (map tref cs) = 1 ->
  spec (build_new_node (map tref cs)) s F (outcome True (lookup (TBranch cs []))).
Proof.
  intros cs s F Hs Hn HF Hl Hw Hst Hsm Hc. unfold build_new_node.
  destruct (count_one cs Hc) as [Hi Hj]. set (i := first_slot (map tref cs) 0) in *.
  pose proof (nth_ne_lt _ _ Hi) as Hi16. rewrite Hl in Hi16.
  assert (Hnth : nth i (map tref cs) [] = tref (nth i cs TEmpty)).
  { change (@nil byte) with (tref TEmpty). apply map_nth. }
  rewrite Hnth. set (c := nth i cs TEmpty) in *.
  assert (Hwc : wf c) by (apply wf_nth; auto).
  assert (Hsc : stored (s_map s) c) by (apply stored_nth; auto).
  assert (Hsmc : small c) by (eapply small_nth; eauto).
  (* lookups of the collapsed branch *)
  assert (HL : forall q, lookup (TBranch cs []) q
                = match strip [i] q with Some r => lookup c r | None => None end).
  { intros [|j q]; [reflexivity|]. rewrite lookup_branch. cbn [strip].
    destruct (Nat.eqb_spec i j) as [<-|Hne]; [reflexivity|]. rewrite (Hj j) by auto. reflexivity. }
  apply spec_bind with (Q1 := fun n _ => nmatch n c); auto.
  - apply keeps_rd.
  - intros [|cp nr|]; (apply keeps_bind; [apply keeps_store_node; auto|intros; apply keeps_ret]).
  - apply spec_rd_node; auto.
  - intros n s1 St Hm.
    assert (I1 := step_inv _ _ St). assert (N1 := step_nocoll _ _ St).
    assert (HF1 : s_faults s1 <> [] -> F StorageFault) by (intros Hf; apply HF; eapply step_faults; eauto).
    assert (Hsc1 : stored (s_map s1) c) by (eapply step_stored; eauto).
    set (pre := mkNp [mkb 0 i] 1). assert (Hpre : nibs pre = [i]) by (apply nibs_pre; auto).
    destruct n as [cp d|cp nr|bs d] eqn:En, c as [|p w|p cc|ccs w] eqn:Ec; cbn [nmatch] in Hm; try contradiction.
    + destruct Hm as [<- <-].
      assert (Hsame : forall q, lookup (TLeaf (nibs (np_combine pre cp)) d) q = lookup (TBranch cs []) q).
      { intros q. rewrite HL, nibs_combine, Hpre. cbn [lookup]. rewrite !leaf_lookup_strip.
        destruct q as [|j q]; [reflexivity|]. cbn [app strip].
        destruct (Nat.eqb_spec i j) as [<-|Hne]; [|reflexivity]. rewrite leaf_lookup_strip. reflexivity. }
      apply spec_store_ret with (t := TLeaf (nibs (np_combine pre cp)) d); auto.
      * cbn. auto.
      * cbn. apply nibs_ok.
      * eapply small_same; [exact Hsm|]; auto.
      * intros s' St' Hh. cbn [outcome]. eexists. split; [reflexivity|]. split; [cbn; apply nibs_ok|].
        split; auto. split; [apply stored_leaf; exact Hh|]. split; auto. left. eauto.
    + destruct Hm as [<- ->].
      assert (Hsame : forall q, lookup (TExt (nibs (np_combine pre cp)) cc) q = lookup (TBranch cs []) q).
      { intros q. rewrite HL, nibs_combine, Hpre. cbn [lookup app].
        destruct q as [|j q]; [reflexivity|]. cbn [strip].
        destruct (Nat.eqb_spec i j) as [<-|Hne]; reflexivity. }
      assert (Hwf : wf (TExt (nibs (np_combine pre cp)) cc)).
      { destruct Hwc as (H1 & H2 & H3 & H4). cbn. repeat split; auto using nibs_ok.
        rewrite nibs_combine, Hpre. discriminate. }
      apply spec_store_ret with (t := TExt (nibs (np_combine pre cp)) cc); auto.
      * cbn. auto.
      * eapply small_same; [exact Hsm|]; auto.
      * intros s' St' Hh. cbn [outcome]. eexists. split; [reflexivity|]. split; auto.
        split; auto. split; [|split; auto; right; eauto].
        apply stored_ext. split; auto. eapply step_stored; [exact St'|]. apply stored_ext in Hsc1. apply Hsc1.
    + destruct Hm as [-> <-].
      assert (Hsame : forall q, lookup (TExt (nibs pre) (TBranch ccs d)) q = lookup (TBranch cs []) q).
      { intros q. rewrite HL, Hpre. cbn [lookup strip]. reflexivity. }
      assert (Hwf : wf (TExt (nibs pre) (TBranch ccs d))).
      { cbn [wf]. split; [apply nibs_ok|]. split; [rewrite Hpre; discriminate|]. split; [exact I|exact Hwc]. }
      apply spec_store_ret with (t := TExt (nibs pre) (TBranch ccs d)); auto.
      * cbn [nmatch]. auto.
      * eapply small_same; [exact Hsm|]; auto.
      * intros s' St' Hh. cbn [outcome]. eexists. split; [reflexivity|]. split; auto.
        split; auto. split; [|split; auto; right; eauto].
        apply stored_ext. split; auto. eapply step_stored; [exact St'|]; auto.
Qed.

Lemma spec_branch_deleted : forall cs d s (F : exn -> Prop),
  sinv s -> nocoll (s_log s) -> (s_faults s <> [] -> F StorageFault) ->
  length cs = 16 -> Forall wf cs -> Forall (stored (s_map s)) cs -> small (TBranch cs d) ->
  ((exists i, nth i cs TEmpty <> TEmpty) \/ d <> []) ->
  spec (branch_deleted (map tref cs) d) s F (outcome True (lookup (TBranch cs d))).
Proof.
  intros cs d s F Hs Hn HF Hl Hw Hst Hsm Hsome. unfold branch_deleted.
  destruct (count_slots (map tref cs)) as [|[|c]] eqn:Ec; cbn [Nat.eqb andb].
  - pose proof (count_zero cs Ec) as Hz.
    destruct (length d =? 0) eqn:Ed; cbn [negb andb].
    + exfalso. apply len0_eqb in Ed. destruct Hsome as [[i Hi]|Hd]; auto.
    + assert (Hd : d <> []) by (intros E; apply len0_eqb in E; congruence).
      assert (Hsame : forall q, lookup (TLeaf (nibs (mkNp [] 0)) d) q = lookup (TBranch cs d) q).
      { intros [|j q].
        - rewrite lookup_branch_nil by auto. reflexivity.
        - rewrite lookup_branch, Hz. reflexivity. }
      apply spec_store_ret with (t := TLeaf (nibs (mkNp [] 0)) d); auto.
      * cbn. auto.
      * cbn. constructor.
      * eapply small_same; [exact Hsm|]; auto.
      * intros s' St' Hh. cbn [outcome]. eexists. split; [reflexivity|].
        split; [cbn; constructor|]. split; auto.
        split; [apply stored_leaf; exact Hh|]. split; auto. left. eauto.
  - destruct (length d =? 0) eqn:Ed; cbn [negb andb].
    + apply len0_eqb in Ed. subst d. apply spec_build_new; auto.
    + assert (Hd : d <> []) by (intros E; apply len0_eqb in E; congruence).
      assert (Hwf : wf (TBranch cs d)).
      { apply wf_branch. repeat split; auto. right. split; auto. apply count_pos. lia. }
      apply spec_store_ret with (t := TBranch cs d); auto.
      * cbn. auto.
      * intros s' St' Hh. cbn [outcome]. eexists. split; [reflexivity|]. split; auto.
        split; [discriminate|]. split; auto. split; [|intros _; exact I].
        apply stored_branch. split; auto. eapply step_Forall; eauto.
  - assert (Hwf : wf (TBranch cs d)).
    { apply wf_branch. repeat split; auto. left. apply count_two. lia. }
    apply spec_store_ret with (t := TBranch cs d); auto.
    + cbn. auto.
    + intros s' St' Hh. cbn [outcome]. eexists. split; [reflexivity|]. split; auto.
      split; [discriminate|]. split; auto. split; [|intros _; exact I].
      apply stored_branch. split; auto. eapply step_Forall; eauto.
Qed.

(** The lookup function after removing [path]. *)
Definition without (g : list nat -> option bytes) (path : list nat) (q : list nat) : option bytes :=
  if path_dec q path then None else g q.

Definition badD (s : store) (fuel : nat) (t : tree) (path : list nat) (e : exn) : Prop :=
  bad s fuel (length path) e \/ lookup t path = None.

Lemma outcome_ext : forall (br : Prop) g g' a s, (forall q, g q = g' q) -> outcome br g a s -> outcome br g' a s.
Proof.
  intros br g g' a s E. destruct a as [|r|p r]; cbn [outcome].
  - intros [H1 H2]. split; auto. intros q. rewrite <- E. auto.
  - intros (t' & H1 & H2 & H3 & H4 & H5). exists t'. repeat split; auto. 
    + intros q. rewrite <- E. auto.
    + apply H5.
    + apply H5.
  - intros (t' & H1 & H2 & H3 & H4). exists t'. repeat split; auto; try apply H4.
    intros q. rewrite <- E. auto.
Qed.

Lemma without_small : forall t path t', small t -> (forall q, lookup t' q = without (lookup t) path q) -> small t'.
Proof.
  intros t path t' Hs E q v El. rewrite E in El. unfold without in El.
  destruct (path_dec q path); [discriminate|eauto].
Qed.

Theorem delete_spec : forall fuel t path s,
  sinv s -> nocoll (s_log s) -> t <> TEmpty -> wf t -> small t -> stored (s_map s) t ->
  spec (delete_ fuel (tref t) path) s (badD s fuel t (nibs path))
    (fun a s' => lookup t (nibs path) <> None /\ outcome (is_branch t) (without (lookup t) (nibs path)) a s').
Proof.
  induction fuel as [|f IH]; intros t path s Hs Hnc Hne Hw Hsm Hst.
  { apply spec_raise. left. right. split; auto. lia. }
  rewrite delete_unfold.
  assert (HF : s_faults s <> [] -> badD s (S f) t (nibs path) StorageFault) by (left; left; auto).
  apply spec_bind with (Q1 := fun n _ => nmatch n t); auto using keeps_rd, keeps_delete_cont.
  { apply spec_rd_node; auto. }
  intros n s1 St1 Hm.
  assert (I1 := step_inv _ _ St1). assert (N1 := step_nocoll _ _ St1).
  assert (HF1 : s_faults s1 <> [] -> badD s (S f) t (nibs path) StorageFault).
  { intros Hf. apply HF. eapply step_faults; eauto. }
  assert (Hst1 : stored (s_map s1) t) by (eapply step_stored; eauto).
  destruct n as [lp d|ep nr|bs d], t as [|p w|p c|cs w]; cbn [nmatch] in Hm; try contradiction; cbn [delete_cont].
  - (* leaf *)
    destruct Hm as [<- <-]. destruct (np_eq path lp) eqn:Eq.
    + apply np_eq_spec in Eq. apply spec_ret. rewrite Eq, lookup_leaf_self. split; [discriminate|].
      cbn [outcome is_branch]. split; [tauto|]. intros q. unfold without. cbn [lookup].
      destruct (path_dec q (nibs lp)); reflexivity.
    + apply np_eq_false in Eq. apply spec_raise. right. cbn.
      destruct (path_dec (nibs path) (nibs lp)); congruence.
  - (* extension *)
    destruct Hm as [<- ->]. destruct Hw as (Hp & Hpn & Hb & Hwc). apply stored_ext in Hst1 as [_ Hsc1].
    rewrite np_starts_with_spec. destruct (strip (nibs ep) (nibs path)) as [q|] eqn:Eq.
    2:{ apply spec_raise. right. cbn. rewrite Eq. reflexivity. }
    pose proof (np_starts_with_skip _ _ _ Eq) as Hq. apply strip_spec in Eq.
    assert (Hlen : length (nibs path) = length (nibs ep) + length q) by (rewrite Eq, app_length; auto).
    assert (Hep : 0 < length (nibs ep)) by (destruct (nibs ep); [congruence|cbn; lia]).
    assert (Hlk : lookup (TExt (nibs ep) c) (nibs path) = lookup c q) by (rewrite Eq; apply lookup_ext_app).
    assert (Hwo : forall u, without (lookup (TExt (nibs ep) c)) (nibs path) u
                  = match strip (nibs ep) u with Some z => without (lookup c) q z | None => None end).
    { intros u. unfold without. cbn [lookup]. rewrite Eq. destruct (strip (nibs ep) u) as [z|] eqn:Eu.
      - apply strip_spec in Eu. subst u. destruct (path_dec (nibs ep ++ z) (nibs ep ++ q)) as [F|Hn].
        + apply app_inv_head in F. destruct (path_dec z q); congruence.
        + destruct (path_dec z q); [congruence|reflexivity].
      - destruct (path_dec u (nibs ep ++ q)); reflexivity. }
    apply spec_bind with (Q1 := fun a s' => lookup c q <> None /\
                                  outcome (is_branch c) (without (lookup c) q) a s'); auto.
    + apply keeps_delete.
    + intros [|cr|sp sr]; [apply keeps_ret| |].
      * apply keeps_bind; [apply keeps_store_node; auto|intros; apply keeps_ret].
      * apply keeps_bind; [apply keeps_rd|]. intros.
        apply keeps_bind; [apply keeps_store_node; auto|intros; apply keeps_ret].
    + rewrite <- Hq. eapply spec_conseq; [apply (IH c)|idtac|exact (fun a s' h => h)]; auto using branch_ne.
      * eapply small_ext; eauto.
      * rewrite Hq. intros e [[[-> Hf]|[-> Hf]]|Hf].
        -- apply HF1; auto.
        -- left. right. split; auto. lia.
        -- right. rewrite Hlk. exact Hf.
    + intros a s2 St2 [Hpres Hout].
      assert (I2 := step_inv _ _ St2). assert (N2 := step_nocoll _ _ St2).
      assert (HF2 : s_faults s2 <> [] -> badD s (S f) (TExt (nibs ep) c) (nibs path) StorageFault).
      { intros Hf. apply HF1. eapply step_faults; eauto. }
      destruct a as [|cr|sp sr]; cbn [outcome] in Hout.
      * destruct Hout as [Hnb _]. contradiction.
      * destruct Hout as (t' & -> & Hwt & Htn & Hlt & Hst2 & Hbt).
        assert (Hsame : forall u, lookup (TExt (nibs ep) t') u
                          = without (lookup (TExt (nibs ep) c)) (nibs path) u).
        { intros u. rewrite Hwo. cbn [lookup]. destruct (strip (nibs ep) u); auto. }
        assert (Hwf : wf (TExt (nibs ep) t')) by (cbn; auto).
        apply spec_store_ret with (t := TExt (nibs ep) t'); auto.
        -- cbn. auto.
        -- eapply without_small; [exact Hsm|]; auto.
        -- intros s' St' Hh. split; [rewrite Hlk; exact Hpres|]. cbn [outcome is_branch].
           eexists. split; [reflexivity|]. split; auto. split; [discriminate|]. split; auto.
           split; [|tauto]. apply stored_ext. split; auto. eapply step_stored; [exact St'|]; auto.
      * destruct Hout as (t' & -> & Hwt & Hlt & Hst2 & _ & Hshape).
        assert (Htn : t' <> TEmpty) by (destruct Hshape as [[? ->]|[? ->]]; discriminate).
        assert (Hsmt : small t').
        { eapply without_small; [|exact Hlt]. eapply small_ext; eauto. }
        apply spec_bind with (Q1 := fun n _ => nmatch n t'); auto using keeps_rd.
        -- intros. apply keeps_bind; [apply keeps_store_node; auto|intros; apply keeps_ret].
        -- apply spec_rd_node; auto.
        -- intros child s3 St3 Hm3.
           assert (I3 := step_inv _ _ St3). assert (N3 := step_nocoll _ _ St3).
           assert (HF3 : s_faults s3 <> [] -> badD s (S f) (TExt (nibs ep) c) (nibs path) StorageFault).
           { intros Hf. apply HF2. eapply step_faults; eauto. }
           assert (Hst3 : stored (s_map s3) t') by (eapply step_stored; eauto).
           destruct Hshape as [[d ->]|[cc ->]]; destruct child as [cp d'|cp cr|]; cbn [nmatch] in Hm3; try contradiction.
           ++ destruct Hm3 as [Hcp ->].
              assert (Hsame : forall u, lookup (TLeaf (nibs (np_combine ep cp)) d) u
                          = without (lookup (TExt (nibs ep) c)) (nibs path) u).
              { intros u. rewrite Hwo, nibs_combine. cbn [lookup].
                destruct (strip (nibs ep) u) as [z|] eqn:Eu.
                - apply strip_spec in Eu. subst u. rewrite <- Hlt. cbn [lookup]. rewrite Hcp.
                  destruct (path_dec z (nibs sp)) as [->|Hn].
                  + destruct (path_dec (nibs ep ++ nibs sp) (nibs ep ++ nibs sp)); congruence.
                  + destruct (path_dec (nibs ep ++ z) (nibs ep ++ nibs sp)) as [F|_]; auto.
                    apply app_inv_head in F. congruence.
                - destruct (path_dec u (nibs ep ++ nibs cp)) as [->|_]; auto.
                  exfalso. rewrite strip_None in Eu. eapply Eu; eauto. }
              assert (Hwf : wf (TLeaf (nibs (np_combine ep cp)) d)).
              { cbn. apply nibs_ok. }
              apply spec_store_ret with (t := TLeaf (nibs (np_combine ep cp)) d); auto.
              ** cbn. auto.
              ** eapply without_small; [exact Hsm|]; auto.
              ** intros s' St' Hh. split; [rewrite Hlk; exact Hpres|]. cbn [outcome is_branch].
                 eexists. split; [reflexivity|]. split; auto. split; [discriminate|]. split; auto.
                 split; [|tauto]. apply stored_leaf. exact Hh.
           ++ destruct Hm3 as [Hcp ->].
              assert (Hsame : forall u, lookup (TExt (nibs (np_combine ep cp)) cc) u
                          = without (lookup (TExt (nibs ep) c)) (nibs path) u).
              { intros u. rewrite Hwo, nibs_combine. cbn [lookup].
                destruct (strip (nibs ep) u) as [z|] eqn:Eu.
                - apply strip_spec in Eu. subst u. rewrite <- Hlt. cbn [lookup]. rewrite Hcp.
                  replace (strip (nibs ep ++ nibs sp) (nibs ep ++ z)) with (strip (nibs sp) z); auto.
                  clear. induction (nibs ep) as [|a l IHl]; auto. cbn. rewrite Nat.eqb_refl. auto.
                - destruct (strip (nibs ep ++ nibs cp) u) as [z|] eqn:Ez; auto.
                  exfalso. apply strip_spec in Ez. rewrite <- app_assoc in Ez.
                  rewrite strip_None in Eu. eapply Eu; eauto. }
              assert (Hwf : wf (TExt (nibs (np_combine ep cp)) cc)).
              { destruct Hwt as (A1 & A2 & A3 & A4). cbn. repeat split; auto using nibs_ok.
                rewrite nibs_combine. destruct (nibs ep); [congruence|discriminate]. }
              apply spec_store_ret with (t := TExt (nibs (np_combine ep cp)) cc); auto.
              ** cbn. auto.
              ** eapply without_small; [exact Hsm|]; auto.
              ** intros s' St' Hh. split; [rewrite Hlk; exact Hpres|]. cbn [outcome is_branch].
                 eexists. split; [reflexivity|]. split; auto. split; [discriminate|]. split; auto.
                 split; [|tauto]. apply stored_ext. split; auto. eapply step_stored; [exact St'|].
                 apply stored_ext in Hst3. apply Hst3.
  - (* branch *)
    destruct Hm as [-> <-]. apply wf_branch in Hw. destruct Hw as (Hl & Hok & Hf).
    apply stored_branch in Hst1. destruct Hst1 as [_ Hsc1].
    destruct (path_cases path) as [[Hz Hn]|(i & q & Hn & Hz & Hi & Hq)].
    + rewrite Hz. cbn [Nat.eqb andb]. destruct (length d =? 0) eqn:Ed.
      { apply spec_raise. right. apply len0_eqb in Ed. subst d. rewrite Hn. reflexivity. }
      assert (Hd : d <> []) by (intros E; apply len0_eqb in E; congruence).
      assert (Hsame : forall u, lookup (TBranch cs []) u = without (lookup (TBranch cs d)) (nibs path) u).
      { intros u. unfold without. rewrite Hn. destruct u as [|j u]; [reflexivity|].
        destruct (path_dec (j :: u) []); [discriminate|]. rewrite !lookup_branch. reflexivity. }
      eapply spec_conseq; [apply spec_branch_deleted with (F := badD s (S f) (TBranch cs d) (nibs path))|exact (fun e h => h)|]; auto.
      * eapply without_small; [exact Hsm|]; auto.
      * left. destruct Hok as [(a & b & _ & Ha & _)|(_ & a & Ha)]; eauto.
      * cbv beta. intros a s' Ho. split; [rewrite Hn, lookup_branch_nil by auto; discriminate|].
        eapply outcome_ext; eauto.
    + rewrite Hz. cbn [Nat.eqb andb]. rewrite Hi.
      pose proof (nibs_ok path) as Hpo. rewrite Hn in Hpo. inversion Hpo as [|? ? Hi16 Hqo]. subst x l.
      assert (Hnth : nth i (map tref cs) [] = tref (nth i cs TEmpty)).
      { change (@nil byte) with (tref TEmpty). apply map_nth. }
      rewrite Hnth.
      assert (Hlk : lookup (TBranch cs d) (nibs path) = lookup (nth i cs TEmpty) q) by (rewrite Hn; apply lookup_branch).
      destruct (Nat.eqb_spec (length (tref (nth i cs TEmpty))) 0) as [E0|E0].
      { apply spec_raise. right. apply (tref_len0 keccak_len) in E0. rewrite Hlk, E0. reflexivity. }
      assert (Hce : nth i cs TEmpty <> TEmpty) by (intros E; rewrite E in E0; apply E0; reflexivity).
      set (c := nth i cs TEmpty) in *.
      assert (Hwo : forall t', (forall u, lookup t' u = without (lookup c) q u) ->
                forall u, lookup (TBranch (set_nth i t' cs) d) u = without (lookup (TBranch cs d)) (nibs path) u).
      { intros t' Ht' u. unfold without in *. rewrite Hn. destruct u as [|j u].
        - destruct (path_dec [] (i :: q)); [discriminate|reflexivity].
        - rewrite !lookup_branch, nth_set_nth by lia. destruct (Nat.eqb_spec j i) as [->|Hj].
          + rewrite Ht'. fold c. destruct (path_dec u q), (path_dec (i :: u) (i :: q)); cgr.
          + destruct (path_dec (j :: u) (i :: q)); [congruence|reflexivity]. }
      apply spec_bind with (Q1 := fun a s' => lookup c q <> None /\
                                  outcome (is_branch c) (without (lookup c) q) a s'); auto.
      * apply keeps_delete.
      * intros [|nr|sp nr]; [apply keeps_branch_deleted| |];
          (apply keeps_bind; [apply keeps_store_node; auto|intros; apply keeps_ret]).
      * rewrite <- Hq. eapply spec_conseq; [apply (IH c)|idtac|exact (fun a s' h => h)]; auto.
        -- apply wf_nth; auto.
        -- eapply small_nth; eauto.
        -- apply stored_nth; auto.
        -- rewrite Hq. intros e [[[-> Hff]|[-> Hff]]|Hff].
           ++ apply HF1; auto.
           ++ left. right. split; auto. rewrite Hn. cbn [length]. lia.
           ++ right. rewrite Hlk. exact Hff.
      * intros a s2 St2 [Hpres Hout].
        assert (I2 := step_inv _ _ St2). assert (N2 := step_nocoll _ _ St2).
        assert (HF2 : s_faults s2 <> [] -> badD s (S f) (TBranch cs d) (nibs path) StorageFault).
        { intros Hff. apply HF1. eapply step_faults; eauto. }
        assert (Hsc2 : Forall (stored (s_map s2)) cs) by (eapply step_Forall; eauto).
        (* the child is replaced by a non-empty tree *)
        assert (Hrepl : forall t', wf t' -> t' <> TEmpty -> (forall u, lookup t' u = without (lookup c) q u) ->
                  stored (s_map s2) t' ->
                  spec (mbind (store_node (Branch (set_nth i (tref t') (map tref cs)) d)) (fun r' => ret (DUpdated r')))
                    s2 (badD s (S f) (TBranch cs d) (nibs path))
                    (fun a s' => lookup (TBranch cs d) (nibs path) <> None /\
                       outcome (is_branch (TBranch cs d)) (without (lookup (TBranch cs d)) (nibs path)) a s')).
        { intros t' Hwt Htn Hlt Hst2.
          assert (Hwf : wf (TBranch (set_nth i t' cs) d)).
          { apply wf_branch. split; [rewrite set_nth_length; lia|]. split; [|apply Forall_set_nth; auto].
            assert (Hkeep : forall j, nth j cs TEmpty <> TEmpty -> nth j (set_nth i t' cs) TEmpty <> TEmpty).
            { intros j Hj. rewrite nth_set_nth by lia. destruct (j =? i); auto. }
            destruct Hok as [(j1 & j2 & Hab & Ha & Hbb)|(Hd & j1 & Ha)].
            - left. exists j1, j2. auto.
            - right. split; auto. exists j1. auto. }
          apply spec_store_ret with (t := TBranch (set_nth i t' cs) d); auto.
          - cbn. rewrite map_set_nth. auto.
          - eapply without_small; [exact Hsm|]. apply Hwo. auto.
          - intros s' St' Hh. split; [rewrite Hlk; exact Hpres|]. cbn [outcome].
            eexists. split; [reflexivity|]. split; auto. split; [discriminate|]. split; [apply Hwo; auto|].
            split; [|intros _; exact I]. apply stored_branch. split; auto.
            apply Forall_set_nth; [eapply step_Forall; eauto|eapply step_stored; eauto]. }
        destruct a as [|nr|sp nr]; cbn [outcome] in Hout.
        -- destruct Hout as [_ Hnone].
           change (@nil byte) with (tref TEmpty). rewrite <- map_set_nth.
           assert (Hsame := Hwo TEmpty ltac:(intros u; symmetry; apply Hnone)).
           eapply spec_conseq; [apply spec_branch_deleted with (F := badD s (S f) (TBranch cs d) (nibs path))|exact (fun e h => h)|]; auto.
           ++ rewrite set_nth_length; lia.
           ++ apply Forall_set_nth; auto. exact I.
           ++ apply Forall_set_nth; auto. apply stored_empty.
           ++ eapply without_small; [exact Hsm|]; auto.
           ++ destruct Hok as [(j1 & j2 & Hab & Ha & Hbb)|(Hd & _)]; [left|right; auto].
              destruct (Nat.eq_dec j1 i) as [->|Hai].
              ** exists j2. rewrite nth_set_nth by lia. destruct (Nat.eqb_spec j2 i); [congruence|auto].
              ** exists j1. rewrite nth_set_nth by lia. destruct (Nat.eqb_spec j1 i); [congruence|auto].
           ++ cbv beta. intros a s' Ho. split; [rewrite Hlk; exact Hpres|].
              eapply outcome_ext; eauto.
        -- destruct Hout as (t' & -> & Hwt & Htn & Hlt & Hst2 & _). apply Hrepl; auto.
        -- destruct Hout as (t' & -> & Hwt & Hlt & Hst2 & _ & Hshape). apply Hrepl; auto.
           destruct Hshape as [[? ->]|[? ->]]; discriminate.
Qed.

End Delete.
