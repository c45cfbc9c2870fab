(** A run on fewer nodes raises KeyError or does what the run on more nodes does. *)
From Coq Require Import List Bool Arith NArith ZArith Lia.
From Verif Require Import Base BaseProofs Rlp RlpProofs NibblePath NibbleProofs Node ProofObj Mpt Spec SpecShared.
Import ListNotations.

Lemma part_refl : forall m, part_of m m.
Proof. intros m h e E. exact E. Qed.
Lemma part_trans : forall a b c, part_of a b -> part_of b c -> part_of a c.
Proof. intros a b c P Q h e E. auto. Qed.
Lemma part_dset : forall m1 m2 r e, part_of m1 m2 -> part_of (dset m1 r e) (dset m2 r e).
Proof.
  intros m1 m2 r e P h x. destruct (bytes_eqb_spec h r) as [->|Hn].
  - rewrite !dget_dset_same. auto.
  - rewrite !dget_dset_other by auto. apply P.
Qed.

Definition rel (s1 s2 : store) : Prop :=
  part_of (s_map s1) (s_map s2) /\ incl (s_log s1) (s_log s2) /\ s_faults s1 = s_faults s2.
Definition sim {A} (m : M A) : Prop :=
  (forall s, incl (s_log s) (s_log (snd (m s)))) /\
  forall s1 s2, rel s1 s2 ->
  (fst (m s1) = Err KeyError /\ incl (s_log (snd (m s1))) (s_log (snd (m s2)))) \/
  (fst (m s1) = fst (m s2) /\ rel (snd (m s1)) (snd (m s2))).

Lemma sim_pure : forall A (r : result A), sim (fun s => (r, s)).
Proof. intros A r. split; [intros s; apply incl_refl|]. intros s1 s2 R. right. auto. Qed.
Lemma sim_bind : forall A B (m : M A) (f : A -> M B), sim m -> (forall a, sim (f a)) -> sim (mbind m f).
Proof.
  intros A B m f [Lm Hm] Hf. split.
  - intros s. unfold mbind. specialize (Lm s). destruct (m s) as [[a|e] s']; cbn [snd] in *; [|exact Lm].
    eapply incl_tran; [exact Lm|]. apply Hf.
  - intros s1 s2 R. unfold mbind. destruct (Hm s1 s2 R) as [[E I]|[E R']].
    + destruct (m s1) as [[a|e] s]; cbn in E; [discriminate|]. injection E as ->. left. split; [reflexivity|]. cbn [snd] in *.
      destruct (m s2) as [[b|e] s']; cbn [snd] in *; [|exact I]. eapply incl_tran; [exact I|]. apply Hf.
    + destruct (m s1) as [[a|e] s], (m s2) as [[b|e'] s']; cbn in E, R'; try discriminate.
      * injection E as <-. apply Hf. exact R'.
      * injection E as <-. right. auto.
Qed.
Lemma sim_tick : sim tick.
Proof.
  split.
  - intros [m l [|f fs]]; apply incl_refl.
  - intros [m1 l1 f1] [m2 l2 f2] (P & I & F). cbn in P, I, F. subst f2. unfold tick. cbn [s_faults s_map s_log].
    right. destruct f1 as [|f fs]; split; [|split| |split]; cbn; auto.
Qed.

Section S.
Context {H : Hash}.
Lemma sim_write : forall r e, sim (write r e).
Proof.
  intros r e. unfold write. apply sim_bind; [apply sim_tick|]. intros u. split; [intros s; cbn; apply incl_tl, incl_refl|]. intros s1 s2 (P & I & F). right. split; [reflexivity|].
  split; [apply part_dset; exact P|]. split; [|exact F]. cbn. intros x [->|Hx]; [left; reflexivity|right; apply I; exact Hx].
Qed.
Lemma get_node_part : forall m1 m2 r, part_of m1 m2 -> get_node m1 r = Err KeyError \/ get_node m1 r = get_node m2 r.
Proof.
  intros m1 m2 r P. unfold get_node. destruct (length r =? 32); [|auto]. destruct (dget m1 r) as [e|] eqn:E; [|auto].
  rewrite (P _ _ E). auto.
Qed.
Lemma sim_rd : forall r, sim (rd_node r).
Proof.
  intros r. unfold rd_node. apply sim_bind; [destruct (length r =? 32); [apply sim_tick|apply sim_pure]|].
  intros u. split; [intros s; apply incl_refl|]. intros s1 s2 R. cbn [fst snd]. destruct (get_node_part _ _ r (proj1 R)); auto.
  left. split; [assumption|]. apply R.
Qed.
Lemma sim_store : forall n, sim (store_node n).
Proof.
  intros n. unfold store_node. apply sim_bind; [apply sim_pure|]. intros r. destruct (length r =? 32); [|apply sim_pure].
  apply sim_bind; [apply sim_pure|]. intros e. apply sim_bind; [apply sim_write|]. intros u. apply sim_pure.
Qed.
Lemma sim_branch_leaf : forall p v bs, sim (create_branch_leaf p v bs).
Proof.
  intros p v bs. unfold create_branch_leaf. destruct (0 <? np_len p); [|apply sim_pure].
  apply sim_bind; [apply sim_store|]. intros. apply sim_pure.
Qed.
Lemma sim_branch_node : forall a va b vb, sim (create_branch_node a va b vb).
Proof.
  intros a va b vb. unfold create_branch_node. destruct ((np_len a =? 0) && (np_len b =? 0)); [apply sim_pure|].
  apply sim_bind; [apply sim_branch_leaf|]. intros. apply sim_bind; [apply sim_branch_leaf|]. intros. apply sim_store.
Qed.
Lemma sim_branch_extension : forall p nr bs, sim (create_branch_extension p nr bs).
Proof.
  intros p nr bs. unfold create_branch_extension. destruct (np_len p <? 1); [apply sim_pure|]. destruct (np_len p =? 1); [apply sim_pure|].
  apply sim_bind; [apply sim_store|]. intros. apply sim_pure.
Qed.
Lemma sim_update : forall f r p v, sim (update_ f r p v).
Proof.
  induction f as [|f IH]; intros r p v; cbn [update_]; [apply sim_pure|]. destruct (ref_is_empty r); [apply sim_store|].
  apply sim_bind; [apply sim_rd|]. intros [lp d|ep nr|bs d].
  - destruct (np_eq lp p); [apply sim_store|]. apply sim_bind; [apply sim_branch_node|]. intros x.
    destruct (np_len (np_common_prefix p lp) =? 0); [apply sim_pure|apply sim_store].
  - destruct (np_starts_with p ep).
    + apply sim_bind; [apply IH|]. intros. apply sim_store.
    + apply sim_bind; [apply sim_branch_leaf|]. intros. apply sim_bind; [apply sim_branch_extension|]. intros.
      apply sim_bind; [apply sim_store|]. intros. destruct (np_len (np_common_prefix p ep) =? 0); [apply sim_pure|apply sim_store].
  - destruct (np_len p =? 0); [apply sim_store|]. apply sim_bind; [apply IH|]. intros. apply sim_store.
Qed.
Lemma sim_branch_deleted : forall bs d, sim (branch_deleted bs d).
Proof.
  intros bs d. unfold branch_deleted. destruct (_ && _); [apply sim_pure|]. destruct (_ && _).
  { apply sim_bind; [apply sim_store|]. intros. apply sim_pure. }
  destruct (_ && _); [|apply sim_bind; [apply sim_store|]; intros; apply sim_pure].
  unfold build_new_node. apply sim_bind; [apply sim_rd|].
  intros []; (apply sim_bind; [apply sim_store|]; intros; apply sim_pure).
Qed.
Lemma sim_delete : forall f r p, sim (delete_ f r p).
Proof.
  induction f as [|f IH]; intros r p; cbn [delete_]; [apply sim_pure|].
  apply sim_bind; [apply sim_rd|]. intros [lp d|ep nr|bs d].
  - destruct (np_eq p lp); apply sim_pure.
  - destruct (np_starts_with p ep); [|apply sim_pure]. apply sim_bind; [apply IH|]. intros [|cr|sp sr].
    + apply sim_pure.
    + apply sim_bind; [apply sim_store|]. intros. apply sim_pure.
    + apply sim_bind; [apply sim_rd|]. intros ch. apply sim_bind; [apply sim_store|]. intros. apply sim_pure.
  - destruct (_ && _); [apply sim_pure|]. destruct (np_len p =? 0); [apply sim_branch_deleted|].
    destruct (length _ =? 0); [apply sim_pure|]. apply sim_bind; [apply IH|]. intros [|nr|sp nr].
    + apply sim_branch_deleted.
    + apply sim_bind; [apply sim_store|]. intros. apply sim_pure.
    + apply sim_bind; [apply sim_store|]. intros. apply sim_pure.
Qed.

(** ** Tries *)
Definition trel (t1 t2 : mpt) : Prop :=
  part_of (m_map t1) (m_map t2) /\ incl (m_log t1) (m_log t2) /\ m_root t1 = m_root t2 /\ m_secure t1 = m_secure t2.

Lemma run_op_sim : forall A t1 t2 fl (m : M A) nr, sim m -> trel t1 t2 ->
  (fst (run_op t1 fl m nr) = Err KeyError /\ incl (m_log (snd (run_op t1 fl m nr))) (m_log (snd (run_op t2 fl m nr)))) \/
  (fst (run_op t1 fl m nr) = fst (run_op t2 fl m nr) /\ trel (snd (run_op t1 fl m nr)) (snd (run_op t2 fl m nr))).
Proof.
  intros A t1 t2 fl m nr S (P & I & Er & Es). unfold run_op.
  destruct (proj2 S (mkStore (m_map t1) (m_log t1) fl) (mkStore (m_map t2) (m_log t2) fl)) as [[E I']|[E (P' & I' & F')]]; [split; cbn; auto| |].
  - left. destruct (m (mkStore (m_map t1) (m_log t1) fl)) as [[a|e] s]; cbn in E; [discriminate|]. injection E as ->. split; [reflexivity|].
    destruct (m (mkStore (m_map t2) (m_log t2) fl)) as [[b|e'] s']; exact I'.
  - right. destruct (m (mkStore (m_map t1) (m_log t1) fl)) as [[a|e] s], (m (mkStore (m_map t2) (m_log t2) fl)) as [[b|e'] s'];
      cbn in E, P', I', F'; try discriminate; injection E as <-; (split; [reflexivity|]); unfold trel; cbn; auto.
Qed.
Lemma root_ref_eq : forall t1 t2, trel t1 t2 -> root_ref t1 = root_ref t2.
Proof. intros t1 t2 (_ & _ & E & _). unfold root_ref. rewrite E. reflexivity. Qed.
Lemma eff_key_eq : forall t1 t2 k, trel t1 t2 -> eff_key t1 k = eff_key t2 k.
Proof. intros t1 t2 k (_ & _ & _ & E). unfold eff_key. rewrite E. reflexivity. Qed.
Lemma root_empty_eq : forall t1 t2, trel t1 t2 -> root_is_empty t1 = root_is_empty t2.
Proof. intros t1 t2 (_ & _ & E & _). unfold root_is_empty. rewrite E. reflexivity. Qed.
Lemma root_falsy_eq : forall t1 t2, trel t1 t2 -> root_falsy t1 = root_falsy t2.
Proof. intros t1 t2 (_ & _ & E & _). unfold root_falsy. rewrite E. reflexivity. Qed.
Lemma root_hash_eq : forall t1 t2, m_root t1 = m_root t2 -> root_hash t1 = root_hash t2.
Proof. intros t1 t2 E. unfold root_hash, root_falsy, root_is_empty, root_ref. rewrite E. reflexivity. Qed.

Lemma call_sim : forall t1 t2 c, trel t1 t2 ->
  (fst (mpt_call t1 c) = Err KeyError /\ incl (m_log (snd (mpt_call t1 c))) (m_log (snd (mpt_call t2 c)))) \/
  (fst (mpt_call t1 c) = fst (mpt_call t2 c) /\ trel (snd (mpt_call t1 c)) (snd (mpt_call t2 c))).
Proof.
  intros t1 t2 [[k v|k] lim fl] R; unfold mpt_call; cbn [c_op c_lim c_faults].
  - unfold mpt_update. rewrite <- (root_ref_eq t1 t2 R), <- (eff_key_eq t1 t2 k R). apply run_op_sim; [apply sim_update|exact R].
  - unfold mpt_delete. rewrite <- (root_empty_eq t1 t2 R). destruct (root_is_empty t1); [right; auto|].
    rewrite <- (root_ref_eq t1 t2 R), <- (eff_key_eq t1 t2 k R). apply run_op_sim; [apply sim_delete|exact R].
Qed.

Lemma get_sim : forall m1 m2 f r p, part_of m1 m2 -> get_ f m1 r p = Err KeyError \/ get_ f m1 r p = get_ f m2 r p.
Proof.
  intros m1 m2 f r p P. revert r p. induction f as [|f IH]; intros r p; cbn [get_]; [auto|].
  destruct (get_node_part m1 m2 r P) as [->| ->]; [auto|]. destruct (get_node m2 r) as [n|e]; [|auto].
  destruct (np_len p =? 0); [auto|]. destruct n as [lp d|ep nr|bs d]; auto.
  - destruct (np_starts_with p ep); auto.
  - destruct (0 <? _); auto.
Qed.
Lemma contains_sim : forall m1 m2 f r p, part_of m1 m2 -> contains_ f m1 r p = Err KeyError \/ contains_ f m1 r p = contains_ f m2 r p.
Proof.
  intros m1 m2 f r p P. revert r p. induction f as [|f IH]; intros r p; cbn [contains_]; [auto|].
  destruct (get_node_part m1 m2 r P) as [->| ->]; [auto|]. destruct (get_node m2 r) as [n|e]; [|auto].
  destruct (np_len p =? 0); [auto|]. destruct n as [lp d|ep nr|bs d]; auto.
  - destruct (np_starts_with p ep); auto.
  - destruct (0 <? _); auto.
Qed.
Lemma poi_sim : forall m1 m2 f r p a, part_of m1 m2 -> get_poi_ f m1 r p a = Err KeyError \/ get_poi_ f m1 r p a = get_poi_ f m2 r p a.
Proof.
  intros m1 m2 f r p a P. revert r p a. induction f as [|f IH]; intros r p a; cbn [get_poi_]; [auto|].
  destruct (get_node_part m1 m2 r P) as [->| ->]; [auto|]. destruct (get_node m2 r) as [n|e]; cbn [bind]; [|auto].
  destruct (np_len p =? 0); [auto|]. destruct n as [lp d|ep nr|bs d]; auto.
  - destruct (np_starts_with p ep); auto. destruct (node_encode _); cbn [bind]; auto.
  - destruct (0 <? _); auto. destruct (node_encode _); cbn [bind]; auto.
Qed.
Lemma poe_sim : forall m1 m2 f r p a, part_of m1 m2 -> get_poe_ f m1 r p a = Err KeyError \/ get_poe_ f m1 r p a = get_poe_ f m2 r p a.
Proof.
  intros m1 m2 f r p a P. revert r p a. induction f as [|f IH]; intros r p a; cbn [get_poe_]; [auto|].
  destruct (get_node_part m1 m2 r P) as [->| ->]; [auto|]. destruct (get_node m2 r) as [n|e]; cbn [bind]; [|auto].
  destruct (np_len p =? 0); [auto|]. destruct n as [lp d|ep nr|bs d]; auto.
  - destruct (np_starts_with p ep); auto. destruct (node_encode _); cbn [bind]; auto.
  - destruct (node_encode _); cbn [bind]; auto. destruct (0 <? _); auto.
Qed.

Lemma mpt_get_sim : forall t1 t2 lim k, trel t1 t2 -> mpt_get lim t1 k = Err KeyError \/ mpt_get lim t1 k = mpt_get lim t2 k.
Proof.
  intros t1 t2 lim k R. unfold mpt_get. rewrite (root_falsy_eq t1 t2 R), (root_ref_eq t1 t2 R), (eff_key_eq t1 t2 k R).
  destruct (root_falsy t2); [auto|]. destruct (get_sim _ _ lim (root_ref t2) (np_of (eff_key t2 k)) (proj1 R)) as [->| ->]; auto.
Qed.
Lemma mpt_contains_sim : forall t1 t2 lim k, trel t1 t2 -> mpt_contains lim t1 k = Err KeyError \/ mpt_contains lim t1 k = mpt_contains lim t2 k.
Proof.
  intros t1 t2 lim k R. unfold mpt_contains. rewrite (root_falsy_eq t1 t2 R), (root_empty_eq t1 t2 R), (root_ref_eq t1 t2 R), (eff_key_eq t1 t2 k R).
  destruct (root_falsy t2); [auto|]. destruct (root_is_empty t2); [auto|].
  destruct (contains_sim _ _ lim (root_ref t2) (np_of (eff_key t2 k)) (proj1 R)) as [->| ->]; auto.
Qed.
Lemma mpt_poi_sim : forall t1 t2 lim time k, trel t1 t2 -> mpt_get_poi lim time t1 k = Err KeyError \/ mpt_get_poi lim time t1 k = mpt_get_poi lim time t2 k.
Proof.
  intros t1 t2 lim time k R. unfold mpt_get_poi. rewrite (root_empty_eq t1 t2 R), (root_ref_eq t1 t2 R), (eff_key_eq t1 t2 k R).
  destruct (root_is_empty t2); [auto|].
  destruct (poi_sim _ _ lim (root_ref t2) (np_of (eff_key t2 k)) [] (proj1 R)) as [->| ->]; auto.
Qed.
Lemma mpt_poe_sim : forall t1 t2 lim time k, trel t1 t2 -> mpt_get_poe lim time t1 k = Err KeyError \/ mpt_get_poe lim time t1 k = mpt_get_poe lim time t2 k.
Proof.
  intros t1 t2 lim time k R. unfold mpt_get_poe. rewrite (root_empty_eq t1 t2 R), (root_ref_eq t1 t2 R), (eff_key_eq t1 t2 k R).
  rewrite (root_hash_eq t1 t2) by apply R. destruct (root_is_empty t2); [auto|].
  destruct (mpt_contains_sim t1 t2 lim k R) as [->| ->]; [auto|]. destruct (mpt_contains lim t2 k) as [[]|]; cbn [bind]; auto.
  destruct (poe_sim _ _ lim (root_ref t2) (np_of (eff_key t2 k)) [] (proj1 R)) as [->| ->]; auto.
Qed.
Lemma verify_eq : forall t1 t2 lim p, m_root t1 = m_root t2 -> m_secure t1 = m_secure t2 ->
  mpt_verify_poi lim t1 p = mpt_verify_poi lim t2 p /\ mpt_verify_poe lim t1 p = mpt_verify_poe lim t2 p.
Proof.
  intros t1 t2 lim p E _. unfold mpt_verify_poi, mpt_verify_poe. rewrite (root_hash_eq t1 t2 E).
  assert (E1 : root_is_empty t1 = root_is_empty t2) by (unfold root_is_empty; rewrite E; reflexivity).
  assert (E2 : root_ref t1 = root_ref t2) by (unfold root_ref; rewrite E; reflexivity).
  rewrite E1, E2. auto.
Qed.
End S.
