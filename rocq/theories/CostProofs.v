(** How many storage accesses and writes one call makes. *)
From Coq Require Import List Bool Arith NArith ZArith Lia.
From Verif Require Import Base BaseProofs Rlp RlpProofs NibblePath NibbleProofs Node ProofObj Mpt Tree TreeEnc
  StoreProofs UpdateProofs DeleteProofs ReadProofs Spec SpecCodec MptRefine MptProofs SpecCost.
Import ListNotations.

Definition with_faults (s : store) (fl : list bool) : store := mkStore (s_map s) (s_log s) fl.

Lemma alike_le : forall i j a b, i <= j -> alike j a b -> alike i a b.
Proof. intros i j a b L A n Hn. apply A. lia. Qed.
Lemma nth_skipn' : forall j (l : list bool) i, nth i (skipn j l) false = nth (j + i) l false.
Proof. induction j as [|j IH]; intros [|x l] i; cbn [skipn]; auto; [destruct i; reflexivity|]. apply IH. Qed.
Lemma alike_skipn : forall i j a b, alike (i + j) a b -> alike j (skipn i a) (skipn i b).
Proof. intros i j a b A n Hn. rewrite !nth_skipn'. apply A. lia. Qed.
Lemma skipn_add : forall (A : Type) i j (l : list A), skipn i (skipn j l) = skipn (j + i) l.
Proof. intros A i j. induction j as [|j IH]; intros l; auto. destruct l; [rewrite !skipn_nil; reflexivity|]. apply IH. Qed.

(** [m], started in [s], makes [j] accesses and [w] writes allowed by [P] for its result, and looks at no further fault. *)
Definition costsr {A} (m : M A) (s : store) (P : result A -> nat -> nat -> Prop) : Prop :=
  exists j w, P (fst (m s)) j (length w) /\ s_log (snd (m s)) = w ++ s_log s /\ length (s_map (snd (m s))) <= length w + length (s_map s) /\
    forall fl, alike j fl (s_faults s) -> m (with_faults s fl) = (fst (m s), with_faults (snd (m s)) (skipn j fl)).
Definition costs {A} (m : M A) (s : store) (a b : nat) : Prop := costsr m s (fun _ j w => j <= a /\ w <= b).

Lemma costsr_imp : forall A (m : M A) s (P Q : result A -> nat -> nat -> Prop), costsr m s P -> (forall r j w, P r j w -> Q r j w) -> costsr m s Q.
Proof. intros A m s P Q (j & w & HP & R) HI. exists j, w. split; [apply HI; exact HP|exact R]. Qed.
Lemma costs_le : forall A (m : M A) s a b a' b', costs m s a b -> a <= a' -> b <= b' -> costs m s a' b'.
Proof. intros A m s a b a' b' C H1 H2. eapply costsr_imp; [exact C|]. cbn. lia. Qed.

Lemma costs_pure : forall A (f : dict bytes -> list bytes -> result A) s, costs (fun s => (f (s_map s) (s_log s), s)) s 0 0.
Proof. intros A f s. exists 0, []. repeat split; auto. Qed.
Lemma costs_ret : forall A (a : A) s, costs (ret a) s 0 0.
Proof. intros A a s. exact (costs_pure A (fun _ _ => Ok a) s). Qed.
Lemma costs_raise : forall A e s, costs (@raise A e) s 0 0.
Proof. intros A e s. exact (costs_pure A (fun _ _ => Err e) s). Qed.
Lemma costs_lift : forall A (r : result A) s, costs (lift r) s 0 0.
Proof. intros A r s. exact (costs_pure A (fun _ _ => r) s). Qed.
Lemma costsr_ret : forall A (a : A) s (P : result A -> nat -> nat -> Prop), P (Ok a) 0 0 -> costsr (ret a) s P.
Proof. intros A a s P HP. exists 0, []. repeat split; auto. Qed.
Lemma costsr_raise : forall A e s (P : result A -> nat -> nat -> Prop), P (Err e) 0 0 -> costsr (@raise A e) s P.
Proof. intros A e s P HP. exists 0, []. repeat split; auto. Qed.

Lemma with_faults_id : forall s, with_faults s (s_faults s) = s.
Proof. destruct s; reflexivity. Qed.

Lemma costsr_bind : forall A B (m : M A) (f : A -> M B) s P (Q : result B -> nat -> nat -> Prop), costsr m s P ->
  (forall e j w, P (Err e) j w -> Q (Err e) j w) ->
  (forall x s1, m s = (Ok x, s1) -> costsr (f x) s1 (fun r j w => forall j0 w0, P (Ok x) j0 w0 -> Q r (j0 + j) (w0 + w))) ->
  costsr (mbind m f) s Q.
Proof.
  intros A B m f s P Q (j & w & HP & Lg & Lm & F) He Hf.
  pose proof (F (s_faults s) (fun i _ => eq_refl)) as F0. rewrite with_faults_id in F0.
  destruct (m s) as [[x|e] s1] eqn:E; cbn [fst snd] in *.
  - destruct (Hf x s1 eq_refl) as (j2 & w2 & HQ & Mg & Mm & G).
    assert (Es : s_faults s1 = skipn j (s_faults s)) by (injection F0 as F0; rewrite F0 at 1; reflexivity).
    exists (j + j2), (w2 ++ w). unfold mbind. rewrite E. split; [rewrite app_length, Nat.add_comm with (n := length w2); apply HQ; exact HP|]. split.
    + rewrite Mg, Lg, app_assoc. reflexivity.
    + split; [rewrite app_length; lia|]. intros fl A1. rewrite (F fl) by (eapply alike_le; [|exact A1]; lia).
      rewrite (G (skipn j fl)) by (rewrite Es; apply alike_skipn; exact A1). rewrite skipn_add. reflexivity.
  - exists j, w. unfold mbind. rewrite E. cbn [fst snd]. split; [apply He; exact HP|]. split; [exact Lg|]. split; [exact Lm|].
    intros fl A1. rewrite (F fl A1). reflexivity.
Qed.
Lemma costs_bind : forall A B (m : M A) (f : A -> M B) s a b c d, costs m s a b ->
  (forall x s1, m s = (Ok x, s1) -> costs (f x) s1 c d) -> costs (mbind m f) s (a + c) (b + d).
Proof.
  intros A B m f s a b c d C Hf. eapply costsr_bind; [exact C|cbn; lia|]. intros x s1 E.
  eapply costsr_imp; [apply (Hf x s1 E)|]. cbn. intros. lia.
Qed.

Lemma costs_tick : forall s, costs tick s 1 0.
Proof.
  intros [m l fl]. exists 1, []. split; [cbn; lia|]. split.
  - unfold tick. cbn. destruct fl; reflexivity.
  - split; [unfold tick; cbn; destruct fl; cbn; lia|]. intros fl' A. specialize (A 0 ltac:(lia)). unfold tick, with_faults. cbn [s_faults s_map s_log] in *.
    destruct fl as [|f fl], fl' as [|f' fl']; cbn in A; subst; reflexivity.
Qed.

Lemma dset_size : forall (A : Type) (d : dict A) k v, length (dset d k v) <= 1 + length d.
Proof. intros A. induction d as [|[k' w] d IH]; intros k v; cbn; [lia|]. destruct (bytes_eqb k k'); cbn; [lia|]. specialize (IH k v). lia. Qed.

Section C.
Context {H : Hash}.
Hypothesis keccak_len : forall b, length (keccak b) = 32.

Lemma costs_write : forall r e s, costs (write r e) s 1 1.
Proof.
  intros r e s. unfold write. apply (costs_bind _ _ _ _ _ 1 0 0 1); [apply costs_tick|]. intros u s1 _.
  exists 0, [e]. cbn [fst snd s_log s_map length]. repeat split; auto. apply dset_size.
Qed.
Lemma costs_store : forall n s, costs (store_node n) s 1 1.
Proof.
  intros n s. unfold store_node. apply (costs_bind _ _ _ _ _ 0 0 1 1); [apply costs_lift|]. intros r s1 _.
  destruct (length r =? 32); [|eapply costs_le; [apply costs_ret|lia|lia]].
  apply (costs_bind _ _ _ _ _ 0 0 1 1); [apply costs_lift|]. intros e s2 _.
  apply (costs_bind _ _ _ _ _ 1 1 0 0); [apply costs_write|]. intros u s3 _. apply costs_ret.
Qed.
Lemma costs_rd : forall r s, costs (rd_node r) s 1 0.
Proof.
  intros r s. unfold rd_node. apply (costs_bind _ _ _ _ _ 1 0 0 0).
  - destruct (length r =? 32); [apply costs_tick|eapply costs_le; [apply costs_ret|lia|lia]].
  - intros u s1 _. exact (costs_pure _ (fun m _ => get_node m r) s1).
Qed.

(** A read leaves the storage alone. *)
Lemma rd_same : forall r s n s1, rd_node r s = (Ok n, s1) -> s_map s1 = s_map s /\ get_node (s_map s) r = Ok n.
Proof.
  intros r s n s1 E. unfold rd_node, mbind, tick, ret in E. destruct (length r =? 32).
  - destruct (s_faults s) as [|[|] fs]; [|discriminate|]; injection E as E1 <-; auto.
  - injection E as E1 <-. auto.
Qed.
Lemma rd_match : forall t s n s1, t <> TEmpty -> wf t -> small t -> stored (s_map s) t ->
  rd_node (tref t) s = (Ok n, s1) -> nmatch n t /\ s_map s1 = s_map s.
Proof.
  intros t s n s1 Hn Hw Hs St E. apply rd_same in E. destruct E as [E1 E2].
  destruct (get_node_stored keccak_len (s_map s) t Hn Hw Hs (here_of_stored _ _ St)) as (n' & E & Hm). split; [congruence|exact E1].
Qed.

Lemma costs_branch_leaf : forall p v bs s, costs (create_branch_leaf p v bs) s (min 1 (np_len p)) (min 1 (np_len p)).
Proof.
  intros p v bs s. unfold create_branch_leaf. destruct (Nat.ltb_spec 0 (np_len p)) as [L|L].
  - replace (min 1 (np_len p)) with (1 + 0) by lia. apply costs_bind; [apply costs_store|]. intros. apply costs_ret.
  - eapply costs_le; [apply costs_ret|lia|lia].
Qed.
Lemma costs_branch_node : forall a va b vb s, costs (create_branch_node a va b vb) s (min 1 (np_len a) + 2) (min 1 (np_len a) + 2).
Proof.
  intros a va b vb s. unfold create_branch_node. destruct ((np_len a =? 0) && (np_len b =? 0)); [eapply costs_le; [apply costs_raise|lia|lia]|].
  apply costs_bind; [apply costs_branch_leaf|]. intros bs s1 _.
  apply (costs_bind _ _ _ _ _ 1 1 1 1); [eapply costs_le; [apply costs_branch_leaf|lia|lia]|]. intros. apply costs_store.
Qed.
Lemma costs_branch_extension : forall p nr bs s, costs (create_branch_extension p nr bs) s 1 1.
Proof.
  intros p nr bs s. unfold create_branch_extension. destruct (np_len p <? 1); [eapply costs_le; [apply costs_raise|lia|lia]|].
  destruct (np_len p =? 1); [eapply costs_le; [apply costs_ret|lia|lia]|].
  apply (costs_bind _ _ _ _ _ 1 1 0 0); [apply costs_store|]. intros. apply costs_ret.
Qed.
Lemma costs_wrap : forall c br s, costs (if np_len c =? 0 then ret br else store_node (Extension c br)) s (min 1 (np_len c)) (min 1 (np_len c)).
Proof.
  intros c br s. destruct (Nat.eqb_spec (np_len c) 0) as [E|E]; [eapply costs_le; [apply costs_ret|lia|lia]|].
  eapply costs_le; [apply costs_store|lia|lia].
Qed.

Lemma len_consume : forall p n, np_len (np_consume p n) = np_len p - n.
Proof. intros p n. rewrite !np_len_spec, nibs_consume, skipn_length. reflexivity. Qed.
Lemma common_le : forall a b, np_len (np_common_prefix a b) <= np_len a.
Proof.
  intros a b. rewrite !np_len_spec, nibs_common_prefix. apply lcp_len_l.
Qed.

Lemma costs_update : forall fuel t path v s, wf t -> small t -> stored (s_map s) t ->
  costs (update_ fuel (tref t) path v) s (2 * np_len path + 3) (np_len path + 2).
Proof.
  induction fuel as [|f IH]; intros t path v s Hw Hs St; cbn [update_]; [eapply costs_le; [apply costs_raise|lia|lia]|].
  destruct (ref_is_empty (tref t)) eqn:Er; [eapply costs_le; [apply costs_store|lia|lia]|].
  assert (Hn : t <> TEmpty) by (intros ->; discriminate).
  eapply costs_le; [apply (costs_bind _ _ _ _ _ 1 0 (2 * np_len path + 2) (np_len path + 2)); [apply costs_rd|]|lia|lia].
  intros n s1 E. destruct (rd_match t s n s1 Hn Hw Hs St E) as [Hm Em].
  destruct n as [lp d|ep nr|bs d], t as [|q w|q c|cs w]; cbn [nmatch] in Hm; try contradiction.
  - destruct (np_eq lp path); [eapply costs_le; [apply costs_store|lia|lia]|]. pose proof (common_le path lp) as Lc.
    set (c := np_common_prefix path lp) in *.
    assert (Ln : np_len (np_consume path (np_len c)) = np_len path - np_len c) by apply len_consume.
    eapply costs_le; [apply costs_bind; [apply costs_branch_node|]; intros br s2 _; apply costs_wrap|lia|lia].
  - destruct Hm as [Ep ->]. destruct Hw as (Hq & Hq0 & Hb & Hwc). destruct (np_starts_with path ep) eqn:Esw.
    + rewrite np_starts_with_spec in Esw. destruct (strip (nibs ep) (nibs path)) as [z|] eqn:Es; [|discriminate].
      apply strip_spec in Es. assert (Lp : np_len path = np_len ep + length z) by (rewrite !np_len_spec, Es, app_length; reflexivity).
      assert (L1 : 1 <= np_len ep) by (rewrite np_len_spec, Ep; destruct q; [contradiction|cbn; lia]).
      assert (Ln : np_len (np_consume path (np_len ep)) = length z) by (rewrite len_consume; lia).
      eapply costs_le; [apply costs_bind; [apply IH; [exact Hwc|eapply small_ext; eauto|rewrite Em; apply stored_ext in St; apply St]|];
        intros nr s2 _; apply costs_store|lia|lia].
    + pose proof (common_le path ep) as Lc. set (k := np_common_prefix path ep) in *.
      assert (Ln : np_len (np_consume path (np_len k)) = np_len path - np_len k) by apply len_consume.
      eapply costs_le; [apply costs_bind; [apply costs_branch_leaf|]; intros b1 s2 _; apply costs_bind; [apply costs_branch_extension|]; intros b2 s3 _;
        apply costs_bind; [apply costs_store|]; intros br s4 _; apply costs_wrap|lia|lia].
  - destruct Hm as [-> ->]. destruct (Nat.eqb_spec (np_len path) 0) as [E0|E0]; [eapply costs_le; [apply costs_store|lia|lia]|].
    apply wf_branch in Hw as Hw'. rewrite nth_map_tref.
    assert (Ln : np_len (np_consume path 1) = np_len path - 1) by apply len_consume.
    eapply costs_le; [apply costs_bind; [apply IH; [apply wf_nth; apply Hw'|eapply small_nth; eauto|rewrite Em; apply stored_nth; apply stored_branch in St; apply St]|];
      intros nr s2 _; apply costs_store|lia|lia].
Qed.

(** What a deletion costs, by what it reports to its caller. *)
Definition dcost (n : nat) (r : result daction) (j w : nat) : Prop :=
  match r with
  | Ok DDeleted => j <= n + 1 /\ w = 0
  | Ok (DUseless _ _) => j <= n + 3 /\ w <= 1
  | _ => j <= 2 * n + 4 /\ w <= n + 1
  end.

Lemma costs_build : forall bs s, costsr (build_new_node bs) s
  (fun r j w => j <= 2 /\ w <= 1 /\ match r with Ok (DUseless _ _) | Err _ => True | _ => False end).
Proof.
  intros bs s. unfold build_new_node. eapply costsr_bind; [apply costs_rd|cbn; lia|]. intros n s1 _.
  destruct n; (eapply costsr_bind; [apply costs_store|cbn; intros; split; [|split]; auto; lia|]; intros r s2 _; apply costsr_ret; cbn; intros; split; [|split]; auto; lia).
Qed.
Lemma costs_branch_deleted : forall bs d s, costsr (branch_deleted bs d) s
  (fun r j w => match r with Ok DDeleted => j = 0 /\ w = 0 | Ok (DUseless _ _) | Err _ => j <= 2 /\ w <= 1 | Ok (DUpdated _) => j <= 1 /\ w <= 1 end).
Proof.
  intros bs d s. unfold branch_deleted.
  destruct ((count_slots bs =? 0) && (length d =? 0)); [apply costsr_ret; auto|].
  destruct ((count_slots bs =? 0) && negb (length d =? 0)).
  { eapply costsr_bind; [apply costs_store|cbn; lia|]. intros r s1 _. apply costsr_ret. cbn. lia. }
  destruct ((count_slots bs =? 1) && (length d =? 0)).
  { eapply costsr_imp; [apply costs_build|]. cbn. intros [[| |]|] j w; tauto. }
  eapply costsr_bind; [apply costs_store|cbn; lia|]. intros r s1 _. apply costsr_ret. cbn. lia.
Qed.

Ltac dcase := let r := fresh in intros r ? ?; destruct r as [[| |]|]; cbn; lia.
Lemma costs_delete : forall fuel t path s, wf t -> small t -> stored (s_map s) t -> t <> TEmpty ->
  costsr (delete_ fuel (tref t) path) s (dcost (np_len path)).
Proof.
  induction fuel as [|f IH]; intros t path s Hw Hs St Hn; cbn [delete_]; [apply costsr_raise; cbn; lia|].
  eapply costsr_bind; [apply costs_rd|cbn; lia|].
  intros n s1 E. destruct (rd_match t s n s1 Hn Hw Hs St E) as [Hm Em].
  destruct n as [lp d|ep nr|bs d], t as [|q w|q c|cs w]; cbn [nmatch] in Hm; try contradiction.
  - destruct (np_eq path lp); [apply costsr_ret|apply costsr_raise]; cbn; lia.
  - destruct Hm as [Ep ->]. destruct Hw as (Hq & Hq0 & Hb & Hwc). destruct (np_starts_with path ep) eqn:Esw; [|apply costsr_raise; cbn; lia].
    rewrite np_starts_with_spec in Esw. destruct (strip (nibs ep) (nibs path)) as [z|] eqn:Es; [|discriminate].
    apply strip_spec in Es. assert (Lp : np_len path = np_len ep + length z) by (rewrite !np_len_spec, Es, app_length; reflexivity).
    assert (L1 : 1 <= np_len ep) by (rewrite np_len_spec, Ep; destruct q; [contradiction|cbn; lia]).
    assert (Ln : np_len (np_consume path (np_len ep)) = length z) by (rewrite len_consume; lia).
    assert (Hc : c <> TEmpty) by (intros ->; contradiction).
    apply stored_ext in St. eapply costsr_bind; [apply IH; [exact Hwc|eapply small_ext; eauto|rewrite Em; apply St|exact Hc]|rewrite Ln; cbn; lia|].
    rewrite Ln. intros [|r1|sp sr] s2 _.
    + apply costsr_ret. cbn. lia.
    + eapply costsr_bind; [apply costs_store|cbn; lia|]. intros r2 s3 _. apply costsr_ret. cbn. lia.
    + eapply costsr_bind; [apply costs_rd|cbn; lia|]. intros ch s3 _. eapply costsr_bind; [apply costs_store|cbn; lia|].
      intros r2 s4 _. apply costsr_ret. cbn. lia.
  - destruct Hm as [-> ->]. destruct ((np_len path =? 0) && (length w =? 0)); [apply costsr_raise; cbn; lia|].
    destruct (Nat.eqb_spec (np_len path) 0) as [E0|E0]; [eapply costsr_imp; [apply costs_branch_deleted|]; rewrite E0; dcase|].
    destruct (length (nth (np_at path 0) (map tref cs) []) =? 0) eqn:Ez; [apply costsr_raise; cbn; lia|].
    apply wf_branch in Hw as Hw'. rewrite nth_map_tref in *.
    assert (Ln : np_len (np_consume path 1) = np_len path - 1) by apply len_consume.
    eapply costsr_bind; [apply IH; [apply wf_nth; apply Hw'|eapply small_nth; eauto|rewrite Em; apply stored_nth; apply stored_branch in St; apply St|intros X; rewrite X in Ez; discriminate]
      |rewrite Ln; cbn; lia|].
    rewrite Ln. intros [|r1|sp sr] s2 _.
    + eapply costsr_imp; [apply costs_branch_deleted|]. dcase.
    + eapply costsr_bind; [apply costs_store|cbn; lia|]. intros r2 s3 _. apply costsr_ret. cbn. lia.
    + eapply costsr_bind; [apply costs_store|cbn; lia|]. intros r2 s3 _. apply costsr_ret. cbn. lia.
Qed.

Lemma run_bounded : forall A t (m : M A) nr a b, (forall fl, costs m (mkStore (m_map t) (m_log t) fl) a b) ->
  bounded (fun fl => run_op t fl m nr) t a b.
Proof.
  intros A t m nr a b C. split.
  - intros fl fl' Al. destruct (C fl) as (j & w & [Lj _] & _ & _ & F).
    specialize (F fl'). cbn [s_faults] in F. unfold with_faults in F at 1. cbn [s_map s_log] in F.
    unfold run_op. rewrite F by (intros i Hi; symmetry; apply Al; lia).
    destruct (m (mkStore (m_map t) (m_log t) fl)) as [[x|e] s1]; reflexivity.
  - intros fl res t' E. destruct (C fl) as (j & w & [_ Lw] & Lg & Lm & _). unfold run_op in E.
    destruct (m (mkStore (m_map t) (m_log t) fl)) as [[x|e] s1]; injection E as <- <-; cbn [fst snd m_map m_log s_map s_log] in *;
      (split; [lia|exists w; auto]).
Qed.

Theorem update_cost : forall secure l t k v lim, reachable secure l t ->
  bounded (fun fl => mpt_update lim fl t k v) t (2 * frames secure k + 3) (frames secure k + 2).
Proof.
  intros secure l t k v lim R. destruct (reachable_repr keccak_len _ _ _ R) as (Es & tr & Rt & _).
  destruct Rt as (Hw & Hs & St & _ & _ & Hr & _). apply run_bounded. intros fl.
  assert (Ln : np_len (np_of (eff_key t k)) = frames secure k).
  { rewrite np_len_spec, nibs_np_of, nibs_of_length, eff_key_eff, Es, (eff_frames keccak_len). reflexivity. }
  destruct Hr as [[-> Hr]|[Hn Hr]].
  - destruct lim as [|f]; cbn [update_]; [eapply costs_le; [apply costs_raise|lia|lia]|].
    replace (ref_is_empty (root_ref t)) with true; [eapply costs_le; [apply costs_store|lia|lia]|].
    unfold root_ref. destruct Hr as [-> | ->]; [reflexivity|]. unfold ref_is_empty. rewrite bytes_eqb_refl. destruct EMPTY_HASH; reflexivity.
  - unfold root_ref. rewrite Hr, <- Ln. apply costs_update; auto.
Qed.

Theorem delete_cost : forall secure l t k lim, reachable secure l t ->
  bounded (fun fl => mpt_delete lim fl t k) t (2 * frames secure k + 4) (frames secure k + 1).
Proof.
  intros secure l t k lim R. destruct (reachable_repr keccak_len _ _ _ R) as (Es & tr & Rt & _).
  destruct Rt as (Hw & Hs & St & _ & _ & Hr & _).
  assert (Ln : np_len (np_of (eff_key t k)) = frames secure k).
  { rewrite np_len_spec, nibs_np_of, nibs_of_length, eff_key_eff, Es, (eff_frames keccak_len). reflexivity. }
  unfold mpt_delete. destruct (root_is_empty t) eqn:Er.
  - split; [auto|]. intros fl res t' E. injection E as <- <-. split; [lia|]. exists []. split; [cbn; lia|reflexivity].
  - apply run_bounded. intros fl. destruct Hr as [[-> Hr]|[Hn Hr]].
    + exfalso. revert Er. unfold root_is_empty. destruct Hr as [-> | ->]; [discriminate|]. rewrite ?bytes_eqb_refl, ?orb_true_r. discriminate.
    + unfold root_ref. rewrite Hr, <- Ln. eapply costsr_imp; [apply costs_delete; auto|].
      intros [[| |]|] j w; cbn; lia.
Qed.
End C.
