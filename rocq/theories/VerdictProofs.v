(** Verification answers or raises exactly what SpecVerdict.v says. *)
From Coq Require Import List Bool Arith NArith ZArith Lia.
From Verif Require Import Base BaseProofs Rlp RlpProofs NibblePath NibbleProofs Node ProofObj Mpt SpecCodec CodecProofs SpecRlp RlpExact DecodeExact Malleable SpecAccept AcceptProofs SpecVerdict.
Import ListNotations.

(** ** Reading a node *)
Lemma usage_total : forall b l, rlp_form b (IList l) -> Forall (fun i => exists r, prep_usage i = Ok r) l.
Proof.
  intros b l F. apply (proj1 form_renc) in F as [-> B]. cbn [payload] in B. apply Forall_forall. intros i I. destruct i as [s|k]; [eexists; reflexivity|].
  cbn [prep_usage]. exists (renc (IList k)). unfold rlp_encode. replace (blen (payload (IList k)) <? 2 ^ 64)%N with true; [reflexivity|]. symmetry. apply N.ltb_lt.
  apply in_split in I as (l1 & l2 & ->). rewrite flat_map_app in B. cbn [flat_map] in B. unfold blen in *. rewrite !app_length in B.
  assert (length (payload (IList k)) <= length (renc (IList k))) by (cbn [renc payload]; rewrite app_length; lia). lia.
Qed.
Lemma mapM_total : forall is, Forall (fun i => exists r, prep_usage i = Ok r) is -> exists rs, mapM prep_usage is = Ok rs.
Proof.
  induction 1 as [|i is [r E] _ [rs IH]]; cbn [mapM]; [eauto|]. rewrite E. cbn [bind]. rewrite IH. cbn [bind]. eauto.
Qed.
Theorem decode_raises : forall b e, node_decode b = Err e <-> node_fault b e.
Proof.
  intros b e. split.
  - unfold node_decode. destruct (rlp_decode b) as [i|x] eqn:D; cbn [bind].
    2:{ intros X. injection X as <-. pose proof (rlp_decode_err _ _ D) as ->. apply fault_rlp. now apply decode_fails. }
    apply decode_form in D. destruct i as [s|l].
    + destruct ((length s =? 17) || (length s =? 2)) eqn:L; intros X; injection X as <-.
      * apply fault_string with s; [exact D|]. apply orb_true_iff in L as [L|L]; apply Nat.eqb_eq in L; auto.
      * apply orb_false_iff in L as [L1 L2]. apply Nat.eqb_neq in L1, L2. now apply fault_string_length with s.
    + pose proof (usage_total b l D) as U. destruct (Nat.eqb_spec (length l) 17) as [L|L].
      * destruct (mapM_total (firstn 16 l)) as [rs Er]; [apply Forall_forall; intros i I; apply (proj1 (Forall_forall _ _) U); rewrite <- (firstn_skipn 16 l); apply in_or_app; auto|].
        rewrite Er. cbn [bind]. destruct (nth 16 l (IBytes [])) as [v|k] eqn:N; [discriminate|]. intros X. injection X as <-.
        apply fault_branch_value with (firstn 16 l) k; [|apply firstn_length_le; lia].
        replace (firstn 16 l ++ [IList k]) with l; [exact D|]. rewrite <- (firstn_skipn 16 l) at 1. f_equal. rewrite <- N.
        clear -L. do 17 (destruct l as [|? l]; [discriminate L|]). destruct l; [reflexivity|discriminate L].
      * destruct l as [|a [|c [|]]]; try (intros X; injection X as <-; eapply fault_count; [exact D|cbn; lia|exact L]).
        destruct a as [d|[|y k]].
        -- destruct (np_decode_with_type d) as [[p leaf]|x] eqn:P; cbn [bind].
           ++ destruct leaf.
              ** destruct c as [v|k]; [discriminate|]. intros X. injection X as <-. apply fault_leaf_value with d (path_nibbles p) k; [exact D|].
                 apply decode_path_read. exists p. auto.
              ** inversion U as [|? ? _ U']; subst. inversion U' as [|? ? [r Ec] _]; subst. rewrite Ec. discriminate.
           ++ destruct d as [|f d]; [|discriminate]. injection P as <-. intros X. injection X as <-. apply fault_no_path with (IBytes []) c; auto.
        -- intros X. injection X as <-. apply fault_no_path with (IList []) c; auto.
        -- intros X. injection X as <-. now apply fault_path with y k c.
  - unfold node_decode. intros F. destruct F as [b N|b s D L|b s D L1 L2|b l D L1 L2|b is l D L|b a i D A|b x l i D|b h q l D R].
    + apply decode_fails in N. now rewrite N.
    + apply decode_form in D. rewrite D. cbn [bind]. destruct L as [-> | ->]; reflexivity.
    + apply decode_form in D. rewrite D. cbn [bind]. apply Nat.eqb_neq in L1, L2. now rewrite L1, L2.
    + apply decode_form in D. rewrite D. cbn [bind]. apply Nat.eqb_neq in L2. rewrite L2. destruct l as [|a [|c [|]]]; try reflexivity. elim L1. reflexivity.
    + pose proof (usage_total _ _ D) as U. apply decode_form in D. rewrite D. cbn [bind]. rewrite app_length, L. cbn [length Nat.add Nat.eqb].
      replace (firstn 16 (is ++ [IList l])) with is by (rewrite firstn_app, L, Nat.sub_diag, firstn_O, app_nil_r; symmetry; apply firstn_all2; lia).
      apply Forall_app in U as [U _]. destruct (mapM_total is U) as [rs Er]. rewrite Er. cbn [bind]. rewrite app_nth2 by lia. rewrite L. reflexivity.
    + apply decode_form in D. rewrite D. cbn [bind length Nat.eqb]. destruct A as [-> | ->]; reflexivity.
    + apply decode_form in D. rewrite D. reflexivity.
    + apply decode_form in D. rewrite D. cbn [bind length Nat.eqb]. apply decode_path_read in R as (p & E & _). rewrite E. reflexivity.
Qed.
Lemma fault_no_read : forall b e n, node_fault b e -> node_read b n -> False.
Proof. intros b e n F R. apply decode_raises in F. apply node_decode_exact in R as (n' & E & _). congruence. Qed.

(** ** Writing it again *)
Lemma bad_ref_err : forall r e, prep_encoding r = Err e <-> bad_ref r /\ e = DecodingError.
Proof.
  intros r e. unfold prep_encoding, bad_ref. destruct ((0 <? length r) && (length r <? 32)) eqn:L.
  - apply andb_true_iff in L as [L1 L2]. apply Nat.ltb_lt in L1, L2. split.
    + intros X. pose proof (rlp_decode_err _ _ X) as ->. split; [split; [lia|]|reflexivity]. now apply decode_fails.
    + intros [[_ N] ->]. now apply decode_fails.
  - split; [discriminate|]. intros [[L' _] _]. apply andb_false_iff in L as [L|L]; apply Nat.ltb_ge in L; lia.
Qed.
Lemma mapM_err : forall rs e, mapM prep_encoding rs = Err e <-> (exists r, In r rs /\ bad_ref r) /\ e = DecodingError.
Proof.
  induction rs as [|r rs IH]; intros e; cbn [mapM].
  - split; [discriminate|]. intros [(r & [] & _) _].
  - destruct (prep_encoding r) as [i|x] eqn:E; cbn [bind].
    + destruct (mapM prep_encoding rs) as [is|x] eqn:M; cbn [bind].
      * split; [discriminate|]. intros [(r' & [<-|I] & B) ->].
        -- assert (X : prep_encoding r = Err DecodingError) by (apply bad_ref_err; auto). congruence.
        -- assert (X : @Ok (list item) is = Err DecodingError) by (apply IH; eauto). discriminate.
      * split.
        -- intros X. injection X as <-. destruct (proj1 (IH x) eq_refl) as [(r' & I & B) ->]. split; [exists r'; cbn; auto|reflexivity].
        -- intros [(r' & [<-|I] & B) ->].
           ++ assert (X : prep_encoding r = Err DecodingError) by (apply bad_ref_err; auto). congruence.
           ++ apply IH. eauto.
    + apply bad_ref_err in E as [B ->]. split; [intros X; injection X as <-; split; [exists r; cbn; auto|reflexivity]|intros [_ ->]; reflexivity].
Qed.
Lemma encode_raises : forall n e, node_encode n = Err e <->
  (exists r, In r (refs_in n) /\ bad_ref r) /\ e = DecodingError \/ (forall r, In r (refs_in n) -> ~ bad_ref r) /\ (forall b, ~ node_write n b) /\ e = ValueError.
Proof.
  intros n e.
  assert (G : forall b, ~ node_write n b <-> node_encode n <> Ok b) by (intros b; rewrite node_encode_exact; tauto).
  destruct n as [p v|p r|rs v]; cbn [node_encode refs_in] in *.
  - split.
    + intros E. right. split; [intros r []|]. split; [intros b; apply G; rewrite E; discriminate|]. unfold rlp_encode in E. destruct (_ <? _)%N; [discriminate|congruence].
    + intros [[(r & [] & _) _]|(_ & N & ->)]. destruct (rlp_encode _) as [b|x] eqn:E; [elim (proj1 (G b) (N b)); reflexivity|].
      unfold rlp_encode in E. destruct (_ <? _)%N; [discriminate|congruence].
  - destruct (prep_encoding r) as [i|x] eqn:E; cbn [bind] in *.
    + assert (B : ~ bad_ref r) by (intros B; assert (X : prep_encoding r = Err DecodingError) by (apply bad_ref_err; auto); congruence).
      split.
      * intros X. right. split; [intros r' [<-|[]]; exact B|]. split; [intros b; apply G; rewrite X; discriminate|]. unfold rlp_encode in X. destruct (_ <? _)%N; [discriminate|congruence].
      * intros [[(r' & [<-|[]] & B') _]|(_ & N & ->)]; [contradiction|]. destruct (rlp_encode _) as [b|x] eqn:X; [elim (proj1 (G b) (N b)); reflexivity|].
        unfold rlp_encode in X. destruct (_ <? _)%N; [discriminate|congruence].
    + apply bad_ref_err in E as [B ->]. split; [intros X; injection X as <-; left; split; [exists r; cbn; auto|reflexivity]|].
      intros [[_ ->]|(N & _)]; [reflexivity|]. elim (N r); [cbn; auto|exact B].
  - destruct (mapM prep_encoding rs) as [is|x] eqn:E; cbn [bind] in *.
    + assert (B : forall r, In r rs -> ~ bad_ref r) by (intros r I B; assert (X : mapM prep_encoding rs = Err DecodingError) by (apply mapM_err; eauto); congruence).
      split.
      * intros X. right. split; [exact B|]. split; [intros b; apply G; rewrite X; discriminate|]. unfold rlp_encode in X. destruct (_ <? _)%N; [discriminate|congruence].
      * intros [[(r' & I & B') _]|(_ & N & ->)]; [elim (B r' I B')|]. destruct (rlp_encode _) as [b|x] eqn:X; [elim (proj1 (G b) (N b)); reflexivity|].
        unfold rlp_encode in X. destruct (_ <? _)%N; [discriminate|congruence].
    + apply mapM_err in E as [B ->]. split; [intros X; injection X as <-; left; auto|].
      intros [[_ ->]|(N & _)]; [reflexivity|]. destruct B as (r & I & B). elim (N r I B).
Qed.
Lemma same_refs : forall n n', same_node n n' -> refs_in n = refs_in n'.
Proof. intros [] []; cbn; try contradiction; try reflexivity; intros [? ?]; congruence. Qed.
Lemma same_write : forall n n' b, same_node n n' -> node_write n b -> node_write n' b.
Proof. intros n n' b S W. apply node_encode_exact in W. apply node_encode_exact. now rewrite <- (same_node_encode _ _ S). Qed.
Lemma same_sym : forall n n', same_node n n' -> same_node n' n.
Proof. intros [] []; cbn; try contradiction; intros [? ?]; split; congruence. Qed.

Local Open Scope res_scope.
Section S.
Context {H : Hash}.
Lemma text_raises : forall d b e, store_proof_node d (PB b) = Err e <-> text_fault b e.
Proof.
  intros d b e. cbn [store_proof_node]. unfold into_reference. split.
  - destruct (node_decode b) as [n|x] eqn:D; cbn [bind]; [|intros X; injection X as <-; apply fault_read; now apply decode_raises].
    apply read_of in D. destruct (node_encode n) as [w|x] eqn:E; cbn [bind]; [discriminate|]. intros X. injection X as <-.
    apply encode_raises in E as [[(r & I & B) ->]|(N & W & ->)]; [eapply fault_ref; eauto|eapply fault_size; eauto].
  - intros F. destruct F as [b e F|b n r R I B|b n R N W].
    + apply decode_raises in F. now rewrite F.
    + apply node_decode_exact in R as (n' & -> & S). cbn [bind]. rewrite (proj2 (encode_raises n' DecodingError)); [reflexivity|]. left. split; [|reflexivity]. exists r. rewrite <- (same_refs _ _ S). auto.
    + apply node_decode_exact in R as (n' & -> & S). cbn [bind]. rewrite (proj2 (encode_raises n' ValueError)); [reflexivity|]. right.
      rewrite <- (same_refs _ _ S). split; [exact N|]. split; [|reflexivity]. intros w X. apply (W w). apply (same_write n'); [now apply same_sym|exact X].
Qed.
Lemma elem_raises : forall d x e, store_proof_node d x = Err e <-> elem_fault x e.
Proof.
  intros d [b|a b] e.
  - rewrite text_raises. split; [apply fault_text|intros X; now inversion X].
  - cbn [store_proof_node]. split; [intros X; injection X as <-; constructor|intros X; now inversion X].
Qed.
Lemma ref_no_fault : forall b e, has_ref b -> elem_fault (PB b) e -> False.
Proof. intros b e R F. apply (elem_raises []) in F. apply has_refof in R as [r R]. rewrite (proj2 (store_ok [] (PB b) (dset [] r b))) in F by eauto. discriminate. Qed.
Lemma poe_storage_raises : forall pl d e, poe_storage pl d = Err e <-> first_fault pl e.
Proof.
  unfold first_fault. induction pl as [|x pl IH]; intros d e; cbn [poe_storage].
  - split; [discriminate|]. intros ([|] & x & rest & E & _); discriminate.
  - destruct (store_proof_node d x) as [d'|y] eqn:S; cbn [bind].
    + apply store_ok in S as (b & r & -> & R & ->). rewrite IH. assert (Hb : has_ref b) by (apply has_refof; eauto). split.
      * intros (l & x & rest & -> & F & X). exists (b :: l), x, rest. split; [reflexivity|]. split; [now constructor|exact X].
      * intros ([|b' l] & x & rest & E & F & X).
        -- cbn [map app] in E. injection E as <- <-. elim (ref_no_fault _ _ Hb X).
        -- cbn [map app] in E. injection E as <- ->. inversion F; subst. eauto 6.
    + apply elem_raises in S. split.
      * intros X. injection X as <-. exists [], x, pl. split; [reflexivity|]. split; [constructor|exact S].
      * intros ([|b' l] & x' & rest & E & F & X).
        -- cbn [map app] in E. injection E as <- <-. apply (elem_raises d) in S, X. congruence.
        -- cbn [map app] in E. injection E as -> ->. inversion F; subst. exfalso. eapply ref_no_fault; eauto.
Qed.
Lemma poi_poe_storage : forall pl d, poi_storage pl d = match poe_storage pl d with Ok d' => Ok (Some d') | Err DecodingError => Ok None | Err e => Err e end.
Proof.
  induction pl as [|x pl IH]; intros d; cbn [poi_storage poe_storage]; [reflexivity|]. destruct (store_proof_node d x) as [d'|y]; cbn [bind]; [apply IH|]. destruct y; reflexivity.
Qed.

(** ** The walk for inclusion *)
Theorem goes_exact : forall l lim r path v, verify_poi_ lim (files l) r path = v <-> goes l lim r (nibs path) v.
Proof.
  intros l lim. induction lim as [|f IH]; intros r path v.
  - cbn [verify_poi_]. split; [intros <-; constructor|intros X; now inversion X].
  - cbn [verify_poi_]. fold (raw (files l) r). split.
    + destruct (raw (files l) r) as [b|] eqn:Er.
      2:{ intros <-. unfold raw in Er. destruct (Nat.eqb_spec (length r) 32) as [L|L]; [|discriminate]. apply goes_missing; [exact L|now apply files_none]. }
      apply raw_text in Er. destruct (node_decode b) as [n|] eqn:En; cbn [bind]; [|intros <-; eapply goes_fault; [exact Er|now apply decode_raises]]. apply read_of in En.
      destruct (np_len path =? 0) eqn:E0.
      * apply len0 in E0. rewrite E0. intros <-. destruct n as [p w|p s|rs w]; [eapply goes_end; eauto; discriminate|eapply goes_end_ext; eauto|eapply goes_end; eauto; discriminate].
      * assert (Ne : nibs path <> []) by (intros X; apply len0 in X; congruence). destruct n as [lp w|ep s|rs w].
        -- intros <-. destruct (np_eq lp path) eqn:X.
           ++ apply np_eq_spec in X. rewrite <- X. eapply goes_leaf; eauto. change path_nibbles with nibs. congruence.
           ++ eapply goes_other_leaf; eauto. intros Y. change path_nibbles with nibs in Y. apply np_eq_spec in Y. congruence.
        -- destruct (np_starts_with path ep) eqn:Es; rewrite np_starts_with_spec in Es; destruct (strip (nibs ep) (nibs path)) as [z|] eqn:Ez; try discriminate.
           ++ intros X. apply IH in X. rewrite (np_starts_with_skip _ _ _ Ez) in X. apply strip_spec in Ez. rewrite Ez in *. eapply goes_ext; eauto.
           ++ intros <-. eapply goes_off; eauto. intros z Y. change path_nibbles with nibs in Y. apply strip_spec in Y. congruence.
        -- destruct (nibs path) as [|i q] eqn:Ep; [contradiction|]. rewrite np_at_spec, Ep. cbn [nth]. destruct (0 <? length (nth i rs [])) eqn:Ez.
           ++ intros X. apply IH in X. rewrite nibs_consume, Ep in X. cbn [skipn] in X. eapply goes_branch; eauto. intros Y. rewrite Y in Ez. discriminate.
           ++ intros <-. eapply goes_empty_slot; eauto. destruct (nth i rs []); [reflexivity|discriminate].
    + intros X. inversion X as [|? ? ? L N|? ? ? b e T F|? ? b x T R N|? ? b p s T R|? ? b p w T R N|? ? ? b p w T R N N'|? ? b p s q ? T R N G|? ? b p s ? T R N N'|? ? b rs x i q ? T R N G|? ? b rs x i q T R N]; subst;
        try (apply raw_text in T; rewrite T); try match goal with Q : _ = nibs path |- _ => rename Q into Eq end.
      * unfold raw. rewrite L. cbn [Nat.eqb]. rewrite (proj2 (files_none l r) N). reflexivity.
      * apply decode_raises in F. now rewrite F.
      * apply node_decode_exact in R as (n' & -> & S). cbn [bind]. symmetry in Eq. apply len0 in Eq. rewrite Eq. destruct x, n'; cbn [same_node] in S; try contradiction; try reflexivity. exfalso; eapply N; reflexivity.
      * apply node_decode_exact in R as (n' & -> & S). cbn [bind]. symmetry in Eq. apply len0 in Eq. rewrite Eq. destruct n'; cbn [same_node] in S; try contradiction. reflexivity.
      * apply node_decode_exact in R as (n' & -> & S). cbn [bind]. destruct n' as [lp w'| |]; cbn [same_node] in S; try contradiction. change path_nibbles with nibs in *. destruct S as [S _].
        destruct (np_len path =? 0) eqn:E0; [reflexivity|]. f_equal. apply np_eq_spec. congruence.
      * apply node_decode_exact in R as (n' & -> & S). cbn [bind]. destruct n' as [lp w'| |]; cbn [same_node] in S; try contradiction. change path_nibbles with nibs in *. destruct S as [S _].
        destruct (np_len path =? 0) eqn:E0; [apply len0 in E0; contradiction|]. f_equal. destruct (np_eq lp path) eqn:Y; [|reflexivity]. apply np_eq_spec in Y. congruence.
      * apply node_decode_exact in R as (n' & -> & S). cbn [bind]. destruct n' as [|ep s'|]; cbn [same_node] in S; try contradiction. change path_nibbles with nibs in *. destruct S as [S <-].
        rewrite Eq in N. destruct (np_len path =? 0) eqn:E0; [apply len0 in E0; contradiction|].
        assert (Ez : strip (nibs ep) (nibs path) = Some q) by (apply strip_spec; congruence).
        rewrite np_starts_with_spec, Ez. apply IH. rewrite (np_starts_with_skip _ _ _ Ez). exact G.
      * apply node_decode_exact in R as (n' & -> & S). cbn [bind]. destruct n' as [|ep s'|]; cbn [same_node] in S; try contradiction. change path_nibbles with nibs in *. destruct S as [S <-].
        destruct (np_len path =? 0) eqn:E0; [apply len0 in E0; contradiction|].
        rewrite np_starts_with_spec. destruct (strip (nibs ep) (nibs path)) as [z|] eqn:Ez; [|reflexivity]. apply strip_spec in Ez. elim (N' z). congruence.
      * apply node_decode_exact in R as (n' & -> & S). cbn [bind]. destruct n' as [| |rs' v']; cbn [same_node] in S; try contradiction. destruct S as [<- <-].
        destruct (np_len path =? 0) eqn:E0; [apply len0 in E0; congruence|]. symmetry in Eq.
        rewrite np_at_spec, Eq. cbn [nth]. destruct (nth i rs []) as [|y z] eqn:Ei; [contradiction|]. cbn [length Nat.ltb Nat.leb].
        apply IH. rewrite nibs_consume, Eq. exact G.
      * apply node_decode_exact in R as (n' & -> & S). cbn [bind]. destruct n' as [| |rs' v']; cbn [same_node] in S; try contradiction. destruct S as [<- <-].
        destruct (np_len path =? 0) eqn:E0; [apply len0 in E0; congruence|]. symmetry in Eq.
        rewrite np_at_spec, Eq. cbn [nth]. rewrite N. reflexivity.
Qed.

(** ** The beginning *)
Lemma no_root : forall t, root_is_empty t = true <-> forall r, ~ has_root t r.
Proof.
  intros t. split.
  - intros E r R. assert (X : root_is_empty t = false) by (apply root_some; exists r; split; [exact R|]; unfold root_ref; destruct R as [-> _]; reflexivity). congruence.
  - intros N. destruct (root_is_empty t) eqn:E; [reflexivity|]. apply root_some in E as (r & R & _). elim (N r R).
Qed.
Lemma root_of : forall t r, has_root t r -> root_is_empty t = false /\ root_ref t = r.
Proof. intros t r R. split; [apply root_some; exists r; split; [exact R|]|]; unfold root_ref; destruct R as [-> _]; reflexivity. Qed.
Definition begin (ty : bytes) (t : mpt) (p : proof) (k : bytes -> result bool) : result bool :=
  if negb (bytes_eqb (pf_type p) ty) then Err TypeError else if root_is_empty t then Err ValueError
  else h <- hash_first p ;; if negb (bytes_eqb (root_hash t) h) then Ok false else k (root_ref t).
Lemma begin_spec : forall ty t p k v, begin ty t p k = v <-> refused ty t p v \/ exists r, starts ty t p r /\ k r = v.
Proof.
  intros ty t p k v. unfold begin, starts. split.
  - destruct (bytes_eqb (pf_type p) ty) eqn:Ety; cbn [negb]; [|intros <-; left; constructor; intros X; apply bytes_eqb_iff in X; congruence]. apply bytes_eqb_eq in Ety.
    destruct (root_is_empty t) eqn:Er; [intros <-; left; apply refused_empty; [exact Ety|now apply no_root]|]. apply root_some in Er as (r & Hr & Err). rewrite Err.
    unfold hash_first. destruct (pf_proof p) as [|[b|a b] pl] eqn:Ep; cbn [bind]; [intros <-; left; eapply refused_no_elements; eauto| |intros <-; left; eapply refused_pair; eauto].
    destruct (bytes_eqb (root_hash t) (keccak b)) eqn:Ek; cbn [negb].
    + apply bytes_eqb_eq in Ek. intros X. right. exists r. split; [|exact X]. split; [exact Ety|]. split; [exact Hr|]. eauto.
    + intros <-. left. eapply refused_root; eauto. intros X. symmetry in X. apply bytes_eqb_iff in X. congruence.
  - intros [R|(r & (Ety & Hr & b & l & Ep & Ek) & X)].
    + destruct R as [N|Ety N|r Ety Hr Ep|r a b l Ety Hr Ep|r b l Ety Hr Ep Ek].
      * destruct (bytes_eqb (pf_type p) ty) eqn:E; [apply bytes_eqb_eq in E; contradiction|reflexivity].
      * rewrite Ety, bytes_eqb_refl. cbn [negb]. apply no_root in N. now rewrite N.
      * rewrite Ety, bytes_eqb_refl. cbn [negb]. destruct (root_of t r Hr) as [-> _]. unfold hash_first. now rewrite Ep.
      * rewrite Ety, bytes_eqb_refl. cbn [negb]. destruct (root_of t r Hr) as [-> _]. unfold hash_first. now rewrite Ep.
      * rewrite Ety, bytes_eqb_refl. cbn [negb]. destruct (root_of t r Hr) as [-> _]. unfold hash_first. rewrite Ep. cbn [bind].
        destruct (bytes_eqb (root_hash t) (keccak b)) eqn:E; [apply bytes_eqb_eq in E; congruence|reflexivity].
    + rewrite Ety, bytes_eqb_refl. cbn [negb]. destruct (root_of t r Hr) as [-> ->]. unfold hash_first. rewrite Ep. cbn [bind]. rewrite Ek, bytes_eqb_refl. exact X.
Qed.

Theorem inclusion_exact : forall lim t p v, mpt_verify_poi lim t p = v <-> inclusion_verdict lim t p v.
Proof.
  intros lim t p v.
  assert (G : mpt_verify_poi lim t p = begin MPT_POI t p (fun r => o <- poi_storage (pf_proof p) [] ;;
    match o with None => Ok false | Some ps => valid <- verify_poi_ lim ps r (np_of (pf_key p)) ;; Ok (valid && bytes_eqb (root_hash t) (pf_root p)) end)) by reflexivity.
  rewrite G, begin_spec. clear G. split.
  - intros [R|(r & S & X)]; [now apply iv_refused|]. rewrite poi_poe_storage in X. destruct (poe_storage (pf_proof p) []) as [ps|e] eqn:Es.
    + cbn [bind] in X. apply poe_storage_ok in Es as (l & El & F & ->). fold (files l) in X.
      destruct (verify_poi_ lim (files l) r (np_of (pf_key p))) as [w|e] eqn:Ev; cbn [bind] in X; apply goes_exact in Ev; rewrite nibs_np_of in Ev.
      * destruct w; cbn [andb] in X.
        -- destruct (bytes_eqb (root_hash t) (pf_root p)) eqn:Ek; subst v.
           ++ apply bytes_eqb_eq in Ek. eapply iv_accepted; eauto.
           ++ eapply iv_other_root; eauto. intros Y. symmetry in Y. apply bytes_eqb_iff in Y. congruence.
        -- subst v. eapply iv_walk; eauto. discriminate.
      * subst v. eapply iv_walk; eauto. discriminate.
    + apply poe_storage_raises in Es. destruct e; cbn [bind] in X; subst v; try (eapply iv_fault; [exact S|exact Es|discriminate]). eapply iv_undecodable; eauto.
  - intros V. destruct V as [v R|r S F|r e S F N|r l v S El F G N|r l S El F G N|r l S El F G N]; [left; exact R|..]; right; exists r; (split; [exact S|]); rewrite poi_poe_storage.
    + rewrite (proj2 (poe_storage_raises _ [] _) F). reflexivity.
    + rewrite (proj2 (poe_storage_raises _ [] _) F). destruct e; try reflexivity. contradiction.
    + rewrite (proj2 (poe_storage_ok (pf_proof p) [] (files l))) by (exists l; auto). cbn [bind].
      rewrite (proj2 (goes_exact l lim r (np_of (pf_key p)) v)) by (rewrite nibs_np_of; exact G). destruct v as [[|]|]; [contradiction|reflexivity|reflexivity].
    + rewrite (proj2 (poe_storage_ok (pf_proof p) [] (files l))) by (exists l; auto). cbn [bind].
      rewrite (proj2 (goes_exact l lim r (np_of (pf_key p)) (Ok true))) by (rewrite nibs_np_of; exact G). cbn [bind andb].
      destruct (bytes_eqb (root_hash t) (pf_root p)) eqn:Ek; [apply bytes_eqb_eq in Ek; congruence|reflexivity].
    + rewrite (proj2 (poe_storage_ok (pf_proof p) [] (files l))) by (exists l; auto). cbn [bind].
      rewrite (proj2 (goes_exact l lim r (np_of (pf_key p)) (Ok true))) by (rewrite nibs_np_of; exact G). cbn [bind andb]. rewrite N, bytes_eqb_refl. reflexivity.
Qed.

(** ** The walk for exclusion *)
Lemma left_raw : forall l seen ps r b, rest l seen ps -> (raw ps r = Some b <-> text_left l seen r b).
Proof.
  intros l seen ps r b [_ R]. unfold raw, text_left. destruct (Nat.eqb_spec (length r) 32) as [E|E].
  - rewrite R. tauto.
  - split; [intros X; injection X as <-; auto|intros [[X _]|[_ ->]]; [contradiction|reflexivity]].
Qed.
Theorem breaks_exact : forall l lim seen ps r path e, rest l seen ps -> (verify_poe_ lim ps r path = Err e <-> breaks l lim seen r (nibs path) e).
Proof.
  intros l lim. induction lim as [|f IH]; intros seen ps r path e R.
  - cbn [verify_poe_]. split; [intros X; injection X as <-; constructor|intros X; now inversion X].
  - cbn [verify_poe_]. fold (raw ps r). split.
    + destruct (raw ps r) as [b|] eqn:Er; [|discriminate]. pose proof Er as Er'. apply (left_raw l seen ps r b R) in Er'.
      destruct (node_decode b) as [n|] eqn:En; cbn [bind]; [|intros X; injection X as <-; eapply breaks_fault; [exact Er'|now apply decode_raises]]. apply read_of in En.
      destruct (dget ps r) as [b'|] eqn:Eg; [|intros X; injection X as <-; eapply breaks_unknown; eauto; now apply (rest_none l seen ps r R)]. cbv zeta.
      assert (Fr : fresh l seen r b) by (apply (rest_fresh l seen ps r b R); eauto). pose proof (rest_del l seen ps r R) as R1.
      destruct (np_len path =? 0) eqn:E0; [discriminate|]. assert (Ne : nibs path <> []) by (intros X; apply len0 in X; congruence).
      destruct n as [lp v|ep s|rs v]; [discriminate| |].
      * destruct (np_starts_with path ep) eqn:Es; rewrite np_starts_with_spec in Es; destruct (strip (nibs ep) (nibs path)) as [z|] eqn:Ez; try discriminate.
        intros X. apply (IH (r :: seen)) in X; [|exact R1]. rewrite (np_starts_with_skip _ _ _ Ez) in X. apply strip_spec in Ez. rewrite Ez in *. eapply breaks_ext; eauto.
      * destruct (nibs path) as [|i q] eqn:Ep; [contradiction|]. rewrite np_at_spec, Ep. cbn [nth]. destruct (0 <? length (nth i rs [])) eqn:Ez; [|discriminate].
        intros X. apply (IH (r :: seen)) in X; [|exact R1]. rewrite nibs_consume, Ep in X. cbn [skipn] in X. eapply breaks_branch; eauto. intros Y. rewrite Y in Ez. discriminate.
    + intros X. inversion X as [|? ? ? ? b ? T F|? ? ? ? b x T Rd N|? ? ? b p s q ? Fr Rd N B|? ? ? b rs v i q ? Fr Rd N B]; subst; try match goal with Q : _ = nibs path |- _ => rename Q into Eq end.
      * apply (left_raw l seen ps r b R) in T. rewrite T. apply decode_raises in F. now rewrite F.
      * apply (left_raw l seen ps r b R) in T. rewrite T. apply node_decode_exact in Rd as (n' & -> & _). cbn [bind]. rewrite (proj2 (rest_none l seen ps r R) N). reflexivity.
      * apply (rest_fresh l seen ps r b R) in Fr as [-> (b' & ->)]. apply node_decode_exact in Rd as (n' & -> & Sn). cbn [bind]. cbv zeta.
        destruct n' as [|ep s'|]; cbn [same_node] in Sn; try contradiction. change path_nibbles with nibs in *; destruct Sn as [Sn <-].
        rewrite Eq in N. destruct (np_len path =? 0) eqn:E0; [apply len0 in E0; contradiction|].
        assert (Ez : strip (nibs ep) (nibs path) = Some q) by (apply strip_spec; congruence).
        rewrite np_starts_with_spec, Ez. apply (IH (r :: seen)); [apply rest_del; exact R|]. rewrite (np_starts_with_skip _ _ _ Ez). exact B.
      * apply (rest_fresh l seen ps r b R) in Fr as [-> (b' & ->)]. apply node_decode_exact in Rd as (n' & -> & Sn). cbn [bind]. cbv zeta.
        destruct n' as [| |rs' v']; cbn [same_node] in Sn; try contradiction. destruct Sn as [<- <-].
        destruct (np_len path =? 0) eqn:E0; [apply len0 in E0; congruence|]. symmetry in Eq.
        rewrite np_at_spec, Eq. cbn [nth]. destruct (nth i rs []) as [|x y] eqn:Ei; [contradiction|]. cbn [length Nat.ltb Nat.leb].
        apply (IH (r :: seen)); [apply rest_del; exact R|]. rewrite nibs_consume, Eq. exact B.
Qed.

Lemma last_raises : forall pl x e, (n <- decode_last (pl ++ [x]) ;; node_data n) = Err e <-> last_fault x e.
Proof.
  intros pl x e. unfold decode_last. rewrite last_last. destruct x as [b|a b]; cbn [bind].
  2:{ split; [intros X; injection X as <-; constructor|intros X; now inversion X]. }
  destruct (node_decode b) as [n|y] eqn:D; cbn [bind].
  - apply read_of in D. split.
    + destruct n; cbn [node_data]; try discriminate. intros X. injection X as <-. eapply last_ext. exact D.
    + intros X. inversion X as [|? ? F|? p s R]; subst; [elim (fault_no_read _ _ _ F D)|].
      apply node_decode_exact in R as (n' & E & S). apply node_decode_exact in D as (n'' & E' & S'). assert (n'' = n') by congruence. subst n''.
      destruct n' ; cbn [same_node] in S; try contradiction. destruct n; cbn [same_node] in S'; try contradiction. reflexivity.
  - apply decode_raises in D. split; [intros X; injection X as <-; now apply last_node|]. intros X. inversion X as [|? ? F|? p s R]; subst.
    + apply decode_raises in D, F. congruence.
    + elim (fault_no_read _ _ _ D R).
Qed.
Lemma last_returns : forall pl x v, (n <- decode_last (pl ++ [x]) ;; node_data n) = Ok v <-> last_value x v.
Proof.
  intros pl x v. unfold decode_last, last_value. rewrite last_last. destruct x as [b|a b]; cbn [bind].
  2:{ split; [discriminate|]. intros (b' & X & _). discriminate. }
  split.
  - destruct (node_decode b) as [n|y] eqn:D; cbn [bind]; [|discriminate]. apply read_of in D.
    intros X. exists b. split; [reflexivity|]. destruct n; cbn [node_data] in X; [injection X as ->; eauto|discriminate|injection X as ->; eauto].
  - intros (b' & X & K). injection X as <-. destruct K as [(q & R)|(rs & R)]; apply node_decode_exact in R as (n' & E & S); rewrite E; cbn [bind];
      destruct n'; cbn [same_node] in S; try contradiction; destruct S as [_ <-]; reflexivity.
Qed.

Lemma starts_snoc : forall ty t p r, starts ty t p r -> pf_proof p = removelast (pf_proof p) ++ [last (pf_proof p) (PB [])].
Proof. intros ty t p r (_ & _ & b & l & -> & _). apply app_removelast_last. discriminate. Qed.

Theorem exclusion_exact : forall lim t p v, mpt_verify_poe lim t p = v <-> exclusion_verdict lim t p v.
Proof.
  intros lim t p v.
  set (k := fun (pl : list pelem) (r : bytes) => ps <- poe_storage pl [] ;;
        '(n, rest) <- verify_poe_ lim ps r (np_of (pf_key p)) ;;
        if negb (length rest =? 0) then Ok false
        else match n with Some (Leaf lp _) => Ok (negb (np_eq lp (np_of (pf_key p)))) | _ => Ok true end).
  assert (G : mpt_verify_poe lim t p = begin MPT_POE t p (fun r => d <- (n <- decode_last (pf_proof p) ;; node_data n) ;;
    if negb (bytes_eqb d null_bytes) then Ok false else k (removelast (pf_proof p)) r)).
  { unfold mpt_verify_poe, begin. destruct (negb (bytes_eqb (pf_type p) MPT_POE)); [reflexivity|]. destruct (root_is_empty t); [reflexivity|].
    destruct (hash_first p) as [h|]; cbn [bind]; [|reflexivity]. destruct (negb _); [reflexivity|]. destruct (decode_last (pf_proof p)); reflexivity. }
  rewrite G, begin_spec. clear G.
  assert (Ks : forall pl r v, k pl r = v -> (exists e, v = Err e /\ first_fault pl e) \/ exists l, pl = map PB l /\ Forall has_ref l /\
     ((exists e, v = Err e /\ breaks l lim [] r (nibbles (pf_key p)) e) \/
      (exists seen o d, d <= lim /\ ends l [] r (nibbles (pf_key p)) seen o d /\
        ((v = Ok false /\ exists y b, filed l y b /\ ~ In y seen) \/
         (v = Ok false /\ (forall y b, filed l y b -> In y seen) /\ exists q w, o = Some (Leaf q w) /\ path_nibbles q = nibbles (pf_key p)) \/
         (v = Ok true /\ (forall y b, filed l y b -> In y seen) /\ forall q w, o = Some (Leaf q w) -> path_nibbles q <> nibbles (pf_key p)))))).
  { intros pl r w X. unfold k in X. destruct (poe_storage pl []) as [ps|e] eqn:Es; cbn [bind] in X; [|left; exists e; split; [now symmetry|now apply poe_storage_raises in Es]].
    right. apply poe_storage_ok in Es as (l & El & F & ->). fold (files l) in X. exists l. split; [exact El|]. split; [exact F|].
    destruct (verify_poe_ lim (files l) r (np_of (pf_key p))) as [[o ps']|e] eqn:Ev; cbn [bind] in X.
    - right. destruct (poe_ends_ok _ _ _ _ _ _ _ _ (rest_files l) Ev) as (d & seen & L & E & R). rewrite nibs_np_of in E. exists seen, o, d. split; [exact L|]. split; [exact E|].
      destruct (Nat.eqb_spec (length ps') 0) as [E0|E0]; cbn [negb] in X.
      + pose proof (proj1 (rest_empty l seen ps' R) E0) as Hs. destruct o as [[lp u|ep u|rs u]|]; try (right; right; split; [now symmetry|]; split; [exact Hs|]; intros q w' Y; discriminate).
        destruct (np_eq lp (np_of (pf_key p))) eqn:Y; cbn [negb] in X.
        * right; left. split; [now symmetry|]. split; [exact Hs|]. exists lp, u. split; [reflexivity|]. apply np_eq_spec in Y. rewrite nibs_np_of in Y. exact Y.
        * right; right. split; [now symmetry|]. split; [exact Hs|]. intros q w' Z. injection Z as <- <-. intros Z.
          assert (np_eq lp (np_of (pf_key p)) = true) by (apply np_eq_spec; rewrite nibs_np_of; exact Z). congruence.
      + left. split; [now symmetry|]. destruct ps' as [|[y c] ps']; [elim E0; reflexivity|]. destruct R as [_ R].
        exists y, c. apply R. cbn [dget]. now rewrite bytes_eqb_refl.
    - left. exists e. split; [now symmetry|]. apply (breaks_exact l lim [] (files l)) in Ev; [|apply rest_files]. rewrite nibs_np_of in Ev. exact Ev. }
  split.
  - intros [R|(r & S & X)]; [now apply ev_refused|]. pose proof (starts_snoc _ _ _ _ S) as Sn. set (pl := removelast (pf_proof p)) in *. set (x := last (pf_proof p) (PB [])) in *.
    rewrite Sn in X. destruct (n <- decode_last (pl ++ [x]) ;; node_data n) as [d|e] eqn:El; cbn [bind] in X.
    2:{ subst v. eapply ev_last; eauto. eapply last_raises; eauto. }
    apply last_returns in El. destruct (bytes_eqb d null_bytes) eqn:Ed; cbn [negb] in X.
    2:{ subst v. eapply ev_value; eauto. intros Y. apply bytes_eqb_iff in Y. unfold null_bytes in Ed. congruence. }
    apply bytes_eqb_eq in Ed. subst d. apply Ks in X as [(e & -> & F)|(l & El' & F & [(e & -> & B)|(seen & o & d & L & E & [(-> & y & b & Fy & N)|[(-> & Hs & q & w & -> & Q)|(-> & Hs & Q)]])])].
    + eapply ev_fault; eauto.
    + eapply ev_breaks; eauto. now rewrite <- El'.
    + eapply ev_unused; eauto. now rewrite <- El'.
    + eapply ev_present; eauto. now rewrite <- El'.
    + eapply ev_accepted; eauto. now rewrite <- El'.
  - assert (Kc : forall l r seen o d, Forall has_ref l -> ends l [] r (nibbles (pf_key p)) seen o d -> d <= lim ->
      exists o' ps', k (map PB l) r = (if negb (length ps' =? 0) then Ok false else match o' with Some (Leaf lp _) => Ok (negb (np_eq lp (np_of (pf_key p)))) | _ => Ok true end) /\ rest l seen ps' /\
      match o, o' with None, None => True | Some n, Some n' => same_node n n' | _, _ => False end).
    { intros l r seen o d F E L. unfold k. rewrite (proj2 (poe_storage_ok (map PB l) [] (files l))) by (exists l; auto). cbn [bind].
      destruct (poe_ends_conv _ _ _ _ _ _ _ E lim (files l) (np_of (pf_key p)) L (rest_files l)) as (o' & ps' & Ev & R & So); [apply nibs_np_of|].
      rewrite Ev. cbn [bind]. exists o', ps'. auto. }
    intros V. destruct V as [v R|r pl x e S Ep F|r pl x w S Ep F N|r pl x e S Ep F Ff|r l x e S Ep F Fl B|r l x seen o d y b S Ep F Fl E L Fy N|r l x seen q w d S Ep F Fl E L Hs Q|r l x seen o d S Ep F Fl E L Hs Q];
      [left; exact R|..]; right; exists r; (split; [exact S|]); rewrite Ep, ?removelast_last.
    + rewrite (proj2 (last_raises pl x e) F). reflexivity.
    + rewrite (proj2 (last_returns pl x w) F). cbn [bind]. destruct (bytes_eqb w null_bytes) eqn:Y; [apply bytes_eqb_eq in Y; elim N; exact Y|reflexivity].
    + rewrite (proj2 (last_returns pl x _) F). cbn [bind]. change [x6e; x75; x6c; x6c] with null_bytes. rewrite bytes_eqb_refl. cbn [negb]. unfold k. rewrite (proj2 (poe_storage_raises pl [] e) Ff). reflexivity.
    + rewrite (proj2 (last_returns (map PB l) x _) F). cbn [bind]. change [x6e; x75; x6c; x6c] with null_bytes. rewrite bytes_eqb_refl. cbn [negb]. unfold k.
      rewrite (proj2 (poe_storage_ok (map PB l) [] (files l))) by (exists l; auto). cbn [bind].
      rewrite (proj2 (breaks_exact l lim [] (files l) r (np_of (pf_key p)) e (rest_files l))) by (rewrite nibs_np_of; exact B). reflexivity.
    + rewrite (proj2 (last_returns (map PB l) x _) F). cbn [bind]. change [x6e; x75; x6c; x6c] with null_bytes. rewrite bytes_eqb_refl. cbn [negb].
      destruct (Kc l r seen o d Fl E L) as (o' & ps' & -> & R & _). destruct (Nat.eqb_spec (length ps') 0) as [E0|E0]; [|reflexivity].
      exfalso. apply N. apply (proj1 (rest_empty l seen ps' R) E0 y b Fy).
    + rewrite (proj2 (last_returns (map PB l) x _) F). cbn [bind]. change [x6e; x75; x6c; x6c] with null_bytes. rewrite bytes_eqb_refl. cbn [negb].
      destruct (Kc l r seen _ d Fl E L) as (o' & ps' & -> & R & So). rewrite (proj2 (rest_empty l seen ps' R) Hs). cbn [Nat.eqb negb].
      destruct o' as [[lp u| |]|]; cbn [same_node] in So; try contradiction. destruct So as [So _]. replace (np_eq lp (np_of (pf_key p))) with true; [reflexivity|].
      symmetry. apply np_eq_spec. rewrite nibs_np_of. change path_nibbles with nibs in *. rewrite <- So. exact Q.
    + rewrite (proj2 (last_returns (map PB l) x _) F). cbn [bind]. change [x6e; x75; x6c; x6c] with null_bytes. rewrite bytes_eqb_refl. cbn [negb].
      destruct (Kc l r seen _ d Fl E L) as (o' & ps' & -> & R & So). rewrite (proj2 (rest_empty l seen ps' R) Hs). cbn [Nat.eqb negb].
      destruct o' as [[lp u|ep u|rs u]|]; try reflexivity. destruct (np_eq lp (np_of (pf_key p))) eqn:Y; [|reflexivity]. exfalso.
      destruct o as [[q u'| |]|]; cbn [same_node] in So; try contradiction. destruct So as [So _]. apply np_eq_spec in Y. rewrite nibs_np_of in Y.
      change path_nibbles with nibs in *. apply (Q q u' eq_refl). rewrite So. exact Y.
Qed.
End S.

(** ** Consequences *)
Lemma fault_kinds : forall b e, node_fault b e -> In e [DecodingError; TypeError; AssertionError; IndexError].
Proof. intros b e F. destruct F; cbn; auto. Qed.
Section C.
Context {H : Hash}.
Lemma first_fault_kinds : forall pl e, first_fault pl e -> In e [DecodingError; TypeError; AssertionError; IndexError; ValueError].
Proof.
  intros pl e (l & x & r & _ & _ & F). destruct F as [a b|b e F]; [cbn; auto|]. destruct F as [b e F|b n r' R I B|b n R N W]; [|cbn; auto|cbn; auto 6].
  apply fault_kinds in F. cbn in *. tauto.
Qed.
Lemma goes_kinds : forall l lim r q v e, goes l lim r q v -> v = Err e ->
  In e [DecodingError; TypeError; AssertionError; IndexError; RecursionError; ExtensionPathError; BranchPathError].
Proof.
  induction 1 as [| |? ? ? ? ? T F| | | | |? ? ? ? ? ? ? ? ? ? G IH| |? ? ? ? ? ? ? ? ? ? ? G IH|]; intros E; try discriminate; try (injection E as <-; cbn; tauto); try (exact (IH E)).
  injection E as <-. apply fault_kinds in F. cbn in *. tauto.
Qed.
Theorem inclusion_kinds : forall lim t p e, mpt_verify_poi lim t p = Err e ->
  In e [TypeError; ValueError; IndexError; AssertionError; DecodingError; RecursionError; ExtensionPathError; BranchPathError].
Proof.
  intros lim t p e E. apply inclusion_exact in E. remember (Err e) as v eqn:Ev. destruct E as [v R|r S F|r x S F N|r l v S El F G N|r l S El F G N|r l S El F G N]; try discriminate.
  - destruct R; try discriminate; injection Ev as <-; cbn; tauto.
  - injection Ev as ->. apply first_fault_kinds in F. cbn in *. tauto.
  - subst v. apply (goes_kinds _ _ _ _ _ e) in G; [|reflexivity]. cbn in *. tauto.
Qed.
Lemma breaks_kinds : forall l lim seen r q e, breaks l lim seen r q e -> In e [DecodingError; TypeError; AssertionError; IndexError; RecursionError; PoeError].
Proof.
  induction 1 as [|? ? ? ? ? ? T F| |? ? ? ? ? ? ? ? ? ? ? B IH|? ? ? ? ? ? ? ? ? ? ? ? B IH]; try exact IH; try (cbn; tauto). apply fault_kinds in F. cbn in *. tauto.
Qed.
Theorem exclusion_kinds : forall lim t p e, mpt_verify_poe lim t p = Err e ->
  In e [TypeError; ValueError; IndexError; AssertionError; DecodingError; RecursionError; PoeError; AttributeError].
Proof.
  intros lim t p e E. apply exclusion_exact in E. remember (Err e) as v eqn:Ev.
  destruct E as [v R|r pl x y S Ep F|r pl x w S Ep F N|r pl x y S Ep F Ff|r l x y S Ep F Fl B|r l x seen o d y b S Ep F Fl E L Fy N|r l x seen q w d S Ep F Fl E L Hs Q|r l x seen o d S Ep F Fl E L Hs Q]; try discriminate.
  - destruct R; try discriminate; injection Ev as <-; cbn; tauto.
  - injection Ev as ->. destruct F as [a b|b e F|b p' s R]; [cbn; tauto|apply fault_kinds in F; cbn in *; tauto|cbn; tauto].
  - injection Ev as ->. apply first_fault_kinds in Ff. cbn in *. tauto.
  - injection Ev as ->. apply breaks_kinds in B. cbn in *. tauto.
Qed.

(** One more element, the text of the empty string, and verification raises. *)
Lemma empty_fault : node_fault [x80] AssertionError.
Proof. apply fault_string_length with []; [|discriminate|discriminate]. apply decode_form. reflexivity. Qed.
Theorem inclusion_appended : forall lim t p, mpt_verify_poi lim t p = Ok true ->
  mpt_verify_poi lim t (mkProof (pf_type p) (pf_time p) (pf_key p) (pf_root p) (pf_proof p ++ [PB [x80]])) = Err AssertionError.
Proof.
  intros lim t p A. apply inclusion_exact in A. apply inclusion_exact. remember (Ok true) as v eqn:Ev.
  destruct A as [v R|r S F|r x S F N|r l v S El F G N|r l S El F G N|r l S El F G N]; try discriminate; [destruct R; discriminate|contradiction|].
  apply iv_fault with r; [| |discriminate].
  - destruct S as (T & Hr & b & l' & Ep & Ek). split; [exact T|]. split; [exact Hr|]. cbn [pf_proof]. rewrite Ep. exists b, (l' ++ [PB [x80]]). split; [reflexivity|exact Ek].
  - cbn [pf_proof]. exists l, (PB [x80]), []. split; [now rewrite El|]. split; [exact F|]. constructor. apply fault_read. exact empty_fault.
Qed.
Theorem exclusion_appended : forall lim t p, mpt_verify_poe lim t p = Ok true ->
  mpt_verify_poe lim t (mkProof (pf_type p) (pf_time p) (pf_key p) (pf_root p) (pf_proof p ++ [PB [x80]])) = Err AssertionError.
Proof.
  intros lim t p A. apply exclusion_exact in A. apply exclusion_exact. remember (Ok true) as v eqn:Ev.
  assert (G : forall r, starts [x4d; x50; x54; x2d; x50; x4f; x45] t p r -> exclusion_verdict lim t (mkProof (pf_type p) (pf_time p) (pf_key p) (pf_root p) (pf_proof p ++ [PB [x80]])) (Err AssertionError)).
  { intros r (T & Hr & b & l' & Ep & Ek). apply ev_last with r (pf_proof p) (PB [x80]); [|reflexivity|apply last_node; exact empty_fault].
    split; [exact T|]. split; [exact Hr|]. cbn [pf_proof]. rewrite Ep. exists b, (l' ++ [PB [x80]]). split; [reflexivity|exact Ek]. }
  destruct A as [v R|r pl x y S Ep F|r pl x w S Ep F N|r pl x y S Ep F Ff|r l x y S Ep F Fl B|r l x seen o d y b S Ep F Fl E L Fy N|r l x seen q w d S Ep F Fl E L Hs Q|r l x seen o d S Ep F Fl E L Hs Q]; try discriminate.
  - destruct R; discriminate.
  - eapply G; eauto.
Qed.
Theorem appended : forall lim t p, let p' := mkProof (pf_type p) (pf_time p) (pf_key p) (pf_root p) (pf_proof p ++ [PB [x80]]) in
  (mpt_verify_poi lim t p = Ok true -> mpt_verify_poi lim t p' = Err AssertionError) /\
  (mpt_verify_poe lim t p = Ok true -> mpt_verify_poe lim t p' = Err AssertionError).
Proof. intros lim t p. split; [apply inclusion_appended|apply exclusion_appended]. Qed.
End C.
