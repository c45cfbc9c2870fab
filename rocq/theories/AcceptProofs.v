(** Exactly which proofs are accepted. *)
From Coq Require Import List Bool Arith NArith ZArith Lia.
From Verif Require Import Base BaseProofs Rlp RlpProofs NibblePath NibbleProofs Node ProofObj Mpt SpecCodec CodecProofs SpecRlp RlpExact DecodeExact Malleable SpecAccept.
Import ListNotations.

Section S.
Context {H : Hash}.

Lemma read_of : forall b n, node_decode b = Ok n -> node_read b n.
Proof. intros b n E. apply node_decode_exact. exists n. split; [exact E|apply same_node_refl]. Qed.

Definition refof (b : bytes) : option bytes :=
  match node_decode b with Ok n => match into_reference n with Ok r => Some r | Err _ => None end | Err _ => None end.
Lemma into_ref : forall n r, into_reference n = Ok r <-> node_ref n r.
Proof.
  intros n r. unfold into_reference, node_ref. split.
  - destruct (node_encode n) as [e|] eqn:E; cbn [bind]; [|discriminate]. intros X. injection X as <-. exists e. split; [apply node_encode_exact; exact E|reflexivity].
  - intros (e & W & ->). apply node_encode_exact in W. rewrite W. reflexivity.
Qed.
Lemma refof_spec : forall b r, refof b = Some r <-> text_ref b r.
Proof.
  intros b r. unfold refof, text_ref. split.
  - destruct (node_decode b) as [n|] eqn:E; [|discriminate]. destruct (into_reference n) as [x|] eqn:Er; [|discriminate]. intros X. injection X as ->.
    exists n. split; [apply read_of; exact E|apply into_ref; exact Er].
  - intros (n & R & X). apply node_decode_exact in R as (n' & E & S). rewrite E. apply into_ref in X.
    unfold into_reference in *. rewrite <- (same_node_encode _ _ S), X. reflexivity.
Qed.

Definition files (l : list bytes) : dict bytes := fold_left (fun d b => match refof b with Some r => dset d r b | None => d end) l [].
Lemma files_snoc : forall l x, files (l ++ [x]) = match refof x with Some r => dset (files l) r x | None => files l end.
Proof. intros l x. unfold files. rewrite fold_left_app. reflexivity. Qed.
Lemma files_nodup : forall l, NoDup (dkeys (files l)).
Proof.
  induction l as [|x l IH] using rev_ind; [constructor|]. rewrite files_snoc. destruct (refof x); [apply NoDup_dset; exact IH|exact IH].
Qed.
Lemma files_get : forall l r b, dget (files l) r = Some b <-> filed l r b.
Proof.
  induction l as [|x l IH] using rev_ind; intros r b.
  - split; [discriminate|]. intros ([|] & l2 & E & _); discriminate.
  - rewrite files_snoc. destruct (refof x) as [rx|] eqn:Ex.
    + rewrite dget_dset. apply refof_spec in Ex. destruct (bytes_eqb_spec r rx) as [->|N].
      * split.
        -- intros E. injection E as <-. exists l, []. split; [reflexivity|]. split; [exact Ex|intros b' []].
        -- intros (l1 & l2 & E & T & R). destruct l2 as [|y l2] using rev_ind.
           { apply app_inj_tail in E as [_ ->]. reflexivity. }
           exfalso. clear IHl2. change (l1 ++ b :: l2 ++ [y]) with (l1 ++ (b :: l2) ++ [y]) in E. rewrite app_assoc in E.
           apply app_inj_tail in E as [_ ->]. apply (R y); [apply in_or_app; right; left; reflexivity|exact Ex].
      * rewrite IH. assert (Nx : ~ text_ref x r) by (intros T; apply refof_spec in T; apply refof_spec in Ex; congruence). split.
        -- intros (l1 & l2 & -> & T & R). exists l1, (l2 ++ [x]). split; [rewrite <- app_assoc; reflexivity|]. split; [exact T|].
           intros b' I. apply in_app_or in I as [I|[<-|[]]]; [apply R; exact I|exact Nx].
        -- intros (l1 & l2 & E & T & R). destruct l2 as [|y l2] using rev_ind.
           { apply app_inj_tail in E as [_ ->]. contradiction. }
           clear IHl2. change (l1 ++ b :: l2 ++ [y]) with (l1 ++ (b :: l2) ++ [y]) in E. rewrite app_assoc in E. apply app_inj_tail in E as [-> ->].
           exists l1, l2. split; [reflexivity|]. split; [exact T|]. intros b' I. apply R. apply in_or_app. auto.
    + rewrite IH. assert (Nx : ~ text_ref x r) by (intros T; apply refof_spec in T; congruence). split.
      * intros (l1 & l2 & -> & T & R). exists l1, (l2 ++ [x]). split; [rewrite <- app_assoc; reflexivity|]. split; [exact T|].
        intros b' I. apply in_app_or in I as [I|[<-|[]]]; [apply R; exact I|exact Nx].
      * intros (l1 & l2 & E & T & R). destruct l2 as [|y l2] using rev_ind.
        { apply app_inj_tail in E as [_ ->]. contradiction. }
        clear IHl2. change (l1 ++ b :: l2 ++ [y]) with (l1 ++ (b :: l2) ++ [y]) in E. rewrite app_assoc in E. apply app_inj_tail in E as [-> ->].
        exists l1, l2. split; [reflexivity|]. split; [exact T|]. intros b' I. apply R. apply in_or_app. auto.
Qed.
Lemma files_none : forall l r, dget (files l) r = None <-> forall b, ~ filed l r b.
Proof.
  intros l r. split.
  - intros E b F. apply files_get in F. congruence.
  - intros F. destruct (dget (files l) r) as [b|] eqn:E; [|reflexivity]. apply files_get in E. elim (F b E).
Qed.

Lemma store_ok : forall d e d', store_proof_node d e = Ok d' <-> exists b r, e = PB b /\ refof b = Some r /\ d' = dset d r b.
Proof.
  intros d e d'. split.
  - destruct e as [b|]; [|discriminate]. cbn [store_proof_node]. unfold refof. intros X. exists b.
    destruct (node_decode b) as [n|]; cbn [bind] in X; [|discriminate]. destruct (into_reference n) as [r|]; cbn [bind] in X; [|discriminate].
    injection X as <-. eauto.
  - intros (b & r & -> & R & ->). cbn [store_proof_node]. unfold refof in R. destruct (node_decode b) as [n|]; cbn [bind]; [|discriminate].
    destruct (into_reference n) as [r'|]; cbn [bind]; [|discriminate]. injection R as ->. reflexivity.
Qed.
Lemma has_refof : forall b, has_ref b <-> exists r, refof b = Some r.
Proof. intros b. split; intros (r & R); exists r; apply refof_spec; exact R. Qed.

Lemma poi_storage_ok : forall pl d ps, poi_storage pl d = Ok (Some ps) <->
  exists l, pl = map PB l /\ Forall has_ref l /\ ps = fold_left (fun d b => match refof b with Some r => dset d r b | None => d end) l d.
Proof.
  induction pl as [|e pl IH]; intros d ps; cbn [poi_storage].
  - split; [intros E; injection E as <-; exists []; auto|]. intros ([|] & E & _ & ->); [reflexivity|discriminate].
  - split.
    + destruct (store_proof_node d e) as [d'|x] eqn:E; [|destruct x; discriminate]. intros X. apply IH in X as (l & -> & F & ->).
      apply store_ok in E as (b & r & -> & R & ->). exists (b :: l). split; [reflexivity|]. split; [constructor; [apply has_refof; eauto|exact F]|].
      cbn [fold_left]. rewrite R. reflexivity.
    + intros ([|b l] & E & F & ->); [discriminate|]. injection E as -> ->. inversion F as [|? ? Fb Fl]; subst. apply has_refof in Fb as [r R].
      rewrite (proj2 (store_ok d (PB b) (dset d r b))) by eauto. cbn [fold_left]. rewrite R. apply IH. exists l. auto.
Qed.
Lemma poe_storage_ok : forall pl d ps, poe_storage pl d = Ok ps <->
  exists l, pl = map PB l /\ Forall has_ref l /\ ps = fold_left (fun d b => match refof b with Some r => dset d r b | None => d end) l d.
Proof.
  induction pl as [|e pl IH]; intros d ps; cbn [poe_storage].
  - split; [intros E; injection E as <-; exists []; auto|]. intros ([|] & E & _ & ->); [reflexivity|discriminate].
  - split.
    + destruct (store_proof_node d e) as [d'|x] eqn:E; cbn [bind]; [|discriminate]. intros X. apply IH in X as (l & -> & F & ->).
      apply store_ok in E as (b & r & -> & R & ->). exists (b :: l). split; [reflexivity|]. split; [constructor; [apply has_refof; eauto|exact F]|].
      cbn [fold_left]. rewrite R. reflexivity.
    + intros ([|b l] & E & F & ->); [discriminate|]. injection E as -> ->. inversion F as [|? ? Fb Fl]; subst. apply has_refof in Fb as [r R].
      rewrite (proj2 (store_ok d (PB b) (dset d r b))) by eauto. cbn [bind fold_left]. rewrite R. apply IH. exists l. auto.
Qed.

Definition raw (ps : dict bytes) (r : bytes) : option bytes := if length r =? 32 then dget ps r else Some r.
Lemma raw_text : forall l r b, raw (files l) r = Some b <-> text l r b.
Proof.
  intros l r b. unfold raw, text. destruct (Nat.eqb_spec (length r) 32) as [E|E].
  - rewrite files_get. tauto.
  - split; [intros X; injection X as <-; auto|intros [[X _]|[_ ->]]; [contradiction|reflexivity]].
Qed.

Lemma len0 : forall path, (np_len path =? 0) = true <-> nibs path = [].
Proof. intros path. rewrite Nat.eqb_eq, np_len_spec. split; [apply length_zero_iff_nil|intros ->; reflexivity]. Qed.

Theorem poi_leads : forall l lim r path, verify_poi_ lim (files l) r path = Ok true <-> exists d, d <= lim /\ leads l r (nibs path) d.
Proof.
  intros l lim. induction lim as [|f IH]; intros r path.
  - split; [discriminate|]. intros (d & L & X). inversion X; lia.
  - cbn [verify_poi_]. fold (raw (files l) r). split.
    + destruct (raw (files l) r) as [b|] eqn:Er; [|discriminate]. apply raw_text in Er.
      destruct (node_decode b) as [n|] eqn:En; cbn [bind]; [|discriminate]. apply read_of in En.
      destruct (np_len path =? 0) eqn:E0.
      * apply len0 in E0. rewrite E0. intros X. exists 1. split; [lia|]. apply (leads_end l r b n); auto. intros p s ->. discriminate.
      * destruct n as [lp v|ep s|rs v].
        -- intros X. injection X as X. exists 1. split; [lia|]. apply np_eq_spec in X. rewrite <- X. eapply leads_leaf; eauto.
        -- destruct (np_starts_with path ep) eqn:Es; [|discriminate]. rewrite np_starts_with_spec in Es.
           destruct (strip (nibs ep) (nibs path)) as [z|] eqn:Ez; [|discriminate]. intros X. apply IH in X as (d & L & X).
           rewrite (np_starts_with_skip _ _ _ Ez) in X. apply strip_spec in Ez.
           exists (S d). split; [lia|]. rewrite Ez. eapply leads_ext; eauto.
           intros Y. change path_nibbles with nibs in Y. rewrite <- Ez in Y. apply len0 in Y. congruence.
        -- destruct (nibs path) as [|i q] eqn:Ep; [apply len0 in Ep; congruence|]. 
           rewrite np_at_spec, Ep. cbn [nth]. destruct (0 <? length (nth i rs [])) eqn:Ez; [|discriminate]. intros X. apply IH in X as (d & L & X).
           rewrite nibs_consume, Ep in X. cbn [skipn] in X. exists (S d). split; [lia|]. eapply leads_branch; eauto.
           intros Y. rewrite Y in Ez. discriminate.
    + intros (d & L & X). inversion X as [? b n T R N E1 E2 E3|? b p v T R E1 E2 E3|? b p s q d' T R N X' E1 E2 E3|? b rs v i q d' T R N X' E1 E2 E3]; subst;
        apply raw_text in T; rewrite T; apply node_decode_exact in R as (n' & En & S); rewrite En; cbn [bind].
      * symmetry in E2. apply len0 in E2. rewrite E2. destruct n, n'; cbn [same_node] in S; try contradiction; try reflexivity. exfalso; eapply N; reflexivity.
      * destruct n' as [lp w| |]; cbn [same_node] in S; try contradiction. change path_nibbles with nibs in *; destruct S as [S _]. destruct (np_len path =? 0); [reflexivity|]. f_equal.
        apply np_eq_spec. congruence.
      * destruct n' as [|ep s'|]; cbn [same_node] in S; try contradiction. change path_nibbles with nibs in *; destruct S as [S <-]. rewrite E2 in N. destruct (np_len path =? 0) eqn:E0; [apply len0 in E0; contradiction|].
        assert (Ez : strip (nibs ep) (nibs path) = Some q) by (apply strip_spec; congruence).
        rewrite np_starts_with_spec, Ez. apply IH. exists d'. split; [lia|]. rewrite (np_starts_with_skip _ _ _ Ez). exact X'.
      * destruct n' as [| |rs' v']; cbn [same_node] in S; try contradiction. destruct S as [<- <-].
        destruct (np_len path =? 0) eqn:E0; [apply len0 in E0; congruence|]. symmetry in E2. 
        rewrite np_at_spec, E2. cbn [nth]. destruct (nth i rs []) as [|x y] eqn:Ei; [contradiction|]. cbn [length Nat.ltb Nat.leb].
        apply IH. exists d'. split; [lia|]. rewrite nibs_consume, E2. exact X'.
Qed.

Lemma hash_first_ok : forall p h, hash_first p = Ok h <-> exists b pl, pf_proof p = PB b :: pl /\ h = keccak b.
Proof.
  intros p h. unfold hash_first. split.
  - destruct (pf_proof p) as [|[b|] pl]; try discriminate. intros X. injection X as <-. eauto.
  - intros (b & pl & -> & ->). reflexivity.
Qed.
Lemma bytes_eqb_iff : forall a b, bytes_eqb a b = true <-> a = b.
Proof. intros a b. split; [apply bytes_eqb_eq|intros ->; apply bytes_eqb_refl]. Qed.

Lemma root_some : forall t, root_is_empty t = false <-> exists r, has_root t r /\ root_ref t = r.
Proof.
  intros t. unfold root_is_empty, has_root, root_ref. destruct (m_root t) as [r|].
  - split.
    + intros E. exists r. split; [split; [reflexivity|]|reflexivity]. intros ->. rewrite bytes_eqb_refl in E. discriminate.
    + intros (r' & [E N] & _). injection E as <-. destruct (bytes_eqb r EMPTY_HASH) eqn:X; [|reflexivity]. apply bytes_eqb_eq in X. contradiction.
  - split; [discriminate|]. intros (r & [E _] & _). discriminate.
Qed.

Theorem accept_poi : forall lim t p, mpt_verify_poi lim t p = Ok true <-> accepts_inclusion lim t p.
Proof.
  intros lim t p. unfold mpt_verify_poi. split.
  - destruct (bytes_eqb (pf_type p) MPT_POI) eqn:Ety; cbn [negb]; [|discriminate]. apply bytes_eqb_eq in Ety.
    destruct (root_is_empty t) eqn:Er; [discriminate|]. apply root_some in Er as (r & Hr & Err). rewrite Err.
    destruct (hash_first p) as [h|] eqn:Eh; cbn [bind]; [|discriminate]. apply hash_first_ok in Eh as (b & pl & Ep & ->).
    destruct (bytes_eqb (root_hash t) (keccak b)) eqn:Ek; cbn [negb]; [|discriminate]. apply bytes_eqb_eq in Ek.
    destruct (poi_storage (pf_proof p) []) as [[ps|]|] eqn:Es; cbn [bind]; [|discriminate|discriminate].
    apply poi_storage_ok in Es as (l & El & F & ->). fold (files l).
    destruct (verify_poi_ lim (files l) r (np_of (pf_key p))) as [v|] eqn:Ev; cbn [bind]; [|discriminate]. intros X. injection X as X.
    apply andb_prop in X as [-> X]. apply bytes_eqb_eq in X. apply poi_leads in Ev as (d & L & Ld).
    rewrite El in Ep. destruct l as [|b' l]; [discriminate|]. injection Ep as -> <-.
    exists r, b, l, d. split; [exact Ety|]. split; [exact Hr|]. split; [exact El|]. split; [congruence|]. split; [congruence|]. auto.
  - intros (r & b & l & d & Ety & Hr & Ep & Ek & Epr & F & L & Ld).
    rewrite Ety. replace (bytes_eqb _ MPT_POI) with true by (symmetry; apply bytes_eqb_refl). cbn [negb].
    assert (Er : root_is_empty t = false) by (apply root_some; exists r; split; [exact Hr|]; unfold root_ref; destruct Hr as [-> _]; reflexivity).
    assert (Err : root_ref t = r) by (unfold root_ref; destruct Hr as [-> _]; reflexivity).
    rewrite Er, Err. rewrite (proj2 (hash_first_ok p (keccak b))) by (exists b, (map PB l); split; [exact Ep|reflexivity]). cbn [bind].
    rewrite Ek, bytes_eqb_refl. cbn [negb].
    rewrite (proj2 (poi_storage_ok (pf_proof p) [] (files (b :: l)))) by (exists (b :: l); auto). cbn [bind].
    rewrite (proj2 (poi_leads (b :: l) lim r (np_of (pf_key p)))) by (exists d; auto). cbn [bind andb].
    rewrite Epr, bytes_eqb_refl. reflexivity.
Qed.

(** ** Exclusion *)
Definition rest (l seen : list bytes) (ps : dict bytes) : Prop := NoDup (dkeys ps) /\ forall r b, dget ps r = Some b <-> filed l r b /\ ~ In r seen.
Lemma rest_none : forall l seen ps r, rest l seen ps -> (dget ps r = None <-> forall b, filed l r b -> In r seen).
Proof.
  intros l seen ps r [_ R]. split.
  - intros E b F. destruct (in_dec (list_eq_dec Byte.byte_eq_dec) r seen) as [I|I]; [exact I|]. assert (X : dget ps r = Some b) by (apply R; auto). congruence.
  - intros F. destruct (dget ps r) as [b|] eqn:E; [|reflexivity]. apply R in E as [E N]. elim N. eapply F. exact E.
Qed.
Lemma rest_del : forall l seen ps r, rest l seen ps -> rest l (r :: seen) (ddel ps r).
Proof.
  intros l seen ps r [Hn R]. split; [apply NoDup_ddel; exact Hn|]. intros x b. rewrite dget_ddel by exact Hn.
  destruct (bytes_eqb_spec x r) as [->|N].
  - split; [discriminate|]. intros [_ X]. elim X. left. reflexivity.
  - rewrite R. split; intros [A B]; (split; [exact A|]); intros I; apply B; [destruct I as [I|I]; [congruence|exact I]|right; exact I].
Qed.
Lemma rest_empty : forall l seen ps, rest l seen ps -> (length ps = 0 <-> forall r b, filed l r b -> In r seen).
Proof.
  intros l seen ps R. split.
  - intros E r b F. apply (proj1 (rest_none l seen ps r R)) with (b := b); [|exact F]. destruct ps; [reflexivity|discriminate].
  - intros F. destruct ps as [|[k v] ps]; [reflexivity|]. exfalso.
    assert (E : dget ((k, v) :: ps) k = None) by (apply (rest_none l seen _ k R); intros b Fb; eapply F; exact Fb).
    cbn [dget] in E. rewrite bytes_eqb_refl in E. discriminate.
Qed.
Lemma rest_fresh : forall l seen ps r b, rest l seen ps -> ((raw ps r = Some b /\ exists b', dget ps r = Some b') <-> fresh l seen r b).
Proof.
  intros l seen ps r b [_ R]. unfold raw, fresh, text. destruct (Nat.eqb_spec (length r) 32) as [E|E]; split.
  - intros [X _]. apply R in X as [X N]. split; [auto|]. split; [eauto|exact N].
  - intros ([[_ F]|[X _]] & _ & N); [|contradiction]. assert (X : dget ps r = Some b) by (apply R; auto). eauto.
  - intros [X (b' & Y)]. injection X as <-. apply R in Y as [Y N]. split; [auto|]. split; [eauto|exact N].
  - intros ([[X _]|[_ ->]] & (b' & F) & N); [contradiction|]. split; [reflexivity|]. exists b'. apply R. auto.
Qed.
Lemma rest_missing : forall l seen ps r, rest l seen ps -> (raw ps r = None <-> length r = 32 /\ forall b, filed l r b -> In r seen).
Proof.
  intros l seen ps r R. unfold raw. destruct (Nat.eqb_spec (length r) 32) as [E|E].
  - rewrite (rest_none l seen ps r R). tauto.
  - split; [discriminate|]. intros [X _]. contradiction.
Qed.

Lemma same_stops : forall n n' q, same_node n n' -> stops n q -> stops n' q.
Proof.
  intros n n' q S [->|X]; [left; reflexivity|]. right. destruct n, n'; cbn [same_node] in S; try contradiction; auto.
  - change path_nibbles with nibs in *; destruct S as [S _]. intros z. rewrite <- S. apply X.
  - destruct S as [<- _]. exact X.
Qed.

Theorem poe_ends_ok : forall l lim seen ps r path o ps', rest l seen ps -> verify_poe_ lim ps r path = Ok (o, ps') ->
  exists d seen', d <= lim /\ ends l seen r (nibs path) seen' o d /\ rest l seen' ps'.
Proof.
  intros l lim. induction lim as [|f IH]; intros seen ps r path o ps' R; [discriminate|].
  cbn [verify_poe_]. fold (raw ps r). destruct (raw ps r) as [b|] eqn:Er.
  2: { intros X. injection X as <- <-. apply (rest_missing l seen ps r R) in Er as [L F]. exists 1, seen. split; [lia|]. split; [constructor; auto|exact R]. }
  destruct (node_decode b) as [n|] eqn:En; cbn [bind]; [|discriminate]. apply read_of in En.
  destruct (dget ps r) as [b'|] eqn:Eg; [|discriminate]. cbv zeta.
  assert (Fr : fresh l seen r b) by (apply (rest_fresh l seen ps r b R); eauto).
  pose proof (rest_del l seen ps r R) as R1.
  assert (Stop : stops n (nibs path) -> Ok (Some n, ddel ps r) = Ok (o, ps') ->
    exists d seen', d <= S f /\ ends l seen r (nibs path) seen' o d /\ rest l seen' ps').
  { intros St X. injection X as <- <-. exists 1, (r :: seen). split; [lia|]. split; [eapply ends_here; eauto|exact R1]. }
  destruct (np_len path =? 0) eqn:E0; [apply Stop; left; apply len0; exact E0|].
  destruct n as [lp v|ep s|rs v].
  - apply Stop. right. exact I.
  - destruct (np_starts_with path ep) eqn:Es; rewrite np_starts_with_spec in Es; destruct (strip (nibs ep) (nibs path)) as [z|] eqn:Ez; try discriminate.
    + intros X. destruct (IH _ _ _ _ _ _ R1 X) as (d & seen' & L & E & R2). exists (S d), seen'. split; [lia|]. split; [|exact R2].
      rewrite (np_starts_with_skip _ _ _ Ez) in E. apply strip_spec in Ez.
      rewrite Ez. eapply ends_ext; eauto.
      intros Y. change path_nibbles with nibs in Y. rewrite <- Ez in Y. apply len0 in Y. congruence.
    + apply Stop. right. intros z Y. change path_nibbles with nibs in Y. apply strip_spec in Y. congruence.
  - destruct (nibs path) as [|i q] eqn:Ep; [apply len0 in Ep; congruence|]. 
    rewrite np_at_spec, Ep. cbn [nth]. destruct (0 <? length (nth i rs [])) eqn:Ez.
    + intros X. destruct (IH _ _ _ _ _ _ R1 X) as (d & seen' & L & E & R2). exists (S d), seen'. split; [lia|]. split; [|exact R2].
      rewrite nibs_consume, Ep in E. cbn [skipn] in E. eapply ends_branch; eauto. intros Y. rewrite Y in Ez. discriminate.
    + apply Stop. right. intros j z Y. injection Y as <- <-. destruct (nth i rs []); [reflexivity|discriminate].
Qed.

Theorem poe_ends_conv : forall l seen r q seen' o d, ends l seen r q seen' o d -> forall lim ps path, d <= lim -> rest l seen ps -> nibs path = q ->
  exists o' ps', verify_poe_ lim ps r path = Ok (o', ps') /\ rest l seen' ps' /\
    match o, o' with None, None => True | Some n, Some n' => same_node n n' | _, _ => False end.
Proof.
  intros l seen r q seen' o d E. induction E as [seen r q L F|seen r q b n Fr Rd St|seen r b p s q seen' o d Fr Rd Ne E IH|seen r b rs v i q seen' o d Fr Rd Ne E IH];
    intros lim ps path Ld R Ep; (destruct lim as [|f]; [lia|]); cbn [verify_poe_]; fold (raw ps r).
  - rewrite (proj2 (rest_missing l seen ps r R)) by auto. exists None, ps. auto.
  - apply (rest_fresh l seen ps r b R) in Fr as [-> (b' & ->)]. apply node_decode_exact in Rd as (n' & En & Sn). rewrite En. cbn [bind]. cbv zeta.
    pose proof (same_stops _ _ _ Sn St) as St'. exists (Some n'), (ddel ps r). split; [|split; [apply rest_del; exact R|exact Sn]].
    destruct (np_len path =? 0) eqn:E0; [reflexivity|]. destruct St' as [X|St']; [rewrite <- Ep in X; apply len0 in X; congruence|].
    destruct n' as [lp w|ep s|rs w]; [reflexivity| |].
    + rewrite np_starts_with_spec. destruct (strip (nibs ep) (nibs path)) as [z|] eqn:Ez; [|reflexivity]. exfalso. apply strip_spec in Ez.
      apply (St' z). rewrite <- Ep. exact Ez.
    + destruct q as [|i q]; [apply len0 in Ep; congruence|].
      rewrite np_at_spec, Ep. cbn [nth]. rewrite (St' i q eq_refl). reflexivity.
  - apply (rest_fresh l seen ps r b R) in Fr as [-> (b' & ->)]. apply node_decode_exact in Rd as (n' & En & Sn). rewrite En. cbn [bind]. cbv zeta.
    destruct n' as [|ep s'|]; cbn [same_node] in Sn; try contradiction. change path_nibbles with nibs in *; destruct Sn as [Sn <-].
    destruct (np_len path =? 0) eqn:E0; [apply len0 in E0; congruence|].
    assert (Ez : strip (nibs ep) (nibs path) = Some q) by (apply strip_spec; congruence).
    rewrite np_starts_with_spec, Ez. apply IH; [lia|apply rest_del; exact R|]. exact (np_starts_with_skip _ _ _ Ez).
  - apply (rest_fresh l seen ps r b R) in Fr as [-> (b' & ->)]. apply node_decode_exact in Rd as (n' & En & Sn). rewrite En. cbn [bind]. cbv zeta.
    destruct n' as [| |rs' v']; cbn [same_node] in Sn; try contradiction. destruct Sn as [<- <-].
    destruct (np_len path =? 0) eqn:E0; [apply len0 in E0; congruence|]. 
    rewrite np_at_spec, Ep. cbn [nth]. destruct (nth i rs []) as [|x y] eqn:Ei; [contradiction|]. cbn [length Nat.ltb Nat.leb].
    apply IH; [lia|apply rest_del; exact R|]. rewrite nibs_consume, Ep. reflexivity.
Qed.

Lemma rest_files : forall l, rest l [] (files l).
Proof. intros l. split; [apply files_nodup|]. intros r b. rewrite files_get. cbn. tauto. Qed.

Lemma last_snoc : forall (pl : list pelem), pl <> [] -> pl = removelast pl ++ [last pl (PB [])].
Proof. intros pl N. apply app_removelast_last. exact N. Qed.

Theorem accept_poe : forall lim t p, mpt_verify_poe lim t p = Ok true <-> accepts_exclusion lim t p.
Proof.
  intros lim t p. unfold mpt_verify_poe. split.
  - destruct (bytes_eqb (pf_type p) MPT_POE) eqn:Ety; cbn [negb]; [|discriminate]. apply bytes_eqb_eq in Ety.
    destruct (root_is_empty t) eqn:Er; [discriminate|]. apply root_some in Er as (r & Hr & Err). rewrite Err.
    destruct (hash_first p) as [h|] eqn:Eh; cbn [bind]; [|discriminate]. apply hash_first_ok in Eh as (b & pl & Ep & ->).
    destruct (bytes_eqb (root_hash t) (keccak b)) eqn:Ek; cbn [negb]; [|discriminate]. apply bytes_eqb_eq in Ek.
    destruct (decode_last (pf_proof p)) as [ln|] eqn:El; cbn [bind]; [|discriminate]. unfold decode_last in El.
    destruct (last (pf_proof p) (PB [])) as [e|] eqn:Ela; [|discriminate].
    destruct (node_data ln) as [dd|] eqn:Ed; cbn [bind]; [|discriminate].
    destruct (bytes_eqb dd null_bytes) eqn:En; cbn [negb]; [|discriminate]. apply bytes_eqb_eq in En. subst dd.
    destruct (poe_storage (removelast (pf_proof p)) []) as [ps|] eqn:Es; cbn [bind]; [|discriminate].
    apply poe_storage_ok in Es as (l & Erl & F & ->). fold (files l).
    destruct (verify_poe_ lim (files l) r (np_of (pf_key p))) as [[o ps']|] eqn:Ev; cbn [bind]; [|discriminate].
    destruct (Nat.eqb_spec (length ps') 0) as [E0|E0]; cbn [negb]; [|discriminate]. intros X.
    destruct (poe_ends_ok _ _ _ _ _ _ _ _ (rest_files l) Ev) as (d & seen & L & E & R).
    assert (Epf : pf_proof p = map PB (l ++ [e])).
    { rewrite (last_snoc (pf_proof p)) by (rewrite Ep; discriminate). rewrite Erl, Ela, map_app. reflexivity. }
    exists r, l, e, seen, o, d. split; [exact Ety|]. split; [exact Hr|]. split; [exact Epf|]. split.
    { rewrite Ek. rewrite Epf in Ep. destruct l as [|x l]; cbn [app map hd] in *; injection Ep as -> _; reflexivity. }
    split.
    { apply read_of in El. destruct ln as [q w| |rs w]; cbn [node_data] in Ed; [injection Ed as ->; left; eauto|discriminate|injection Ed as ->; right; eauto]. }
    split; [exact F|]. split; [exact L|]. split; [exact E|]. split; [apply (rest_empty l seen ps' R); exact E0|].
    intros q v ->. intros Y. injection X as X. apply negb_true_iff in X.
    assert (Z : np_eq q (np_of (pf_key p)) = true) by (apply np_eq_spec; rewrite nibs_np_of; exact Y). congruence.
  - intros (r & l & e & seen & o & d & Ety & Hr & Ep & Ek & Hnull & F & L & E & Hs & Ho).
    rewrite Ety. replace (bytes_eqb _ MPT_POE) with true by (symmetry; apply bytes_eqb_refl). cbn [negb].
    assert (Er : root_is_empty t = false) by (apply root_some; exists r; split; [exact Hr|]; unfold root_ref; destruct Hr as [-> _]; reflexivity).
    assert (Err : root_ref t = r) by (unfold root_ref; destruct Hr as [-> _]; reflexivity).
    rewrite Er, Err. rewrite (proj2 (hash_first_ok p (keccak (hd e l)))).
    2: { destruct l as [|x l]; cbn [app map hd] in *; [exists e, []|exists x, (map PB (l ++ [e]))]; split; auto. }
    cbn [bind]. rewrite Ek, bytes_eqb_refl. cbn [negb].
    assert (Ela : last (pf_proof p) (PB []) = PB e) by (rewrite Ep, map_app; apply last_last).
    assert (Erl : removelast (pf_proof p) = map PB l) by (rewrite Ep, map_app; apply removelast_last).
    unfold decode_last. rewrite Ela, Erl.
    assert (Hd : exists n, node_decode e = Ok n /\ node_data n = Ok null_bytes).
    { destruct Hnull as [(q & Rd)|(rs & Rd)]; apply node_decode_exact in Rd as (n & En & Sn); destruct n; cbn [same_node] in Sn; try contradiction;
        destruct Sn as [_ <-]; eexists; (split; [exact En|reflexivity]). }
    destruct Hd as (n & En & Ed). rewrite En. cbn [bind]. rewrite Ed. cbn [bind]. rewrite bytes_eqb_refl. cbn [negb].
    rewrite (proj2 (poe_storage_ok (map PB l) [] (files l))) by (exists l; auto). cbn [bind].
    destruct (poe_ends_conv _ _ _ _ _ _ _ E lim (files l) (np_of (pf_key p)) L (rest_files l)) as (o' & ps' & Ev & R & So); [reflexivity|].
    rewrite Ev. cbn [bind]. rewrite (proj2 (rest_empty l seen ps' R) Hs). cbn [Nat.eqb negb].
    destruct o' as [[lp w|ep s|rs w]|]; try reflexivity. f_equal. apply negb_true_iff. destruct (np_eq lp (np_of (pf_key p))) eqn:X; [|reflexivity].
    exfalso. apply np_eq_spec in X. destruct o as [[q v| |]|]; cbn [same_node] in So; try contradiction. change path_nibbles with nibs in *; destruct So as [So <-].
    apply (Ho q v eq_refl). rewrite So, X, nibs_np_of. reflexivity.
Qed.
End S.
