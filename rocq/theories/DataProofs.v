(** Proofs about EMPT objects over foreign data. *)
From Coq Require Import List Bool Arith NArith ZArith Lia.
From Verif Require Import Base BaseProofs Rlp NibblePath Node ProofObj Mpt Empt Spec SpecCodec SpecProof SpecGet SpecWalk SpecEmpt EmptProofs EmptPy SpecEvery EveryProofs EveryProofs2 SpecData.
Import ListNotations.
Section WithHash.
Context {H : Hash}.

Lemma build_step : forall lim t k b l d, build_loop lim t ((k, VBytes b) :: l) =
  match empt_update lim [] false (mkEmpt d t) k (VBytes b) with (Ok _, e1) => build_loop lim (e_trie e1) l | (Err x, e1) => (Err x, e_trie e1) end.
Proof.
  intros lim t k b l d. cbn [build_loop]. unfold empt_update. cbn [update_ref new_ref e_trie e_data].
  assert (Eb : bind (Ok (mkRef k b)) (fun r => ref_encode r) = ref_encode (mkRef k b)) by reflexivity. rewrite Eb.
  destruct (ref_encode (mkRef k b)) as [rb|x]; [|reflexivity]. destruct (mpt_update lim [] t k rb) as [[[]|x] t']; reflexivity.
Qed.
Lemma build_other : forall lim t k v l, (forall b, v <> VBytes b) -> build_loop lim t ((k, v) :: l) = (Err TypeError, t).
Proof. intros lim t k v l N. cbn [build_loop]. destruct v as [b|b|e d b]; [elim (N b eq_refl)|reflexivity..]. Qed.
Lemma built_loop : forall lim l e r e2, built lim e l r e2 -> build_loop lim (e_trie e) l = (r, e_trie e2).
Proof.
  induction 1 as [e|e k b l e1 r e2 E _ IH|e k b l x e1 E|e k v l N].
  - reflexivity.
  - destruct e as [d t]. cbn [e_trie]. rewrite (build_step lim t k b l d), E. exact IH.
  - destruct e as [d t]. cbn [e_trie]. rewrite (build_step lim t k b l d), E. reflexivity.
  - apply build_other. exact N.
Qed.
Lemma loop_built : forall lim l e, exists r e2, built lim e l r e2.
Proof.
  induction l as [|[k v] l IH]; intros e; [exists (Ok tt), e; constructor|]. destruct v as [b|b|x d b].
  - destruct (empt_update lim [] false e k (VBytes b)) as [[[]|x] e1] eqn:E.
    + destruct (IH e1) as (r & e2 & B). exists r, e2. eapply built_next; eauto.
    + exists (Err x), e1. eapply built_fails; eauto.
  - exists (Err TypeError), e. apply built_not_bytes. discriminate.
  - exists (Err TypeError), e. apply built_not_bytes. discriminate.
Qed.
Theorem build_exact : forall lim ds t r e', m_map t = [] ->
  (empt_build lim (mkEmpt ds t) = (r, e') <-> exists e2, built lim (mkEmpt [] t) ds r e2 /\ e' = mkEmpt ds (e_trie e2)).
Proof.
  intros lim ds t r e' Hm. unfold empt_build. cbn [e_trie e_data]. rewrite Hm. split.
  - destruct (loop_built lim ds (mkEmpt [] t)) as (r2 & e2 & B). pose proof (built_loop _ _ _ _ _ B) as E. cbn [e_trie] in E. rewrite E.
    intros X. injection X as <- <-. exists e2. auto.
  - intros (e2 & B & ->). apply built_loop in B. cbn [e_trie] in B. rewrite B. reflexivity.
Qed.
Theorem rebuild_exact : forall lim ds t x m, m_map t = x :: m -> exists e', empt_build lim (mkEmpt ds t) = (Err RuntimeError, e') /\
  e_data e' = ds /\ m_map (e_trie e') = m /\ m_root (e_trie e') = m_root t /\ m_secure (e_trie e') = m_secure t.
Proof. intros lim ds t x m Hm. unfold empt_build. cbn [e_trie e_data]. rewrite Hm. eexists. split; [reflexivity|]. repeat split. Qed.

Hypothesis keccak_len : forall b, length (keccak b) = 32.

Lemma expected_cases : forall k v, (referable v /\ expected_ref k v = Ok (mkRef k (val_bytes v))) \/ exists x, incomparable v x /\ expected_ref k v = Err x.
Proof. intros k [b|b|[|] d b]; [left|right|left|right]; try (split; [constructor|reflexivity]); eexists; (split; [constructor|reflexivity]). Qed.
Lemma not_both : forall v x, referable v -> incomparable v x -> False.
Proof. intros v x R I. destruct R; inversion I. Qed.

Section One.
Variables (secure : bool) (K : list bytes).
Hypothesis K_ok : keys_ok secure K.
Hypothesis K_small : forall k, In k K -> (blen k < 2 ^ 57)%N.
Lemma data_sound : forall l t r used ds k lim a, tinv secure K l t r used -> In k K -> NoDup (map fst ds) ->
  empt_get lim (mkEmpt ds t) k = a -> reads_data secure lim r used ds k a.
Proof.
  intros l t r used ds k lim a I Hk Hn E. unfold empt_get in E. cbn [e_data e_trie] in E.
  destruct (dget ds k) as [v|] eqn:Ed; [|subst a; apply data_none; apply dget_None_key in Ed; exact Ed].
  pose proof (dget_In _ _ _ Ed) as Hin. assert (Hink : In k (map fst ds)) by (apply in_map_iff; exists (k, v); auto).
  pose proof (ref_sound keccak_len secure K K_ok K_small l t r used k lim _ I Hk eq_refl) as F. unfold trie_reference in F.
  destruct (mpt_get lim t k) as [rb|x]; cbn [bind] in E, F; [|subst a; now apply data_no_reference].
  destruct (ref_decode rb) as [[k' b]|x]; cbn [bind] in E, F; [|subst a; now apply data_no_reference].
  destruct (expected_cases k v) as [[R X]|(x & I' & X)]; rewrite X in E; cbn [bind] in E; [|subst a; eapply data_wrong_kind; eauto].
  destruct (ref_eq (mkRef k' b) (mkRef k (val_bytes v))) eqn:Q; subst a.
  - apply (ref_eq_keccak keccak_len) in Q. eapply data_same; eauto.
  - eapply data_other; eauto. intros N. assert (ref_eq (mkRef k' b) (mkRef k (val_bytes v)) = true); [|congruence]. now apply (ref_eq_keccak keccak_len).
Qed.
Lemma data_exact : forall l t r used ds k lim a, tinv secure K l t r used -> In k K -> NoDup (map fst ds) -> frames secure k < lim ->
  reads_data secure lim r used ds k a -> empt_get lim (mkEmpt ds t) k = a.
Proof.
  intros l t r used ds k lim a I Hk Hn Hl D.
  assert (F : forall x, refers secure lim r used k x -> trie_reference lim t k = x) by (intros x; apply (ref_exact keccak_len secure K K_ok K_small l t r used k lim x I Hk Hl)).
  unfold trie_reference in F. unfold empt_get. cbn [e_data e_trie].
  assert (G : forall v x, In (k, v) ds -> refers secure lim r used k x ->
    match dget ds k with None => Err KeyError | Some data => bind (mpt_get lim t k) (fun rb => bind (ref_decode rb) (fun y => bind (expected_ref k data) (fun z => if ref_eq y z then Ok data else Err InvalidReferenceError))) end =
    bind x (fun y => bind (expected_ref k v) (fun z => if ref_eq y z then Ok v else Err InvalidReferenceError))).
  { intros v x Hin R. rewrite (dget_of_In _ _ _ Hn Hin). apply F in R. destruct (mpt_get lim t k) as [rb|e]; cbn [bind] in R |- *; [|now subst x].
    rewrite R. reflexivity. }
  destruct D as [N|x Hin R|v x [k' b] Hin R Y|v k' b Hin R Y Q|v k' b Hin R Y Q].
  - apply dget_None_key in N. now rewrite N.
  - apply in_fst in Hin as [v Hin]. rewrite (G v _ Hin R). reflexivity.
  - rewrite (G v _ Hin R). cbn [bind]. destruct (expected_cases k v) as [[R' X]|(x' & I' & X)]; [elim (not_both _ _ R' Y)|]. rewrite X. cbn [bind].
    destruct Y; inversion I'; reflexivity.
  - rewrite (G v _ Hin R). cbn [bind]. destruct (expected_cases k v) as [[R' X]|(x' & I' & X)]; [|elim (not_both _ _ Y I')]. rewrite X. cbn [bind].
    assert (E : ref_eq (mkRef k' b) (mkRef k (val_bytes v)) = true) by (now apply (ref_eq_keccak keccak_len)). now rewrite E.
  - rewrite (G v _ Hin R). cbn [bind]. destruct (expected_cases k v) as [[R' X]|(x' & I' & X)]; [|elim (not_both _ _ Y I')]. rewrite X. cbn [bind].
    destruct (ref_eq (mkRef k' b) (mkRef k (val_bytes v))) eqn:E; [|reflexivity]. elim Q. now apply (ref_eq_keccak keccak_len) in E.
Qed.
End One.

Theorem foreign_data : forall secure h outs e, empt_session (empt_new secure) h = (outs, e) -> efits h -> keys_ok secure (ekeys h) ->
  ekeccak_ok h -> no_collision (m_log (e_trie e)) ->
  exists g, efollows secure (EView [] no_refs false) h outs g /\
  forall ds k lim, NoDup (map fst ds) -> In k (ekeys h) ->
    (forall a, empt_get lim (mkEmpt ds (e_trie e)) k = a -> reads_data secure lim (ev_refs g) (ev_used g) ds k a) /\
    (frames secure k < lim -> forall a, reads_data secure lim (ev_refs g) (ev_used g) ds k a -> empt_get lim (mkEmpt ds (e_trie e)) k = a).
Proof.
  intros secure h outs e E Hf Hk Ht Hn. destruct (one_sound keccak_len _ _ _ _ E Hf Hk Ht Hn) as (l & g & F & (I & _)). exists g. split; [exact F|].
  intros ds k lim Nd Hin. split.
  - intros a. eapply data_sound; eauto; apply Hf.
  - intros Hl a. eapply data_exact; eauto; apply Hf.
Qed.

(** Injected data is found out where keys are hashed or of one length. *)
Lemma one_length_no_other : forall secure lim r used k k' b, (secure = true \/ forall x, r x <> None -> length x = length k) ->
  refers secure lim r used k (Ok (mkRef k' b)) -> k' = k /\ r k = Some b.
Proof.
  intros secure lim r used k k' b Hs R. remember (Ok (mkRef k' b)) as a eqn:Ea. destruct R as [b' Er|De|x Er F|Em Er F|y b' Em Er F Eb|F]; try discriminate Ea.
  - injection Ea as <- <-. auto.
  - injection Ea as <- <-. destruct Hs as [Hs|Hs]; [congruence|]. exfalso. assert (N : r (k ++ y) <> None) by congruence.
    specialize (Hs _ N). rewrite app_length in Hs. assert (y = []) by (destruct y; [reflexivity|cbn in Hs; lia]). subst y. rewrite app_nil_r in Eb. congruence.
Qed.
Theorem injected_detected : forall secure h outs e, empt_session (empt_new secure) h = (outs, e) -> efits h -> keys_ok secure (ekeys h) ->
  ekeccak_ok h -> no_collision (m_log (e_trie e)) ->
  exists g, efollows secure (EView [] no_refs false) h outs g /\
  forall ds k lim v, NoDup (map fst ds) -> In k (ekeys h) -> (secure = true \/ forall x, ev_refs g x <> None -> length x = length k) ->
    empt_get lim (mkEmpt ds (e_trie e)) k = Ok v -> exists b, ev_refs g k = Some b /\ keccak (k ++ b) = keccak (k ++ val_bytes v).
Proof.
  intros secure h outs e E Hf Hk Ht Hn. destruct (foreign_data _ _ _ _ E Hf Hk Ht Hn) as (g & F & D). exists g. split; [exact F|].
  intros ds k lim v Nd Hin Hs Eg. destruct (D ds k lim Nd Hin) as [D1 _]. specialize (D1 _ Eg). remember (Ok v) as a eqn:Ea.
  destruct D1 as [N|x Hin' R|w x ref Hin' R Y|w k' b Hin' R Y Q|w k' b Hin' R Y Q]; try discriminate Ea. injection Ea as <-.
  destruct (one_length_no_other _ _ _ _ _ _ _ Hs R) as [-> Er]. exists b. auto.
Qed.
End WithHash.
