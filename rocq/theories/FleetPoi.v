(** Proofs made by EMPT objects that share their storages. *)
From Coq Require Import List Bool Arith NArith ZArith Lia.
From Verif Require Import Base BaseProofs Rlp RlpProofs NibblePath NibbleProofs Node ProofObj Mpt Tree TreeEnc
  StoreProofs Spec SpecCodec SpecProof MptRefine MptProofs PoiProofs PoeProofs Empt SpecEmpt EmptProofs EmptProofs2 SpecGet SpecWalk WalkProofs EmptPy SpecEvery
  EveryProofs EveryProofs2 SpecData DataProofs SpecShared SimProofs SharedProofs PoeExact SpecYp YpEmpt Fleet SpecFleet FleetProofs.
Import ListNotations.

Section Proofs.
Context {H : Hash}.
Hypothesis keccak_len : forall b, length (keccak b) = 32.

(** References are of texts that were stored. *)
Definition from (T : list (bytes * bytes)) (r : kvmap) : Prop := forall k b, r k = Some b -> In (k, b) T.
Lemma from_set : forall T r k b, from T r -> In (k, b) T -> from T (set_ref r k b).
Proof. intros T r k b F Hi x c E. unfold set_ref in E. destruct (bytes_eqb_spec x k); [subst; injection E as <-; exact Hi|auto]. Qed.
Lemma from_drop : forall T r k, from T r -> from T (drop_ref r k).
Proof. intros T r k F x c E. unfold drop_ref in E. destruct (bytes_eqb x k); [discriminate|auto]. Qed.
Lemma from_stores : forall s lim fl df g k v o g' T, stores s lim fl df g k v o g' -> from T (ev_refs g) -> In (k, val_bytes v) T -> from T (ev_refs g').
Proof. intros s lim fl df g k v o g' T X F Hi. destruct X; cbn [ev_refs]; auto using from_set. Qed.
Lemma from_drops : forall s lim cf df fl g k o g' T, drops s lim cf df fl g k o g' -> from T (ev_refs g) -> from T (ev_refs g').
Proof. intros s lim cf df fl g k o g' T X F. destruct X; cbn [ev_refs]; auto using from_drop. Qed.
Lemma from_pulls : forall s lim g k o g' T, pulls s lim g k o g' -> from T (ev_refs g) -> from T (ev_refs g').
Proof. intros s lim g k o g' T X F. destruct X; auto; eapply from_drops; eauto. Qed.
Lemma from_wipes : forall s lim g o g' T, wipes s lim g o g' -> from T (ev_refs g) -> from T (ev_refs g').
Proof. intros s lim g o g' T X. induction X; intros F; auto; [apply IHX|..]; eapply from_pulls; eauto. Qed.
Lemma from_xdoes : forall s lim g c o g' T, xdoes s lim g c o g' -> from T (ev_refs g) -> incl (etexts1 c) T -> from T (ev_refs g').
Proof.
  intros s lim g c o g' T X F Hi. destruct X; auto; try (eapply from_stores; eauto; apply Hi; left; reflexivity); try (eapply from_drops; eauto; fail);
    try (eapply from_pulls; eauto; fail). eapply from_wipes; eauto.
Qed.
Lemma from_fdoes : forall faint g c o g' T, fdoes faint g c o g' -> Forall (fun m => from T (mb_refs m)) (fv_objs g) -> incl (ftexts1 c) T ->
  Forall (fun m => from T (mb_refs m)) (fv_objs g').
Proof.
  intros faint g c o g' T X F Hi. destruct X as [i lim q o m vals r used objs Em Xd Rp|i m Em|i m Em|i m Em| | |]; cbn [fv_objs]; auto.
  - assert (Fm : from T (mb_refs m)) by (rewrite Forall_forall in F; apply F; eapply nth_error_In; eauto).
    pose proof (from_xdoes _ _ _ _ _ _ T Xd Fm Hi) as Fr. cbn [ev_refs] in Fr. remember (Member (mb_secure m) r used) as y eqn:Ey in Rp. destruct Rp as [l1 x y l2]. subst y. apply Forall_app in F. destruct F as [F1 F2].
    inversion_clear F2. apply Forall_app. split; [exact F1|]. constructor; [exact Fr|assumption].
  - apply Forall_app. split; auto. constructor; auto. rewrite Forall_forall in F. apply F. eapply nth_error_In; eauto.
  - apply Forall_app. split; auto. constructor; auto. intros k b E. discriminate.
Qed.
Lemma from_ffollows : forall faint g h os g' T, ffollows faint g h os g' -> Forall (fun m => from T (mb_refs m)) (fv_objs g) -> incl (ftexts h) T ->
  Forall (fun m => from T (mb_refs m)) (fv_objs g').
Proof.
  intros faint g h os g' T X. induction X as [|g c o g1 h os g2 Xd X IH]; intros F Hi; auto. apply IH.
  - eapply from_fdoes; eauto. intros x Hx. apply Hi. unfold ftexts. cbn [flat_map]. apply in_or_app. auto.
  - intros x Hx. apply Hi. unfold ftexts. cbn [flat_map]. apply in_or_app. auto.
Qed.
Lemma from_start : forall modes T, Forall (fun m => from T (mb_refs m)) (fv_objs (fleet_start modes)).
Proof. intros modes T. unfold fleet_start. cbn [fv_objs]. induction modes; cbn [map]; constructor; auto. intros k b E. discriminate. Qed.

(** The root of a trie with long values is a digest. *)
Lemma long_root : forall secure l t k v, reachable secure l t -> keys_ok secure (map op_key l) -> long_values (dict_after l) -> dict_after l k = Some v ->
  length (root_ref t) = 32.
Proof.
  intros secure l t k v R Hk Hlv Ed. destruct (reachable_repr keccak_len _ _ _ R) as (Es & tr & Rt & Hh).
  assert (Hb : big_values tr).
  { intros q' w Eq. destruct Hh as [H1 H2]. destruct (H2 _ _ Eq) as [x ->]. rewrite H1 in Eq.
    destruct (dict_after_eff_inv secure l x w Hk Eq) as (k' & _ & Ev). eapply Hlv; eauto. }
  assert (Hne : tr <> TEmpty).
  { intros ->. destruct Hh as [H1 _]. specialize (H1 (eff secure k)). rewrite (dict_eff secure l k), Ed in H1; [discriminate|].
    eapply keys_ok_incl; [|exact Hk]. intros x [<-|Hx]; auto. eapply dict_after_keys; eauto. }
  destruct (repr_nonempty keccak_len t tr Rt Hne) as (_ & _ & -> & _). destruct Rt as (Hw & Hs & _). apply Nat.eqb_eq.
  apply (big_tref32 keccak_len); [split; auto|exact Hb].
Qed.

Section Mode.
Variables (faint : Prop) (secure : bool) (K : list bytes).
Hypothesis K_ok : keys_ok secure K.
Hypothesis K_small : forall k, In k K -> (blen k < 2 ^ 57)%N.
Lemma sr_held : forall d r k, same_refs d r -> (held secure d k <-> held secure r k).
Proof. intros d r k S. unfold held. rewrite (sr_not _ _ _ S), (sr_false_positive _ _ _ S). reflexivity. Qed.
Lemma b_proofs : forall t r used T, binv faint secure K t r used -> tfine t -> from T r ->
  (forall k b, In (k, b) T -> (2 ^ 208 <= unbe (keccak (k ++ b)))%N) ->
  forall k lim lim' time t', In k K -> frames secure k < lim -> frames secure k < lim' -> m_root t' = m_root t ->
  let N := present_keys secure r in let q := nibbles (trie_key secure k) in
  (r k <> None -> exists p, mpt_get_poi lim time t k = Ok p /\ mpt_verify_poi lim' t' p = Ok true) /\
  (r k = None -> (exists x, r x <> None) -> forall e, mpt_get_poi lim time t k = Err e <-> poi_raises N q e) /\
  ((forall x, r x = None) -> mpt_get_poe lim time t k = Err ValueError) /\
  (held secure r k -> mpt_get_poe lim time t k = Err PoeError) /\
  ((exists x, r x <> None) -> ~ held secure r k -> exists p, mpt_get_poe lim time t k = Ok p /\
     (get_raises N q ExtensionPathError -> outside N q -> no_collision (proof_hashed (pf_proof p) ++ root_ref t :: m_log t) -> mpt_verify_poe lim' t' p = Ok false) /\
     (get_raises N q ExtensionPathError -> ~ outside N q -> mpt_verify_poe lim' t' p = Ok true) /\
     (~ get_raises N q ExtensionPathError -> own_tail N q -> mpt_verify_poe lim' t' p = Ok false) /\
     (~ get_raises N q ExtensionPathError -> ~ own_tail N q -> mpt_verify_poe lim' t' p = Ok true)).
Proof.
  intros t r used T [(l & t0 & I & Rl) _] F Fr Hbig k lim lim' time t' Hk Hl Hl' Hr' N q.
  pose proof (alike keccak_len secure K _ _ _ _ _ I Rl F) as A. destruct (A lim k time) as (_ & Ac & Api & Ape & _).
  rewrite Api, Ape. clear Api Ape. destruct I as (R & S & U & Hi). destruct Rl as (_ & Lg & Er & Es).
  assert (Kk : keys_ok secure (k :: map op_key l)) by (eapply keys_ok_incl; [|exact K_ok]; intros y [<-|Hy]; auto).
  assert (Kl : keys_ok secure (map op_key l)) by (eapply keys_ok_incl; [|exact K_ok]; exact Hi).
  assert (Hlv : long_values (dict_after l)).
  { intros x v E. destruct (sr_some _ _ _ _ S E) as (b & Eb & Ee). eapply (ref_long keccak_len); [exact Ee|]. apply Hbig. apply Fr. exact Eb. }
  assert (Hr0 : m_root t' = m_root t0) by congruence.
  pose proof (sr_present secure _ _ S) as P.
  assert (Ex : (exists x, r x <> None) -> exists x v, dict_after l x = Some v).
  { intros [x Hx]. destruct (r x) as [b|] eqn:Eb; [|congruence]. destruct (sr_some' _ _ _ _ S Eb) as (rb & Ed & _). eauto. }
  assert (Q : nibbles (trie_key secure k) = q) by reflexivity.
  repeat split.
  - intros Hn. destruct (r k) as [b|] eqn:Eb; [|congruence]. destruct (sr_some' _ _ _ _ S Eb) as (rb & Ed & _).
    apply (poi_complete keccak_len secure l t0 k rb lim lim' time t' R Kk Ed Hl Hl'); auto. eapply long_root; eauto.
  - intros Hx. apply (poi_raises_same _ _ P). apply (poi_Err_raises keccak_len secure l t0 k lim time R Kk); auto. apply (sr_none _ _ _ S); auto.
  - intros Hx. apply (poi_raises_same _ _ P) in Hx. apply (poi_Err_raises keccak_len secure l t0 k lim time R Kk) in Hx; auto. apply (sr_none _ _ _ S); auto.
  - intros Hn. apply (poe_refused keccak_len secure l t0 k lim time R Kk Hl). intros x. apply (sr_none _ _ _ S). auto.
  - intros Hh. apply (poe_refused keccak_len secure l t0 k lim time R Kk Hl). apply (sr_held _ _ _ S) in Hh.
    destruct (contains_exact_nf keccak_len secure l t0 k lim R Kk Hl) as (b & -> & Hb). f_equal. apply Hb. exact Hh.
  - intros He Hh. rewrite <- (sr_held _ _ _ S) in Hh.
    assert (Hc : mpt_contains lim t0 k = Ok false).
    { destruct (contains_exact_nf keccak_len secure l t0 k lim R Kk Hl) as (b & -> & Hb). destruct b; auto. elim Hh. apply Hb. reflexivity. }
    assert (Ed : dict_after l k = None) by (destruct (dict_after l k) eqn:E; auto; elim Hh; left; congruence).
    assert (Hs : (blen k < 2 ^ 59)%N) by (specialize (K_small _ Hk); lia).
    destruct (poe_exact keccak_len secure l t0 k lim lim' time t' R Kk Ed (Ex He) Hs Hl Hl' Hr0 Hc) as (p & Ep & P1 & P2 & P3 & P4).
    exists p. split; [exact Ep|]. fold q in P1, P2, P3, P4.
    assert (G : forall e, get_raises (present_keys secure (dict_after l)) q e <-> get_raises N q e) by (intros e; apply get_raises_same; exact P).
    assert (O : outside (present_keys secure (dict_after l)) q <-> outside N q) by (apply outside_same; exact P).
    assert (W : own_tail (present_keys secure (dict_after l)) q <-> own_tail N q) by (apply own_tail_same; exact P).
    rewrite (G ExtensionPathError) in P1, P2, P3, P4. rewrite O in P1, P2. rewrite W in P3, P4. repeat split; auto.
    + intros G1 O1 Nc. apply P1; auto. intros x y Hx Hy. apply Nc; apply in_or_app.
      * apply in_app_or in Hx. destruct Hx as [Hx|[Hx|Hx]]; auto; right; [left; rewrite <- Hx; unfold root_ref; rewrite Er; reflexivity|right; auto].
      * apply in_app_or in Hy. destruct Hy as [Hy|[Hy|Hy]]; auto; right; [left; rewrite <- Hy; unfold root_ref; rewrite Er; reflexivity|right; auto].
    + intros G1 O1. destruct (P2 G1 O1) as [?|[_ ?]]; [assumption|contradiction].
Qed.
End Mode.

Lemma winv_proofs : forall modes h w g, ffits h -> fkeys_ok modes h -> no_collision (fl_log w) -> winv modes h w g ->
  Forall (fun m => from (ftexts h) (mb_refs m)) (fv_objs g) -> ~ ffaint h -> proofs_say w g (fkeys h).
Proof.
  intros modes h0 w g Hf Hk N W Fr Hn i h m k lim lim' time t' Eh Em Ik Hl Hl' Hr t K q.
  assert (D := proj1 W). pose proof (Forall2_nth _ _ _ _ _ i (proj2 (proj2 (proj2 (proj2 W))))) as Fi. rewrite Eh, Em in Fi. destruct Fi as (Hs & Hmo & Hb).
  rewrite Forall_forall in Fr.
  apply (b_proofs (ffaint h0) (mb_secure m) (fkeys h0) (Hk _ Hmo) (proj1 Hf) t (mb_refs m) (mb_used m) (ftexts h0) Hb); auto.
  - split; [exact D|exact N].
  - apply Fr. eapply nth_error_In; eauto.
  - intros x b Hx. destruct (N.lt_ge_cases (unbe (keccak (x ++ b))) (2 ^ 208)%N) as [Hs'|Hs']; [|exact Hs']. elim Hn. exists x, b. auto.
Qed.
Theorem fleet_proofs : forall modes h outs w, fleet_run (fleet_new modes) h = (outs, w) -> ffits h -> fkeys_ok modes h -> no_collision (fl_log w) -> ~ ffaint h ->
  (exists g, ffollows (ffaint h) (fleet_start modes) h outs g /\ proofs_say w g (fkeys h)) /\
  (fquiet modes h -> forall outs' g, ffollows (ffaint h) (fleet_start modes) h outs' g -> proofs_say w g (fkeys h)).
Proof.
  intros modes h outs w E Hf Hk N Hn. destruct (run_step keccak_len modes h Hf Hk h _ _ _ _ (new_winv modes h) (fun c Hc => Hc) E N) as [(g & F & W) Only]. split.
  - exists g. split; [exact F|]. eapply winv_proofs; eauto. eapply from_ffollows; eauto using from_start, incl_refl.
  - intros Hq outs' g' F'. destruct (Only Hn Hq _ _ F') as [_ W']. eapply winv_proofs; eauto. eapply from_ffollows; eauto using from_start, incl_refl.
Qed.
End Proofs.
