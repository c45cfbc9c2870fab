(** An accepted exclusion proof has no node that nothing refers to. *)
From Coq Require Import List Bool Arith NArith Lia.
From Verif Require Import Base BaseProofs NibblePath Node ProofObj Mpt SpecChain.
Import ListNotations.

Section P.
Context {H : Hash}.
Hypothesis keccak_len : forall b, length (keccak b) = 32.

Definition filed (ps : dict bytes) : Prop :=
  NoDup (dkeys ps) /\ forall x b, dget ps x = Some b -> exists n, node_decode b = Ok n /\ into_reference n = Ok x.

Lemma into_reference_len : forall n r, into_reference n = Ok r -> length r = 32 \/ length r < 32.
Proof.
  intros n r E. unfold into_reference in E. destruct (node_encode n) as [e|]; [|discriminate]. cbn [bind] in E.
  injection E as <-. destruct (Nat.ltb_spec (length e) 32); auto.
Qed.

Lemma filed_ddel : forall ps r, filed ps -> filed (ddel ps r).
Proof.
  intros ps r [Hn Hf]. split; [apply NoDup_ddel; auto|]. intros x b E. rewrite dget_ddel in E by auto.
  destruct (bytes_eqb x r); [discriminate|]. apply Hf; auto.
Qed.

Lemma walk_chain : forall fuel ps r path o, filed ps -> verify_poe_ fuel ps r path = Ok (o, []) ->
  forall x b, dget ps x = Some b ->
  x = r \/ exists y b' n', dget ps y = Some b' /\ reads_as b' n' /\ In x (node_refs n').
Proof.
  induction fuel as [|f IH]; intros ps r path o F E x b Ex; cbn [verify_poe_] in E; [discriminate|].
  set (raw0 := if length r =? 32 then dget ps r else Some r) in *.
  destruct raw0 as [raw|] eqn:Eraw; [|injection E as _ ->; discriminate].
  destruct (node_decode raw) as [n|] eqn:En; [|discriminate]. cbn [bind] in E.
  destruct (dget ps r) as [b0|] eqn:Eb0; [|discriminate].
  assert (Hr : reads_as b0 n).
  { subst raw0. destruct (Nat.eqb_spec (length r) 32) as [E32|E32].
    - injection Eraw as <-. left. exact En.
    - injection Eraw as <-. right. destruct F as [_ F]. destruct (F r b0 Eb0) as (n0 & D & I). exists n0, r.
      split; auto. split; auto. split; auto. destruct (into_reference_len _ _ I); [contradiction|auto]. }
  assert (stop : forall o', Ok (o', ddel ps r) = Ok (o, []) -> x = r).
  { intros o' E'. injection E' as _ E'. destruct (bytes_eqb_spec x r) as [|Hx]; auto. exfalso.
    assert (G : dget (ddel ps r) x = Some b).
    { rewrite dget_ddel by apply F. destruct (bytes_eqb_spec x r); [contradiction|exact Ex]. }
    rewrite E' in G. discriminate. }
  assert (go : forall c path', In c (node_refs n) -> verify_poe_ f (ddel ps r) c path' = Ok (o, []) ->
    x = r \/ exists y b' n', dget ps y = Some b' /\ reads_as b' n' /\ In x (node_refs n')).
  { intros c path' Hc E'. destruct (bytes_eqb_spec x r) as [|Hx]; [left; auto|right].
    assert (G : dget (ddel ps r) x = Some b).
    { rewrite dget_ddel by apply F. destruct (bytes_eqb_spec x r); [contradiction|exact Ex]. }
    destruct (IH _ _ _ _ (filed_ddel _ r F) E' x b G) as [->|(y & b' & n' & Ey & Hy & Hi)].
    - exists r, b0, n. auto.
    - exists y, b', n'. split; auto. rewrite dget_ddel in Ey by apply F. destruct (bytes_eqb y r); [discriminate|exact Ey]. }
  destruct (np_len path =? 0); [left; eauto|].
  destruct n as [lp d|ep nr|bs d].
  - left. eauto.
  - destruct (np_starts_with path ep); [|left; eauto]. apply (go nr (np_consume path (np_len ep))); auto. left. reflexivity.
  - cbv zeta in E. destruct (Nat.ltb_spec 0 (length (nth (np_at path 0) bs []))) as [Hl|_]; [|left; eauto].
    apply (go (nth (np_at path 0) bs []) (np_consume path 1)); auto. cbn [node_refs].
    destruct (nth_in_or_default (np_at path 0) bs []) as [Hi|Hi]; auto. rewrite Hi in Hl. cbn in Hl. lia.
Qed.

Lemma storage_filed : forall l d d', filed d -> poe_storage l d = Ok d' ->
  filed d' /\ (forall x, dget d x <> None -> dget d' x <> None) /\
  (forall x b, dget d' x = Some b -> dget d x = Some b \/ In (PB b) l) /\
  (forall b n r, In (PB b) l -> node_decode b = Ok n -> into_reference n = Ok r -> dget d' r <> None).
Proof.
  induction l as [|a l IH]; intros d d' F E; cbn [poe_storage] in E.
  - injection E as <-. repeat split; auto; try apply F.
  - destruct (store_proof_node d a) as [d1|] eqn:Es; [|discriminate]. cbn [bind] in E.
    destruct a as [b0|]; [|discriminate]. cbn [store_proof_node] in Es.
    destruct (node_decode b0) as [n0|] eqn:D0; [|discriminate]. cbn [bind] in Es.
    destruct (into_reference n0) as [r0|] eqn:I0; [|discriminate]. cbn [bind] in Es. injection Es as <-.
    assert (F1 : filed (dset d r0 b0)).
    { split; [apply NoDup_dset; apply F|]. intros x b G. rewrite dget_dset in G.
      destruct (bytes_eqb_spec x r0) as [->|]; [injection G as <-; eauto|]. apply F; auto. }
    destruct (IH _ _ F1 E) as (F2 & K & S & A). split; [exact F2|]. split; [|split].
    + intros x Hx. apply K. rewrite dget_dset. destruct (bytes_eqb x r0); [discriminate|exact Hx].
    + intros x b G. destruct (S _ _ G) as [G'|G']; [|right; right; auto]. rewrite dget_dset in G'.
      destruct (bytes_eqb x r0); [injection G' as <-; right; left; auto|left; auto].
    + intros b n r [Hb|Hb] D I.
      * injection Hb as <-. rewrite D0 in D. injection D as <-. rewrite I0 in I. injection I as <-. apply K.
        rewrite dget_dset, bytes_eqb_refl. discriminate.
      * eapply A; eauto.
Qed.

Theorem exclusion_chain : forall lim t p b n r, mpt_verify_poe lim t p = Ok true ->
  has_node p b -> node_decode b = Ok n -> into_reference n = Ok r ->
  r = root_ref t \/ exists b' n', has_node p b' /\ reads_as b' n' /\ In r (node_refs n').
Proof.
  intros lim t p b n r E Hb D I. unfold mpt_verify_poe in E.
  destruct (negb (bytes_eqb (pf_type p) MPT_POE)); [discriminate|]. destruct (root_is_empty t); [discriminate|].
  destruct (hash_first p) as [h|]; [|discriminate]. cbn [bind] in E. destruct (negb (bytes_eqb (root_hash t) h)); [discriminate|].
  destruct (decode_last (pf_proof p)) as [ln|]; [|discriminate]. cbn [bind] in E.
  destruct (node_data ln) as [d|]; [|discriminate]. cbn [bind] in E. destruct (negb (bytes_eqb d null_bytes)); [discriminate|].
  destruct (poe_storage (removelast (pf_proof p)) []) as [ps|] eqn:Es; [|discriminate]. cbn [bind] in E.
  assert (F0 : filed []) by (split; [constructor|discriminate]).
  destruct (storage_filed _ _ _ F0 Es) as (F & _ & S & A).
  destruct (verify_poe_ lim ps (root_ref t) (np_of (pf_key p))) as [[o rest]|] eqn:Ev; [|discriminate]. cbn [bind] in E.
  destruct rest as [|x rest]; [|discriminate].
  destruct (dget ps r) as [b1|] eqn:Er; [|destruct (A b n r Hb D I Er)].
  destruct (walk_chain _ _ _ _ _ F Ev r b1 Er) as [?|(y & b' & n' & Ey & Hy & Hi)]; [left; auto|right].
  exists b', n'. split; [|auto]. destruct (S _ _ Ey) as [G|G]; [discriminate|exact G].
Qed.
End P.
