(** Proofs about SpecETally.v. *)
From Coq Require Import List Bool Arith NArith ZArith Lia.
From Verif Require Import Base BaseProofs Rlp NibblePath Node ProofObj Mpt StoreProofs Spec SpecEmpt Empt MptProofs EmptProofs SpecEvery MptPy SpecMptEvery Threads SpecThreads ThreadsSeq ThreadsPool
  ThreadsAlone ThreadsSerial ThreadsRace EThreads SpecEThreads EThreadsRun EThreadsSerial EThreadsAlone EThreadsTrace EThreadsRead SpecETally.
Import ListNotations.

Section S.
Context {H : Hash}.
Variable secure : bool.
Notation start := (epool_new secure).
Notation after ms := (erun secure start ms).

(** ** Calls that have changed the data storage *)
Fixpoint cnt (f : ecmd -> bool) (us : list bool) (cs : list (nat * ecmd)) : nat :=
  match us, cs with u :: us, x :: cs => (if f (snd x) && u then 1 else 0) + cnt f us cs | _, _ => 0 end.
Lemma cnt_snoc : forall f us cs u x, length us = length cs -> cnt f (us ++ [u]) (cs ++ [x]) = cnt f us cs + (if f (snd x) && u then 1 else 0).
Proof. intros f us. induction us as [|v us IH]; intros [|y cs] u x L; try discriminate; cbn; [lia|]. injection L as L. rewrite IH by exact L. lia. Qed.
Lemma cnt_set : forall f us cs i x, nth_error us i = Some false -> nth_error cs i = Some x ->
  cnt f (firstn i us ++ true :: skipn (S i) us) cs = cnt f us cs + (if f (snd x) then 1 else 0).
Proof.
  intros f us. induction us as [|v us IH]; intros [|y cs] [|i] x E1 E2; try discriminate; cbn [nth_error] in *.
  - injection E1 as ->. injection E2 as ->. cbn. rewrite andb_true_r, andb_false_r. lia.
  - specialize (IH _ _ _ E1 E2). cbn [firstn skipn app cnt] in *. rewrite IH. lia.
Qed.

Definition dropped (a : tout) : eprog := match a with ANone r => EDone (RNone r) | _ => EDone (RNone (Err RuntimeError)) end.
Definition dropping (lim : nat) (k : bytes) (b : bool) : eprog := if b then ETrie lim (TDel k) dropped else EDone (RNone (Err KeyError)).
Definition found (lim : nat) (k : bytes) (a : tout) : eprog :=
  match a with
  | ABool (Ok true) => EDrop k (dropping lim k)
  | ABool (Ok false) => EDone (RNone (Err KeyNotFoundError))
  | ABool (Err x) => EDone (RNone (Err x))
  | _ => EDone (RNone (Err RuntimeError))
  end.
Definition phase (lim : nat) (c : ecmd) (p : eprog) (u : bool) : Prop :=
  match c with
  | XPut k v =>
      if u then p = EDone (RNone (Ok tt))
      else (exists rb, p = ETrie lim (TPut k rb) (stored k v)) \/ (exists i, p = EWait i (stored k v)) \/ p = EStore k v (EDone (RNone (Ok tt))) \/ exists x, p = EDone (RNone (Err x))
  | XDel k =>
      if u then p = ETrie lim (TDel k) dropped \/ (exists i, p = EWait i dropped) \/ exists r, p = EDone (RNone r)
      else p = ETrie lim (TIn k) (found lim k) \/ (exists i, p = EWait i (found lim k)) \/ p = EDrop k (dropping lim k) \/ exists x, p = EDone (RNone (Err x))
  | _ => makes lim c p /\ u = false
  end.
Lemma phase_call : forall lim c, phase lim c (e_call lim c) false.
Proof.
  intros lim c. destruct c; try (split; [apply makes_call|reflexivity]); cbn [phase e_call].
  - unfold e_put. destruct (bind (update_ref k v) (fun r => ref_encode r)) as [rb|x]; [left; exists rb; reflexivity|do 3 right; eauto].
  - left. reflexivity.
Qed.
Lemma phase_step : forall lim c t d p u, phase lim c p u -> exists u', phase lim c (snd (estep secure t d p)) u' /\
  let d' := snd (fst (estep secure t d p)) in
  (u' = u /\ d' = d) \/ (u = false /\ u' = true /\ ((exists k v, c = XPut k v /\ d' = dset d k v) \/ exists k v, c = XDel k /\ dget d k = Some v /\ d' = ddel d k)).
Proof.
  intros lim c t d p u P.
  assert (Rd : makes lim c p -> u = false -> is_ewrite c = false -> (forall q, makes lim c q -> phase lim c q false) -> exists u', phase lim c (snd (estep secure t d p)) u' /\
    (u' = u /\ snd (fst (estep secure t d p)) = d)).
  { intros M -> W F. exists false. split; [apply F, makes_step, M|]. split; [reflexivity|]. destruct p as [o|k f|k v p|k f|lim' tc f|j f]; cbn [estep fst snd makes] in *; try reflexivity.
    - destruct M as [-> _]. discriminate.
    - destruct M as [-> _]. discriminate. }
  assert (Rd' : is_ewrite c = false -> exists u', phase lim c (snd (estep secure t d p)) u' /\ let d' := snd (fst (estep secure t d p)) in
    (u' = u /\ d' = d) \/ (u = false /\ u' = true /\ ((exists k v, c = XPut k v /\ d' = dset d k v) \/ exists k v, c = XDel k /\ dget d k = Some v /\ d' = ddel d k))).
  { intros W. destruct Rd as (u' & A & B); [destruct c; try discriminate; apply P|destruct c; try discriminate; apply P|exact W| |exists u'; split; [exact A|left; exact B]].
    intros q M. destruct c; try discriminate; split; auto. }
  destruct c; try (apply Rd'; reflexivity); clear Rd Rd'; cbn [phase] in P.
  - destruct u.
    + subst p. exists true. split; [reflexivity|]. left. auto.
    + destruct P as [[rb ->]|[[i ->]|[->|[x ->]]]]; cbn [estep fst snd].
      * exists false. split; [right; left; eauto|]. left. auto.
      * exists false. split; [|left; auto]. cbn [phase]. destruct (answer_of _ i) as [o|]; [|right; left; eauto].
        destruct o as [r|r|[y|x]|r|r]; cbn [stored]; eauto 6.
      * exists true. split; [reflexivity|]. right. split; [reflexivity|]. split; [reflexivity|]. left. eauto.
      * exists false. split; [do 3 right; eauto|]. left. auto.
  - destruct u.
    + destruct P as [->|[[i ->]|[r ->]]]; cbn [estep fst snd]; exists true; (split; [|left; auto]); cbn [phase].
      * right. left. eauto.
      * destruct (answer_of _ i) as [o|]; [|right; left; eauto]. right. right. destruct o; cbn [dropped]; eauto.
      * right. right. eauto.
    + destruct P as [->|[[i ->]|[->|[x ->]]]]; cbn [estep].
      * cbn [fst snd]. exists false. split; [right; left; eauto|]. left. auto.
      * cbn [fst snd]. exists false. split; [|left; auto]. cbn [phase]. destruct (answer_of _ i) as [o|]; [|right; left; eauto].
        destruct o as [r|[[|]|x]|r|r|r]; cbn [found]; eauto 6.
      * destruct (dget d k) as [v|] eqn:E; cbn [fst snd dropping].
        -- exists true. split; [left; reflexivity|]. right. split; [reflexivity|]. split; [reflexivity|]. right. eauto.
        -- exists false. split; [do 3 right; eauto|]. left. auto.
      * cbn [fst snd]. exists false. split; [do 3 right; eauto|]. left. auto.
Qed.

Record tallied (ms : list emove) (w : epool) (us : list bool) : Prop := {
  ta_len : length us = length (ecalls_of ms);
  ta_phase : forall i lim c p u, nth_error (ecalls_of ms) i = Some (lim, c) -> nth_error (x_calls w) i = Some p -> nth_error us i = Some u -> phase lim c p u;
  ta_le : forall k, cnt (dels_k k) us (ecalls_of ms) + has w k <= cnt (puts_k k) us (ecalls_of ms);
  ta_ge : forall k, 0 < cnt (puts_k k) us (ecalls_of ms) -> has w k = 1 \/ 0 < cnt (dels_k k) us (ecalls_of ms);
  ta_val : forall k v, dget (x_data w) k = Some v -> exists i lim, nth_error (ecalls_of ms) i = Some (lim, XPut k v) /\ nth_error us i = Some true }.

Lemma tallied_run : forall ms, exists us, tallied ms (after ms) us.
Proof.
  intros ms. induction ms as [|m ms [us IH]] using rev_ind.
  { exists []. constructor; try (intros; cbn in *; try discriminate; lia). intros i lim c p u E. destruct i; discriminate. }
  pose proof (run_calls_len secure ms) as Len. rewrite erun_snoc. set (w := after ms) in *. destruct IH as [L P Le Ge V]. destruct m as [lim c|i].
  - exists (us ++ [false]). assert (Ec : ecalls_of (ms ++ [ECall lim c]) = ecalls_of ms ++ [(lim, c)]) by (rewrite ecalls_app; reflexivity).
    assert (C : forall f, cnt f (us ++ [false]) (ecalls_of ms ++ [(lim, c)]) = cnt f us (ecalls_of ms)) by (intros f; rewrite cnt_snoc by exact L; rewrite andb_false_r; lia).
    constructor; rewrite ?Ec.
    + rewrite !app_length, L. reflexivity.
    + intros j lim' c' p u E1 E2 E3. cbn [ego x_calls] in E2. apply nth_error_snoc in E2 as [E2|[-> ->]].
      * assert (Lj : j < length (ecalls_of ms)) by (rewrite <- Len; eapply nth_lt, E2). rewrite nth_snoc_old in E1 by exact Lj. rewrite nth_snoc_old in E3 by lia. eauto.
      * rewrite Len, nth_snoc_new in E1. rewrite Len, <- L, nth_snoc_new in E3. injection E1 as <- <-. injection E3 as <-. apply phase_call.
    + intros k. rewrite !C. apply Le.
    + intros k. rewrite !C. apply Ge.
    + intros k v E. destruct (V k v E) as (j & l & A & B). exists j, l. rewrite nth_snoc_old by (eapply nth_lt, A). rewrite nth_snoc_old by (eapply nth_lt, B). auto.
  - assert (Ec : ecalls_of (ms ++ [EGo i]) = ecalls_of ms) by (rewrite ecalls_app; cbn; apply app_nil_r).
    destruct (nth_error (x_calls w) i) as [p|] eqn:Ep.
    2:{ exists us. cbn [ego]. rewrite Ep. constructor; rewrite ?Ec; auto. }
    rewrite (ego_at secure _ _ _ Ep). assert (Li : i < length (ecalls_of ms)) by (rewrite <- Len; eapply nth_lt, Ep).
    destruct (nth_error (ecalls_of ms) i) as [[lim c]|] eqn:Ei; [|apply nth_error_None in Ei; lia].
    destruct (nth_error us i) as [u|] eqn:Eu; [|apply nth_error_None in Eu; lia].
    destruct (phase_step lim c (x_trie w) (x_data w) p u (P _ _ _ _ _ Ei Ep Eu)) as (u' & P' & Ef). cbn zeta in Ef.
    destruct (estep secure (x_trie w) (x_data w) p) as [[t' d'] p'] eqn:Es. cbn [fst snd] in *.
    assert (PH : forall us', (forall j, j <> i -> nth_error us' j = nth_error us j) -> nth_error us' i = Some u' -> forall j lim c p u, nth_error (ecalls_of ms) j = Some (lim, c) ->
       nth_error (firstn i (x_calls w) ++ p' :: skipn (S i) (x_calls w)) j = Some p -> nth_error us' j = Some u -> phase lim c p u).
    { intros us' O S j lim1 c1 p1 u1 E1 E2 E3. destruct (Nat.eq_dec j i) as [->|N].
      - rewrite (upd_same _ _ _ _ _ Ep) in E2. rewrite S in E3. rewrite Ei in E1. injection E1 as <- <-. injection E2 as <-. injection E3 as <-. exact P'.
      - rewrite (upd_other _ _ _ _ _ _ Ep N) in E2. rewrite O in E3 by exact N. eauto. }
    destruct Ef as [[-> ->]|(-> & -> & Ef)].
    + exists us. constructor; rewrite ?Ec; cbn [x_calls x_data]; auto. apply PH; auto.
    + exists (firstn i us ++ true :: skipn (S i) us).
      assert (C : forall f, cnt f (firstn i us ++ true :: skipn (S i) us) (ecalls_of ms) = cnt f us (ecalls_of ms) + (if f c then 1 else 0)) by (intros f; exact (cnt_set f _ _ _ _ Eu Ei)).
      assert (Lu : length (firstn i us ++ true :: skipn (S i) us) = length us) by (rewrite app_length, firstn_length; cbn [length]; rewrite skipn_length; lia).
      pose proof (data_nodup secure ms) as ND. fold w in ND.
      assert (VS : forall j b, nth_error us j = Some true -> nth_error (firstn i us ++ true :: skipn (S i) us) j = Some true \/ b).
      { intros j b E. left. destruct (Nat.eq_dec j i) as [->|N]; [congruence|]. rewrite (upd_other _ _ _ _ _ _ Eu N). exact E. }
      constructor; rewrite ?Ec; cbn [x_calls x_data].
      * lia.
      * apply PH; [intros j N; apply (upd_other _ _ _ _ _ _ Eu N)|apply (upd_same _ _ _ _ _ Eu)].
      * intros k. specialize (Le k). rewrite !C. unfold has in *. cbn [x_data]. destruct Ef as [(k1 & v1 & -> & ->)|(k1 & v1 & -> & Eg & ->)]; cbn [puts_k dels_k].
        -- rewrite dget_dset. destruct (bytes_eqb_spec k k1) as [Q|N]; destruct (bytes_eqb_spec k1 k) as [Q'|N']; try congruence; destruct (dget (x_data w) k); lia.
        -- rewrite dget_ddel by exact ND. destruct (bytes_eqb_spec k k1) as [Q|N]; destruct (bytes_eqb_spec k1 k) as [Q'|N']; try congruence.
           ++ subst k1. rewrite Eg in Le. lia.
           ++ destruct (dget (x_data w) k); lia.
      * intros k. specialize (Ge k). rewrite !C. unfold has in *. cbn [x_data]. destruct Ef as [(k1 & v1 & -> & ->)|(k1 & v1 & -> & Eg & ->)]; cbn [puts_k dels_k].
        -- rewrite dget_dset. destruct (bytes_eqb_spec k k1) as [->|N]; [auto|]. destruct (bytes_eqb_spec k1 k); [congruence|]. rewrite !Nat.add_0_r. exact Ge.
        -- rewrite dget_ddel by exact ND. destruct (bytes_eqb_spec k1 k) as [->|N]; [right; lia|]. destruct (bytes_eqb_spec k k1); [congruence|]. rewrite !Nat.add_0_r. exact Ge.
      * intros k v E. destruct Ef as [(k1 & v1 & -> & ->)|(k1 & v1 & -> & Eg & ->)].
        -- rewrite dget_dset in E. destruct (bytes_eqb_spec k k1) as [->|N].
           ++ injection E as ->. exists i, lim. split; [exact Ei|apply (upd_same _ _ _ _ _ Eu)].
           ++ destruct (V _ _ E) as (j & l & A & B). exists j, l. split; [exact A|]. destruct (VS j False B); [assumption|contradiction].
        -- rewrite dget_ddel in E by exact ND. destruct (bytes_eqb_spec k k1); [discriminate|]. destruct (V _ _ E) as (j & l & A & B). exists j, l. split; [exact A|]. destruct (VS j False B); [assumption|contradiction].
Qed.

(** ** The calls that returned *)
Lemma tally_cnt : forall f cs ps us, length us = length cs -> length ps = length cs ->
  (forall i x p u, nth_error cs i = Some x -> nth_error ps i = Some p -> nth_error us i = Some u -> f (snd x) = true -> went_well (eanswer p) = true -> u = true) ->
  length (filter (fun x => f (snd (fst x)) && went_well (snd x)) (combine cs (map eanswer ps))) <= cnt f us cs.
Proof.
  intros f cs. induction cs as [|x cs IH]; intros [|p ps] [|u us] L1 L2 F; try discriminate; [cbn; lia|]. cbn [map combine filter fst snd cnt].
  assert (IH' := IH ps us ltac:(cbn in L1; lia) ltac:(cbn in L2; lia) (fun i => F (S i))). specialize (F 0 x p u eq_refl eq_refl eq_refl).
  destruct (f (snd x)); cbn [andb]; [|lia]. destruct (went_well (eanswer p)); cbn [length]; [rewrite F by reflexivity; lia|lia].
Qed.
Lemma cnt_tally : forall f cs ps us, length us = length cs -> length ps = length cs ->
  (forall i x p u, nth_error cs i = Some x -> nth_error ps i = Some p -> nth_error us i = Some u -> f (snd x) = true -> u = true -> went_well (eanswer p) = true) ->
  cnt f us cs <= length (filter (fun x => f (snd (fst x)) && went_well (snd x)) (combine cs (map eanswer ps))).
Proof.
  intros f cs. induction cs as [|x cs IH]; intros [|p ps] [|u us] L1 L2 F; try discriminate; [cbn; lia|]. cbn [map combine filter fst snd cnt].
  assert (IH' := IH ps us ltac:(cbn in L1; lia) ltac:(cbn in L2; lia) (fun i => F (S i))). specialize (F 0 x p u eq_refl eq_refl eq_refl).
  destruct (f (snd x)); cbn [andb]; [|lia]. destruct u; [rewrite F by reflexivity; cbn [length]; lia|]. destruct (went_well (eanswer p)); cbn [length]; lia.
Qed.

Theorem tallies : forall ms k, let w := after ms in
  tally (dels_k k) ms w + has w k <= tally (puts_k k) ms w /\
  (0 < tally (puts_k k) ms w -> has w k = 1 \/ exists lim, In (lim, XDel k) (ecalls_of ms)) /\
  (forall v, dget (x_data w) k = Some v -> exists i lim, nth_error (ecalls_of ms) i = Some (lim, XPut k v) /\ eanswer_of w i = Some (RNone (Ok tt))).
Proof.
  intros ms k w. destruct (tallied_run ms) as [us [L P Le Ge V]]. pose proof (run_calls_len secure ms) as Len. fold w in P, Le, Ge, V, Len.
  assert (T1 : tally (dels_k k) ms w <= cnt (dels_k k) us (ecalls_of ms)).
  { apply tally_cnt; [exact L|exact Len|]. intros i [lim c] p u E1 E2 E3 F W. cbn [snd] in F. specialize (P _ _ _ _ _ E1 E2 E3). destruct c; try discriminate. destruct u; [reflexivity|].
    destruct P as [->|[[j ->]|[->|[x ->]]]]; discriminate. }
  assert (T2 : tally (puts_k k) ms w <= cnt (puts_k k) us (ecalls_of ms)).
  { apply tally_cnt; [exact L|exact Len|]. intros i [lim c] p u E1 E2 E3 F W. cbn [snd] in F. specialize (P _ _ _ _ _ E1 E2 E3). destruct c; try discriminate. destruct u; [reflexivity|].
    destruct P as [[rb ->]|[[j ->]|[->|[x ->]]]]; discriminate. }
  assert (T3 : cnt (puts_k k) us (ecalls_of ms) <= tally (puts_k k) ms w).
  { apply cnt_tally; [exact L|exact Len|]. intros i [lim c] p u E1 E2 E3 F ->. cbn [snd] in F. specialize (P _ _ _ _ _ E1 E2 E3). destruct c; try discriminate. cbn [phase] in P. subst p. reflexivity. }
  split; [specialize (Le k); lia|]. split.
  - intros G. destruct (Ge k) as [A|A]; [lia|auto|]. right.
    assert (Any : forall us cs, 0 < cnt (dels_k k) us cs -> exists lim, In (lim, XDel k) cs).
    { clear. intros us. induction us as [|u us IH]; intros [|[lim c] cs] G; cbn in G; try lia. destruct (dels_k k c) eqn:D.
      - destruct c; try discriminate. cbn in D. destruct (bytes_eqb_spec k0 k) as [->|]; [|discriminate]. exists lim. left. reflexivity.
      - cbn in G. destruct (IH _ G) as [l I]. exists l. right. exact I. }
    exact (Any _ _ A).
  - intros v E. destruct (V _ _ E) as (i & lim & A & B). exists i, lim. split; [exact A|]. unfold eanswer_of.
    destruct (nth_error (x_calls w) i) as [p|] eqn:Ep; [|apply nth_error_None in Ep; apply nth_lt in A; lia]. pose proof (P _ _ _ _ _ A Ep B) as Q. cbn [phase] in Q. subst p. reflexivity.
Qed.

(** A get returns a value that was put. *)
Theorem got_put : forall ms i lim k v, nth_error (ecalls_of ms) i = Some (lim, XGet k) -> eanswer_of (after ms) i = Some (RVal (Ok v)) ->
  exists m e j lim', eduring secure ms i m e /\ nth_error (ecalls_of m) j = Some (lim', XPut k v) /\ eanswer_of (after m) j = Some (RNone (Ok tt)).
Proof.
  intros ms i lim k v Ec Ea. pose proof (eanswer_done _ _ _ Ea) as Ep. destruct (getting_run secure _ _ _ _ _ Ec Ep) as [E|(m & e & D & M)]; [discriminate|].
  destruct (dget (e_data e) k) as [v0|] eqn:Ed; [|discriminate]. assert (v0 = v).
  { destruct M as [M|M]; [discriminate|]. destruct M as (j & W). destruct W as (_ & _ & W). destruct W as [W|(a & _ & W)]; [discriminate|]. destruct a; cbn in W; try discriminate. injection W as W.
    destruct r as [b|x]; [|discriminate]. cbn in W. destruct (ref_decode b) as [r|]; [|discriminate]. cbn in W. destruct (expected_ref k v0) as [y|]; [|discriminate]. cbn in W.
    destruct (ref_eq r y); [|discriminate]. injection W as ->. reflexivity. }
  subst v0. destruct D as (m2 & Em & Li & An & Eo). assert (Ed' : dget (x_data (after m)) k = Some v) by (rewrite <- Eo in Ed; exact Ed).
  destruct (tallies m k) as (_ & _ & T). destruct (T v Ed') as (j & l & A & B). exists m, e, j, l. split; [exists m2; auto|auto].
Qed.
End S.
