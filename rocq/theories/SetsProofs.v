(** Proofs about set operations on the keys of EMPTs. *)
From Coq Require Import List Bool Arith NArith Lia.
From Verif Require Import Base BaseProofs Rlp NibblePath Node ProofObj Mpt Tree StoreProofs Spec ReadProofs MptRefine MptProofs Empt SpecEmpt EmptProofs EmptPy SpecEvery
  EveryProofs EveryProofs2 EmptViews EmptSets SpecSets ReplicaProofs.
Import ListNotations.

Lemma map_inj_in : forall k l, In (KBytes k) (map KBytes l) <-> In k l.
Proof. intros k l. rewrite in_map_iff. split; [intros (x & E & Hx); injection E as ->; auto|eauto]. Qed.
Lemma bytes_in_spec : forall k l, bytes_in k (map KBytes l) = true <-> In k l.
Proof.
  intros k l. unfold bytes_in. rewrite existsb_exists. split.
  - intros (x & Hx & E). apply in_map_iff in Hx as (y & <- & Hy). destruct (bytes_eqb_spec k y) as [->|]; [auto|discriminate].
  - intros Hk. exists (KBytes k). rewrite map_inj_in. split; auto. apply bytes_eqb_refl.
Qed.

Section Ops.
Context {H : Hash}.

(** Questions that are all answered. *)
Definition tells {A} (f : A -> result bool) (P : A -> Prop) (k : A) : Prop := exists b, f k = Ok b /\ (b = true <-> P k).
Lemma all_says : forall A (f : A -> result bool) P l, (forall k, In k l -> tells f P k) -> says (all_has f l) (forall k, In k l -> P k).
Proof.
  intros A f P l. induction l as [|k l IH]; intros Hf; cbn [all_has].
  - exists true. split; auto. split; [intros _ k []|auto].
  - destruct (Hf k (or_introl eq_refl)) as (b & E & Hb). rewrite E. cbn [bind]. destruct b.
    + destruct (IH (fun y Hy => Hf y (or_intror Hy))) as (c & -> & Hc). exists c. split; auto. rewrite Hc. split.
      * intros Q y [<-|Hy]; auto. apply Hb. reflexivity.
      * intros Q y Hy. apply Q. right. exact Hy.
    + exists false. split; auto. split; [discriminate|]. intros Q. apply Hb. apply Q. left. reflexivity.
Qed.
Lemma none_says : forall A (f : A -> result bool) P l, (forall k, In k l -> tells f P k) -> says (none_has f l) (forall k, In k l -> ~ P k).
Proof.
  intros A f P l. induction l as [|k l IH]; intros Hf; cbn [none_has].
  - exists true. split; auto. split; [intros _ k []|auto].
  - destruct (Hf k (or_introl eq_refl)) as (b & E & Hb). rewrite E. cbn [bind]. destruct b.
    + exists false. split; auto. split; [discriminate|]. intros Q. exfalso. apply (Q k (or_introl eq_refl)). apply Hb. reflexivity.
    + destruct (IH (fun y Hy => Hf y (or_intror Hy))) as (c & -> & Hc). exists c. split; auto. rewrite Hc. split.
      * intros Q y [<-|Hy]; auto. intros F. apply Hb in F. discriminate.
      * intros Q y Hy. apply Q. right. exact Hy.
Qed.
Lemma which_gives : forall (f : pykey -> result bool) (P : bytes -> Prop) want l, (forall k, In k l -> exists b, f (KBytes k) = Ok b /\ (b = true <-> P k)) ->
  gives (which f want (map KBytes l)) (fun k => In k l /\ (if want then P k else ~ P k)).
Proof.
  intros f P want l. induction l as [|k l IH]; intros Hf; cbn [which map].
  - exists []. split; auto. intros k. cbn. tauto.
  - destruct (Hf k (or_introl eq_refl)) as (b & E & Hb). rewrite E. cbn [bind].
    destruct (IH (fun y Hy => Hf y (or_intror Hy))) as (r & -> & Hr). cbn [bind].
    assert (D : Bool.eqb b want = true <-> if want then P k else ~ P k).
    { rewrite eqb_true_iff. destruct want, b; rewrite <- ?Hb; intuition congruence. }
    destruct (Bool.eqb b want).
    + exists (k :: r). split; auto. intros y. cbn [In]. rewrite Hr. pose proof (proj1 D eq_refl) as Dk. split; [intros [<-|Hy]|]; tauto.
    + exists r. split; auto. intros y. rewrite Hr. cbn [In]. split; [tauto|]. intros [[<-|Hy] Q]; [|auto]. exfalso. apply D in Q. discriminate.
Qed.

(** One EMPT and an operand. *)
Section Two.
Variables (lim : nat) (e : empt) (o : operand) (a b : side).
Hypothesis keys_a : empt_keys e = listed a.
Hypothesis keys_b : oiter o = map KBytes (listed b).
Hypothesis asks_a : forall k, In k (listed b) -> tells (fun k => keys_has lim e (KBytes k)) (has a) k.
Hypothesis asks_b : forall k, In k (listed a) -> tells (ohas lim o) (has b) k.

Lemma lens : empt_len e = length (listed a) /\ olen o = length (listed b).
Proof.
  split; [|unfold olen; rewrite keys_b; apply map_length]. rewrite <- keys_a. unfold empt_len, empt_keys, dkeys. now rewrite map_length.
Qed.
Lemma all_b : says (all_has (keys_has lim e) (oiter o)) (forall k, In k (listed b) -> has a k).
Proof.
  rewrite keys_b. destruct (all_says _ (keys_has lim e) (fun x => match x with KBytes k => has a k | KOther => False end) (map KBytes (listed b))) as (c & E & Hc).
  - intros x Hx. apply in_map_iff in Hx as (k & <- & Hk). destruct (asks_a k Hk) as (d & Ed & Hd). exists d. auto.
  - exists c. split; auto. rewrite Hc. split.
    + intros Q k Hk. apply (Q (KBytes k)). apply map_inj_in. exact Hk.
    + intros Q x Hx. apply in_map_iff in Hx as (k & <- & Hk). auto.
Qed.
Lemma none_b : says (none_has (keys_has lim e) (oiter o)) (forall k, In k (listed b) -> ~ has a k).
Proof.
  rewrite keys_b. destruct (none_says _ (keys_has lim e) (fun x => match x with KBytes k => has a k | KOther => False end) (map KBytes (listed b))) as (c & E & Hc).
  - intros x Hx. apply in_map_iff in Hx as (k & <- & Hk). destruct (asks_a k Hk) as (d & Ed & Hd). exists d. auto.
  - exists c. split; auto. rewrite Hc. split.
    + intros Q k Hk. apply (Q (KBytes k)). apply map_inj_in. exact Hk.
    + intros Q x Hx. apply in_map_iff in Hx as (k & <- & Hk). auto.
Qed.
Lemma all_a : says (all_has (ohas lim o) (empt_keys e)) (forall k, In k (listed a) -> has b k).
Proof. rewrite keys_a. apply all_says. exact asks_b. Qed.

Lemma says_if : forall (t : bool) r (P Q : Prop), (t = true <-> Q) -> says r P -> says (if t then r else Ok false) (Q /\ P).
Proof.
  intros t r P Q Ht (c & E & Hc). destruct t.
  - exists c. split; auto. tauto.
  - exists false. split; auto. intuition discriminate.
Qed.
Lemma says_unless : forall (t : bool) r (P Q : Prop), (t = false <-> Q) -> says r P -> says (if t then Ok false else r) (Q /\ P).
Proof.
  intros t r P Q Ht (c & E & Hc). destruct t.
  - exists false. split; auto. intuition discriminate.
  - exists c. split; auto. tauto.
Qed.
Lemma says_same : forall r P Q, says r P -> (P <-> Q) -> says r Q.
Proof. intros r P Q (c & E & Hc) D. exists c. split; auto. tauto. Qed.
Lemma gives_same : forall r P Q, gives r P -> (forall k, P k <-> Q k) -> gives r Q.
Proof. intros r P Q (l & E & Hl) D. exists l. split; auto. intros k. rewrite Hl. apply D. Qed.

Lemma set_ops : set_answers lim e o a b.
Proof.
  destruct lens as [La Lb].
  assert (Le : says (view_le lim e o) (length (listed a) <= length (listed b) /\ (forall k, In k (listed a) -> has b k))).
  { unfold view_le. rewrite La, Lb. apply says_unless; [|exact all_a]. rewrite Nat.ltb_ge. tauto. }
  assert (Ge : says (view_ge lim e o) (length (listed b) <= length (listed a) /\ (forall k, In k (listed b) -> has a k))).
  { unfold view_ge. rewrite La, Lb. apply says_unless; [|exact all_b]. rewrite Nat.ltb_ge. tauto. }
  assert (Su : gives (view_sub lim e o) (fun k => In k (listed a) /\ ~ has b k)).
  { unfold view_sub. rewrite keys_a. apply (which_gives _ (has b) false). exact asks_b. }
  assert (Rs : gives (view_rsub lim e o) (fun k => In k (listed b) /\ ~ has a k)).
  { unfold view_rsub. rewrite keys_b. apply (which_gives _ (has a) false). exact asks_a. }
  unfold set_answers. cbv zeta.
  split; [exact Le|]. split.
  { unfold view_lt. rewrite La, Lb. eapply says_same; [apply says_if; [apply Nat.ltb_lt|exact Le]|]. intuition lia. }
  split; [exact Ge|]. split.
  { unfold view_gt. rewrite La, Lb. eapply says_same; [apply says_if; [apply Nat.ltb_lt|exact Ge]|]. intuition lia. }
  split.
  { unfold view_eq. rewrite La, Lb. eapply says_same; [apply says_if; [apply Nat.eqb_eq|exact Le]|]. intuition lia. }
  split; [exact none_b|]. split.
  { unfold view_and. rewrite keys_b. apply (which_gives _ (has a) true). exact asks_a. }
  split.
  { exists (listed a ++ listed b). unfold view_or. rewrite keys_a, keys_b, map_app. split; auto. intros k. apply in_app_iff. }
  split; [exact Su|]. split; [exact Rs|].
  unfold view_xor. destruct Su as (la & -> & Ha). destruct Rs as (lb & -> & Hb). cbn [bind]. exists (la ++ lb). rewrite map_app. split; auto.
  intros k. rewrite in_app_iff, Ha, Hb. tauto.
Qed.
End Two.

(** From the answers to sets. *)
Lemma incl_both : forall (a b : list bytes), NoDup a -> NoDup b -> incl a b -> length b <= length a -> incl b a.
Proof. intros a b Na Nb I L. apply NoDup_length_incl; auto. Qed.
Lemma answers_algebra : forall lim e o a b, NoDup (listed a) -> NoDup (listed b) -> (forall k, In k (listed b) -> (has a k <-> In k (listed a))) ->
  (forall k, In k (listed a) -> (has b k <-> In k (listed b))) -> set_answers lim e o a b -> set_algebra lim e o (listed a) (listed b).
Proof.
  intros lim e o a b Na Nb Ha Hb (A1 & A2 & A3 & A4 & A5 & A6 & A7 & A8 & A9 & A10 & A11).
  assert (Ab : (forall k, In k (listed a) -> has b k) <-> incl (listed a) (listed b)) by (split; intros Q k Hk; apply Hb; auto).
  assert (Ba : (forall k, In k (listed b) -> has a k) <-> incl (listed b) (listed a)) by (split; intros Q k Hk; apply Ha; auto).
  pose proof (@NoDup_incl_length _ (listed a) (listed b) Na) as Lab. pose proof (@NoDup_incl_length _ (listed b) (listed a) Nb) as Lba.
  pose proof (incl_both _ _ Na Nb) as Bab. pose proof (incl_both _ _ Nb Na) as Bba.
  unfold set_algebra.
  split; [eapply says_same; [exact A1|]; rewrite Ab; tauto|].
  split; [eapply says_same; [exact A3|]; rewrite Ba; tauto|].
  split; [eapply says_same; [exact A2|]; rewrite Ab; split; [intros [Q1 Q2]; split; auto; intros Q3; specialize (Lba Q3); lia|
    intros [Q1 Q2]; split; auto; specialize (Lab Q1); destruct (Nat.lt_ge_cases (length (listed a)) (length (listed b))); auto; exfalso; auto]|].
  split; [eapply says_same; [exact A4|]; rewrite Ba; split; [intros [Q1 Q2]; split; auto; intros Q3; specialize (Lab Q3); lia|
    intros [Q1 Q2]; split; auto; specialize (Lba Q1); destruct (Nat.lt_ge_cases (length (listed b)) (length (listed a))); auto; exfalso; auto]|].
  split; [eapply says_same; [exact A5|]; rewrite Ab; split; [intros [Q1 Q2]; split; auto; apply Bab; auto; lia|
    intros [Q1 Q2]; split; auto; specialize (Lab Q1); specialize (Lba Q2); lia]|].
  split; [eapply says_same; [exact A6|]; split; intros Q k Hk F; apply (Q k Hk); apply Ha; auto|].
  split; [eapply gives_same; [exact A7|]; intros k; cbn; split; intros [Q1 Q2]; split; auto; [apply Ha; auto|apply Ha; auto]|].
  split; [exact A8|].
  split; [eapply gives_same; [exact A9|]; intros k; cbn; split; intros [Q1 Q2]; split; auto; intros F; apply Q2; apply Hb; auto|].
  split; [eapply gives_same; [exact A10|]; intros k; cbn; split; intros [Q1 Q2]; split; auto; intros F; apply Q2; apply Ha; auto|].
  eapply gives_same; [exact A11|]. intros k; cbn. split; (intros [[Q1 Q2]|[Q1 Q2]]; [left|right]; (split; [exact Q1|]; intros F; apply Q2); first [apply Hb|apply Ha]; auto).
Qed.
End Ops.

(** ** Sessions in which nothing raises because of the storages or the stack *)
Section Quiet.
Context {H : Hash}.
Variables (secure : bool) (K : list bytes).
Definition tidy (g : eview) : Prop := NoDup (map fst (ev_vals g)) /\ (forall k, ev_refs g k <> None <-> In k (map fst (ev_vals g))) /\ incl (map fst (ev_vals g)) K.
Definition enough (lim : nat) : Prop := forall k, In k K -> frames secure k < lim.

Lemma set_dom : forall r k b x, set_ref r k b x <> None <-> x = k \/ r x <> None.
Proof. intros r k b x. unfold set_ref. destruct (bytes_eqb_spec x k) as [->|D]; [split; [auto|discriminate]|tauto]. Qed.
Lemma drop_dom : forall r k x, drop_ref r k x <> None <-> x <> k /\ r x <> None.
Proof. intros r k x. unfold drop_ref. destruct (bytes_eqb_spec x k) as [->|D]; [split; [congruence|tauto]|tauto]. Qed.

Lemma tidy_stores : forall lim g k v r g', tidy g -> In k K -> enough lim -> stores secure lim [] false g k v r g' -> tidy g'.
Proof.
  intros lim g k v r g' (N & D & I) Hk Hl S.
  inversion S as [x U|l St Df En|St Df|x St G]; subst r g'; try discriminate Df; try (split; auto; fail).
  unfold tidy. cbn [ev_vals ev_refs]. inversion En as [l0 k0 v0 Hn E1 E2 E3|l1 l2 k0 v0 w E1 E2 E3]; subst k0 v0 l.
  - rewrite map_app. cbn [map fst]. split.
    + subst l0. clear -N Hn. induction (map fst (ev_vals g)) as [|y l IH]; cbn [app]; [constructor; [auto|constructor]|].
      inversion N as [|? ? Hy N']; subst. constructor; [|apply IH; auto; intros F; apply Hn; right; exact F].
      rewrite in_app_iff. intros [F|[<-|[]]]; [auto|]. apply Hn. left. reflexivity.
    + split.
      * intros x. rewrite set_dom, D, in_app_iff. subst l0. cbn [In]. intuition congruence.
      * subst l0. intros x Hx. apply in_app_iff in Hx as [Hx|[<-|[]]]; auto.
  - rewrite <- E1 in *. rewrite map_app in *. cbn [map fst] in *. split; [exact N|]. split.
    + intros x. rewrite set_dom, D, in_app_iff. cbn [In]. intuition congruence.
    + exact I.
Qed.
Lemma tidy_removes : forall lim g k r g', tidy g -> In k K -> enough lim -> removes secure lim false false [] g k r g' -> tidy g'.
Proof.
  intros lim g k r g' Tg Hk Hl S. assert (T0 := Tg). destruct Tg as (N & D & I).
  inversion S as [C|C L|C Hh|C Hh Df|C Hh Df Hn|v l C Df Rm|v l x C Df Rm G]; subst r g'; try discriminate; auto.
  - inversion Rm as [l1 l2 k0 v0 E1 E2 E3]; subst k0 v0 l. unfold tidy. cbn [ev_vals ev_refs]. rewrite <- E1 in *. rewrite map_app in *. cbn [map fst] in *.
    apply NoDup_remove in N as [N1 N2]. split; [exact N1|]. split.
    + intros x. rewrite drop_dom, D, !in_app_iff in *. cbn [In]. intuition congruence.
    + intros x Hx. apply I. rewrite in_app_iff in *. cbn [In]. tauto.
  - exfalso. destruct G as [[_ F]|[_ F]]; [auto|]. specialize (Hl _ Hk). lia.
Qed.
Lemma tidy_takes : forall lim g k r g', tidy g -> In k K -> enough lim -> takes secure lim g k r g' -> tidy g'.
Proof. intros lim g k r g' Tg Hk Hl T. inversion T; subst; auto; eapply tidy_removes; eauto. Qed.
Lemma tidy_first : forall g k v l, tidy g -> ev_vals g = (k, v) :: l -> In k K.
Proof. intros g k v l (_ & _ & I) E. apply I. rewrite E. left. reflexivity. Qed.
Lemma tidy_clears : forall lim g r g', enough lim -> clears secure lim g r g' -> tidy g -> tidy g'.
Proof.
  intros lim g r g' Hl C. induction C as [g Ev|g k v w l g1 r g2 Ev T C IH|g k v l x g1 Ev T]; intros Tg; auto.
  - apply IH. eapply tidy_takes; eauto using tidy_first.
  - eapply tidy_takes; eauto using tidy_first.
Qed.
Lemma tidy_does : forall lim g c o g', tidy g -> incl (ekeys1 c) K -> equiet1 c -> enough lim -> edoes secure lim g c o g' -> tidy g'.
Proof.
  intros lim g c o g' Tg HK Q Hl E. destruct E; cbn [ekeys1 equiet1] in *; auto.
  - destruct Q as [-> ->]. eapply tidy_stores; eauto. apply HK. left. reflexivity.
  - destruct Q as (-> & -> & ->). eapply tidy_removes; eauto. apply HK. left. reflexivity.
  - eapply tidy_takes; eauto. apply HK. left. reflexivity.
  - eapply tidy_takes; eauto using tidy_first.
  - eapply tidy_takes; eauto using tidy_first.
  - eapply tidy_clears; eauto.
  - eapply tidy_stores; eauto. apply HK. left. reflexivity.
  - eapply tidy_stores; eauto. apply HK. left. reflexivity.
Qed.
Lemma tidy_follows : forall h g outs g', efollows secure g h outs g' -> tidy g -> incl (ekeys h) K ->
  (forall lim c, In (lim, c) h -> equiet1 c /\ enough lim) -> tidy g'.
Proof.
  intros h g outs g' F. induction F as [g|g lim c o g1 h outs g2 E F IH]; intros Tg HK Q; auto.
  destruct (Q lim c (or_introl eq_refl)) as [Q1 Q2]. apply IH.
  - eapply tidy_does; eauto. intros x Hx. apply HK. unfold ekeys. cbn [flat_map]. apply in_or_app. left. exact Hx.
  - intros x Hx. apply HK. unfold ekeys. cbn [flat_map]. apply in_or_app. right. exact Hx.
  - intros lim' c' Hi. apply Q. right. exact Hi.
Qed.
End Quiet.

Section Sets.
Context {H : Hash}.
Hypothesis keccak_len : forall b, length (keccak b) = 32.

Theorem quiet_domain : forall secure h outs g, equiet secure h -> efollows secure (EView [] no_refs false) h outs g ->
  NoDup (map fst (ev_vals g)) /\ forall k, ev_refs g k <> None <-> In k (map fst (ev_vals g)).
Proof.
  intros secure h outs g Q F. destruct (tidy_follows secure (ekeys h) _ _ _ _ F) as (A & B & _).
  - split; [constructor|]. split; [|intros x []]. intros k. cbn. unfold no_refs. intuition congruence.
  - apply incl_refl.
  - intros lim c Hi. destruct (Q _ _ Hi). split; auto.
  - auto.
Qed.

(** Membership after a session. *)
Theorem member_answers : forall secure h outs e, empt_session (empt_new secure) h = (outs, e) -> efits h -> keys_ok secure (ekeys h) ->
  ekeccak_ok h -> no_collision (m_log (e_trie e)) ->
  exists g, efollows secure (EView [] no_refs false) h outs g /\ empt_keys e = map fst (ev_vals g) /\ incl (map fst (ev_vals g)) (ekeys h) /\
    NoDup (map fst (ev_vals g)) /\
    forall ks lim k, keys_ok secure (ks ++ ekeys h) -> In k (ks ++ ekeys h) -> frames secure k < lim ->
    tells (fun k => keys_has lim e (KBytes k)) (held secure (ev_refs g)) k.
Proof.
  intros secure h outs e E Hf Hk Ht Hn. destruct (one_sound keccak_len _ _ _ _ E Hf Hk Ht Hn) as (l & g & F & (I & Ed & Nd & Hv & _)).
  exists g. split; [exact F|]. split; [unfold empt_keys, dkeys; now rewrite Ed|]. split; [|split; [exact Nd|]].
  - intros k Hi. apply in_fst in Hi as (v & Hi). apply (Hv k v Hi).
  - intros ks lim k Hkk Hi Hl.
    assert (I' : tinv secure (ks ++ ekeys h) l (e_trie e) (ev_refs g) (ev_used g)) by (eapply tinv_more; [|exact I]; intros x Hx; apply in_or_app; auto).
    pose proof (in_sound keccak_len _ _ Hkk _ _ _ _ _ lim _ I' Hi eq_refl) as A.
    unfold tells, keys_has, with_key, empt_contains. destruct A as [Hh|Hh|Hh].
    + exists true. tauto.
    + exists false. split; auto. split; [discriminate|contradiction].
    + lia.
Qed.

Theorem with_a_set : forall secure h outs e, empt_session (empt_new secure) h = (outs, e) -> efits h -> keys_ok secure (ekeys h) ->
  ekeccak_ok h -> no_collision (m_log (e_trie e)) ->
  exists g, efollows secure (EView [] no_refs false) h outs g /\
  forall lim ks, keys_ok secure (ks ++ ekeys h) -> (forall k, In k ks -> frames secure k < lim) ->
    set_answers lim e (SSet (map KBytes ks)) (SideKeys secure g) (SideSet ks).
Proof.
  intros secure h outs e E Hf Hk Ht Hn. destruct (member_answers _ _ _ _ E Hf Hk Ht Hn) as (g & F & Ke & Ki & Nd & M).
  exists g. split; [exact F|]. intros lim ks Hkk Hl. apply set_ops.
  - exact Ke.
  - reflexivity.
  - intros k Hi. cbn [listed] in Hi. apply (M ks); auto. apply in_or_app. auto.
  - intros k _. exists (bytes_in k (map KBytes ks)). split; [reflexivity|]. apply bytes_in_spec.
Qed.

Theorem with_keys : forall m1 h1 outs1 e1 m2 h2 outs2 e2,
  empt_session (empt_new m1) h1 = (outs1, e1) -> efits h1 -> ekeccak_ok h1 -> no_collision (m_log (e_trie e1)) ->
  empt_session (empt_new m2) h2 = (outs2, e2) -> efits h2 -> ekeccak_ok h2 -> no_collision (m_log (e_trie e2)) ->
  keys_ok m1 (ekeys h1 ++ ekeys h2) -> keys_ok m2 (ekeys h1 ++ ekeys h2) ->
  exists g1 g2, efollows m1 (EView [] no_refs false) h1 outs1 g1 /\ efollows m2 (EView [] no_refs false) h2 outs2 g2 /\
  forall lim, (forall k, In k (map fst (ev_vals g2)) -> frames m1 k < lim) -> (forall k, In k (map fst (ev_vals g1)) -> frames m2 k < lim) ->
    set_answers lim e1 (SView e2) (SideKeys m1 g1) (SideKeys m2 g2).
Proof.
  intros m1 h1 outs1 e1 m2 h2 outs2 e2 E1 F1 T1 N1 E2 F2 T2 N2 K1 K2.
  assert (C1 : keys_ok m1 (ekeys h2 ++ ekeys h1)) by (eapply keys_ok_incl; [|exact K1]; intros x; rewrite !in_app_iff; tauto).
  destruct (member_answers _ _ _ _ E1 F1 (keys_ok_incl _ _ _ (incl_appl _ (incl_refl _)) K1) T1 N1) as (g1 & G1 & A1 & I1 & D1 & M1).
  destruct (member_answers _ _ _ _ E2 F2 (keys_ok_incl _ _ _ (incl_appr _ (incl_refl _)) K2) T2 N2) as (g2 & G2 & A2 & I2 & D2 & M2).
  exists g1, g2. split; [exact G1|]. split; [exact G2|]. intros lim L1 L2. apply set_ops.
  - exact A1.
  - cbn [oiter listed]. now rewrite A2.
  - intros k Hi. cbn [listed has] in *. apply (M1 (ekeys h2)); auto. apply in_or_app. left. apply I2. exact Hi.
  - intros k Hi. cbn [listed has] in *. apply (M2 (ekeys h1)); auto. apply in_or_app. left. apply I1. exact Hi.
Qed.

(** Sets as sets. *)
Lemma exact_held : forall m h outs g ks, equiet m h -> efollows m (EView [] no_refs false) h outs g -> exact_in m g ks ->
  forall k, In k ks -> (held m (ev_refs g) k <-> In k (map fst (ev_vals g))).
Proof.
  intros m h outs g ks Q F X k Hk. destruct (quiet_domain _ _ _ _ Q F) as [_ D]. unfold held. rewrite D. split; [|auto].
  intros [Hi|[-> Fp]]; auto. destruct X as [X|X]; [discriminate|]. exfalso. eapply X; eauto.
Qed.
Theorem set_is_set : forall m h outs g lim e ks, equiet m h -> efollows m (EView [] no_refs false) h outs g -> NoDup ks -> exact_in m g ks ->
  set_answers lim e (SSet (map KBytes ks)) (SideKeys m g) (SideSet ks) -> set_algebra lim e (SSet (map KBytes ks)) (map fst (ev_vals g)) ks.
Proof.
  intros m h outs g lim e ks Q F N X A. apply (answers_algebra _ _ _ (SideKeys m g) (SideSet ks)); cbn [listed has]; auto.
  - apply (quiet_domain _ _ _ _ Q F).
  - eapply exact_held; eauto.
  - intros; reflexivity.
Qed.
Theorem keys_are_sets : forall m1 h1 outs1 g1 m2 h2 outs2 g2 lim e o, equiet m1 h1 -> efollows m1 (EView [] no_refs false) h1 outs1 g1 ->
  equiet m2 h2 -> efollows m2 (EView [] no_refs false) h2 outs2 g2 -> exact_in m1 g1 (map fst (ev_vals g2)) -> exact_in m2 g2 (map fst (ev_vals g1)) ->
  set_answers lim e o (SideKeys m1 g1) (SideKeys m2 g2) -> set_algebra lim e o (map fst (ev_vals g1)) (map fst (ev_vals g2)).
Proof.
  intros m1 h1 outs1 g1 m2 h2 outs2 g2 lim e o Q1 F1 Q2 F2 X1 X2 A. apply (answers_algebra _ _ _ (SideKeys m1 g1) (SideKeys m2 g2)); cbn [listed has]; auto.
  - apply (quiet_domain _ _ _ _ Q1 F1).
  - apply (quiet_domain _ _ _ _ Q2 F2).
  - eapply exact_held; eauto.
  - eapply exact_held; eauto.
Qed.

(** Operations that ask only the set. *)
Theorem any_set : forall lim e l,
  says (view_le lim e (SSet l)) (empt_len e <= length l /\ forall k, In k (empt_keys e) -> In (KBytes k) l) /\
  says (view_lt lim e (SSet l)) (empt_len e < length l /\ forall k, In k (empt_keys e) -> In (KBytes k) l) /\
  says (view_eq lim e (SSet l)) (empt_len e = length l /\ forall k, In k (empt_keys e) -> In (KBytes k) l) /\
  gives (view_sub lim e (SSet l)) (fun k => In k (empt_keys e) /\ ~ In (KBytes k) l) /\
  (forall x, In x (view_or e (SSet l)) <-> In x l \/ exists k, x = KBytes k /\ In k (empt_keys e)).
Proof.
  intros lim e l.
  assert (B : forall k, bytes_in k l = true <-> In (KBytes k) l).
  { intros k. unfold bytes_in. rewrite existsb_exists. split.
    - intros (x & Hx & E). destruct x as [y|]; [|discriminate]. destruct (bytes_eqb_spec k y) as [->|]; [auto|discriminate].
    - intros Hk. exists (KBytes k). split; auto. apply bytes_eqb_refl. }
  assert (A : says (all_has (ohas lim (SSet l)) (empt_keys e)) (forall k, In k (empt_keys e) -> In (KBytes k) l)).
  { apply all_says. intros k _. exists (bytes_in k l). split; [reflexivity|apply B]. }
  assert (Le : says (view_le lim e (SSet l)) (empt_len e <= length l /\ forall k, In k (empt_keys e) -> In (KBytes k) l)).
  { unfold view_le. apply says_unless; [|exact A]. unfold olen. cbn [oiter]. rewrite Nat.ltb_ge. tauto. }
  split; [exact Le|]. split; [|split; [|split]].
  - unfold view_lt, olen. cbn [oiter]. eapply says_same; [apply says_if; [apply Nat.ltb_lt|exact Le]|]. intuition lia.
  - unfold view_eq, olen. cbn [oiter]. eapply says_same; [apply says_if; [apply Nat.eqb_eq|exact Le]|]. intuition lia.
  - unfold view_sub. apply (which_gives _ (fun k => In (KBytes k) l) false). intros k _. exists (bytes_in k l). split; [reflexivity|apply B].
  - intros x. unfold view_or. cbn [oiter]. rewrite in_app_iff, in_map_iff. split; [intros [(k & <- & Hk)|Hx]; eauto|intros [Hx|(k & -> & Hk)]; eauto].
Qed.

(** Elements that are not bytes. *)
Lemma which_stops : forall lim e want l1 l2, (forall k, In k l1 -> exists b, keys_has lim e (KBytes k) = Ok b) ->
  which (keys_has lim e) want (map KBytes l1 ++ KOther :: l2) = Err TypeError.
Proof.
  intros lim e want l1 l2. induction l1 as [|k l1 IH]; intros Hf; cbn [map app which]; [reflexivity|].
  destruct (Hf k (or_introl eq_refl)) as (b & ->). cbn [bind]. rewrite IH; [reflexivity|]. intros y Hy. apply Hf. right. exact Hy.
Qed.
Theorem not_bytes : forall secure h outs e, empt_session (empt_new secure) h = (outs, e) -> efits h -> keys_ok secure (ekeys h) ->
  ekeccak_ok h -> no_collision (m_log (e_trie e)) ->
  forall lim ks more, keys_ok secure (ks ++ ekeys h) -> (forall k, In k ks -> frames secure k < lim) ->
  let o := SSet (map KBytes ks ++ KOther :: more) in
  view_and lim e o = Err TypeError /\ view_rsub lim e o = Err TypeError /\ view_xor lim e o = Err TypeError.
Proof.
  intros secure h outs e E Hf Hk Ht Hn lim ks more Hkk Hl o. destruct (member_answers _ _ _ _ E Hf Hk Ht Hn) as (g & F & Ke & Ki & Nd & M).
  assert (W : forall want, which (keys_has lim e) want (map KBytes ks ++ KOther :: more) = Err TypeError).
  { intros want. apply which_stops. intros k Hi. destruct (M ks lim k Hkk (in_or_app _ _ _ (or_introl Hi)) (Hl k Hi)) as (b & Eb & _). eauto. }
  destruct (any_set lim e (map KBytes ks ++ KOther :: more)) as (_ & _ & _ & (l & El & _) & _).
  split; [apply W|]. split; [apply W|]. unfold o, view_xor. rewrite El. cbn [bind]. unfold view_rsub.
  cbn [oiter]. rewrite W. reflexivity.
Qed.

(** ** Two EMPTs with different keys *)
Lemma put_does : forall m lim g k v o g', storable v = true -> frames m k < lim -> edoes m lim g (QPut (KBytes k) v [] false) o g' ->
  exists l, entered (ev_vals g) k v l /\ g' = EView l (set_ref (ev_refs g) k (val_bytes v)) true.
Proof.
  intros m lim g k v o g' Sv Hl E. inversion E as [| | | | | |k0 v0 fl df r g0 S E1 E2 E3| | | | | | | | | | | | | | | | | | | ]; subst k0 v0 fl df o g0.
  inversion S as [x U|l St Df En|St Df|x St G]; subst r; try discriminate Df.
  - subst g'. exfalso. destruct U as [[] [] b Ed|b]; discriminate.
  - subst g'. eauto.
  - subst g'. exfalso. destruct G as [[_ F]|[_ F]]; [auto|lia].
Qed.
Lemma two_puts : forall m lim k1 v1 k2 v2 outs g, storable v1 = true -> storable v2 = true -> frames m k1 < lim -> frames m k2 < lim -> k1 <> k2 ->
  efollows m (EView [] no_refs false) (two lim k1 v1 k2 v2) outs g ->
  map fst (ev_vals g) = [k1; k2] /\ ev_refs g = set_ref (set_ref no_refs k1 (val_bytes v1)) k2 (val_bytes v2).
Proof.
  intros m lim k1 v1 k2 v2 outs g S1 S2 L1 L2 D F. inversion F as [|? ? ? o1 g1 ? outs1 ? E1 F1]; subst.
  inversion F1 as [|? ? ? o2 g2 ? outs2 ? E2 F2]; subst. inversion F2; subst.
  apply put_does in E1 as (l1 & En1 & ->); auto. apply put_does in E2 as (l2 & En2 & ->); auto. cbn [ev_vals ev_refs] in *.
  split; [|reflexivity].
  inversion En1 as [l k v Hn A1 A2 A3|a c k v w A1 A2 A3]; subst; [|destruct a; discriminate A1]. cbn [app] in *.
  inversion En2 as [l k v Hn' B1 B2 B3|a c k v w B1 B2 B3]; subst; [reflexivity|].
  exfalso. destruct a as [|y a]; [injection B1 as B1 _ _; congruence|]. injection B1 as _ B1. destruct a; discriminate B1.
Qed.

Lemma set_same : forall r k b, set_ref r k b k = Some b.
Proof. intros. unfold set_ref. now rewrite bytes_eqb_refl. Qed.
Lemma set_other : forall r k b x, x <> k -> set_ref r k b x = r x.
Proof. intros r k b x D. unfold set_ref. destruct (bytes_eqb_spec x k); [contradiction|reflexivity]. Qed.
Lemma longer : forall (p : bytes) b r, p <> p ++ b :: r.
Proof. intros p b r E. apply (f_equal (@length _)) in E. rewrite app_length in E. cbn in E. lia. Qed.
Lemma branch_positive : forall p b r b' r' x y, hi b <> hi b' ->
  false_positive (set_ref (set_ref no_refs p x) (p ++ b :: r) y) (p ++ b' :: r').
Proof.
  intros p b r b' r' x y D. exists p, b', r', x. split; [reflexivity|]. split; [|split].
  - rewrite set_other by apply longer. apply set_same.
  - exists (p ++ b :: r), y. split; [exists (b :: r); split; [discriminate|reflexivity]|apply set_same].
  - intros c s Hc. rewrite !set_other; [reflexivity| |].
    + intros E. symmetry in E. exact (longer _ _ _ E).
    + intros E. apply app_inv_head in E. injection E as -> ->. congruence.
Qed.

Section Alike.
Variables (p : bytes) (b : byte) (r : bytes) (b' : byte) (r' : bytes) (v v1 v2 : value) (lim : nat).
Variables (outs1 : list eout) (e1 : empt) (outs2 : list eout) (e2 : empt).
Let h1 := two lim p v (p ++ b :: r) v1.
Let h2 := two lim p v (p ++ b' :: r') v2.
Theorem alike : hi b <> hi b' -> storable v = true -> storable v1 = true -> storable v2 = true ->
  2 * length (p ++ b :: r) < lim -> 2 * length (p ++ b' :: r') < lim ->
  empt_session (empt_new false) h1 = (outs1, e1) -> efits h1 -> ekeccak_ok h1 -> no_collision (m_log (e_trie e1)) ->
  empt_session (empt_new false) h2 = (outs2, e2) -> efits h2 -> ekeccak_ok h2 -> no_collision (m_log (e_trie e2)) ->
  empt_keys e1 = [p; p ++ b :: r] /\ empt_keys e2 = [p; p ++ b' :: r'] /\ p ++ b :: r <> p ++ b' :: r' /\
  view_eq lim e1 (SView e2) = Ok true /\ view_le lim e1 (SView e2) = Ok true /\ view_sub lim e1 (SView e2) = Ok [] /\ view_xor lim e1 (SView e2) = Ok [] /\
  view_and lim e1 (SSet [KBytes (p ++ b' :: r')]) = Ok [KBytes (p ++ b' :: r')] /\ view_disjoint lim e1 (SSet [KBytes (p ++ b' :: r')]) = Ok false.
Proof.
  intros D S0 S1 S2 L1 L2 E1 F1 T1 N1 E2 F2 T2 N2.
  assert (L0 : 2 * length p < lim) by (rewrite app_length in L1; lia).
  assert (Ko : forall ks, keys_ok false ks) by (intros ks X; discriminate X).
  destruct (member_answers _ _ _ _ E1 F1 (Ko _) T1 N1) as (g1 & G1 & A1 & _ & _ & M1).
  destruct (member_answers _ _ _ _ E2 F2 (Ko _) T2 N2) as (g2 & G2 & A2 & _ & _ & M2).
  destruct (two_puts false _ _ _ _ _ _ _ S0 S1 L0 L1 (longer _ _ _) G1) as (B1 & R1).
  destruct (two_puts false _ _ _ _ _ _ _ S0 S2 L0 L2 (longer _ _ _) G2) as (B2 & R2).
  assert (Q : forall e g k, (forall ks lim k, keys_ok false (ks ++ []) -> In k ks -> frames false k < lim ->
    tells (fun k => keys_has lim e (KBytes k)) (held false (ev_refs g)) k) -> 2 * length k < lim -> held false (ev_refs g) k -> keys_has lim e (KBytes k) = Ok true).
  { intros e g k M L Hh. destruct (M [k] lim k (Ko _) (or_introl eq_refl) L) as (c & Ec & Hc). rewrite Ec. f_equal. apply Hc. exact Hh. }
  assert (M1' : forall ks lim k, keys_ok false (ks ++ []) -> In k ks -> frames false k < lim ->
    tells (fun k => keys_has lim e1 (KBytes k)) (held false (ev_refs g1)) k).
  { intros ks li k _ Hi Hl. apply (M1 ks); auto. apply in_or_app. auto. }
  assert (M2' : forall ks lim k, keys_ok false (ks ++ []) -> In k ks -> frames false k < lim ->
    tells (fun k => keys_has lim e2 (KBytes k)) (held false (ev_refs g2)) k).
  { intros ks li k _ Hi Hl. apply (M2 ks); auto. apply in_or_app. auto. }
  assert (X1 : keys_has lim e1 (KBytes (p ++ b' :: r')) = Ok true).
  { apply (Q _ g1); auto. right. split; auto. rewrite R1. apply branch_positive. exact D. }
  assert (X2 : keys_has lim e2 (KBytes (p ++ b :: r)) = Ok true).
  { apply (Q _ g2); auto. right. split; auto. rewrite R2. apply branch_positive. auto. }
  assert (P1 : keys_has lim e1 (KBytes p) = Ok true).
  { apply (Q _ g1); auto. left. rewrite R1, set_other by apply longer. rewrite set_same. discriminate. }
  assert (P2 : keys_has lim e2 (KBytes p) = Ok true).
  { apply (Q _ g2); auto. left. rewrite R2, set_other by apply longer. rewrite set_same. discriminate. }
  rewrite B1 in A1. rewrite B2 in A2. clear - A1 A2 X1 X2 P1 P2 D.
  assert (Le : view_le lim e1 (SView e2) = Ok true).
  { unfold view_le, olen, oiter. rewrite map_length, A2. replace (empt_len e1) with 2.
    - cbn [length Nat.ltb Nat.leb]. rewrite A1. cbn [all_has ohas]. rewrite P2. cbn [bind]. rewrite X2. reflexivity.
    - apply (f_equal (@length _)) in A1. unfold empt_keys, dkeys in A1. rewrite map_length in A1. unfold empt_len. now rewrite A1. }
  assert (Su : view_sub lim e1 (SView e2) = Ok []).
  { unfold view_sub. rewrite A1. cbn [map which ohas]. rewrite P2. cbn [bind]. rewrite X2. reflexivity. }
  split; [exact A1|]. split; [exact A2|]. split; [intros E; apply app_inv_head in E; injection E as -> ->; congruence|].
  split.
  { unfold view_eq. rewrite Le. unfold olen, oiter. rewrite map_length, A2. replace (empt_len e1) with 2; [reflexivity|].
    apply (f_equal (@length _)) in A1. unfold empt_keys, dkeys in A1. rewrite map_length in A1. unfold empt_len. now rewrite A1. }
  split; [exact Le|]. split; [exact Su|]. split.
  { unfold view_xor. rewrite Su. cbn [bind]. unfold view_rsub. cbn [oiter]. rewrite A2. cbn [map which]. rewrite P1. cbn [bind]. rewrite X1. reflexivity. }
  split.
  { unfold view_and. cbn [oiter which]. rewrite X1. reflexivity. }
  unfold view_disjoint. cbn [oiter none_has]. rewrite X1. reflexivity.
Qed.
End Alike.
End Sets.
