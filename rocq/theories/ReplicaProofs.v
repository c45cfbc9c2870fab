(** Copies of an EMPT. *)
From Coq Require Import List Bool Arith NArith Lia.
From Verif Require Import Base BaseProofs Rlp NibblePath Node ProofObj Mpt Tree StoreProofs Spec SpecCodec SpecProof SpecGet ReadProofs MptRefine MptProofs
  MptCodecProofs PoeExact SimProofs Empt SpecEmpt EmptProofs EmptPy SpecEvery EveryProofs EveryProofs2 SpecShared SharedProofs StatelessProofs SpecReplica.
Import ListNotations.

Section Replica.
Context {H : Hash}.
Hypothesis keccak_len : forall b, length (keccak b) = 32.

(** ** What a copy answers *)
Lemma falsy_eq : forall t t' : mpt, m_root t' = m_root t -> root_falsy t' = root_falsy t /\ root_is_empty t' = root_is_empty t.
Proof. intros t t' E. unfold root_falsy, root_is_empty. rewrite E. auto. Qed.

Lemma agreeing_truthful : forall secure l t t', reachable secure l t -> keys_ok secure (map op_key l) ->
  m_root t' = m_root t -> m_secure t' = m_secure t -> consistent (m_map t') (m_map t) ->
  (l = [] -> forall x, dget (m_map t') EMPTY_HASH = Some x -> x = [x80]) -> truthful t' t.
Proof.
  intros secure l t t' R Hk Er Es C He lim k.
  assert (V : forall p, mpt_verify_poi lim t' p = mpt_verify_poi lim t p /\ mpt_verify_poe lim t' p = mpt_verify_poe lim t p).
  { intros p. apply verify_eq; auto. }
  destruct (falsy_eq t t' Er) as [Ef Ee].
  destruct (dict_dec l) as [De|(k0 & v0 & E0)].
  - assert (X : exists k1, keys_ok secure (k1 :: map op_key l)).
    { destruct l as [|o l].
      - exists []. intros _ a b [<-|[]] [<-|[]] _. reflexivity.
      - exists (op_key o). eapply keys_ok_incl; [|exact Hk]. intros x [<-|Hx]; auto. left. reflexivity. }
    destruct X as (k1 & Hk1). destruct (empty_trie_calls keccak_len secure l t k1 1 R Hk1 De ltac:(lia)) as (_ & F & _).
    pose proof (reach_empty keccak_len _ _ _ _ R Hk1 De) as Rt. destruct (repr_empty_root t Rt) as [Ie Ir].
    split; [|split; [|exact V]].
    + intros r E. exfalso. unfold trie_reference, mpt_get in E. rewrite Ef in E. destruct (root_falsy t) eqn:Eft; [discriminate|].
      assert (El : l = []) by (destruct l; auto; exfalso; assert (false = true) by (apply F; discriminate); discriminate).
      destruct Ir as [Ir|Ir]; [unfold root_falsy in Eft; rewrite Ir in Eft; discriminate|].
      unfold root_ref in E. rewrite Er, Ir in E. destruct lim as [|f]; [discriminate|]. cbn [get_] in E. unfold get_node in E.
      replace (length EMPTY_HASH =? 32) with true in E by (unfold EMPTY_HASH; rewrite keccak_len; reflexivity).
      destruct (dget (m_map t') EMPTY_HASH) as [x|] eqn:Ex; [|discriminate]. rewrite (He El x eq_refl) in E. discriminate.
    + intros b E. unfold mpt_contains in *. rewrite Ef, Ee, Ie in E. rewrite Ie. exact E.
  - assert (Hk0 : keys_ok secure (k0 :: map op_key l)).
    { eapply keys_ok_incl; [|exact Hk]. intros x [<-|Hx]; auto. eapply dict_after_keys; eauto. }
    pose proof (partial_reads keccak_len secure l t t' R Er Es C (ex_intro _ k0 (ex_intro _ v0 (conj Hk0 E0)))) as A.
    destruct (A lim k []) as (A1 & A2 & _). split; [|split; [|exact V]].
    + intros r E. unfold trie_reference in *. destruct A1 as [A1|A1]; rewrite A1 in E; [discriminate|exact E].
    + intros b E. destruct A2 as [A2|A2]; rewrite A2 in E; [discriminate|exact E].
Qed.

Lemma claims_agree : forall secure l t t', reachable secure l t -> claims t' t ->
  consistent (m_map t') (m_map t) /\ forall x, dget (m_map t') EMPTY_HASH = Some x -> x = [x80].
Proof.
  intros secure l t t' R (_ & _ & s & Hf & Hn). pose proof (reach_dinv keccak_len _ _ _ R) as D. split.
  - intros h x x' E1 E2. destruct (Hf _ _ E1) as [-> Hi]. destruct D as (_ & _ & D). apply D in E2. destruct E2 as (E3 & E4 & _).
    apply Hn; auto; apply in_or_app; auto.
  - intros x E. destruct (Hf _ _ E) as [E1 Hi]. symmetry. apply Hn; [apply in_or_app; right|apply in_or_app; left; exact Hi|exact E1].
    apply D.
Qed.

(** ** Keys outside the calls *)
Lemma tinv_more : forall secure K K' l t r used, incl K K' -> tinv secure K l t r used -> tinv secure K' l t r used.
Proof. intros secure K K' l t r used Hi (A & B & C & D). repeat split; auto; try apply C. intros x Hx. auto. Qed.

Theorem copy_answers : forall secure h outs e, empt_session (empt_new secure) h = (outs, e) -> efits h -> keys_ok secure (ekeys h) ->
  ekeccak_ok h -> no_collision (m_log (e_trie e)) ->
  exists g, efollows secure (EView [] no_refs false) h outs g /\
  forall t', claims t' (e_trie e) -> truthful t' (e_trie e) /\
  forall lim k, keys_ok secure (k :: ekeys h) -> (blen k < 2 ^ 57)%N ->
    (forall r, trie_reference lim t' k = Ok r -> ev_refs g (r_key r) = Some (r_data r) /\
       (r_key r = k \/ (secure = false /\ ev_refs g k = None /\ sole_extension (ev_refs g) k (r_data r) /\ exists y, r_key r = k ++ y))) /\
    (forall b, mpt_contains lim t' k = Ok b -> (b = true <-> held secure (ev_refs g) k)).
Proof.
  intros secure h outs e E Hf Hk Ht Hn. destruct (one_sound keccak_len _ _ _ _ E Hf Hk Ht Hn) as (l & g & F & (I & _)).
  exists g. split; [exact F|]. intros t' Cl. assert (I0 := I). destruct I0 as (R & _ & _ & Hi).
  destruct (claims_agree _ _ _ _ R Cl) as [C Ce]. destruct Cl as (Er & Es & _).
  assert (Hkl : keys_ok secure (map op_key l)) by (eapply keys_ok_incl; eauto).
  pose proof (agreeing_truthful secure l (e_trie e) t' R Hkl Er Es C (fun _ => Ce)) as T. split; [exact T|].
  intros lim k Hkk Hb. destruct (T lim k) as (T1 & T2 & _).
  assert (I' : tinv secure (k :: ekeys h) l (e_trie e) (ev_refs g) (ev_used g)) by (eapply tinv_more; [|exact I]; intros x Hx; right; exact Hx).
  assert (Hs : forall x, In x (k :: ekeys h) -> (blen x < 2 ^ 57)%N) by (intros x [<-|Hx]; auto; apply (proj1 Hf); exact Hx).
  split.
  - intros r Er'. apply T1 in Er'. apply (ref_sound keccak_len _ _ Hkk Hs _ _ _ _ _ _ _ I' (or_introl eq_refl)) in Er'.
    remember (Ok r) as a eqn:Ea. destruct Er' as [b Eb|De|x Eb Fx|Em Eb Fx|y b Em Eb Fx Ey|Fx]; try discriminate; injection Ea as <-; cbn [r_key r_data].
    + auto.
    + split; auto. right. split; auto. split; auto. split; auto. exists y. reflexivity.
  - intros b Eb. apply T2 in Eb. apply (in_sound keccak_len _ _ Hkk _ _ _ _ _ _ _ I' (or_introl eq_refl)) in Eb.
    remember (Ok b) as a eqn:Ea. destruct Eb as [Hh|Hh|Hh]; try discriminate; injection Ea as <-; split; intros; auto; try discriminate; contradiction.
Qed.

(** Bytes from anywhere. *)
Theorem decoded_claims : forall b t' t, sparse_decode b = Ok t' -> m_root t' = m_root t -> m_secure t' = m_secure t ->
  no_collision (m_log t' ++ m_log t) -> claims t' t.
Proof.
  intros b t' t E Er Es Hn. split; [exact Er|]. split; [exact Es|]. exists (m_log t'). split; [|exact Hn].
  destruct (mpt_decode_inv _ _ E) as (nodes & Em & El). intros h x Ex. rewrite Em in Ex. destruct (rekey_get _ _ _ _ Ex) as [C|[Hi Ek]]; [discriminate|].
  split; [exact Ek|]. rewrite El. right. exact Hi.
Qed.

(** ** Following the owner *)
Definition abreast (secure : bool) (K : list bytes) (t' t : mpt) : Prop := exists l, reachable secure l t /\ incl (map op_key l) K /\
  m_root t' = m_root t /\ m_secure t' = m_secure t /\ consistent (m_map t') (m_map t) /\
  (l = [] -> forall x, dget (m_map t') EMPTY_HASH = Some x -> x = [x80]).

Lemma abreast_truthful : forall secure K t' t, keys_ok secure K -> abreast secure K t' t -> truthful t' t.
Proof.
  intros secure K t' t Hk (l & R & Hi & Er & Es & C & He). apply (agreeing_truthful secure l); auto. eapply keys_ok_incl; eauto.
Qed.

Lemma abreast_call : forall secure K t' t c t1 r' t1', abreast secure K t' t -> ok_op secure (c_op c) -> In (op_key (c_op c)) K ->
  mpt_call t c = (Ok tt, t1) -> no_collision (m_log t1) -> mpt_call t' c = (r', t1') ->
  r' = Err KeyError \/ (r' = Ok tt /\ abreast secure K t1' t1).
Proof.
  intros secure K t' t c t1 r' t1' (l & R & Hi & Er & Es & C & He) Ho Hk E Hn E'.
  destruct (partial_call keccak_len secure l t t' c (Ok tt) t1 r' t1' R Er Es C Ho E Hn E') as [[X _]|(X & Xr & Xs & Xc)]; [left; exact X|right].
  split; [exact X|]. pose proof (reachable_call secure l t c _ t1 R Ho E Hn) as R1. cbn beta iota in R1.
  exists (l ++ [c_op c]). split; [exact R1|]. split.
  { rewrite map_app. intros x Hx. apply in_app_or in Hx. destruct Hx as [Hx|[<-|[]]]; auto. }
  split; [exact Xr|]. split; [exact Xs|]. split; [exact Xc|]. intros A. destruct l; discriminate.
Qed.

Lemma abreast_contains : forall secure K t' t lim k, keys_ok secure K -> abreast secure K t' t -> mpt_contains lim t k = Ok true ->
  mpt_contains lim t' k = Err KeyError \/ mpt_contains lim t' k = Ok true.
Proof.
  intros secure K t' t lim k HK (l & R & Hi & Er & Es & C & He) E.
  assert (Hk : keys_ok secure (map op_key l)) by (eapply keys_ok_incl; eauto).
  destruct (dict_dec l) as [De|(k0 & v0 & E0)].
  - exfalso. assert (X : exists k1, keys_ok secure (k1 :: map op_key l)).
    { destruct l as [|o l].
      - exists []. intros _ a b [<-|[]] [<-|[]] _. reflexivity.
      - exists (op_key o). eapply keys_ok_incl; [|exact Hk]. intros x [<-|Hx]; auto. left. reflexivity. }
    destruct X as (k1 & Hk1). pose proof (reach_empty keccak_len _ _ _ _ R Hk1 De) as Rt. destruct (repr_empty_root t Rt) as [Ie Ir].
    unfold mpt_contains in E. rewrite Ie in E. destruct (root_falsy t); discriminate.
  - assert (Hk0 : keys_ok secure (k0 :: map op_key l)).
    { eapply keys_ok_incl; [|exact Hk]. intros x [<-|Hx]; auto. eapply dict_after_keys; eauto. }
    pose proof (partial_reads keccak_len secure l t t' R Er Es C (ex_intro _ k0 (ex_intro _ v0 (conj Hk0 E0)))) as A.
    destruct (A lim k []) as (_ & [A2|A2] & _); [left; exact A2|right; congruence].
Qed.

Lemma put_not : forall lim e k v x e1, update_ref k v = Err x -> empt_update lim [] false e k v = (Ok tt, e1) -> False.
Proof. intros lim e k v x e1 Ex E. unfold empt_update in E. rewrite Ex in E. discriminate. Qed.
Lemma owner_put : forall lim e k v e1 rb, ref_encode (mkRef k (val_bytes v)) = Ok rb ->
  empt_do lim e (QPut (KBytes k) v [] false) = (ANone (Ok tt), e1) -> mpt_update lim [] (e_trie e) k rb = (Ok tt, e_trie e1).
Proof.
  intros lim e k v e1 rb Erb E. cbn [empt_do] in E. rewrite update_py_bytes in E.
  destruct (empt_update lim [] false e k v) as [r e2] eqn:Eu. injection E as -> ->.
  destruct (storable v) eqn:Hs.
  - rewrite (update_eq lim [] false e k v _ _ (proj1 (storable_ref k v Hs)) Erb) in Eu.
    destruct (mpt_update lim [] (e_trie e) k rb) as [[[]|x] t1]; [|discriminate]. injection Eu as <-. reflexivity.
  - destruct (unstorable_ref k v Hs) as (x & Ex). elim (put_not _ _ _ _ _ _ Ex Eu).
Qed.
Lemma owner_del : forall lim e k e1, empt_do lim e (QDel (KBytes k) false false []) = (ANone (Ok tt), e1) ->
  mpt_contains lim (e_trie e) k = Ok true /\ mpt_delete lim [] (e_trie e) k = (Ok tt, e_trie e1).
Proof.
  intros lim e k e1 E. cbn [empt_do with_key'] in E. destruct (empt_delete lim false false [] e k) as [r e2] eqn:Ed. injection E as -> ->.
  unfold empt_delete in Ed. destruct (mpt_contains lim (e_trie e) k) as [[]|]; try discriminate. split; [reflexivity|].
  destruct (dget (e_data e) k); [|discriminate]. destruct (mpt_delete lim [] (e_trie e) k) as [r t1]. injection Ed as -> <-. reflexivity.
Qed.

Lemma sparse_do_put : forall lim t k b, sparse_do lim t (TPut (KBytes k) (VBytes b) []) =
  (BNone (fst (sparse_update lim [] t k (VBytes b))), snd (sparse_update lim [] t k (VBytes b))).
Proof. intros. cbn [sparse_do sparse_update_py]. generalize (sparse_update lim [] t k (VBytes b)). intros [r t1]. reflexivity. Qed.
Lemma copy_put : forall lim t k b rb o t1, ref_encode (mkRef k b) = Ok rb -> sparse_do lim t (TPut (KBytes k) (VBytes b) []) = (o, t1) ->
  exists r, o = BNone r /\ mpt_update lim [] t k rb = (r, t1).
Proof.
  intros lim t k b rb o t1 Erb E. rewrite sparse_do_put, (sparse_bytes _ _ _ _ _ _ Erb) in E.
  destruct (mpt_update lim [] t k rb) as [r t2]. cbn [fst snd] in E. injection E as <- <-. exists r. split; reflexivity.
Qed.
Lemma copy_del : forall lim t k o t1, sparse_do lim t (TDel (KBytes k) false []) = (o, t1) ->
  (exists x, mpt_contains lim t k = Err x /\ o = BNone (Err x)) \/ mpt_contains lim t k = Ok false \/
  exists r, mpt_contains lim t k = Ok true /\ o = BNone r /\ mpt_delete lim [] t k = (r, t1).
Proof.
  intros lim t k o t1 E. cbn [sparse_do] in E. unfold sparse_delete in E. destruct (mpt_contains lim t k) as [[]|x].
  - right. right. destruct (mpt_delete lim [] t k) as [r t2]. injection E as <- <-. eauto.
  - auto.
  - injection E as <- <-. eauto.
Qed.
Lemma put_step : forall secure K e t' lim k v e1 o' t1', keys_ok secure K -> In k K -> (blen k < 2 ^ 57)%N -> (blen (val_bytes v) < 2 ^ 57)%N ->
  abreast secure K t' (e_trie e) -> empt_do lim e (QPut (KBytes k) v [] false) = (ANone (Ok tt), e1) -> no_collision (m_log (e_trie e1)) ->
  sparse_do lim t' (TPut (KBytes k) (VBytes (val_bytes v)) []) = (o', t1') ->
  o' = BNone (Err KeyError) \/ (o' = BNone (Ok tt) /\ abreast secure K t1' (e_trie e1)).
Proof.
  intros secure K e t' lim k v e1 o' t1' HK HkK Hks Hb A Eo Hn1 Eo'.
  destruct (ref_encode_total keccak_len (mkRef k (val_bytes v)) Hks Hb) as (rb & Erb & Hne & Hsz).
  pose proof (owner_put _ _ _ _ _ _ Erb Eo) as Eu. destruct (copy_put _ _ _ _ _ _ _ Erb Eo') as (r' & -> & Eu').
  assert (Ho : ok_op secure (Put k rb)) by (split; cbn [op_key]; [lia|split; auto]).
  destruct (abreast_call secure K t' (e_trie e) (Call (Put k rb) lim []) (e_trie e1) r' t1' A Ho HkK Eu Hn1 Eu') as [->|[-> X]]; auto.
Qed.
Lemma del_step : forall secure K e t' lim k e1 o' t1', keys_ok secure K -> In k K -> (blen k < 2 ^ 57)%N ->
  abreast secure K t' (e_trie e) -> empt_do lim e (QDel (KBytes k) false false []) = (ANone (Ok tt), e1) -> no_collision (m_log (e_trie e1)) ->
  sparse_do lim t' (TDel (KBytes k) false []) = (o', t1') ->
  o' = BNone (Err KeyError) \/ (o' = BNone (Ok tt) /\ abreast secure K t1' (e_trie e1)).
Proof.
  intros secure K e t' lim k e1 o' t1' HK HkK Hks A Eo Hn1 Eo'. destruct (owner_del _ _ _ _ Eo) as (Ec & Ed).
  pose proof (abreast_contains secure K t' (e_trie e) lim k HK A Ec) as Ec'.
  destruct (copy_del _ _ _ _ _ Eo') as [(x & E1 & ->)|[E1|(r' & E1 & -> & Ed')]].
  - destruct Ec' as [Ec'|Ec']; rewrite Ec' in E1; [injection E1 as <-; auto|discriminate].
  - destruct Ec' as [Ec'|Ec']; rewrite Ec' in E1; discriminate.
  - assert (Ho : ok_op secure (Del k)) by (split; cbn [op_key]; [lia|exact I]).
    destruct (abreast_call secure K t' (e_trie e) (Call (Del k) lim []) (e_trie e1) r' t1' A Ho HkK Ed Hn1 Ed') as [->|[-> X]]; auto.
Qed.
Lemma esession_cons : forall e x h outs e2, empt_session e (x :: h) = (outs, e2) -> exists o e1 os,
  empt_do (fst x) e (snd x) = (o, e1) /\ empt_session e1 h = (os, e2) /\ outs = o :: os.
Proof.
  intros e [lim c] h outs e2 E. cbn [empt_session] in E. cbn [fst snd]. destruct (empt_do lim e c) as [o e1]. destruct (empt_session e1 h) as [os e3] eqn:Es.
  injection E as <- <-. exists o, e1, os. auto.
Qed.
Lemma ssession_cons : forall t x h outs t2, sparse_session t (x :: h) = (outs, t2) -> exists o t1 os,
  sparse_do (fst x) t (snd x) = (o, t1) /\ sparse_session t1 h = (os, t2) /\ outs = o :: os.
Proof.
  intros t [lim c] h outs t2 E. cbn [sparse_session] in E. cbn [fst snd]. destruct (sparse_do lim t c) as [o t1]. destruct (sparse_session t1 h) as [os t3] eqn:Es.
  injection E as <- <-. exists o, t1, os. auto.
Qed.

Lemma follow : forall j secure K e t' outs e2 outs' t2', keys_ok secure K -> (forall k, In k K -> (blen k < 2 ^ 57)%N) ->
  abreast secure K t' (e_trie e) -> dgood e -> incl (ekeys (map at_owner j)) K ->
  (forall k b, In (k, b) (etexts (map at_owner j)) -> (blen b < 2 ^ 57)%N) ->
  empt_session e (map at_owner j) = (outs, e2) -> Forall (eq (ANone (Ok tt))) outs -> no_collision (m_log (e_trie e2)) ->
  sparse_session t' (map at_copy j) = (outs', t2') ->
  (Forall (eq (BNone (Ok tt))) outs' /\ abreast secure K t2' (e_trie e2)) \/
  exists n rest, outs' = repeat (BNone (Ok tt)) n ++ BNone (Err KeyError) :: rest.
Proof.
  induction j as [|x j IH]; intros secure K e t' outs e2 outs' t2' HK Hs A D Hi Hv E Ha Hn E'.
  - injection E as <- <-. injection E' as <- <-. left. split; [constructor|exact A].
  - cbn [map] in E, E', Hi, Hv. apply esession_cons in E. destruct E as (o & e1 & os & Eo & Es & ->).
    apply ssession_cons in E'. destruct E' as (o' & t1' & os' & Eo' & Es' & ->).
    assert (Ha1 := Forall_inv Ha). assert (Ha2 := Forall_inv_tail Ha). subst o. clear Ha.
    pose proof (do_grown keccak_len _ _ _ _ _ D Eo) as G1. pose proof (session_grown keccak_len _ _ _ _ (proj1 G1) Es) as G2.
    pose proof (grown_nc _ _ G2 Hn) as Hn1.
    assert (Hi1 : incl (ekeys1 (snd (at_owner x))) K) by (intros y Hy; apply Hi; apply in_or_app; left; exact Hy).
    assert (Hi2 : incl (ekeys (map at_owner j)) K) by (intros y Hy; apply Hi; apply in_or_app; right; exact Hy).
    assert (Hv1 : forall k b, In (k, b) (etexts1 (snd (at_owner x))) -> (blen b < 2 ^ 57)%N)
      by (intros k b Hy; apply (Hv k b); apply in_or_app; left; exact Hy).
    assert (Hv2 : forall k b, In (k, b) (etexts (map at_owner j)) -> (blen b < 2 ^ 57)%N)
      by (intros k b Hy; apply (Hv k b); apply in_or_app; right; exact Hy).
    assert (St : o' = BNone (Err KeyError) \/ (o' = BNone (Ok tt) /\ abreast secure K t1' (e_trie e1))).
    { destruct x as [lim [k v|k]]; cbn [at_owner at_copy fst snd] in *.
      - assert (HkK : In k K) by (apply Hi1; left; reflexivity).
        assert (Hb : (blen (val_bytes v) < 2 ^ 57)%N) by (apply (Hv1 k); left; reflexivity).
        exact (put_step _ _ _ _ _ _ _ _ _ _ HK HkK (Hs _ HkK) Hb A Eo Hn1 Eo').
      - assert (HkK : In k K) by (apply Hi1; left; reflexivity).
        exact (del_step _ _ _ _ _ _ _ _ _ HK HkK (Hs _ HkK) A Eo Hn1 Eo'). }
    destruct St as [->|[-> A1]]; [right; exists 0, os'; reflexivity|].
    destruct (IH secure K e1 t1' os e2 os' t2' HK Hs A1 (proj1 G1) Hi2 Hv2 Es Ha2 Hn Es') as [[F A2]|(n & rest & ->)].
    + left. split; [constructor; auto|exact A2].
    + right. exists (S n), rest. reflexivity.
Qed.

Theorem copy_follows : forall secure h outs e j outs2 e2 t' outs' t2', empt_session (empt_new secure) h = (outs, e) ->
  empt_session e (map at_owner j) = (outs2, e2) -> Forall (eq (ANone (Ok tt))) outs2 ->
  efits (h ++ map at_owner j) -> keys_ok secure (ekeys (h ++ map at_owner j)) -> ekeccak_ok h -> no_collision (m_log (e_trie e2)) ->
  claims t' (e_trie e) -> sparse_session t' (map at_copy j) = (outs', t2') ->
  (Forall (eq (BNone (Ok tt))) outs' /\ m_root t2' = empt_root e2 /\ m_secure t2' = secure /\ truthful t2' (e_trie e2)) \/
  exists n rest, outs' = repeat (BNone (Ok tt)) n ++ BNone (Err KeyError) :: rest.
Proof.
  intros secure h outs e j outs2 e2 t' outs' t2' E E2 Ha Hf Hk Ht Hn Cl E'.
  assert (Sub : forall x, In x (ekeys h) -> In x (ekeys (h ++ map at_owner j))) by (intros x Hx; unfold ekeys; rewrite flat_map_app; apply in_or_app; auto).
  assert (Sub2 : forall x, In x (ekeys (map at_owner j)) -> In x (ekeys (h ++ map at_owner j))) by (intros x Hx; unfold ekeys; rewrite flat_map_app; apply in_or_app; auto).
  assert (Sut : forall x, In x (etexts h) -> In x (etexts (h ++ map at_owner j))) by (intros x Hx; unfold etexts; rewrite flat_map_app; apply in_or_app; auto).
  assert (Sut2 : forall x, In x (etexts (map at_owner j)) -> In x (etexts (h ++ map at_owner j))) by (intros x Hx; unfold etexts; rewrite flat_map_app; apply in_or_app; auto).
  assert (Hf1 : efits h) by (split; [intros k Hx; apply (proj1 Hf); auto|intros k b Hx; apply (proj2 Hf k); auto]).
  assert (Hk1 : keys_ok secure (ekeys h)) by (eapply keys_ok_incl; eauto).
  pose proof (session_grown keccak_len _ _ _ _ (new_dinv secure : dgood (empt_new secure)) E) as G1.
  pose proof (session_grown keccak_len _ _ _ _ (proj1 G1) E2) as G2. pose proof (grown_nc _ _ G2 Hn) as Hn1.
  destruct (one_sound keccak_len _ _ _ _ E Hf1 Hk1 Ht Hn1) as (l & g & F & (I & _)). destruct I as (R & _ & _ & Hi).
  destruct (claims_agree _ _ _ _ R Cl) as [C Ce]. destruct Cl as (Er & Es & _).
  assert (A : abreast secure (ekeys (h ++ map at_owner j)) t' (e_trie e)).
  { exists l. split; [exact R|]. split; [intros x Hx; auto|]. auto. }
  destruct (follow j secure _ e t' outs2 e2 outs' t2' Hk (proj1 Hf) A (proj1 G1) (fun x Hx => Sub2 x Hx)
    (fun k b Hx => proj2 Hf k b (Sut2 _ Hx)) E2 Ha Hn E') as [[X A2]|X]; [left|right; exact X].
  split; [exact X|]. pose proof (abreast_truthful _ _ _ _ Hk A2) as T. destruct A2 as (l2 & R2 & _ & Er2 & Es2 & _).
  split; [exact Er2|]. split; [|exact T]. rewrite Es2. apply (reachable_repr keccak_len _ _ _ R2).
Qed.

(** ** A reader with the root and a proof *)
Theorem light_claims : forall p root t, m_root t = Some root -> no_collision (proof_nodes p ++ m_log t) ->
  claims (sparse_new (nodes_as_storage (proof_nodes p)) (Some root) (m_secure t)) t.
Proof.
  intros p root t Er Hn. split; [symmetry; exact Er|]. split; [reflexivity|]. exists (proof_nodes p). split; [|exact Hn].
  intros h x E. change (dget (nodes_as_storage (proof_nodes p)) h = Some x) in E.
  apply (as_storage (proof_nodes p) [] []) in E; [exact E| |discriminate].
  eapply nocoll_incl; [|exact Hn]. intros y Hy. apply in_or_app. auto.
Qed.

Theorem light_complete : forall secure h outs e, empt_session (empt_new secure) h = (outs, e) -> efits h -> keys_ok secure (ekeys h) ->
  ekeccak_ok h -> no_collision (m_log (e_trie e)) ->
  exists g, efollows secure (EView [] no_refs false) h outs g /\
  forall k b lim0 time p root lim, ev_refs g k = Some b -> mpt_get_poi lim0 time (e_trie e) k = Ok p -> no_collision (m_log (e_trie e) ++ proof_nodes p) ->
    empt_root e = Some root -> frames secure k < lim -> light_reference lim (Some root) secure p k = Ok (mkRef k b).
Proof.
  intros secure h outs e E Hf Hk Ht Hn. destruct (one_sound keccak_len _ _ _ _ E Hf Hk Ht Hn) as (l & g & F & (I & _)).
  exists g. split; [exact F|]. intros k b lim0 time p root lim Eb Ep Hnp Er Hl. assert (I0 := I). destruct I0 as (R & S & _ & Hi).
  destruct (sr_some' _ _ _ _ S Eb) as (rb & Ed & Erb).
  assert (HkK : In k (ekeys h)) by (apply Hi; eapply dict_after_keys; eauto).
  assert (Hk0 : keys_ok secure (k :: map op_key l)) by (eapply keys_ok_incl; [|exact Hk]; intros x [<-|Hx]; auto).
  assert (Es : m_secure (e_trie e) = secure) by apply (reachable_repr keccak_len _ _ _ R).
  destruct (proof_suffices keccak_len secure l (e_trie e) k rb lim0 time p (sparse_new (nodes_as_storage (proof_nodes p)) (Some root) secure)
    R Hk0 Ed Ep (eq_sym Er) (eq_sym Es) eq_refl Hnp) as (A & _).
  unfold light_reference, trie_reference. destruct (A lim []) as (-> & _).
  apply (ref_exact keccak_len _ _ Hk (proj1 Hf) _ _ _ _ _ _ _ I HkK Hl). apply refers_own. exact Eb.
Qed.
End Replica.
