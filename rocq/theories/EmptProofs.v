(** Proofs about DataReference and EMPT. *)
From Coq Require Import List Bool Arith NArith ZArith Lia Permutation.
From Verif Require Import Base BaseProofs Rlp RlpProofs NibblePath NibbleProofs Node ProofObj Mpt Tree TreeEnc
  StoreProofs UpdateProofs DeleteProofs ReadProofs Spec SpecCodec SpecProof MptRefine MptProofs PoiProofs PoeProofs
  MptCodecProofs Empt SpecEmpt.
Import ListNotations.

Lemma d_int_e_int : forall n, d_int (e_int n) = Ok n.
Proof.
  intros n. unfold e_int, d_int. pose proof (be_head n) as Hh. destruct (be n) as [|x r] eqn:E.
  - subst. reflexivity.
  - destruct (N.eqb_spec (bN x) 0); [contradiction|]. rewrite <- E, unbe_be. reflexivity.
Qed.
Lemma e_int_d_int : forall i n, d_int i = Ok n -> i = e_int n.
Proof.
  intros [[|x r]|] n E; cbn [d_int] in E; try discriminate.
  - injection E as <-. reflexivity.
  - destruct (N.eqb_spec (bN x) 0); [discriminate|]. injection E as <-. unfold e_int. rewrite be_unbe; [reflexivity|assumption].
Qed.

Lemma unbe_inj : forall a b, length a = length b -> unbe a = unbe b -> a = b.
Proof.
  intros a. induction a as [|x a IH] using rev_ind; intros b El E.
  - destruct b; [reflexivity|discriminate].
  - destruct b as [|y b] using rev_ind.
    + rewrite app_length in El. cbn in El. lia.
    + clear IHb. rewrite !unbe_app1 in E. rewrite !app_length in El. cbn in El.
      pose proof (bN_lt x). pose proof (bN_lt y).
      assert (unbe a = unbe b /\ bN x = bN y) as [E1 E2] by lia.
      apply bN_inj in E2. rewrite (IH b) by (auto; lia). subst. reflexivity.
Qed.

Section EmptProofs.
Context {H : Hash}.
Hypothesis keccak_len : forall b, length (keccak b) = 32.

(** ** References *)
Lemma ref_encode_eq : forall k d, ref_encode (mkRef k d) =
  rlp_encode (IList [IBytes ref_flag; IBytes k; IBytes d; e_int (ref_hash (mkRef k d))]).
Proof. intros. reflexivity. Qed.
Lemma ref_decode_eq : forall b k d i h, rlp_decode b = Ok (IList [IBytes ref_flag; IBytes k; IBytes d; i]) ->
  d_int i = Ok h ->
  ref_decode b = (if N.eqb (ref_hash (mkRef k d)) h then Ok (mkRef k d) else Err ValueError).
Proof.
  intros b k d i h E1 E2. unfold ref_decode. rewrite E1. cbn [bind d_binary]. rewrite E2. cbn [bind].
  rewrite bytes_eqb_refl. reflexivity.
Qed.
Lemma ref_round_trip : forall r b, ref_encode r = Ok b -> ref_decode b = Ok r.
Proof.
  intros [k d] b E. rewrite ref_encode_eq in E. apply rlp_encode_decode in E.
  rewrite (ref_decode_eq _ _ _ _ _ E (d_int_e_int _)), N.eqb_refl. reflexivity.
Qed.

Lemma ref_decode_sound : forall b r, ref_decode b = Ok r -> ref_encode r = Ok b.
Proof.
  intros b r E. unfold ref_decode in E. destruct (rlp_decode b) as [i|] eqn:Ei; [|discriminate]. cbn [bind] in E.
  destruct i as [|[|fi [|ki [|di [|hi [|]]]]]]; try discriminate.
  destruct fi as [f|]; [|discriminate]. destruct ki as [k|]; [|discriminate]. destruct di as [d|]; [|discriminate].
  cbn [bind d_binary] in E. destruct (d_int hi) as [h|] eqn:Eh; [|discriminate]. cbn [bind] in E.
  destruct (bytes_eqb_spec f ref_flag) as [->|]; [|discriminate]. cbn [bind new_ref] in E.
  destruct (N.eqb_spec (ref_hash (mkRef k d)) h) as [Eq|]; [|discriminate]. injection E as <-.
  apply e_int_d_int in Eh. subst hi h. apply rlp_decode_encode in Ei. rewrite ref_encode_eq. exact Ei.
Qed.

Lemma ref_encode_total : forall r, (blen (r_key r) < 2 ^ 57)%N -> (blen (r_data r) < 2 ^ 57)%N ->
  exists b, ref_encode r = Ok b /\ b <> [] /\ (blen b < 2 ^ 59)%N.
Proof.
  intros [k d] Hk Hd. cbn [r_key r_data] in *. rewrite ref_encode_eq. unfold rlp_encode.
  set (i := IList _).
  assert (Hp : (blen (payload i) < 2 ^ 58 + 100)%N).
  { unfold i. cbn [payload flat_map]. rewrite app_nil_r, !blen_app.
    pose proof (blen_renc_bytes ref_flag ltac:(cbn; lia)) as H1.
    pose proof (blen_renc_bytes k ltac:(lia)) as H2. pose proof (blen_renc_bytes d ltac:(lia)) as H3.
    assert (Hh : (blen (be (ref_hash (mkRef k d))) <= 32)%N).
    { unfold blen. pose proof (be_len (ref_hash (mkRef k d)) 32) as Hl. 
      assert ((ref_hash (mkRef k d) < 256 ^ N.of_nat 32)%N).
      { unfold ref_hash. pose proof (unbe_lt (keccak (k ++ d))) as Hu. unfold blen in Hu. rewrite keccak_len in Hu. exact Hu. }
      specialize (Hl H0). lia. }
    unfold e_int. cbn [r_key r_data]. pose proof (blen_renc_bytes (be (ref_hash (mkRef k d))) ltac:(lia)) as H4.
    change (blen ref_flag) with 2%N in H1. lia. }
  destruct (N.ltb_spec (blen (payload i)) (2 ^ 64)); [|lia].
  exists (renc i). split; auto. split; [apply renc_nonempty|]. pose proof (blen_renc i ltac:(lia)). lia.
Qed.

Lemma ref_hash_inj : forall a b, ref_hash a = ref_hash b -> keccak (r_key a ++ r_data a) = keccak (r_key b ++ r_data b).
Proof. intros a b E. apply unbe_inj; [rewrite !keccak_len; reflexivity|exact E]. Qed.
Lemma ref_eq_keccak : forall a b, ref_eq a b = true <-> keccak (r_key a ++ r_data a) = keccak (r_key b ++ r_data b).
Proof.
  intros a b. unfold ref_eq. rewrite N.eqb_eq. split; [apply ref_hash_inj|]. unfold ref_hash. intros ->. reflexivity.
Qed.

(** C32, true part *)
Lemma ref_eq_same_key_len : forall a b, length (r_key a) = length (r_key b) ->
  no_collision [r_key a ++ r_data a; r_key b ++ r_data b] -> ref_eq a b = true -> a = b.
Proof.
  intros [k d] [k' d'] El Hn E. apply ref_eq_keccak in E. cbn [r_key r_data] in *.
  apply Hn in E; [|left; auto|right; left; auto].
  assert (k = k' /\ d = d') as [-> ->]; [|reflexivity].
  clear Hn. revert k' El E. induction k as [|x k IH]; intros [|y k'] El E; try discriminate; [auto|].
  injection E as -> E. destruct (IH k' ltac:(cbn in El; lia) E) as [-> ->]. auto.
Qed.

(** ** The data storage is what was acknowledged *)
Lemma empt_call_data : forall e c r e', empt_call e c = (r, e') -> NoDup (dkeys (e_data e)) ->
  NoDup (dkeys (e_data e')) /\
  forall d, (forall k v, dget (e_data e) k = Some v -> d k = Some v) ->
    forall k v, dget (e_data e') k = Some v -> step_acked d (ec_op c, is_ok r) k = Some v.
Proof.
  intros e [o lim cf df fl] r e' E Hn. unfold empt_call in E. cbn [ec_op ec_lim ec_cfault ec_dfault ec_faults] in E.
  assert (Hkeep : e_data e' = e_data e -> (exists x, r = Err x) ->
    NoDup (dkeys (e_data e')) /\ forall d, (forall k v, dget (e_data e) k = Some v -> d k = Some v) ->
    forall k v, dget (e_data e') k = Some v -> step_acked d (o, is_ok r) k = Some v).
  { intros -> [x ->]. split; auto. intros d Hd k v Ek. unfold step_acked. cbn [is_ok fst]. apply Hd in Ek.
    destruct (bytes_eqb k _); destruct o; exact Ek. }
  cbn [ec_op]. destruct o as [k v|k].
  - unfold empt_update in E. destruct (bind _ _) as [rb|x]; [|injection E as <- <-; apply Hkeep; eauto].
    destruct (mpt_update lim fl (e_trie e) k rb) as [[u|x] t]; [|injection E as <- <-; apply Hkeep; eauto].
    destruct df; [injection E as <- <-; apply Hkeep; eauto|]. injection E as <- <-. cbn [e_data].
    split; [apply NoDup_dset; auto|]. intros d Hd k2 v2 Ek. rewrite dget_dset in Ek. unfold step_acked. cbn [fst eop_key is_ok].
    destruct (bytes_eqb k2 k); auto.
  - unfold empt_delete in E. destruct cf; [injection E as <- <-; apply Hkeep; eauto|].
    destruct (mpt_contains lim (e_trie e) k) as [[]|x]; try (injection E as <- <-; apply Hkeep; eauto).
    destruct df; [injection E as <- <-; apply Hkeep; eauto|].
    destruct (dget (e_data e) k); [|injection E as <- <-; apply Hkeep; eauto].
    destruct (mpt_delete lim fl (e_trie e) k) as [r' t]. injection E as <- <-. cbn [e_data].
    split; [apply NoDup_ddel; auto|]. intros d Hd k2 v2 Ek. rewrite dget_ddel in Ek by auto. unfold step_acked. cbn [fst eop_key].
    destruct (bytes_eqb k2 k); [discriminate|]. auto.
Qed.

Lemma empt_run_data : forall h e l e', empt_run e h = (l, e') -> NoDup (dkeys (e_data e)) ->
  NoDup (dkeys (e_data e')) /\
  forall d, (forall k v, dget (e_data e) k = Some v -> d k = Some v) ->
    forall k v, dget (e_data e') k = Some v -> fold_left step_acked l d k = Some v.
Proof.
  induction h as [|c h IH]; intros e l e' E Hn; cbn [empt_run] in E.
  - injection E as <- <-. split; auto.
  - destruct (empt_call e c) as [r e1] eqn:Ec. destruct (empt_run e1 h) as [l2 e2] eqn:Er. injection E as <- <-.
    destruct (empt_call_data _ _ _ _ Ec Hn) as [Hn1 Hd1]. destruct (IH _ _ _ Er Hn1) as [Hn2 Hd2].
    split; auto. intros d Hd. cbn [fold_left]. apply Hd2. apply Hd1. exact Hd.
Qed.

(** C35, first part *)
Lemma get_is_acked : forall secure l e lim k v, ereachable secure l e -> empt_get lim e k = Ok v -> acked_after l k = Some v.
Proof.
  intros secure l e lim k v (h & E & _) Eg. destruct (empt_run_data _ _ _ _ E ltac:(constructor)) as [_ Hd].
  unfold empt_get in Eg. destruct (dget (e_data e) k) as [data|] eqn:Ed; [|discriminate].
  destruct (mpt_get lim (e_trie e) k) as [rb|]; [|discriminate]. cbn [bind] in Eg.
  destruct (ref_decode rb); [|discriminate]. cbn [bind] in Eg. destruct (expected_ref k data); [|discriminate].
  cbn [bind] in Eg. destruct (ref_eq _ _); [|discriminate]. injection Eg as <-.
  apply (Hd (fun _ => None)); [discriminate|exact Ed].
Qed.

(** ** Refinement *)
Definition ref_of (k : bytes) (v : value) : dref := mkRef k (val_bytes v).
Lemma storable_ref : forall k v, storable v = true -> update_ref k v = Ok (ref_of k v) /\ expected_ref k v = Ok (ref_of k v).
Proof. intros k [b|b|[] [] b] E; try discriminate; split; reflexivity. Qed.
Lemma unstorable_ref : forall k v, storable v = false -> exists x, update_ref k v = Err x.
Proof. intros k [b|b|[] [] b] E; try discriminate; eexists; reflexivity. Qed.

Lemma update_eq : forall lim fl df e k v r rb, update_ref k v = Ok r -> ref_encode r = Ok rb ->
  empt_update lim fl df e k v =
  match mpt_update lim fl (e_trie e) k rb with
  | (Err x, t) => (Err x, mkEmpt (e_data e) t)
  | (Ok _, t) => if df then (Err StorageFault, mkEmpt (e_data e) t)
                 else (Ok tt, mkEmpt (dset (e_data e) k v) t)
  end.
Proof.
  intros lim fl df e k v r rb E1 E2. unfold empt_update. rewrite E1.
  assert (Eb : bind (Ok r) (fun r => ref_encode r) = ref_encode r) by reflexivity. rewrite Eb, E2. reflexivity.
Qed.

Definition tracks (l : list op) (D : dict value) (st : bytes -> status) : Prop :=
  forall k, match st k with
            | Present v => dget D k = Some v /\ storable v = true /\
                exists rb, ref_encode (ref_of k v) = Ok rb /\ dict_after l k = Some rb
            | Absent => dget D k = None /\ dict_after l k = None
            | Unknown => True
            end.
Definition einv (secure : bool) (l : list op) (e : empt) (st : bytes -> status) : Prop :=
  reachable secure l (e_trie e) /\ NoDup (dkeys (e_data e)) /\ tracks l (e_data e) st.

Lemma e_call_grows : forall e c r e', dinv (m_map (e_trie e)) (m_log (e_trie e)) -> empt_call e c = (r, e') ->
  dinv (m_map (e_trie e')) (m_log (e_trie e')) /\ grows (e_trie e) (e_trie e').
Proof.
  intros e [o lim cf df fl] r e' Hd E. unfold empt_call in E. cbn [ec_op ec_lim ec_cfault ec_dfault ec_faults] in E.
  assert (Hs : e_trie e' = e_trie e -> dinv (m_map (e_trie e')) (m_log (e_trie e')) /\ grows (e_trie e) (e_trie e')).
  { intros ->. split; auto. apply grows_refl. }
  destruct o as [k v|k].
  - unfold empt_update in E. destruct (bind _ _) as [rb|x]; [|injection E as <- <-; auto].
    destruct (mpt_update lim fl (e_trie e) k rb) as [r1 t] eqn:Eu.
    destruct (call_keeps keccak_len (e_trie e) (Call (Put k rb) lim fl) r1 t Hd Eu) as [D1 G1].
    destruct r1; [destruct df|]; injection E as <- <-; auto.
  - unfold empt_delete in E. destruct cf; [injection E as <- <-; auto|].
    destruct (mpt_contains lim (e_trie e) k) as [[]|x]; try (injection E as <- <-; auto; fail).
    destruct df; [injection E as <- <-; auto|].
    destruct (dget (e_data e) k); [|injection E as <- <-; auto].
    destruct (mpt_delete lim fl (e_trie e) k) as [r1 t] eqn:Eu.
    destruct (call_keeps keccak_len (e_trie e) (Call (Del k) lim fl) r1 t Hd Eu) as [D1 G1].
    injection E as <- <-. auto.
Qed.
Lemma e_run_grows : forall h e l e', dinv (m_map (e_trie e)) (m_log (e_trie e)) -> empt_run e h = (l, e') ->
  dinv (m_map (e_trie e')) (m_log (e_trie e')) /\ grows (e_trie e) (e_trie e').
Proof.
  induction h as [|c h IH]; intros e l e' Hd E; cbn [empt_run] in E.
  - injection E as <- <-. split; auto. apply grows_refl.
  - destruct (empt_call e c) as [r e1] eqn:Ec. destruct (empt_run e1 h) as [l2 e2] eqn:Er. injection E as <- <-.
    destruct (e_call_grows _ _ _ _ Hd Ec) as [D1 G1]. destruct (IH _ _ _ D1 Er) as [D2 G2].
    eauto using grows_trans.
Qed.

Lemma tracks_step : forall l l' D D' st st' k,
  tracks l D st ->
  (forall x, x <> k -> dget D' x = dget D x /\ dict_after l' x = dict_after l x /\ st' x = st x) ->
  match st' k with
  | Present v => dget D' k = Some v /\ storable v = true /\
      exists rb, ref_encode (ref_of k v) = Ok rb /\ dict_after l' k = Some rb
  | Absent => dget D' k = None /\ dict_after l' k = None
  | Unknown => True
  end -> tracks l' D' st'.
Proof.
  intros l l' D D' st st' k T Ho Hk x. destruct (bytes_eq_dec x k) as [->|Hx]; [exact Hk|].
  destruct (Ho x Hx) as (-> & -> & ->). apply T.
Qed.

Lemma step_other : forall st o k, k <> eop_key (fst o) -> step_status st o k = st k.
Proof. intros st o k Hk. unfold step_status. destruct (bytes_eqb_spec k (eop_key (fst o))); congruence. Qed.

Lemma e_call_inv : forall secure l e st c r e', einv secure l e st -> eok_op (ec_op c) ->
  empt_call e c = (r, e') -> no_collision (m_log (e_trie e')) ->
  exists l', einv secure l' e' (step_status st (ec_op c, is_ok r)) /\
    (forall k, In k (map op_key l') -> k = eop_key (ec_op c) \/ In k (map op_key l)).
Proof.
  intros secure l e st [o lim cf df fl] r e' (R & Hn & T) Hok E Hnc. unfold empt_call in E.
  cbn [ec_op ec_lim ec_cfault ec_dfault ec_faults] in *.
  destruct o as [k v|k]; cbn [eop_key] in *.
  - destruct Hok as [Hk Hv]. cbn [eop_key] in Hk.
    destruct (storable v) eqn:Es.
    + destruct (storable_ref k v Es) as [Eu _].
      destruct (ref_encode_total (ref_of k v) Hk Hv) as (rb & Erb & Hne & Hsz). rewrite (update_eq _ _ _ _ _ _ _ _ Eu Erb) in E.
      destruct (mpt_update lim fl (e_trie e) k rb) as [r1 t] eqn:Em.
      assert (Hop : ok_op secure (Put k rb)) by (split; cbn [op_key]; [lia|split; auto]).
      assert (Et : e_trie e' = t) by (destruct r1; [destruct df|]; injection E as <- <-; reflexivity).
      pose proof (reachable_call secure l (e_trie e) (Call (Put k rb) lim fl) r1 t R Hop Em ltac:(rewrite <- Et; exact Hnc)) as R'.
      cbn [c_op] in R'. destruct r1 as [u|x].
      * exists (l ++ [Put k rb]). split.
        -- split; [rewrite Et; exact R'|].
           destruct df; injection E as <- <-; cbn [e_data is_ok].
           ++ split; auto. eapply tracks_step with (k := k); [exact T| |].
              ** intros x Hx. split; auto. split; [rewrite dict_after_snoc, apply_op_other; auto|apply step_other; auto].
              ** unfold step_status. cbn [fst eop_key]. rewrite bytes_eqb_refl, Es. exact I.
           ++ split; [apply NoDup_dset; auto|]. eapply tracks_step with (k := k); [exact T| |].
              ** intros x Hx. split; [apply dget_dset_other; auto|].
                 split; [rewrite dict_after_snoc, apply_op_other; auto|apply step_other; auto].
              ** unfold step_status. cbn [fst eop_key]. rewrite bytes_eqb_refl. split; [apply dget_dset_same|].
                 split; auto. exists rb. split; auto. rewrite dict_after_snoc. cbn [apply_op]. rewrite bytes_eqb_refl. reflexivity.
        -- intros x Hx. rewrite map_app, in_app_iff in Hx. destruct Hx as [Hx|[<-|[]]]; auto.
      * injection E as <- <-. cbn [e_trie e_data is_ok] in *. exists l. split; [|auto]. split; [exact R'|]. split; auto.
        eapply tracks_step with (k := k); [exact T| |].
        -- intros y Hy. split; auto. split; auto. apply step_other; auto.
        -- unfold step_status. cbn [fst eop_key]. rewrite bytes_eqb_refl, Es. exact I.
    + destruct (unstorable_ref k v Es) as [x Ex]. unfold empt_update in E. rewrite Ex in E. cbn [bind] in E. injection E as <- <-.
      exists l. split; [|auto]. split; auto. split; auto. eapply tracks_step with (k := k); [exact T| |].
      * intros y Hy. split; auto. split; auto. apply step_other; auto.
      * unfold step_status. cbn [fst eop_key is_ok]. rewrite bytes_eqb_refl, Es. apply T.
  - destruct Hok as [Hk _]. cbn [eop_key] in Hk.
    (* the cases that change nothing *)
    assert (Hsame : e' = e -> (exists x, r = Err x) -> exists l', einv secure l' e' (step_status st (EDel k, is_ok r)) /\
       (forall x, In x (map op_key l') -> x = k \/ In x (map op_key l))).
    { intros -> [x ->]. exists l. split; [|auto]. split; auto. split; auto. eapply tracks_step with (k := k); [exact T| |].
      - intros y Hy. split; auto. split; auto. apply step_other; auto.
      - unfold step_status. cbn [fst eop_key is_ok]. rewrite bytes_eqb_refl. pose proof (T k) as Tk.
        destruct (st k); auto. }
    unfold empt_delete in E. destruct cf; [injection E as <- <-; apply Hsame; eauto|].
    destruct (mpt_contains lim (e_trie e) k) as [[]|x]; try (injection E as <- <-; apply Hsame; eauto; fail).
    destruct df; [injection E as <- <-; apply Hsame; eauto|].
    destruct (dget (e_data e) k) as [v0|] eqn:Ed; [|injection E as <- <-; apply Hsame; eauto].
    destruct (mpt_delete lim fl (e_trie e) k) as [r1 t] eqn:Em. injection E as <- <-. cbn [e_trie e_data] in *.
    assert (Hop : ok_op secure (Del k)) by (split; cbn [op_key]; [lia|exact I]).
    pose proof (reachable_call secure l (e_trie e) (Call (Del k) lim fl) r1 t R Hop Em Hnc) as R'. cbn [c_op] in R'.
    destruct r1 as [u|x].
    + exists (l ++ [Del k]). split.
      * split; [exact R'|]. split; [apply NoDup_ddel; auto|]. eapply tracks_step with (k := k); [exact T| |].
        -- intros y Hy. split; [cbn [e_data]; rewrite dget_ddel by auto; destruct (bytes_eqb_spec y k); congruence|].
           split; [rewrite dict_after_snoc, apply_op_other; auto|apply step_other; auto].
        -- unfold step_status. cbn [fst eop_key is_ok]. rewrite bytes_eqb_refl.
           split; [cbn [e_data]; rewrite dget_ddel, bytes_eqb_refl by auto; reflexivity|].
           rewrite dict_after_snoc. cbn [apply_op]. rewrite bytes_eqb_refl. reflexivity.
      * intros y Hy. rewrite map_app, in_app_iff in Hy. destruct Hy as [Hy|[<-|[]]]; auto.
    + exists l. split; [|auto]. split; [exact R'|]. split; [apply NoDup_ddel; auto|].
      eapply tracks_step with (k := k); [exact T| |].
      * intros y Hy. split; [cbn [e_data]; rewrite dget_ddel by auto; destruct (bytes_eqb_spec y k); congruence|].
        split; auto. apply step_other; auto.
      * unfold step_status. cbn [fst eop_key is_ok]. rewrite bytes_eqb_refl. pose proof (T k) as Tk.
        destruct (st k); auto. destruct Tk. congruence.
Qed.

Lemma e_run_inv : forall h secure l e st outs e', einv secure l e st -> Forall (fun c => eok_op (ec_op c)) h ->
  empt_run e h = (outs, e') -> no_collision (m_log (e_trie e')) ->
  exists l', einv secure l' e' (fold_left step_status outs st) /\
    (forall k, In k (map op_key l') -> In k (okeys outs) \/ In k (map op_key l)).
Proof.
  induction h as [|c h IH]; intros secure l e st outs e' I Hok E Hn; cbn [empt_run] in E.
  - injection E as <- <-. exists l. split; auto.
  - destruct (empt_call e c) as [r e1] eqn:Ec. destruct (empt_run e1 h) as [l2 e2] eqn:Er. injection E as <- <-.
    inversion_clear Hok as [|? ? Hc Hh].
    assert (D0 : dinv (m_map (e_trie e)) (m_log (e_trie e))) by (destruct I as [R _]; eapply (reach_dinv keccak_len); eauto).
    destruct (e_call_grows _ _ _ _ D0 Ec) as [D1 G1]. destruct (e_run_grows _ _ _ _ D1 Er) as [D2 G2].
    assert (Hn1 : no_collision (m_log (e_trie e1))) by (eapply grows_nocoll; eauto).
    destruct (e_call_inv _ _ _ _ _ _ _ I Hc Ec Hn1) as (l1 & I1 & K1).
    destruct (IH _ _ _ _ _ _ I1 Hh Er Hn) as (l3 & I3 & K3). exists l3. split; [exact I3|].
    intros k Hk. unfold okeys. cbn [map fst]. destruct (K3 k Hk) as [?|Hk1]; [left; right; auto|].
    destruct (K1 k Hk1) as [->|?]; [left; left; auto|right; auto].
Qed.

Lemma ereach_inv : forall secure outs e, ereachable secure outs e ->
  exists l, einv secure l e (status_after outs) /\ (forall k, In k (map op_key l) -> In k (okeys outs)).
Proof.
  intros secure outs e (h & E & Hok & Hn).
  assert (D0 : dinv (m_map (e_trie (empt_new secure))) (m_log (e_trie (empt_new secure)))) by apply new_dinv.
  destruct (e_run_grows _ _ _ _ D0 E) as [D1 G1].
  assert (I0 : einv secure [] (empt_new secure) (fun _ => Absent)).
  { split; [|split; [constructor|intros k; split; reflexivity]]. exists []. split; [reflexivity|]. split; [constructor|].
    eapply grows_nocoll; eauto. }
  destruct (e_run_inv _ _ _ _ _ _ _ I0 Hok E Hn) as (l & I & K). exists l. split; auto.
  intros k Hk. destruct (K k Hk) as [?|[]]; auto.
Qed.

Lemma ekeys_ok : forall secure outs l k, (forall x, In x (map op_key l) -> In x (okeys outs)) ->
  keys_ok secure (k :: okeys outs) -> keys_ok secure (k :: map op_key l).
Proof. intros secure outs l k Hk. apply keys_ok_incl. intros x [<-|Hx]; [left|right]; auto. Qed.

(** C33 / C35 *)
Lemma present_get : forall secure outs e k v lim, ereachable secure outs e -> keys_ok secure (k :: okeys outs) ->
  status_after outs k = Present v -> frames secure k < lim ->
  empt_get lim e k = Ok v /\ empt_contains lim e k = Ok true.
Proof.
  intros secure outs e k v lim Re Hk Es Hl. destruct (ereach_inv _ _ _ Re) as (l & (R & Hn & T) & K).
  pose proof (ekeys_ok _ _ _ _ K Hk) as Hk'. pose proof (T k) as Tk. rewrite Es in Tk.
  destruct Tk as (Ed & Hst & rb & Erb & El). split.
  - unfold empt_get. rewrite Ed. rewrite (get_present_ok keccak_len _ _ _ _ _ _ R Hk' El Hl). cbn [bind].
    rewrite (ref_round_trip _ _ Erb). cbn [bind]. destruct (storable_ref k v Hst) as [_ ->]. cbn [bind].
    unfold ref_eq. rewrite N.eqb_refl. reflexivity.
  - unfold empt_contains. destruct (contains_exact_nf keccak_len _ _ _ _ _ R Hk' Hl) as (b & -> & Hb).
    destruct b; auto. exfalso. assert (false = true); [|discriminate]. apply Hb. left. congruence.
Qed.

Lemma absent_get : forall secure outs e k lim, ereachable secure outs e ->
  status_after outs k = Absent -> empt_get lim e k = Err KeyError.
Proof.
  intros secure outs e k lim Re Es. destruct (ereach_inv _ _ _ Re) as (l & (R & Hn & T) & K).
  pose proof (T k) as Tk. rewrite Es in Tk. destruct Tk as [Ed _]. unfold empt_get. rewrite Ed. reflexivity.
Qed.

Lemma tracks_not_absent : forall l D st k v, tracks l D st -> dict_after l k = Some v -> st k <> Absent.
Proof. intros l D st k v T E Es. pose proof (T k) as Tk. rewrite Es in Tk. destruct Tk. congruence. Qed.

Lemma absent_contains : forall secure outs e k lim, ereachable secure outs e -> keys_ok secure (k :: okeys outs) ->
  status_after outs k = Absent -> frames secure k < lim -> secure = true \/ ~ maybe_prefixed (status_after outs) k ->
  empt_contains lim e k = Ok false.
Proof.
  intros secure outs e k lim Re Hk Es Hl Hx. destruct (ereach_inv _ _ _ Re) as (l & (R & Hn & T) & K).
  pose proof (ekeys_ok _ _ _ _ K Hk) as Hk'. pose proof (T k) as Tk. rewrite Es in Tk. destruct Tk as [Ed El].
  unfold empt_contains. rewrite (contains_exact keccak_len _ _ _ _ _ R Hk' Hl), El; auto.
  destruct Hx as [?|Hx]; [left; auto|right]. intros (k' & v & Hp & E). apply Hx. exists k'. split; auto.
  eapply tracks_not_absent; eauto.
Qed.

Lemma absent_delete : forall secure outs e k lim cf df fl, ereachable secure outs e ->
  status_after outs k = Absent -> exists x, empt_delete lim cf df fl e k = (Err x, e).
Proof.
  intros secure outs e k lim cf df fl Re Es. destruct (ereach_inv _ _ _ Re) as (l & (R & Hn & T) & K).
  pose proof (T k) as Tk. rewrite Es in Tk. destruct Tk as [Ed _]. unfold empt_delete. rewrite Ed.
  destruct cf; [eauto|]. destruct (mpt_contains _ _ _) as [[]|]; eauto. destruct df; eauto.
Qed.
Lemma absent_delete_knf : forall secure outs e k lim fl, ereachable secure outs e -> keys_ok secure (k :: okeys outs) ->
  status_after outs k = Absent -> frames secure k < lim -> secure = true \/ ~ maybe_prefixed (status_after outs) k ->
  empt_delete lim false false fl e k = (Err KeyNotFoundError, e).
Proof.
  intros secure outs e k lim fl Re Hk Es Hl Hx. pose proof (absent_contains _ _ _ _ _ Re Hk Es Hl Hx) as Ec.
  unfold empt_contains in Ec. unfold empt_delete. rewrite Ec. reflexivity.
Qed.

Lemma keys_exact : forall secure outs e, ereachable secure outs e -> (forall k, status_after outs k <> Unknown) ->
  NoDup (empt_keys e) /\ empt_len e = length (empt_keys e) /\
  forall k, In k (empt_keys e) <-> exists v, status_after outs k = Present v.
Proof.
  intros secure outs e Re Hu. destruct (ereach_inv _ _ _ Re) as (l & (R & Hn & T) & K).
  split; [exact Hn|]. split; [unfold empt_len, empt_keys, dkeys; rewrite map_length; reflexivity|]. intros k.
  pose proof (T k) as Tk. specialize (Hu k). destruct (status_after outs k) as [v| |]; [| |congruence].
  - split; eauto. intros _. destruct Tk as [Ed _]. eapply dget_Some_key; eauto.
  - split; [|intros [v E]; discriminate]. intros Hi. exfalso. destruct Tk as [Ed _]. apply dget_None_key in Ed. auto.
Qed.

(** A call without faults succeeds. *)
Lemma put_succeeds : forall secure outs e k v lim r e', ereachable secure outs e -> eok_op (EPut k v) ->
  storable v = true -> frames secure k < lim -> empt_update lim [] false e k v = (r, e') ->
  no_collision (m_log (e_trie e')) -> r = Ok tt /\ ereachable secure (outs ++ [(EPut k v, true)]) e'.
Proof.
  intros secure outs e k v lim r e' Re Hok Hst Hl E Hnc. destruct (ereach_inv _ _ _ Re) as (l & (R & Hn & T) & K).
  assert (Hr : r = Ok tt).
  { destruct Hok as [Hk Hv]. cbn [eop_key] in Hk.
    destruct (storable_ref k v Hst) as [Eu _].
    destruct (ref_encode_total (ref_of k v) Hk Hv) as (rb & Erb & Hne & Hsz). rewrite (update_eq _ _ _ _ _ _ _ _ Eu Erb) in E.
    destruct (mpt_update lim [] (e_trie e) k rb) as [r1 t] eqn:Em.
    assert (Hop : ok_op secure (Put k rb)) by (split; cbn [op_key]; [lia|split; auto]).
    assert (Et : e_trie e' = t) by (destruct r1; injection E as <- <-; reflexivity).
    destruct (update_succeeds_full keccak_len _ _ _ _ _ _ _ _ R Hop Em ltac:(rewrite <- Et; exact Hnc) Hl) as [-> _].
    injection E as <- <-. reflexivity. }
  split; auto. destruct Re as (h & Eh & Hh & _). exists (h ++ [ECall (EPut k v) lim false false []]).
  split; [|split; auto; apply Forall_app; auto].
  subst r. clear - Eh E. revert outs Eh. generalize (empt_new secure). induction h as [|c h IH]; intros e0 outs Eh.
  - injection Eh as <- <-. cbn. unfold empt_call. cbn. rewrite E. reflexivity.
  - cbn [app empt_run] in *. destruct (empt_call e0 c) as [r1 e1]. destruct (empt_run e1 h) as [l2 e2] eqn:Er.
    injection Eh as <- <-. rewrite (IH _ _ Er). reflexivity.
Qed.

Lemma erun_snoc : forall h c e0 outs e r e', empt_run e0 h = (outs, e) -> empt_call e c = (r, e') ->
  empt_run e0 (h ++ [c]) = (outs ++ [(ec_op c, is_ok r)], e').
Proof.
  induction h as [|c0 h IH]; intros c e0 outs e r e' Eh E.
  - injection Eh as <- <-. cbn. rewrite E. reflexivity.
  - cbn [app empt_run] in *. destruct (empt_call e0 c0) as [r1 e1]. destruct (empt_run e1 h) as [l2 e2] eqn:Er.
    injection Eh as <- <-. rewrite (IH _ _ _ _ _ _ Er E). reflexivity.
Qed.
Lemma ereach_call : forall secure outs e c r e', ereachable secure outs e -> eok_op (ec_op c) ->
  empt_call e c = (r, e') -> no_collision (m_log (e_trie e')) -> ereachable secure (outs ++ [(ec_op c, is_ok r)]) e'.
Proof.
  intros secure outs e c r e' (h & Eh & Hh & _) Hok E Hn. exists (h ++ [c]). split; [eapply erun_snoc; eauto|].
  split; auto. apply Forall_app; auto.
Qed.

Lemma del_succeeds : forall secure outs e k v lim r e', ereachable secure outs e -> (blen k < 2 ^ 57)%N ->
  keys_ok secure (k :: okeys outs) -> status_after outs k = Present v -> frames secure k < lim ->
  empt_delete lim false false [] e k = (r, e') -> no_collision (m_log (e_trie e')) ->
  r = Ok tt /\ ereachable secure (outs ++ [(EDel k, true)]) e'.
Proof.
  intros secure outs e k v lim r e' Re Hsz Hk Es Hl E Hnc.
  assert (Hr : r = Ok tt).
  { destruct (ereach_inv _ _ _ Re) as (l & (R & Hn & T) & K).
    pose proof (ekeys_ok _ _ _ _ K Hk) as Hk'. pose proof (T k) as Tk. rewrite Es in Tk.
    destruct Tk as (Ed & Hst & rb & Erb & El).
    destruct (present_get _ _ _ _ _ _ Re Hk Es Hl) as [_ Ec]. unfold empt_contains in Ec.
    unfold empt_delete in E. rewrite Ec, Ed in E. destruct (mpt_delete lim [] (e_trie e) k) as [r1 t] eqn:Em.
    injection E as <- <-. cbn [e_trie] in Hnc.
    assert (Hsz' : (blen k < 2 ^ 59)%N) by lia.
    destruct (delete_present keccak_len _ _ _ _ _ _ _ _ R Hsz' Hk' Em Hnc Hl El) as [-> _]. reflexivity. }
  split; auto. subst r. apply (ereach_call secure outs e (ECall (EDel k) lim false false []) (Ok tt) e' Re); auto.
  split; cbn; auto.
Qed.

(** C34 *)
Lemma tamper_detected : forall secure outs e k v lim ds w, ereachable secure outs e -> keys_ok secure (k :: okeys outs) ->
  status_after outs k = Present v -> frames secure k < lim -> empt_get lim (mkEmpt ds (e_trie e)) k = Ok w ->
  no_collision [k ++ val_bytes v; k ++ val_bytes w] -> dget ds k = Some w /\ val_bytes w = val_bytes v.
Proof.
  intros secure outs e k v lim ds w Re Hk Es Hl Eg Hc. destruct (ereach_inv _ _ _ Re) as (l & (R & Hn & T) & K).
  pose proof (ekeys_ok _ _ _ _ K Hk) as Hk'. pose proof (T k) as Tk. rewrite Es in Tk.
  destruct Tk as (Ed & Hst & rb & Erb & El). unfold empt_get in Eg. cbn [e_data e_trie] in Eg.
  destruct (dget ds k) as [data|] eqn:Eds; [|discriminate].
  destruct (mpt_get lim (e_trie e) k) as [rb'|] eqn:Em; [|discriminate]. cbn [bind] in Eg.
  assert (Erb' : rb' = rb) by (rewrite (get_present_ok keccak_len _ _ _ _ _ _ R Hk' El Hl) in Em; congruence).
  subst rb'. rewrite (ref_round_trip _ _ Erb) in Eg. cbn [bind] in Eg.
  destruct (expected_ref k data) as [x|] eqn:Ex; [|discriminate]. cbn [bind] in Eg.
  destruct (ref_eq (ref_of k v) x) eqn:Eq; [|discriminate]. injection Eg as <-. split; auto.
  assert (x = ref_of k data) by (destruct data as [b|b|[] dd b]; try discriminate; injection Ex as <-; reflexivity). subst x.
  apply ref_eq_keccak in Eq. cbn [r_key r_data ref_of] in Eq.
  apply Hc in Eq; [|left; auto|right; left; auto]. apply app_inv_head in Eq. auto.
Qed.
End EmptProofs.
