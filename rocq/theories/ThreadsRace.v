(** Calls that get in each other's way: proofs. *)
From Coq Require Import List Bool Arith NArith ZArith Lia.
From Verif Require Import Base BaseProofs Rlp RlpProofs NibblePath NibbleProofs Node ProofObj Mpt Tree TreeEnc StoreProofs ReadProofs Spec SpecCodec
  MptRefine MptProofs SpecShared SimProofs SharedProofs SpecEmpt EmptFaultProofs SpecWalk SpecEvery MptPy SpecMptEvery MptEveryProofs
  Threads SpecThreads ThreadsSeq ThreadsProofs ThreadsPool ThreadsAlone.
Import ListNotations.

Lemma run_app : forall {H : Hash} secure w a b, run_moves secure w (a ++ b) = run_moves secure (run_moves secure w a) b.
Proof. intros. unfold run_moves. apply fold_left_app. Qed.
Lemma run_cons : forall {H : Hash} secure w m ms, run_moves secure w (m :: ms) = run_moves secure (go secure w m) ms.
Proof. reflexivity. Qed.

Lemma run_nil : forall {H : Hash} secure w, run_moves secure w [] = w.
Proof. reflexivity. Qed.
Ltac turn E := match type of E with ?a = _ => match a with run_moves _ _ ?l => match goal with |- context [run_moves ?b ?w0 l] => change (run_moves b w0 l) with a end end end; rewrite E.

Section S.
Context {H : Hash}.
Hypothesis keccak_len : forall b, length (keccak b) = 32.
Variable secure : bool.
Lemma go_second : forall s cs ds p q, go secure (mkPool s (cs ++ p :: q :: ds)) (MGo (S (length cs))) = mkPool (fst (access s q)) (cs ++ p :: snd (access s q) :: ds).
Proof.
  intros s cs ds p q. pose proof (go_at secure s (cs ++ [p]) ds q) as E. rewrite app_length, Nat.add_1_r in E. rewrite <- !app_assoc in E. exact E.
Qed.
Lemma solo_second : forall (q : prog tout) s cs ds p, exists n, forall m, n <= m ->
  run_moves secure (mkPool s (cs ++ p :: q :: ds)) (repeat (MGo (S (length cs))) m) = mkPool (snd (solo q s)) (cs ++ p :: PRet (fst (solo q s)) :: ds).
Proof.
  intros q s cs ds p. destruct (go_solo secure q s (cs ++ [p]) ds) as [n E]. exists n. intros m L. specialize (E m L).
  rewrite app_length, Nat.add_1_r in E. rewrite <- !app_assoc in E. exact E.
Qed.
Lemma go_call : forall s cs lim c, go secure (mkPool s cs) (MCall lim c) = mkPool s (cs ++ [call_prog secure lim c]).
Proof. reflexivity. Qed.
Lemma answer_mid : forall s cs p ds, answer_of (mkPool s (cs ++ p :: ds)) (length cs) = answer p.
Proof. intros. unfold answer_of. cbn [p_calls]. rewrite nth_mid'. reflexivity. Qed.
Lemma answer_second : forall s cs p q ds, answer_of (mkPool s (cs ++ p :: q :: ds)) (S (length cs)) = answer q.
Proof. intros. pose proof (answer_mid s (cs ++ [p]) q ds) as E. rewrite app_length, Nat.add_1_r, <- app_assoc in E. exact E. Qed.

(** The part of an update after its look at the root. *)
Definition put_rest (lim : nat) (k v : bytes) (r : option bytes) : prog tout :=
  told ANone (pbind (p_update lim (match r with None => [] | Some r => r end) (np_of (t_key secure k)) v) (fun r' => PAssign (Some r') (pret tt))).
Lemma solo_rest : forall lim k v r m log r1, let t := mkMpt m log r secure in
  let x := mpt_update lim [] t k v in
  solo (put_rest lim k v r) (mkShared m log r1) =
    (Ok (ANone (fst x)), mkShared (m_map (snd x)) (m_log (snd x)) (match fst x with Ok _ => m_root (snd x) | Err _ => r1 end)).
Proof.
  intros lim k v r m log r1 t x. unfold put_rest. rewrite solo_told, solo_bind, solo_tame by (apply tame_update; exact keccak_len). cbn [h_map h_log h_root].
  destruct (same_update lim (root_ref t) (np_of (t_key secure k)) v (mkStore m log []) eq_refl) as [E _].
  assert (Ek : eff_key t k = t_key secure k) by reflexivity.
  subst x. unfold mpt_update, run_op. rewrite Ek. unfold root_ref in *. subst t. cbn [m_root m_map m_log m_secure] in *. rewrite E.
  destruct (update_ _ _ _ _ _) as [[r'|e] sv]; reflexivity.
Qed.

(** A get that looks at the root before and after the last key is deleted. *)
Theorem get_race : forall w lim k lim' k', let t := object secure w in let i := length (p_calls w) in
  0 < lim -> 0 < lim' -> root_falsy t = false -> m_root (snd (mpt_delete lim' [] t k')) = None ->
  exists n, forall m, n <= m ->
    answer_of (run_moves secure w ([MCall lim (TGet k); MGo i; MCall lim' (TDel k')] ++ repeat (MGo (S i)) m ++ [MGo i])) i = Some (AVal (Err TypeError)).
Proof.
  intros [s cs] lim k lim' k' t i Hl Hl' Hf Hd. subst i. cbn [p_calls].
  set (q := told AVal (pbind proot (fun r => pbind (p_get lim r (np_of (t_key secure k))) (fun n => PRet (node_data n))))).
  destruct (solo_second (call_prog secure lim' (TDel k')) s cs [] q) as [n E]. exists n. intros m L. specialize (E m L).
  cbn [app]. rewrite run_cons, go_call, run_cons, go_at. cbn [call_prog call_get proot pbind told access fst snd].
  unfold object in t. cbn [p_obj] in t. replace (is_falsy (h_root s)) with false by (symmetry; exact Hf).
  rewrite run_cons, go_call, run_app. rewrite <- app_assoc. cbn [app]. fold q in E |- *. unfold q in E. cbn [proot pbind told] in E. cbn [proot pbind told].
  rewrite E. rewrite (solo_call secure keccak_len s lim' (TDel k') Hl'). fold t. cbn [single]. destruct (mpt_delete lim' [] t k') as [r t'] eqn:Ed. cbn [snd] in Hd. cbn [fst snd].
  rewrite run_cons, go_at. cbn [access fst snd run_moves fold_left]. unfold run_moves. cbn [fold_left]. rewrite answer_mid. unfold of_mpt. cbn [h_root]. rewrite Hd.
  destruct lim as [|f]; [lia|]. reflexivity.
Qed.

(** A contains that takes the root of a trie in which nothing was stored, while another call stores something. *)
Theorem in_race : forall w lim k lim' k' v, let t := object secure w in let t' := snd (mpt_update lim' [] t k' v) in let i := length (p_calls w) in
  0 < lim -> 0 < lim' -> m_root t = Some EMPTY_HASH -> dget (m_map t') EMPTY_HASH = None -> (exists r, m_root t' = Some r /\ r <> EMPTY_HASH) ->
  exists n, forall m, n <= m ->
    answer_of (run_moves secure w ([MCall lim (TIn k); MGo i; MGo i; MCall lim' (TPut k' v)] ++ repeat (MGo (S i)) m ++ [MGo i; MGo i; MGo i])) i = Some (ABool (Err KeyError)).
Proof.
  intros [s cs] lim k lim' k' v t t' i Hl Hl' Hr Hm (r & Er & Hne). subst i. cbn [p_calls]. destruct lim as [|f]; [lia|].
  assert (Hr' : h_root s = Some EMPTY_HASH) by exact Hr.
  set (q := in_rest secure (S f) (Some EMPTY_HASH) k).
  destruct (solo_second (call_prog secure lim' (TPut k' v)) s cs [] q) as [n E]. exists n. intros m L. specialize (E m L).
  cbn [app]. rewrite run_cons, go_call, run_cons, go_at. cbn [call_prog call_contains proot pbind told access fst snd]. rewrite Hr', (empty_nonnil keccak_len).
  cbn [proot pbind told]. rewrite run_cons, go_at. cbn [access fst snd]. rewrite Hr'. rewrite run_cons, go_call, run_app. rewrite <- app_assoc. cbn [app]. unfold q, in_rest in E.
  turn E. rewrite (solo_call secure keccak_len s lim' (TPut k' v) Hl'). change (mkMpt (h_map s) (h_log s) (h_root s) secure) with t. cbn [single].
  subst t'. destruct (mpt_update lim' [] t k' v) as [x t'] eqn:Ed. cbn [snd] in *. cbn [fst snd].
  assert (Eb : bytes_eqb r EMPTY_HASH = false) by (destruct (bytes_eqb r EMPTY_HASH) eqn:Eb; [apply bytes_eqb_eq in Eb; contradiction|reflexivity]).
  rewrite run_cons, go_at. cbn [p_contains pbind proot told access fst snd of_mpt h_root]. rewrite Er.
  rewrite run_cons, go_at. cbn [pbind proot told access fst snd of_mpt h_root]. rewrite Er, Eb. unfold p_node. rewrite (empty_32 keccak_len).
  rewrite run_cons, go_at. cbn [pbind told access fst snd of_mpt h_map]. rewrite Hm. cbn [pbind told]. unfold run_moves. cbn [fold_left]. rewrite answer_mid. reflexivity.
Qed.

(** A proof whose nodes are of one moment and whose root is of a later one. *)
Theorem proof_race : forall w lim tm k p lim' c r', let t := object secure w in let i := length (p_calls w) in
  0 < lim -> 0 < lim' -> mpt_get_poi lim tm t k = Ok p -> m_root (snd (single lim' t c)) = Some r' ->
  exists n0 n, forall m, n <= m ->
    answer_of (run_moves secure w ([MCall lim (TPoi tm k)] ++ repeat (MGo i) n0 ++ [MCall lim' c] ++ repeat (MGo (S i)) m ++ [MGo i])) i = Some (AProof (Ok (with_root p r'))).
Proof.
  intros [s cs] lim tm k p lim' c r' t i Hl Hl' Ep Er. subst i. cbn [p_calls].
  assert (Et : mkMpt (h_map s) (h_log s) (h_root s) secure = t) by reflexivity.
  assert (Ek : eff_key t k = t_key secure k) by reflexivity.
  assert (Ep0 := Ep). unfold mpt_get_poi, root_is_empty, root_ref in Ep. rewrite Ek in Ep. rewrite <- Et in Ep. cbn [m_root m_map] in Ep.
  destruct (h_root s) as [r|] eqn:Es; [|discriminate]. destruct (bytes_eqb r EMPTY_HASH) eqn:Eb; [discriminate|].
  destruct (get_poi_ lim (h_map s) r (np_of (t_key secure k)) []) as [l|e] eqn:El; [|discriminate]. cbn [bind] in Ep.
  set (tail := fun l => pbind proot (fun r2 => match r2 with None => praise TypeError | Some r2 => PRet (new_proof tm (t_key secure k) r2 (map PB l) MPT_POI) end)).
  destruct (go_until secure _ _ AProof tail (p_poi lim (Some r) (np_of (t_key secure k)) []) s cs []) as [n0 E0].
  rewrite solo_poi, El in E0.
  destruct (solo_second (call_prog secure lim' c) s cs [] (told AProof (tail l))) as [n E].
  exists (3 + n0), n. intros m L. specialize (E m L).
  cbn [app repeat Nat.add]. rewrite run_cons, go_call.
  rewrite run_cons, go_at. cbn [call_prog call_poi unless_empty proot pbind told access fst snd]. rewrite Es.
  rewrite run_cons, go_at. cbn [proot pbind told access fst snd]. rewrite Es. cbn [is_empty_hash]. rewrite Eb.
  rewrite run_cons, go_at. cbn [proot pbind told access fst snd]. rewrite Es.
  rewrite run_app. unfold tail in E0. cbn [proot] in E0.
  turn E0. rewrite run_cons, go_call, run_app, <- app_assoc. cbn [app]. unfold tail in E. cbn [proot] in E.
  turn E. rewrite (solo_call secure keccak_len s lim' c Hl'). rewrite Es, Et. cbn [fst snd].
  rewrite run_cons, go_at. cbn [proot pbind told access fst snd of_mpt h_root]. rewrite Er. unfold run_moves. cbn [fold_left]. rewrite answer_mid. cbn [pbind told answer].
  rewrite proof_made in *. injection Ep as <-. reflexivity.
Qed.
End S.

Lemma calls_len : forall {H : Hash} secure ms, length (p_calls (run_moves secure (pool_new secure) ms)) = length (calls_of ms).
Proof.
  intros H secure ms. induction ms as [|m ms IH] using rev_ind; [reflexivity|]. rewrite after_snoc. destruct m as [lim c|j].
  - rewrite calls_call. cbn [go p_calls]. rewrite !app_length, IH. reflexivity.
  - rewrite calls_go. cbn [go]. destruct (nth_error _ j) as [p|] eqn:Ep; [|exact IH]. destruct (access _ p) as [s' p'] eqn:Ea. cbn [p_calls].
    destruct (split_at _ _ _ _ Ep) as [E1 E2]. rewrite E1 in IH. rewrite app_length in *. exact IH.
Qed.
Lemma run_log : forall {H : Hash} secure ms w, incl (h_log (p_obj w)) (h_log (p_obj (run_moves secure w ms))).
Proof.
  intros H secure ms. induction ms as [|m ms IH]; intros w; [apply incl_refl|]. rewrite run_cons. eapply incl_tran; [apply (go_log secure)|apply IH].
Qed.
Section Lost.
Context {H : Hash}.
Hypothesis keccak_len : forall b, length (keccak b) = 32.
Variable secure : bool.
Variables (ms : list move) (l1 : nat) (k1 v1 : bytes) (l2 : nat) (k2 v2 : bytes).
Let w := run_moves secure (pool_new secure) ms.
Let i := length (calls_of ms).
Let t := object secure w.
Let ms2 := ms ++ [MCall l1 (TPut k1 v1); MCall l2 (TPut k2 v2); MGo i; MGo (S i)].
Hypothesis keys : keys_ok secure (tkeys ms2).
Hypothesis fit : tfits secure ms2.
Lemma calls_len' : length (p_calls w) = i.
Proof. apply calls_len. Qed.
Theorem lost : exists n1 n2, forall a b, n1 <= a -> n2 <= b ->
  let w' := run_moves secure (pool_new secure) (ms2 ++ repeat (MGo i) a ++ repeat (MGo (S i)) b) in
  no_collision (h_log (p_obj w')) ->
  answer_of w' i = Some (ANone (fst (mpt_update l1 [] t k1 v1))) /\ answer_of w' (S i) = Some (ANone (fst (mpt_update l2 [] t k2 v2))) /\
  exists d u, rooted secure d u (h_root (p_obj w)) /\
  (fst (mpt_update l2 [] t k2 v2) = Ok tt -> h_root (p_obj w') = m_root (snd (mpt_update l2 [] t k2 v2)) /\ rooted secure (set_ref d k2 v2) true (h_root (p_obj w'))).
Proof.
  destruct (mpt_update l1 [] t k1 v1) as [r1 t1] eqn:E1. destruct (mpt_update l2 [] t k2 v2) as [r2 t2] eqn:E2. cbn [fst snd].
  pose proof calls_len' as Lc. assert (Ew : exists s cs, w = mkPool s cs) by (destruct w as [s cs]; eauto). destruct Ew as (s & cs & Ew). rewrite Ew in Lc. cbn [p_calls] in Lc.
  set (q1 := put_rest secure l1 k1 v1 (h_root s)). set (q2 := put_rest secure l2 k2 v2 (h_root s)).
  assert (Et : t = mkMpt (h_map s) (h_log s) (h_root s) secure) by (unfold t; rewrite Ew; reflexivity).
  destruct (go_solo secure q1 s cs [q2]) as [n1 G1].
  assert (S1 : solo q1 s = (Ok (ANone r1), mkShared (m_map t1) (m_log t1) (match r1 with Ok _ => m_root t1 | Err _ => h_root s end))).
  { pose proof (solo_rest keccak_len secure l1 k1 v1 (h_root s) (h_map s) (h_log s) (h_root s)) as X. cbv zeta in X. rewrite <- Et, E1 in X. cbn [fst snd] in X. destruct s. exact X. }
  rewrite S1 in G1. cbn [fst snd] in G1.
  set (s1 := mkShared (m_map t1) (m_log t1) (match r1 with Ok _ => m_root t1 | Err _ => h_root s end)) in *.
  set (t' := mkMpt (m_map t1) (m_log t1) (h_root s) secure).
  destruct (mpt_update l2 [] t' k2 v2) as [r2' t2'] eqn:E2'.
  pose proof (solo_rest keccak_len secure l2 k2 v2 (h_root s) (m_map t1) (m_log t1) (match r1 with Ok _ => m_root t1 | Err _ => h_root s end)) as S2.
  cbv zeta in S2. fold t' s1 q2 in S2. rewrite E2' in S2. cbn [fst snd] in S2.
  destruct (solo_second secure q2 s1 cs [] (PRet (Ok (ANone r1)))) as [n2 G2]. rewrite S2 in G2. cbn [fst snd] in G2.
  exists n1, n2. intros a b La Lb N. set (w' := run_moves secure (pool_new secure) (ms2 ++ repeat (MGo i) a ++ repeat (MGo (S i)) b)) in *.
  assert (Ew' : w' = mkPool (mkShared (m_map t2') (m_log t2') (match r2' with Ok _ => m_root t2' | Err _ => h_root s1 end)) (cs ++ [PRet (Ok (ANone r1)); PRet (Ok (ANone r2'))])).
  { subst w'. unfold ms2. rewrite <- app_assoc, run_app. fold w. rewrite Ew, run_app.
    cbn [app]. rewrite run_cons, go_call, run_cons, go_call, run_cons. rewrite <- app_assoc. cbn [app]. rewrite <- Lc, go_at. cbn [call_prog call_update proot pbind told access fst snd].
    rewrite run_cons, go_second. cbn [call_prog call_update proot pbind told access fst snd]. rewrite run_nil, run_app.
    assert (X : run_moves secure (mkPool s (cs ++ [q1; q2])) (repeat (MGo (length cs)) a) = mkPool s1 (cs ++ [PRet (Ok (ANone r1)); q2])) by (apply G1; exact La).
    turn X. pose proof (G2 b Lb) as Y. unfold q2, put_rest in Y. exact Y. }
  assert (N0 : no_collision (h_log (p_obj w))).
  { eapply nocoll_incl; [|exact N]. unfold w', ms2. rewrite <- app_assoc, run_app. apply run_log. }
  rewrite Ew' in N |- *. cbn [p_obj h_log] in N.
  (* the object before *)
  assert (Ec : calls_of ms2 = calls_of ms ++ [(l1, TPut k1 v1); (l2, TPut k2 v2)]) by (unfold ms2; rewrite calls_app; reflexivity).
  pose proof (fit_calls secure ms2 fit) as Ho.
  destruct (all_good keccak_len secure (tkeys ms2) keys (proj1 fit) ms) as (d & u & l & G & _).
  { intros lim c Hi. apply (Ho lim c). rewrite Ec. apply in_or_app. auto. }
  { exact N0. }
  pose proof (good_b _ _ _ _ _ _ G) as B. pose proof (good_f _ _ _ _ _ _ G) as [D _]. fold w in B, D. fold t in B, D.
  assert (O1 : okc secure (tkeys ms2) (TPut k1 v1)) by (apply (Ho l1); rewrite Ec; apply in_or_app; right; left; reflexivity).
  assert (O2 : okc secure (tkeys ms2) (TPut k2 v2)) by (apply (Ho l2); rewrite Ec; apply in_or_app; right; right; left; reflexivity).
  destruct (call_keeps keccak_len t (Call (Put k1 v1) l1 []) _ _ D E1) as [D1 [_ X1]].
  destruct (call_keeps keccak_len t' (Call (Put k2 v2) l2 []) _ _ D1 E2') as [_ [_ X2]].
  assert (T : trel t t').
  { split; [|split; [intros x; eapply dext_log; exact X1|split; [rewrite Et; reflexivity|rewrite Et; reflexivity]]].
    intros h e Eh. apply (dext_dget _ _ _ _ D D1 X1); [|exact Eh]. eapply nocoll_incl; [|exact N]. intros x. eapply dext_log. exact X2. }
  assert (Q : r2 = r2' /\ trel t2 t2').
  { pose proof (call_sim t t' (Call (Put k2 v2) l2 []) T) as Sm. cbn [mpt_call c_op c_lim c_faults] in Sm. rewrite E2, E2' in Sm. cbn [fst snd] in Sm.
    destruct Sm as [[-> Li]|Sm]; [|exact Sm]. exfalso.
    pose proof (b_put keccak_len secure (tkeys ms2) (proj1 fit) t d u k2 v2 l2 _ _ B (proj1 O2 k2 (or_introl eq_refl)) (proj2 O2) E2) as X.
    cbn beta iota in X. apply (no_key_up secure l2 k2). apply X. eapply nocoll_incl; [exact Li|exact N]. }
  destruct Q as [-> Tr]. rewrite <- Lc. rewrite answer_mid, answer_second. split; [reflexivity|]. split; [reflexivity|].
  exists d, u. split; [apply (b_rooted keccak_len secure (tkeys ms2) keys _ _ _ _ B); reflexivity|].
  intros ->. cbn [p_obj h_root]. destruct Tr as (_ & Li & Er & _). rewrite <- Er. split; [reflexivity|].
  pose proof (b_put keccak_len secure (tkeys ms2) (proj1 fit) t d u k2 v2 l2 _ _ B (proj1 O2 k2 (or_introl eq_refl)) (proj2 O2) E2) as X.
  apply (b_rooted keccak_len secure (tkeys ms2) keys t2); [|reflexivity]. apply X. eapply nocoll_incl; [exact Li|exact N].
Qed.
End Lost.

(** Nothing accepts a proof that names another root than the one its nodes lead to. *)
Theorem mixed_never : forall {H : Hash} lim t p r' lim' t', mpt_verify_poi lim t p = Ok true -> root_hash t <> r' ->
  mpt_verify_poi lim' t' (with_root p r') <> Ok true.
Proof.
  intros H lim t p r' lim' t' V Hne V'. unfold mpt_verify_poi in V, V'. cbn [with_root pf_type pf_proof pf_key pf_root hash_first] in V'.
  destruct (negb _); [discriminate|]. destruct (root_is_empty t); [discriminate|]. destruct (root_is_empty t'); [discriminate|].
  assert (Eh : hash_first (with_root p r') = hash_first p) by reflexivity. rewrite Eh in V'.
  destruct (hash_first p) as [h|e]; [|discriminate]. cbn [bind] in V, V'.
  destruct (bytes_eqb (root_hash t) h) eqn:E1; [|discriminate]. destruct (bytes_eqb (root_hash t') h) eqn:E2; [|discriminate]. cbn [negb] in V'.
  apply bytes_eqb_eq in E1, E2. subst h. rewrite E2 in V'. apply Hne.
  destruct (poi_storage _ _) as [[ps|]|e]; cbn [bind] in V'; try discriminate.
  destruct (verify_poi_ lim' _ _ _) as [b|e]; cbn [bind] in V'; [|discriminate]. injection V' as V'. apply andb_true_iff in V'. apply bytes_eqb_eq. apply V'.
Qed.

(** A reading call during which the root stays what it is. *)
Section Still.
Context {H : Hash}.
Hypothesis keccak_len : forall b, length (keccak b) = 32.
Variables (secure : bool) (ms : list move).
Hypothesis keys : keys_ok secure (tkeys ms).
Hypothesis fit : tfits secure ms.
Notation w := (run_moves secure (pool_new secure) ms).
Hypothesis N : no_collision (h_log (p_obj w)).
Theorem still : forall i lim c o, nth_error (calls_of ms) i = Some (lim, c) -> answer_of w i = Some o -> is_write c = false -> 0 < lim ->
  (forall t t', during secure ms i t -> during secure ms i t' -> m_root t = m_root t') ->
  exists t, during secure ms i t /\ o = fst (single lim t c).
Proof.
  intros i lim c o Ec Eo Wc Hl S. pose proof (threads_stem keccak_len secure ms keys fit N i lim c o Ec Eo) as St.
  assert (Ne : ~ emptied (during secure ms i)) by (intros (t & t' & P & E & P' & E'); apply E'; rewrite (S t' t); auto).
  destruct c as [k|k|k v|k|tm k| |]; try discriminate; destruct o as [r|r|r|r|r]; try destruct St; cbn [stems single fst] in *.
  - destruct H0 as (t & P & <-). eauto.
  - destruct H0 as (x & _ & _ & Z). contradiction.
  - destruct H0 as (t & P & <-). eauto.
  - destruct H0 as [[L _]|[[_ Z]|(_ & t & t' & P & E & P' & E')]]; [lia|contradiction|]. exfalso. apply E'. rewrite (S t' t); auto.
  - destruct r as [p|x].
    + destruct St as (t & t' & p' & r' & P & P' & E1 & E2 & ->). exists t. split; [exact P|]. rewrite E1. f_equal. f_equal. rewrite <- (S t t' P P') in E2.
      unfold mpt_get_poi, root_is_empty, root_ref in E1. rewrite E2 in E1. destruct (bytes_eqb r' EMPTY_HASH); [discriminate|].
      destruct (get_poi_ _ _ _ _ _) as [l|e]; cbn [bind] in E1; [|discriminate]. rewrite proof_made in E1. injection E1 as <-. reflexivity.
    + destruct St as [(t & P & <-)|[_ Z]]; [eauto|contradiction].
  - destruct H0 as (P & ->). eauto.
  - destruct H0 as (t & P & ->). eauto.
  - destruct H0 as [[_ Z]|(t & t' & r' & P & P' & E1 & Hn & E2)]; [contradiction|]. exists t. split; [exact P|]. f_equal. unfold root_hash, root_falsy, root_ref. rewrite <- (S t t' P P'), E1 in E2. rewrite E1.
    destruct r' as [|b r']; [contradiction|]. destruct E2 as [[L ->]|(L & r'' & Q & ->)].
    + apply Nat.eqb_eq in L. rewrite L. reflexivity.
    + injection Q as <-. apply Nat.eqb_neq in L. rewrite L. reflexivity.
Qed.
End Still.

(** No dictionary makes a call on its own answer so. *)
Lemma gets_no_type : forall {H : Hash} secure lim d u k, ~ gets secure lim d u k (Err TypeError).
Proof.
  intros H secure lim d u k G. inversion G; subst; [destruct u; discriminate|].
  match goal with X : SpecWalk.get_raises _ _ _ |- _ => destruct X as (p & q & _ & [[X _]|[[X _]|[[X _]|[X _]]]]); discriminate X end.
Qed.
Lemma asks_only_deep : forall {H : Hash} secure lim d k x, asks secure lim d k (Err x) -> x = RecursionError.
Proof. intros H secure lim d k x G. inversion G; subst; reflexivity. Qed.
Theorem no_such_answer : forall {H : Hash} secure lim d u k, ~ gets secure lim d u k (Err TypeError) /\ ~ asks secure lim d k (Err KeyError).
Proof. intros H secure lim d u k. split; [apply gets_no_type|intros A; apply asks_only_deep in A; discriminate]. Qed.
