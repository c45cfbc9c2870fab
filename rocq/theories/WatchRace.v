(** Making and checking proofs alone, and while another call gets in between: proofs about SpecWatch.v, continued. *)
From Coq Require Import List Bool Arith NArith ZArith Lia.
From Verif Require Import Base BaseProofs Rlp NibblePath Node ProofObj Mpt StoreProofs Spec SpecProof SimProofs PoiProofs SpecShared SpecEvery MptPy SpecMptEvery Threads SpecThreads ThreadsSeq
  ThreadsProofs ThreadsPool ThreadsAlone ThreadsRace Watch SpecWatch WatchProofs WatchScene.
Import ListNotations.

Section R.
Context {H : Hash}.
Variable secure : bool.
Notation view s := (obj secure s).

(** ** A call that looks, alone *)
Lemma solo_keeps : forall A (p : prog A) n s, looks n p -> snd (solo p s) = s.
Proof.
  intros A p. induction p as [r|h k IH|h e k IH|k IH|r k IH]; intros n s W; cbn [solo looks] in *; try contradiction; [reflexivity| |];
    (destruct n as [|n]; [contradiction|]; apply (IH _ n); apply W).
Qed.
Lemma watch_solo : forall A (p : prog A) n m s, looks n p -> n <= m -> watch p (repeat s m) = PRet (fst (solo p s)).
Proof.
  intros A p. induction p as [r|h k IH|h e k IH|k IH|r k IH]; intros n m s W L; cbn [solo looks] in *; try contradiction; [apply watch_ret| |];
    (destruct n as [|n]; [contradiction|]; destruct m as [|m]; [lia|]; apply (IH _ n m); [apply W|lia]).
Qed.
Lemma repeat_more : forall A (a : A) n m, repeat a (n + m) = repeat a n ++ repeat a m.
Proof. intros. induction n as [|n IH]; cbn; [reflexivity|]. rewrite IH. reflexivity. Qed.
(** Up to where the first part has ended. *)
Lemma watch_until : forall A B (g : result B -> wout) (f : A -> prog B) (q : prog A) k s, looks k q -> exists n,
  watch (ends g (pbind q f)) (repeat s n) = match fst (solo q s) with Ok a => ends g (f a) | Err e => PRet (Ok (g (Err e))) end.
Proof.
  intros A B g f. induction q as [[a|e]|h k IH|h e k IH|k IH|r k IH]; intros j s W; cbn [looks solo] in *; try contradiction.
  - exists 0. reflexivity.
  - exists 0. reflexivity.
  - destruct j as [|j]; [contradiction|]. destruct (IH (dget (h_map s) h) j s (W _)) as [n E]. exists (S n). exact E.
  - destruct j as [|j]; [contradiction|]. destruct (IH (h_root s) j s (W _)) as [n E]. exists (S n). exact E.
Qed.
Lemma solo_in : forall lim k s, match h_root s with Some x => bytes_eqb x EMPTY_HASH = false | None => True end ->
  solo (call_contains secure lim k) s = (mpt_contains lim (view s) k, s).
Proof.
  intros lim k s Hr. unfold call_contains, mpt_contains, root_falsy, root_is_empty, root_ref. rewrite solo_bind. cbn [proot solo obj m_root m_map].
  destruct (h_root s) as [[|b r]|] eqn:Er; cbn [is_falsy]; try reflexivity.
  rewrite solo_bind. cbn [proot solo]. rewrite Er, solo_bind, Hr. rewrite (solo_contains _ _ _ _ (b :: r) Er Hr). change (eff_key (view s) k) with (t_key secure k).
  destruct (contains_ _ _ _ _) as [[[] ?]|]; reflexivity.
Qed.
Lemma solo_poe : forall f r p acc s, solo (p_poe f (Some r) p acc) s = (get_poe_ f (h_map s) r p acc, s).
Proof. intros f r p acc s. rewrite solo_tame by apply tame_poe. rewrite seq_poe. destruct s. reflexivity. Qed.
Lemma solo_hash : forall s, solo call_hash s = (Ok (Some (root_hash (view s))), s).
Proof.
  intros s. unfold call_hash, root_hash, root_falsy, root_ref. rewrite solo_bind. cbn [proot solo obj m_root]. destruct (h_root s) as [[|b r]|] eqn:Er; cbn [is_falsy]; try reflexivity.
  rewrite solo_bind. cbn [proot solo]. rewrite Er. destruct (length (b :: r) =? 32).
  - cbn [proot solo]. rewrite Er. reflexivity.
  - rewrite solo_bind. cbn [proot solo]. rewrite Er. reflexivity.
Qed.
Lemma solo_unless : forall A (p : prog A) s, solo (unless_empty p) s = if root_is_empty (view s) then (Err ValueError, s) else solo p s.
Proof.
  intros A p s. unfold unless_empty, root_is_empty. rewrite solo_bind. cbn [proot solo obj m_root]. destruct (h_root s) as [r|] eqn:Er; [|reflexivity].
  rewrite solo_bind. cbn [proot solo]. rewrite Er. cbn [is_empty_hash]. destruct (bytes_eqb r EMPTY_HASH); reflexivity.
Qed.
Lemma used_root : forall s, root_is_empty (view s) = false -> exists r, h_root s = Some r /\ bytes_eqb r EMPTY_HASH = false.
Proof. intros s E. unfold root_is_empty in E. cbn [obj m_root] in E. destruct (h_root s) as [r|]; [|discriminate]. exists r. auto. Qed.
Lemma solo_ret : forall A (r : result A) s, solo (PRet r) s = (r, s).
Proof. reflexivity. Qed.
Lemma solo_ends : forall A (g : result A -> wout) (p : prog A) s, fst (solo (ends g p) s) = Ok (g (fst (solo p s))).
Proof. intros A g p. induction p as [r|h k IH|h e k IH|k IH|r k IH]; intros s; cbn [ends solo]; auto. Qed.
Lemma solo_watch : forall lim c s, fst (solo (watch_prog secure lim c) s) = Ok (wsingle lim (view s) c).
Proof.
  intros lim [tm k|p|p] s; cbn [watch_prog wsingle]; rewrite solo_ends; do 2 f_equal.
  - unfold call_poe, mpt_get_poe. rewrite solo_unless. destruct (root_is_empty (view s)) eqn:Ee; [reflexivity|]. destruct (used_root s Ee) as (r & Er & Eb).
    rewrite solo_bind, solo_in by (rewrite Er; exact Eb). destruct (mpt_contains lim (view s) k) as [[]|]; cbn [bind]; try reflexivity.
    rewrite solo_bind. cbn [proot solo]. rewrite Er, solo_bind, solo_poe. unfold root_ref. cbn [obj m_root m_map]. rewrite Er. change (eff_key (view s) k) with (t_key secure k).
    change (eff_key {| m_map := h_map s; m_log := h_log s; m_root := Some r; m_secure := secure |} k) with (t_key secure k).
    destruct (get_poe_ _ _ _ _ _) as [[[n l] q]|]; cbn [bind]; [|reflexivity]. rewrite solo_bind, solo_ret. destruct (node_encode _) as [e|]; cbn [bind]; [|reflexivity]. cbv zeta.
    assert (M : fst (solo (pbind call_hash (fun h => match h with Some h => PRet (new_proof tm (t_key secure k) h (map PB (l ++ [e])) MPT_POE) | None => praise TypeError end)) s) =
      new_proof tm (t_key secure k) (root_hash (view s)) (map PB (l ++ [e])) MPT_POE) by (rewrite solo_bind, solo_hash; reflexivity).
    destruct n as [lp v|ep nr|bs v]; [destruct (np_eq lp q); [reflexivity|exact M]|exact M|destruct (bytes_eqb v []); [exact M|reflexivity]].
  - unfold call_check_poi, mpt_verify_poi. destruct (negb (bytes_eqb (pf_type p) MPT_POI)); [reflexivity|]. rewrite solo_unless. destruct (root_is_empty (view s)) eqn:Ee; [reflexivity|].
    destruct (used_root s Ee) as (r & Er & Eb). rewrite solo_bind, solo_hash, solo_bind, solo_ret. destruct (hash_first p) as [h|]; cbn [bind]; [|reflexivity]. cbn [same_hash].
    destruct (negb (bytes_eqb (root_hash (view s)) h)); [reflexivity|]. rewrite solo_bind, solo_ret. destruct (poi_storage (pf_proof p) []) as [[ps|]|]; cbn [bind]; try reflexivity.
    rewrite solo_bind. cbn [proot solo]. rewrite Er, solo_bind, solo_ret. cbn [from_root]. unfold root_ref. cbn [obj m_root]. rewrite Er.
    destruct (verify_poi_ _ _ _ _) as [[]|]; cbn [bind]; try reflexivity. rewrite solo_bind, solo_hash. unfold obj. rewrite ?Er. reflexivity.
  - unfold call_check_poe, mpt_verify_poe. destruct (negb (bytes_eqb (pf_type p) MPT_POE)); [reflexivity|]. rewrite solo_unless. destruct (root_is_empty (view s)) eqn:Ee; [reflexivity|].
    destruct (used_root s Ee) as (r & Er & Eb). rewrite solo_bind, solo_hash, solo_bind, solo_ret. destruct (hash_first p) as [h|]; cbn [bind]; [|reflexivity]. cbn [same_hash].
    destruct (negb (bytes_eqb (root_hash (view s)) h)); [reflexivity|]. rewrite solo_bind, solo_ret. destruct (decode_last _) as [ln|]; cbn [bind]; [|reflexivity].
    rewrite solo_bind, solo_ret. destruct (node_data ln) as [d|]; cbn [bind]; [|reflexivity]. destruct (negb _); [reflexivity|].
    rewrite solo_bind, solo_ret. destruct (poe_storage _ _) as [ps|]; cbn [bind]; [|reflexivity].
    rewrite solo_bind. cbn [proot solo]. rewrite Er, solo_bind, solo_ret. cbn [from_root]. unfold root_ref. cbn [obj m_root]. rewrite Er.
    destruct (verify_poe_ _ _ _ _) as [[n rest]|]; cbn [bind]; [|reflexivity]. destruct (negb _); [reflexivity|]. destruct n as [[]|]; reflexivity.
Qed.

(** ** Moves *)
Lemma scene_app : forall w a b, run_scene secure w (a ++ b) = run_scene secure (run_scene secure w a) b.
Proof. intros. apply fold_left_app. Qed.
Lemma scene_cons : forall w m ms, run_scene secure w (m :: ms) = run_scene secure (wgo secure w m) ms.
Proof. reflexivity. Qed.
Lemma wgo_last : forall pl cs p, wgo secure (mkScene pl (cs ++ [p])) (WGo (length cs)) = mkScene pl (cs ++ [look (p_obj pl) p]).
Proof.
  intros pl cs p. cbn [wgo sc_calls sc_pool]. rewrite nth_mid'. rewrite firstn_app, Nat.sub_diag, firstn_all, app_nil_r, skipn_all2 by (rewrite app_length; cbn; lia). reflexivity.
Qed.
Lemma scene_looks : forall n pl cs p, run_scene secure (mkScene pl (cs ++ [p])) (repeat (WGo (length cs)) n) = mkScene pl (cs ++ [watch p (repeat (p_obj pl) n)]).
Proof. induction n as [|n IH]; intros pl cs p; [reflexivity|]. cbn [repeat]. rewrite scene_cons, wgo_last, IH. reflexivity. Qed.
Lemma scene_moves : forall ms pl cs, run_scene secure (mkScene pl cs) (map WMove ms) = mkScene (run_moves secure pl ms) cs.
Proof. induction ms as [|m ms IH]; intros pl cs; [reflexivity|]. cbn [map]. rewrite scene_cons. cbn [wgo sc_pool sc_calls]. rewrite IH. reflexivity. Qed.
Lemma wanswer_last : forall pl cs p, wanswer_of (mkScene pl (cs ++ [p])) (length cs) = wanswer p.
Proof. intros. unfold wanswer_of. cbn [sc_calls]. rewrite nth_mid'. reflexivity. Qed.
Theorem watch_alone : forall w lim c m, wbound lim c <= m ->
  let w' := run_scene secure w (WCall lim c :: repeat (WGo (length (sc_calls w))) m) in
  wanswer_of w' (length (sc_calls w)) = Some (wsingle lim (object secure (sc_pool w)) c) /\ sc_pool w' = sc_pool w /\ firstn (length (sc_calls w)) (sc_calls w') = sc_calls w.
Proof.
  intros [pl cs] lim c m L w'. subst w'. cbn [sc_calls sc_pool]. rewrite scene_cons. cbn [wgo sc_calls sc_pool]. rewrite scene_looks, wanswer_last.
  rewrite (watch_solo _ _ (wbound lim c) m (p_obj pl) (looks_call secure lim c) L), solo_watch. split; [reflexivity|]. split; [reflexivity|].
  cbn [sc_calls]. rewrite firstn_app, Nat.sub_diag, firstn_all. apply app_nil_r.
Qed.

(** ** Another call in between *)
Hypothesis keccak_len : forall b, length (keccak b) = 32.
Lemma meanwhile_is : forall w lim c n0 lim' c', 0 < lim' -> exists n, forall m n1, n <= m -> exists s',
  obj secure s' = snd (single lim' (object secure (sc_pool w)) c') /\
  wanswer_of (run_scene secure w (meanwhile w lim c n0 lim' c' m n1)) (length (sc_calls w)) =
    wanswer (watch (watch (watch_prog secure lim c) (repeat (p_obj (sc_pool w)) n0)) (repeat s' n1)).
Proof.
  intros [pl cs] lim c n0 lim' c' Hl. cbn [sc_pool sc_calls]. destruct (alone secure keccak_len pl lim' c' Hl) as [n A]. exists n. intros m n1 L. specialize (A m L). cbn zeta in A.
  destruct A as (_ & Eo & _). exists (p_obj (run_moves secure pl (MCall lim' c' :: repeat (MGo (length (p_calls pl))) m))). split; [exact Eo|].
  unfold meanwhile. cbn [sc_pool sc_calls]. rewrite scene_cons. cbn [wgo sc_calls sc_pool]. rewrite scene_app, scene_looks, scene_app, scene_moves, scene_looks, wanswer_last. reflexivity.
Qed.
Lemma poe_until : forall lim tm k s p, mpt_get_poe lim tm (view s) k = Ok p -> exists n,
  watch (watch_prog secure lim (WPoe tm k)) (repeat s n) =
    ends WProof (pbind call_hash (fun h => match h with Some h => PRet (Ok (with_root p h)) | None => praise TypeError end)).
Proof.
  intros lim tm k s p E. destruct (root_is_empty (view s)) eqn:Ee; [unfold mpt_get_poe in E; rewrite Ee in E; discriminate|]. destruct (used_root s Ee) as (r & Er & Eb).
  assert (U : mpt_get_poe lim tm (view s) k = bind (mpt_contains lim (view s) k) (fun c => if (c : bool) then Err PoeError else
      bind (get_poe_ lim (h_map s) r (np_of (t_key secure k)) []) (fun '(n, l, path) => bind (node_encode (Leaf path null_bytes)) (fun e =>
      let mk := new_proof tm (t_key secure k) (root_hash (view s)) (map PB (l ++ [e])) MPT_POE in
      match n with Branch _ v => if bytes_eqb v [] then mk else Err PoeError | Leaf lp _ => if np_eq lp path then Err PoeError else mk | Extension _ _ => mk end)))).
  { unfold mpt_get_poe. rewrite Ee. unfold root_ref. cbn [obj m_root]. rewrite Er. reflexivity. }
  rewrite U in E. clear U.
  destruct (mpt_contains lim (view s) k) as [[]|] eqn:Ec; cbn [bind] in E; try discriminate.
  destruct (get_poe_ lim (h_map s) r (np_of (t_key secure k)) []) as [[[n l] q]|] eqn:Eg; cbn [bind] in E; [|discriminate].
  destruct (node_encode (Leaf q null_bytes)) as [e|] eqn:Ene; cbn [bind] in E; [|discriminate].
  set (F := fun (c : bool) => if c then praise PoeError else pbind proot (fun r => pbind (p_poe lim r (np_of (t_key secure k)) []) (fun x => let '(n, l, path) := x in
      pbind (PRet (node_encode (Leaf path null_bytes))) (fun e =>
      let mk := pbind call_hash (fun h => match h with None => praise TypeError | Some h => PRet (new_proof tm (t_key secure k) h (map PB (l ++ [e])) MPT_POE) end) in
      match n with Branch _ v => if bytes_eqb v [] then mk else praise PoeError | Leaf lp _ => if np_eq lp path then praise PoeError else mk | Extension _ _ => mk end)))).
  set (G := fun x : node * list bytes * np => let '(n, l, path) := x in
      pbind (PRet (node_encode (Leaf path null_bytes))) (fun e =>
      let mk := pbind call_hash (fun h => match h with None => praise TypeError | Some h => PRet (new_proof tm (t_key secure k) h (map PB (l ++ [e])) MPT_POE) end) in
      match n with Branch _ v => if bytes_eqb v [] then mk else praise PoeError | Leaf lp _ => if np_eq lp path then praise PoeError else mk | Extension _ _ => mk end)).
  destruct (watch_until _ _ WProof F (call_contains secure lim k) _ s (looks_in secure lim k)) as [n1 E1].
  destruct (watch_until _ _ WProof G (p_poe lim (Some r) (np_of (t_key secure k)) []) _ s (looks_poe _ _ _ _)) as [n2 E2].
  rewrite solo_in in E1 by (rewrite Er; exact Eb). cbn [fst] in E1. rewrite Ec in E1. rewrite solo_poe, Eg in E2. cbn [fst] in E2.
  exists (2 + (n1 + (1 + n2))). rewrite !repeat_more, !watch_app. cbn [repeat].
  assert (E0 : watch (watch_prog secure lim (WPoe tm k)) [s; s] = ends WProof (pbind (call_contains secure lim k) F)).
  { cbn [watch_prog watch fold_left]. unfold call_poe, unless_empty. cbn [proot pbind ends look]. rewrite Er. cbn [pbind ends look is_empty_hash]. rewrite Er. cbn [is_empty_hash]. rewrite Eb. reflexivity. }
  rewrite E0, E1. unfold F at 1. cbn [watch fold_left proot pbind ends look]. rewrite Er. change (fold_left (fun p s => look s p) ?l ?x) with (watch x l).
  etransitivity; [exact E2|]. unfold G. rewrite Ene. cbn [pbind].
  assert (Q : new_proof tm (t_key secure k) (root_hash (view s)) (map PB (l ++ [e])) MPT_POE = Ok p).
  { destruct n as [lp v|ep nr|bs v]; [destruct (np_eq lp q); [discriminate|exact E]|exact E|destruct (bytes_eqb v []); [exact E|discriminate]]. }
  assert (R : match n with Branch _ v => if bytes_eqb v [] then true else false | Leaf lp _ => if np_eq lp q then false else true | Extension _ _ => true end = true).
  { destruct n as [lp v|ep nr|bs v]; [destruct (np_eq lp q); [discriminate|reflexivity]|reflexivity|destruct (bytes_eqb v []); [reflexivity|discriminate]]. }
  clear E. injection Q as <-. cbv zeta.
  destruct n as [lp v|ep nr|bs v]; [destruct (np_eq lp q); [discriminate|]| |destruct (bytes_eqb v []); [|discriminate]]; reflexivity.
Qed.
Theorem poe_race : forall w lim tm k p lim' c', let t := object secure (sc_pool w) in let t' := snd (single lim' t c') in
  0 < lim' -> mpt_get_poe lim tm t k = Ok p ->
  exists n0 n, forall m n1, n <= m -> 3 <= n1 ->
    wanswer_of (run_scene secure w (meanwhile w lim (WPoe tm k) n0 lim' c' m n1)) (length (sc_calls w)) = Some (WProof (Ok (with_root p (root_hash t')))).
Proof.
  intros w lim tm k p lim' c' t t' Hl E. destruct (poe_until lim tm k (p_obj (sc_pool w)) p E) as [n0 E0]. exists n0.
  destruct (meanwhile_is w lim (WPoe tm k) n0 lim' c' Hl) as [n M]. exists n. intros m n1 Lm L1. destruct (M m n1 Lm) as (s' & Es & ->). rewrite E0.
  rewrite (watch_solo _ _ 3 n1 s'); [| |exact L1].
  - rewrite solo_ends, solo_bind, solo_hash, Es. reflexivity.
  - apply looks_ends. apply (looks_more _ _ (3 + 0)); [|lia]. apply looks_bind; [apply looks_hash|]. intros [h|]; exact I.
Qed.

(** A proof with the root node of the trie in front. *)
Lemma verify_poi_part : forall f ps ps' r q, part_of ps ps' -> verify_poi_ f ps r q = Ok true -> verify_poi_ f ps' r q = Ok true.
Proof.
  induction f as [|f IH]; intros ps ps' r q P E; cbn [verify_poi_] in *; [discriminate|]. destruct (length r =? 32).
  - destruct (dget ps r) as [raw|] eqn:Eg; [|discriminate]. rewrite (P _ _ Eg). destruct (node_decode raw) as [n|]; cbn [bind] in *; [|discriminate].
    destruct (np_len q =? 0); [exact E|]. destruct n as [lp v|ep nr|bs v]; [exact E|destruct (np_starts_with q ep); [eauto|exact E]|]. cbv zeta in *. destruct (0 <? _); [eauto|exact E].
  - destruct (node_decode r) as [n|]; cbn [bind] in *; [|discriminate].
    destruct (np_len q =? 0); [exact E|]. destruct n as [lp v|ep nr|bs v]; [exact E|destruct (np_starts_with q ep); [eauto|exact E]|]. cbv zeta in *. destruct (0 <? _); [eauto|exact E].
Qed.
Lemma poi_storage_part : forall l d d' ps, part_of d d' -> poi_storage l d = Ok (Some ps) -> exists ps', poi_storage l d' = Ok (Some ps') /\ part_of ps ps'.
Proof.
  induction l as [|e l IH]; intros d d' ps P E; cbn [poi_storage] in *; [injection E as <-; eauto|].
  destruct e as [b|]; cbn [store_proof_node] in *; [|discriminate]. destruct (node_decode b) as [n|x]; cbn [bind] in *; [|destruct x; discriminate].
  destruct (into_reference n) as [r|x]; cbn [bind] in *; [|destruct x; discriminate]. eapply IH; [apply part_dset; exact P|exact E].
Qed.
Lemma hash_until : forall lim p s h, pf_type p = MPT_POI -> root_is_empty (view s) = false -> hash_first p = Ok h -> root_hash (view s) = h -> exists n,
  watch (watch_prog secure lim (WCheckPoi p)) (repeat s n) = ends WBool (pbind (PRet (poi_storage (pf_proof p) [])) (fun o =>
      match o with
      | None => pret false
      | Some ps => pbind proot (fun r => pbind (PRet (from_root lim r (fun r => verify_poi_ lim ps r (np_of (pf_key p))))) (fun valid =>
          if (valid : bool) then pbind call_hash (fun h' => pret (same_hash h' (pf_root p))) else pret false))
      end)).
Proof.
  intros lim p s h Et Ee Eh Er. destruct (used_root s Ee) as (r & Es & Eb).
  set (F := fun h : option bytes => pbind (PRet (hash_first p)) (fun h0 => if negb (same_hash h h0) then pret false else pbind (PRet (poi_storage (pf_proof p) [])) (fun o =>
      match o with
      | None => pret false
      | Some ps => pbind proot (fun r => pbind (PRet (from_root lim r (fun r => verify_poi_ lim ps r (np_of (pf_key p))))) (fun valid =>
          if (valid : bool) then pbind call_hash (fun h' => pret (same_hash h' (pf_root p))) else pret false))
      end))).
  destruct (watch_until _ _ WBool F call_hash _ s looks_hash) as [n E]. rewrite solo_hash in E. cbn [fst] in E.
  exists (2 + n). rewrite repeat_more, watch_app. cbn [repeat].
  assert (E0 : watch (watch_prog secure lim (WCheckPoi p)) [s; s] = ends WBool (pbind call_hash F)).
  { cbn [watch_prog watch fold_left]. unfold call_check_poi, unless_empty. rewrite Et. unfold MPT_POI at 1. rewrite bytes_eqb_refl. cbn [negb proot pbind ends look]. rewrite Es. cbn [pbind ends look is_empty_hash]. rewrite Es. cbn [is_empty_hash]. rewrite Eb. reflexivity. }
  rewrite E0, E. unfold F. rewrite Eh. cbn [pbind same_hash]. rewrite Er, bytes_eqb_refl. reflexivity.
Qed.
Theorem check_race : forall w lim p b n lim' c', let t := object secure (sc_pool w) in let t' := snd (single lim' t c') in
  let p' := mkProof MPT_POI (pf_time p) (pf_key p) (pf_root p) (PB b :: pf_proof p) in
  0 < lim' -> root_is_empty t = false -> keccak b = root_hash t -> node_decode b = Ok n -> (exists r, into_reference n = Ok r) ->
  mpt_verify_poi lim t' p = Ok true ->
  exists n0 n, forall m n1, n <= m -> 4 <= n1 ->
    wanswer_of (run_scene secure w (meanwhile w lim (WCheckPoi p') n0 lim' c' m n1)) (length (sc_calls w)) = Some (WBool (Ok true)).
Proof.
  intros w lim p b nd lim' c' t t' p' Hl Ee Eb En [rf Erf] Ev. apply verify_poi_true in Ev. destruct Ev as (_ & Ee' & Er' & _ & ps & Eps & Ev).
  destruct (hash_until lim p' (p_obj (sc_pool w)) (keccak b) eq_refl Ee eq_refl (eq_sym Eb)) as [n0 E0]. exists n0.
  destruct (meanwhile_is w lim (WCheckPoi p') n0 lim' c' Hl) as [n M]. exists n. intros m n1 Lm L1. destruct (M m n1 Lm) as (s' & Es & ->). rewrite E0. clear M E0.
  assert (S : exists ps', poi_storage (pf_proof p') [] = Ok (Some ps') /\ part_of ps ps').
  { cbn [p' pf_proof poi_storage store_proof_node]. rewrite En. cbn [bind]. rewrite Erf. cbn [bind]. eapply poi_storage_part; [|exact Eps]. intros x y X. discriminate. }
  destruct S as (ps' & Eps' & P). rewrite Eps'. cbn [pbind]. apply (verify_poi_part _ _ ps') in Ev; [|exact P].
  rewrite (watch_solo _ _ 4 n1 s'); [| |exact L1].
  - rewrite solo_ends. cbn [wanswer]. do 2 f_equal. rewrite solo_bind. cbn [proot solo]. unfold t', t in *. rewrite <- Es in *. destruct (used_root s' Ee') as (r & Er & _).
    unfold root_ref in Ev. cbn [obj m_root] in Ev. rewrite Er in Ev. rewrite Er. cbn [from_root p' pf_key]. rewrite Ev, solo_bind, solo_hash. cbn [pret solo fst same_hash p' pf_root].
    rewrite Er', bytes_eqb_refl. reflexivity.
  - apply looks_ends. apply (looks_more _ _ (1 + (3 + 0))); [|lia]. apply looks_bind; [apply looks_root|]. intros r. destruct (from_root _ _ _) as [[]|]; [|exact I|exact I].
    apply looks_bind; [apply looks_hash|]. intros h. exact I.
Qed.
(** No trie accepts it. *)
Theorem check_race_never : forall lim t p b, keccak b <> pf_root p -> mpt_verify_poi lim t (mkProof MPT_POI (pf_time p) (pf_key p) (pf_root p) (PB b :: pf_proof p)) <> Ok true.
Proof.
  intros lim t p b Nb E. apply verify_poi_true in E. destruct E as (_ & _ & E1 & (b' & l & E2 & E3) & _). cbn [pf_proof pf_root] in *. injection E2 as <- _. congruence.
Qed.
End R.
