(** Lemmas about MerkleTree objects under histories of calls. *)
From Coq Require Import List Bool Arith NArith ZArith Lia.
From Verif Require Import Base BaseProofs ProofObj Spec MptEq MerkleTree SpecMt MtProofs.
Import ListNotations.

Section WithHash.
Context {H : Hash}.

(** ** The object and the values put *)
Definition basic (s : bool) (t : mt) (vs : list bytes) : Prop :=
  t_secure t = s /\ t_leaves t = leaves_of s vs.
(** Moreover it was built when there were [m] values. *)
Definition holds (s : bool) (t : mt) (vs : list bytes) (m : nat) : Prop :=
  basic s t vs /\ t_ready t = true /\ 0 < m <= length vs /\
  exists c, chain (leaves_of s (firstn m vs)) (leaves_of s (firstn m vs) :: c) /\ t_upper t = Some (rev c).

Lemma leaves_of_stored : forall s vs v, leaves_of s vs ++ [stored s v] = leaves_of s (vs ++ [v]).
Proof. intros s vs v. unfold leaves_of, stored. rewrite map_app. reflexivity. Qed.
Lemma leaves_of_length : forall s vs, length (leaves_of s vs) = length vs.
Proof. intros. apply map_length. Qed.
Lemma leaves_of_ne : forall s vs, vs <> [] -> leaves_of s vs <> [].
Proof. intros s [|v vs] Hn; [congruence|discriminate]. Qed.

Lemma put_list_eq : forall vs t, snd (put_list t vs) =
  mkMt (t_leaves t ++ leaves_of (t_secure t) (good_prefix vs)) (t_upper t) (t_ready t) (t_secure t).
Proof.
  induction vs as [|v vs IH]; intros t.
  - cbn. rewrite app_nil_r. destruct t; reflexivity.
  - cbn [put_list]. destruct v as [b|]; cbn [put good_prefix].
    + rewrite IH. unfold add_leaf. cbn [t_leaves t_secure t_upper t_ready leaves_of map].
      rewrite <- app_assoc. reflexivity.
    + cbn. rewrite app_nil_r. destruct t; reflexivity.
Qed.

Lemma put_eq : forall v t, snd (put t v) =
  mkMt (t_leaves t ++ leaves_of (t_secure t) (good_prefix [v])) (t_upper t) (t_ready t) (t_secure t).
Proof.
  intros [b|] t; [reflexivity|]. cbn. rewrite app_nil_r. destruct t; reflexivity.
Qed.

Lemma make_tree_eq : forall t, t_leaves t <> [] -> exists c,
  chain (t_leaves t) (t_leaves t :: c) /\ make_tree t = Ok (mkMt (t_leaves t) (Some (rev c)) true (t_secure t)).
Proof.
  intros t Hne. unfold make_tree. destruct (Nat.ltb_spec 0 (length (t_leaves t))) as [Hl|Hl].
  2:{ destruct (t_leaves t); [congruence|cbn in Hl; lia]. }
  destruct (build_total (length (t_leaves t)) (t_leaves t) []) as (c & Hc & E); [lia|].
  destruct (chain_head _ _ Hc) as [c' Ec]. subst c. exists c'. split; [exact Hc|]. rewrite E, app_nil_r.
  cbn [rev]. rewrite removelast_last. reflexivity.
Qed.

Lemma make_tree_ok : forall t, exists t', make_tree t = Ok t' /\ t_leaves t' = t_leaves t /\ t_secure t' = t_secure t /\ t_ready t' = true.
Proof.
  intros t. destruct (t_leaves t) as [|a l] eqn:E.
  - unfold make_tree. rewrite E. cbn. eexists. split; [reflexivity|]. cbn. rewrite ?E. auto.
  - destruct (make_tree_eq t) as (c & _ & E'); [rewrite E; discriminate|]. rewrite E'. eexists. split; [reflexivity|]. cbn. auto.
Qed.

Lemma make_holds : forall s t vs, basic s t vs -> vs <> [] -> exists t', make_tree t = Ok t' /\ holds s t' vs (length vs).
Proof.
  intros s t vs [B1 B2] Hne. destruct (make_tree_eq t) as (c & Hc & E).
  { rewrite B2. apply leaves_of_ne. exact Hne. }
  rewrite E. eexists. split; [reflexivity|]. split; [split; [exact B1|exact B2]|]. split; [reflexivity|].
  split; [destruct vs; [congruence|cbn [length]; lia]|]. exists c. rewrite firstn_all. rewrite <- B2. split; [exact Hc|reflexivity].
Qed.

Lemma get_root_ready : forall t, t_ready t = true -> get_root t = (tools_root t, t).
Proof. intros t E. unfold get_root. rewrite E. reflexivity. Qed.

Lemma get_root_state : forall t, snd (get_root t) = t \/ make_tree t = Ok (snd (get_root t)).
Proof.
  intros t. unfold get_root. destruct (t_ready t); [left; reflexivity|].
  destruct (make_tree t) as [t'|e]; [right; reflexivity|left; reflexivity].
Qed.

Lemma get_poi_state : forall t time k, snd (get_poi t time k) = t.
Proof.
  intros t time [k|]; [|reflexivity]. unfold get_poi, tools_poi.
  destruct (index_of (stored (t_secure t) k) (t_leaves t)); [|reflexivity].
  destruct (levels t) as [lv|]; [|reflexivity]. destruct (t_ready t) eqn:Er; [|reflexivity].
  destruct (poi_loop (rev (tl lv)) n); [|reflexivity]. rewrite get_root_ready by exact Er.
  destruct (tools_root t); reflexivity.
Qed.

Lemma verify_state : forall t p, snd (verify_poi t p) = t \/ snd (verify_poi t p) = snd (get_root t).
Proof.
  intros t p. unfold verify_poi. destruct (mapM decode_elem (pf_proof p)); [|auto].
  destruct (decode_str (pf_root p)); [|auto]. destruct (from_hex _); [|auto].
  destruct (tools_verify _ _ _) as [[|]|e]; [|auto|auto].
  destruct (get_root t) as [[r|e] t']; auto.
Qed.

Lemma hash_state : forall t, snd (mt_hash t) = snd (get_root t).
Proof. intros t. unfold mt_hash. destruct (get_root t) as [[r|e] t']; reflexivity. Qed.

Lemma call_put_state : forall t v, snd (mt_call t (OPut v)) = snd (put t v).
Proof. intros. cbn [mt_call]. destruct (put t v). reflexivity. Qed.
Lemma call_put_list_state : forall t v, snd (mt_call t (OPutList v)) = snd (put_list t v).
Proof. intros. cbn [mt_call]. destruct (put_list t v). reflexivity. Qed.
Lemma call_root_state : forall t, snd (mt_call t ORoot) = snd (get_root t).
Proof. intros. cbn [mt_call]. destruct (get_root t). reflexivity. Qed.
Lemma call_prove_state : forall t a b, snd (mt_call t (OProve a b)) = t.
Proof. intros. cbn [mt_call]. rewrite <- (get_poi_state t a b) at 2. destruct (get_poi t a b). reflexivity. Qed.
Lemma call_verify_state : forall t p, snd (mt_call t (OVerify p)) = snd (verify_poi t p).
Proof. intros. cbn [mt_call]. destruct (verify_poi t p). reflexivity. Qed.
Lemma call_hash_state : forall t, snd (mt_call t OHash) = snd (get_root t).
Proof. intros. cbn [mt_call]. rewrite <- hash_state. destruct (mt_hash t). reflexivity. Qed.
Lemma call_make_state : forall t, make_tree t = Ok (snd (mt_call t OMake)).
Proof.
  intros t. cbn [mt_call]. unfold do_make. destruct (make_tree_ok t) as (t' & E & _). rewrite E. reflexivity.
Qed.

(** The state after a read-like call. *)
Lemma read_state : forall t o, op_values o = [] -> o <> OReset -> o <> OMake ->
  snd (mt_call t o) = t \/ snd (mt_call t o) = snd (get_root t).
Proof.
  intros t o Hv Hr Hm. destruct o as [v|vs| | | |tm k|p|i| ]; try congruence.
  - left. rewrite call_put_state, put_eq. cbn [op_values] in Hv. rewrite Hv. cbn. rewrite app_nil_r. destruct t; reflexivity.
  - left. rewrite call_put_list_state, put_list_eq. cbn [op_values] in Hv. rewrite Hv. cbn. rewrite app_nil_r. destruct t; reflexivity.
  - right. apply call_root_state.
  - left. apply call_prove_state.
  - rewrite call_verify_state. apply verify_state.
  - left. reflexivity.
  - right. apply call_hash_state.
Qed.

Lemma basic_make : forall s t vs t', basic s t vs -> make_tree t = Ok t' -> basic s t' vs.
Proof.
  intros s t vs t' [B1 B2] E. destruct (make_tree_ok t) as (t2 & E2 & L & S & _). rewrite E in E2. injection E2 as E2. subst t2.
  split; congruence.
Qed.

Lemma basic_root : forall s t vs, basic s t vs -> basic s (snd (get_root t)) vs.
Proof.
  intros s t vs B. destruct (get_root_state t) as [E|E]; [rewrite E; exact B|]. exact (basic_make s t vs _ B E).
Qed.

Lemma basic_call : forall s t vs o, basic s t vs -> basic s (snd (mt_call t o)) (values_step vs o).
Proof.
  intros s t vs o B. destruct o as [v|l| | | |tm k|p|i| ].
  - rewrite call_put_state, put_eq. destruct B as [B1 B2]. split; cbn [t_secure t_leaves]; [exact B1|].
    rewrite B2, B1. cbn [values_step op_values]. unfold leaves_of. rewrite map_app. reflexivity.
  - rewrite call_put_list_state, put_list_eq. destruct B as [B1 B2]. split; cbn [t_secure t_leaves]; [exact B1|].
    rewrite B2, B1. cbn [values_step op_values]. unfold leaves_of. rewrite map_app. reflexivity.
  - cbn [values_step op_values]. rewrite app_nil_r. apply (basic_make s t vs _ B). apply call_make_state.
  - split; [apply B|reflexivity].
  - cbn [values_step op_values]. rewrite app_nil_r, call_root_state. apply basic_root. exact B.
  - cbn [values_step op_values]. rewrite app_nil_r, call_prove_state. exact B.
  - cbn [values_step op_values]. rewrite app_nil_r, call_verify_state.
    destruct (verify_state t p) as [E|E]; rewrite E; [exact B|apply basic_root; exact B].
  - cbn [values_step op_values mt_call snd]. rewrite app_nil_r. exact B.
  - cbn [values_step op_values]. rewrite app_nil_r, call_hash_state. apply basic_root. exact B.
Qed.

Lemma holds_more : forall s t vs m ws,  holds s t vs m ->
  holds s (mkMt (t_leaves t ++ leaves_of s ws) (t_upper t) (t_ready t) (t_secure t)) (vs ++ ws) m.
Proof.
  intros s t vs m ws ([B1 B2] & R & Hm & c & C & U).
  split; [split; cbn; [exact B1|rewrite B2; unfold leaves_of; rewrite map_app; reflexivity]|].
  split; [exact R|]. split; [rewrite app_length; lia|]. exists c. cbn.
  rewrite firstn_app. replace (m - length vs) with 0 by lia. cbn [firstn]. rewrite app_nil_r. split; assumption.
Qed.

Lemma holds_call : forall s t vs m o, holds s t vs m -> no_rebuild o = true ->
  holds s (snd (mt_call t o)) (values_step vs o) m.
Proof.
  intros s t vs m o Hh Hn.
  assert (Hr : snd (get_root t) = t) by (rewrite get_root_ready by apply Hh; reflexivity).
  assert (Es : t_secure t = s) by apply Hh.
  destruct o as [v|l| | | |tm k|p|i| ]; try discriminate Hn.
  - rewrite call_put_state, put_eq, Es. rewrite <- Es at 3. apply (holds_more s t vs m _ Hh).
  - rewrite call_put_list_state, put_list_eq, Es. rewrite <- Es at 3. apply (holds_more s t vs m _ Hh).
  - cbn [values_step op_values]. rewrite app_nil_r, call_root_state, Hr. exact Hh.
  - cbn [values_step op_values]. rewrite app_nil_r, call_prove_state. exact Hh.
  - cbn [values_step op_values]. rewrite app_nil_r, call_verify_state.
    destruct (verify_state t p) as [E|E]; rewrite E; [exact Hh|rewrite Hr; exact Hh].
  - cbn [values_step op_values mt_call snd]. rewrite app_nil_r. exact Hh.
  - cbn [values_step op_values]. rewrite app_nil_r, call_hash_state, Hr. exact Hh.
Qed.

Lemma mt_run_cons : forall t o h, snd (mt_run t (o :: h)) = snd (mt_run (snd (mt_call t o)) h).
Proof. intros t o h. cbn [mt_run]. destruct (mt_call t o) as [r t']. cbn [snd]. destruct (mt_run t' h). reflexivity. Qed.

Lemma mt_run_app : forall h t h', snd (mt_run t (h ++ h')) = snd (mt_run (snd (mt_run t h)) h').
Proof.
  induction h as [|o h IH]; intros t h'; [reflexivity|]. cbn [app]. rewrite !mt_run_cons. apply IH.
Qed.

Lemma run_inv : forall s h t vs b, basic s t vs -> (b = true -> vs <> [] -> holds s t vs (length vs)) ->
  let t' := snd (mt_run t h) in let vs' := fold_left values_step h vs in
  basic s t' vs' /\ (fold_left built_step h b = true -> vs' <> [] -> holds s t' vs' (length vs')).
Proof.
  induction h as [|o h IH]; intros t vs b B Hb; [cbn; auto|]. cbn [fold_left]. rewrite mt_run_cons.
  apply IH; [apply basic_call; exact B|]. intros Hs Hne.
  destruct o as [v|l| | | |tm k|p|i| ]; try discriminate Hs.
  all: try (apply andb_prop in Hs as [Hs1 Hs2];
    match goal with |- holds _ (snd (mt_call _ ?o)) _ _ =>
      assert (Eo : op_values o = []) by (destruct (op_values o); [reflexivity|discriminate Hs2]);
      assert (Ev : values_step vs o = vs) by (cbn [values_step]; rewrite Eo; apply app_nil_r) end;
    rewrite Ev in Hne; rewrite Ev; specialize (Hb Hs1 Hne);
    rewrite <- Ev at 1; apply holds_call; [exact Hb|reflexivity]).
  destruct (make_holds s t vs B) as (t' & E & Hh).
  { cbn [values_step op_values] in Hne. rewrite app_nil_r in Hne. exact Hne. }
  pose proof (call_make_state t) as E0. rewrite E in E0. assert (E' : snd (mt_call t OMake) = t') by congruence.
  rewrite E'. cbn [values_step op_values]. rewrite app_nil_r. exact Hh.
Qed.

Lemma basic_new : forall s, basic s (mt_new s) [].
Proof. split; reflexivity. Qed.

Lemma history_basic : forall s h outs t, mt_run (mt_new s) h = (outs, t) -> basic s t (values h).
Proof.
  intros s h outs t E. pose proof (run_inv s h (mt_new s) [] false (basic_new s)) as I. cbn zeta in I. rewrite E in I.
  destruct I as [I _]; [discriminate|exact I].
Qed.

Lemma built_over_holds : forall s t vs, built_over s t vs -> holds s t vs (length vs).
Proof.
  intros s t vs (h & outs & E & Hb & Hv & Hne).
  pose proof (run_inv s h (mt_new s) [] false (basic_new s)) as I. cbn zeta in I. rewrite E in I. subst vs.
  destruct I as [_ I]; [discriminate|exact (I Hb Hne)].
Qed.

Lemma stale_holds : forall s t vs h, built_over s t vs -> forallb no_rebuild h = true ->
  holds s (snd (mt_run t h)) (fold_left values_step h vs) (length vs).
Proof.
  intros s t vs h Hb Hn. apply built_over_holds in Hb. revert Hn Hb.
  enough (G : forall h t ws, forallb no_rebuild h = true -> holds s t ws (length vs) ->
    holds s (snd (mt_run t h)) (fold_left values_step h ws) (length vs)) by (intros; apply G; assumption).
  clear t h. induction h as [|o h IH]; intros t ws Hn Hh; [exact Hh|].
  cbn [forallb] in Hn. apply andb_prop in Hn as [Hn1 Hn2]. rewrite mt_run_cons. cbn [fold_left].
  apply IH; [exact Hn2|]. apply holds_call; assumption.
Qed.

(** ** Roots *)
Lemma holds_root : forall s t vs m, holds s t vs m -> tools_root t = Ok (to_hex (merkle_root (leaves_of s (firstn m vs)))).
Proof.
  intros s t vs m ([B1 B2] & R & Hm & c & C & U). unfold tools_root, levels. rewrite R, U. cbn [option_map].
  set (L := leaves_of s (firstn m vs)) in *.
  assert (Hne : L <> []).
  { intros E. apply (f_equal (@length _)) in E. unfold L in E. rewrite leaves_of_length, firstn_length in E. cbn in E. lia. }
  destruct (chain_top _ _ C Hne) as [c' Ec]. destruct c' as [|x c'].
  - cbn [app] in Ec. injection Ec as E1 E2. subst c. cbn [rev app]. rewrite B2.
    assert (Hd : exists r, leaves_of s vs = merkle_root L :: r).
    { assert (E3 : leaves_of s vs = L ++ leaves_of s (skipn m vs)).
      { unfold L, leaves_of. rewrite <- map_app, firstn_skipn. reflexivity. }
      rewrite E3, E1. eexists. reflexivity. }
    destruct Hd as [r Hd]. rewrite Hd. rewrite E1. reflexivity.
  - cbn [app] in Ec. injection Ec as E1 E2. subst c. rewrite rev_app_distr. reflexivity.
Qed.

Lemma built_root : forall s t vs, built_over s t vs -> get_root t = (Ok (to_hex (merkle_root (leaves_of s vs))), t).
Proof.
  intros s t vs Hb. pose proof (built_over_holds _ _ _ Hb) as Hh. rewrite get_root_ready by apply Hh.
  rewrite (holds_root _ _ _ _ Hh), firstn_all. reflexivity.
Qed.

Lemma stale_root : forall s t vs h, built_over s t vs -> forallb no_rebuild h = true ->
  let t' := snd (mt_run t h) in get_root t' = (Ok (to_hex (merkle_root (leaves_of s vs))), t').
Proof.
  intros s t vs h Hb Hn t'. pose proof (stale_holds s t vs h Hb Hn) as Hh. fold t' in Hh.
  rewrite get_root_ready by apply Hh. rewrite (holds_root _ _ _ _ Hh). do 3 f_equal.
  assert (E : exists w, fold_left values_step h vs = vs ++ w).
  { clear -Hn. revert vs Hn. induction h as [|o h IH]; intros vs Hn; [exists []; rewrite app_nil_r; reflexivity|].
    cbn [forallb] in Hn. apply andb_prop in Hn as [Hn1 Hn2]. cbn [fold_left].
    destruct (IH (values_step vs o) Hn2) as [w E]. rewrite E.
    destruct o; try discriminate Hn1; cbn [values_step]; rewrite <- app_assoc; eauto. }
  destruct E as [w E]. rewrite E, firstn_app, firstn_all, Nat.sub_diag. cbn [firstn]. rewrite app_nil_r. reflexivity.
Qed.

(** A tree that nothing has asked for a root yet. *)
Lemma unready_root : forall s t vs, basic s t vs -> t_ready t = false -> vs <> [] ->
  fst (get_root t) = Ok (to_hex (merkle_root (leaves_of s vs))).
Proof.
  intros s t vs B R Hne. unfold get_root. rewrite R. destruct (make_holds s t vs B Hne) as (t' & E & Hh). rewrite E.
  cbn [fst]. rewrite (holds_root _ _ _ _ Hh), firstn_all. reflexivity.
Qed.

(** ** Proofs *)
Lemma index_of_in : forall k l, In k l -> exists i, index_of k l = Some i /\ nth_error l i = Some k.
Proof.
  induction l as [|x l IH]; intros Hin; [destruct Hin|]. cbn [index_of]. destruct (bytes_eqb k x) eqn:E.
  - exists 0. apply bytes_eqb_eq in E. subst. auto.
  - destruct IH as (i & E1 & E2).
    { destruct Hin as [Hin|Hin]; [|exact Hin]. exfalso. subst x. rewrite bytes_eqb_refl in E. discriminate. }
    exists (S i). rewrite E1. auto.
Qed.
Lemma index_of_notin : forall k l, ~ In k l -> index_of k l = None.
Proof.
  induction l as [|x l IH]; intros Hin; [reflexivity|]. cbn [index_of]. destruct (bytes_eqb k x) eqn:E.
  - exfalso. apply Hin. left. apply bytes_eqb_eq in E. auto.
  - rewrite IH; [reflexivity|]. intros Hi. apply Hin. right. exact Hi.
Qed.

Definition hex_path (pa : path) : list (bytes * bytes) := map (fun s => (side_of (fst s), to_hex (snd s))) pa.
Definition pairs (l : list (bytes * bytes)) : list pelem := map (fun p => PPair (fst p) (snd p)) l.

Lemma built_tools_poi : forall s t vs v, holds s t vs (length vs) -> In v vs -> exists pa,
  tools_poi t v = Ok (hex_path pa) /\ path_root (stored s v) pa = merkle_root (leaves_of s vs).
Proof.
  intros s t vs v ([B1 B2] & R & Hm & c & C & U) Hin. rewrite firstn_all in C. unfold tools_poi, levels.
  rewrite U, R, B1, B2. cbn [option_map].
  destruct (index_of_in (stored s v) (leaves_of s vs)) as (i & E1 & E2).
  { unfold leaves_of, stored. apply (in_map (fun v => if s then keccak v else v)). exact Hin. }
  rewrite E1. destruct (poi_chain _ _ C i _ E2) as (pa & P1 & P2). exists pa. split; [|exact P2].
  assert (E : rev (tl (rev c ++ [leaves_of s vs])) = removelast (leaves_of s vs :: c)).
  { change (rev c ++ [leaves_of s vs]) with (rev (leaves_of s vs :: c)). apply tl_rev. }
  rewrite E. exact P1.
Qed.

Lemma proof_path_hex : forall pa, proof_path (pairs (hex_path pa)) = Some pa.
Proof.
  induction pa as [|[b x] pa IH]; [reflexivity|]. cbn [hex_path map pairs fst snd proof_path elem_step].
  rewrite from_to_hex. destruct b; cbn [side_of]; unfold hex_path, pairs in IH; rewrite IH; reflexivity.
Qed.

Lemma built_poi : forall s t vs v time, built_over s t vs -> In v vs -> exists pa,
  path_root (stored s v) pa = merkle_root (leaves_of s vs) /\
  get_poi t time (VBytes v) =
    (Ok (mkProof MT_POI time v (to_hex (merkle_root (leaves_of s vs))) (pairs (hex_path pa))), t).
Proof.
  intros s t vs v time Hb Hin. destruct (built_tools_poi s t vs v (built_over_holds _ _ _ Hb) Hin) as (pa & P1 & P2).
  exists pa. split; [exact P2|]. unfold get_poi. rewrite P1, (built_root _ _ _ Hb). reflexivity.
Qed.

Lemma absent_poi : forall s t vs v time, built_over s t vs -> ~ In (stored s v) (leaves_of s vs) ->
  get_poi t time (VBytes v) = (Err ValueError, t).
Proof.
  intros s t vs v time Hb Hn. pose proof (built_over_holds _ _ _ Hb) as ([B1 B2] & _).
  unfold get_poi, tools_poi. rewrite B1, B2, index_of_notin by exact Hn. reflexivity.
Qed.

(** ** Verification *)
Lemma side_str : forall b, decode_str (side_of b) = Ok (side_of b).
Proof. intros [|]; reflexivity. Qed.

Definition step_dict (s : bool * bytes) (d : dict bytes) : Prop :=
  exists h, d = [(side_of (fst s), h)] /\ from_hex h = Some (snd s).

Lemma elem_step_decode : forall e s, elem_step e = Some s -> exists d, decode_elem e = Ok d /\ step_dict s d.
Proof.
  intros [b|side sib] s E; [discriminate|]. cbn [elem_step] in E. destruct (from_hex sib) as [x|] eqn:Ex; [|discriminate].
  assert (Hs : exists b, s = (b, x) /\ side = side_of b).
  { destruct (bytes_eqb side s_left) eqn:E1.
    - injection E as E. apply bytes_eqb_eq in E1. exists true. auto.
    - destruct (bytes_eqb side s_right) eqn:E2; [|discriminate]. injection E as E. apply bytes_eqb_eq in E2. exists false. auto. }
  destruct Hs as (b & Hs1 & Hs2). subst s side. exists [(side_of b, sib)]. cbn [decode_elem].
  rewrite side_str, (from_hex_str _ _ Ex). split; [reflexivity|]. exists sib. auto.
Qed.

Lemma verify_loop_step : forall s d r acc, step_dict s d ->
  verify_loop (d :: r) acc = verify_loop r (keccak (combine_step acc s)).
Proof.
  intros [b x] d r acc (h & E & Eh). subst d. cbn [fst snd] in *. destruct b; cbn [verify_loop side_of]; unfold left_sibling; cbn [dget].
  - assert (E : bytes_eqb s_left s_left = true) by reflexivity. rewrite E, Eh. reflexivity.
  - assert (E : bytes_eqb s_left s_right = false) by reflexivity. assert (E' : bytes_eqb s_right s_right = true) by reflexivity.
    rewrite E, E', Eh. reflexivity.
Qed.

Lemma path_verifies : forall l pa, proof_path l = Some pa -> exists ds, mapM decode_elem l = Ok ds /\
  forall acc, verify_loop ds acc = Ok (path_root acc pa).
Proof.
  induction l as [|e l IH]; intros pa E.
  - injection E as E. subst pa. exists []. split; reflexivity.
  - cbn [proof_path] in E. destruct (elem_step e) as [s|] eqn:Es; [|discriminate].
    destruct (proof_path l) as [p|] eqn:Ep; [|discriminate]. injection E as E. subst pa.
    destruct (IH p eq_refl) as (ds & D1 & D2). destruct (elem_step_decode e s Es) as (d & F1 & F2).
    exists (d :: ds). cbn [mapM]. rewrite F1, D1. split; [reflexivity|]. intros acc.
    rewrite (verify_loop_step s d ds acc F2). rewrite D2. reflexivity.
Qed.

Lemma tools_verify_eq : forall ds target root, tools_verify ds target root =
  match verify_loop ds target with Ok a => Ok (bytes_eqb a root) | Err e => Err e end.
Proof. intros [|d ds] target root; reflexivity. Qed.

(** Accepted elements are well-formed. *)
Lemma decode_elem_loop : forall l ds, mapM decode_elem l = Ok ds -> forall acc a, verify_loop ds acc = Ok a ->
  exists pa, proof_path l = Some pa /\ a = path_root acc pa.
Proof.
  induction l as [|e l IH]; intros ds E acc a V.
  - injection E as E. subst ds. cbn in V. injection V as V. exists []. auto.
  - cbn [mapM] in E. destruct (decode_elem e) as [d|x] eqn:Ed; [|discriminate].
    destruct (mapM decode_elem l) as [ds'|x] eqn:El; [|discriminate]. injection E as E. subst ds.
    destruct e as [b|side sib]; [destruct b; discriminate|]. cbn [decode_elem] in Ed.
    unfold decode_str in Ed. destruct (utf8_ok side); [|discriminate]. destruct (utf8_ok sib); [|discriminate].
    cbn [bind] in Ed. injection Ed as Ed. subst d. cbn [verify_loop] in V. unfold left_sibling in V. cbn [dget] in V.
    cbn [proof_path elem_step].
    destruct (bytes_eqb s_left side) eqn:E1.
    + apply bytes_eqb_eq in E1. subst side. destruct (from_hex sib) as [x|] eqn:Ex.
      * destruct (IH ds' eq_refl _ _ V) as (pa & P1 & P2). rewrite P1. exists ((true, x) :: pa).
        split; [reflexivity|exact P2].
      * assert (E2 : bytes_eqb s_right s_left = false) by reflexivity. rewrite E2 in V. discriminate.
    + destruct (bytes_eqb s_right side) eqn:E2; [|discriminate]. apply bytes_eqb_eq in E2. subst side.
      destruct (from_hex sib) as [x|] eqn:Ex; [|discriminate].
      destruct (IH ds' eq_refl _ _ V) as (pa & P1 & P2). rewrite P1. exists ((false, x) :: pa).
      split; [reflexivity|exact P2].
Qed.

(** What [True] means, exactly. *)
Lemma verify_exact : forall t p t', verify_poi t p = (Ok true, t') <->
  exists pa, proof_path (pf_proof p) = Some pa /\ from_hex (pf_root p) = Some (path_root (pf_key p) pa) /\
             get_root t = (Ok (pf_root p), t').
Proof.
  intros t p t'. unfold verify_poi. split.
  - intros E. destruct (mapM decode_elem (pf_proof p)) as [ds|e] eqn:Ed; [|discriminate].
    unfold decode_str in E. destruct (utf8_ok (pf_root p)); [|discriminate].
    destruct (from_hex (pf_root p)) as [r|] eqn:Er; [|discriminate].
    rewrite tools_verify_eq in E. destruct (verify_loop ds (pf_key p)) as [a|e] eqn:Ev.
    2:{ destruct (is_value_error e); discriminate. }
    destruct (decode_elem_loop _ _ Ed _ _ Ev) as (pa & P1 & P2). exists pa. split; [exact P1|].
    destruct (bytes_eqb a r) eqn:Ea; [|discriminate]. apply bytes_eqb_eq in Ea. split; [congruence|].
    destruct (get_root t) as [[x|e] t2]; [|discriminate]. injection E as E1 E2. apply bytes_eqb_eq in E1. subst. reflexivity.
  - intros (pa & P1 & P2 & P3). destruct (path_verifies _ _ P1) as (ds & D1 & D2).
    rewrite D1, (from_hex_str _ _ P2), P2, tools_verify_eq, D2, bytes_eqb_refl, P3, bytes_eqb_refl. reflexivity.
Qed.

(** On well-formed elements and a well-formed root it returns a bool. *)
Lemma verify_wellformed : forall t p pa r, proof_path (pf_proof p) = Some pa -> from_hex (pf_root p) = Some r ->
  path_root (pf_key p) pa <> r -> verify_poi t p = (Ok false, t).
Proof.
  intros t p pa r P1 P2 P3. unfold verify_poi. destruct (path_verifies _ _ P1) as (ds & D1 & D2).
  rewrite D1, (from_hex_str _ _ P2), P2, tools_verify_eq, D2.
  destruct (bytes_eqb (path_root (pf_key p) pa) r) eqn:E; [apply bytes_eqb_eq in E; congruence|reflexivity].
Qed.

(** Honest proofs of plain trees verify; in secure mode the stored digest has to be the target. *)
Lemma honest_verifies : forall s t vs v time p, built_over s t vs -> In v vs -> get_poi t time (VBytes v) = (Ok p, t) ->
  verify_poi t (mkProof (pf_type p) (pf_time p) (stored s v) (pf_root p) (pf_proof p)) = (Ok true, t).
Proof.
  intros s t vs v time p Hb Hin E. destruct (built_poi s t vs v time Hb Hin) as (pa & P1 & P2). rewrite P2 in E.
  injection E as E. subst p. apply verify_exact. exists pa. cbn [pf_proof pf_root pf_key pf_type pf_time].
  split; [apply proof_path_hex|]. rewrite from_to_hex, P1. split; [reflexivity|]. apply built_root. exact Hb.
Qed.

Lemma plain_poi_verifies : forall t vs v time, built_over false t vs -> In v vs ->
  exists p, get_poi t time (VBytes v) = (Ok p, t) /\ pf_key p = v /\ verify_poi t p = (Ok true, t).
Proof.
  intros t vs v time Hb Hin. destruct (built_poi false t vs v time Hb Hin) as (pa & P1 & P2).
  eexists. split; [exact P2|]. split; [reflexivity|].
  exact (honest_verifies false t vs v time _ Hb Hin P2).
Qed.

Lemma tools_poi_verifies : forall s t vs v, built_over s t vs -> In v vs -> exists l r,
  tools_poi t v = Ok l /\ tools_root t = Ok (to_hex r) /\
  tools_verify (map (fun p => [p]) l) (stored s v) r = Ok true.
Proof.
  intros s t vs v Hb Hin. pose proof (built_over_holds _ _ _ Hb) as Hh.
  destruct (built_tools_poi s t vs v Hh Hin) as (pa & P1 & P2). exists (hex_path pa), (merkle_root (leaves_of s vs)).
  split; [exact P1|]. split; [rewrite (holds_root _ _ _ _ Hh), firstn_all; reflexivity|]. rewrite tools_verify_eq.
  assert (E : forall acc, verify_loop (map (fun p => [p]) (hex_path pa)) acc = Ok (path_root acc pa)).
  { clear. induction pa as [|[b x] pa IH]; intros acc; [reflexivity|]. cbn [hex_path map fst snd].
    rewrite (verify_loop_step (b, x)); [apply IH|]. exists (to_hex x). split; [reflexivity|apply from_to_hex]. }
  rewrite E, P2, bytes_eqb_refl. reflexivity.
Qed.
End WithHash.
