(** Proofs of inclusion from a MerkleTree that was given more values since it was built; comparing any two trees; reset. *)
From Coq Require Import List Bool Arith NArith ZArith Lia.
From Verif Require Import Base BaseProofs ProofObj Spec MptEq SpecJson MerkleTree SpecMt SpecText SpecAudit MtProofs MtProofs2 MtSound AuditProofs SpecMtObj MtTextProofs MtObjProofs.
Import ListNotations.

Section WithHash.
Context {H : Hash}.

Lemma values_more : forall h vs, forallb no_rebuild h = true -> fold_left values_step h vs = vs ++ flat_map op_values h.
Proof.
  induction h as [|o h IH]; intros vs N; [symmetry; apply app_nil_r|]. cbn [forallb] in N. apply andb_prop in N as [N1 N2]. cbn [fold_left flat_map].
  rewrite IH by exact N2. rewrite app_assoc. f_equal. destruct o; try reflexivity; discriminate.
Qed.

(** One level of the loop after the bottom level has grown. *)
Lemma loop_grown : forall L W up i, i < length L -> (i + 1 < length L \/ Nat.even (length L) = true \/ W = []) -> poi_loop ((L ++ W) :: up) i = poi_loop (L :: up) i.
Proof.
  intros L W up i Li C. cbn [poi_loop]. destruct W as [|w W]; [now rewrite app_nil_r|].
  assert (C' : i + 1 < length L \/ Nat.even (length L) = true) by (destruct C as [C|[C|C]]; [now left|now right|discriminate]). clear C.
  rewrite app_length. cbn [length].
  assert (A : (i =? length L - 1) && Nat.odd (length L) = false).
  { destruct (Nat.eqb_spec i (length L - 1)) as [E|E]; [|reflexivity]. destruct C' as [C|C]; [lia|]. rewrite <- Nat.negb_even, C. reflexivity. }
  rewrite A. replace (i =? length L + S (length W) - 1) with false by (symmetry; apply Nat.eqb_neq; lia). cbn [andb].
  rewrite nth_error_app1; [reflexivity|]. destruct (Nat.odd i) eqn:O; [lia|]. destruct C' as [C|C]; [exact C|].
  destruct (Nat.eq_dec (i + 1) (length L)) as [E|E]; [|lia]. exfalso. rewrite <- E, Nat.add_1_r, Nat.even_succ in C. congruence.
Qed.
Lemma loop_grown_last : forall L w W up i r, i + 1 = length L -> Nat.odd (length L) = true -> poi_loop (L :: up) i = Ok r ->
  poi_loop ((L ++ w :: W) :: up) i = Ok ((s_right, to_hex w) :: r).
Proof.
  intros L w W up i r Ei O P. cbn [poi_loop] in *. rewrite O in P. replace (i =? length L - 1) with true in P by (symmetry; apply Nat.eqb_eq; lia). cbn [andb] in P.
  rewrite app_length. cbn [length]. replace (i =? length L + S (length W) - 1) with false by (symmetry; apply Nat.eqb_neq; lia). cbn [andb].
  rewrite <- Ei, Nat.add_1_r, Nat.odd_succ in O. rewrite <- Nat.negb_even, O. cbn [negb]. rewrite nth_error_app2 by lia.
  replace (i + 1 - length L) with 0 by lia. cbn [nth_error]. rewrite P. reflexivity.
Qed.

Lemma stale_parts : forall s t vs h, built_over s t vs -> forallb no_rebuild h = true -> let t' := snd (mt_run t h) in exists c,
  chain (leaves_of s vs) (leaves_of s vs :: c) /\ t_upper t = Some (rev c) /\ t_upper t' = Some (rev c) /\ t_ready t = true /\ t_ready t' = true /\
  t_secure t = s /\ t_secure t' = s /\ t_leaves t = leaves_of s vs /\ t_leaves t' = leaves_of s vs ++ leaves_of s (flat_map op_values h).
Proof.
  intros s t vs h B N t'. pose proof (stale_holds s t vs h B N) as Hs. fold t' in Hs. rewrite values_more in Hs by exact N.
  apply built_over_holds in B. destruct B as ((B1 & B2) & R & Hm & c & C & U). destruct Hs as ((B1' & B2') & R' & _ & c' & C' & U').
  rewrite firstn_all in C. rewrite firstn_app, Nat.sub_diag, firstn_all, app_nil_r in C'. pose proof (chain_det _ _ C _ C') as E. injection E as <-.
  exists c. repeat split; try assumption. rewrite B2'. unfold leaves_of. now rewrite map_app.
Qed.
Lemma first_app : forall l l' i v, first_at l i v -> first_at (l ++ l') i v.
Proof.
  intros l l' i v [E F]. assert (L : i < length l) by (apply nth_error_Some; congruence). split; [now rewrite nth_error_app1|].
  intros j Lj. rewrite nth_error_app1 by lia. now apply F.
Qed.
Lemma stale_loop : forall s t vs h v i, built_over s t vs -> forallb no_rebuild h = true -> first_at (leaves_of s vs) i (digest s v) ->
  exists up, (2 <= length vs -> exists c, chain (next_level (leaves_of s vs)) c /\ up = removelast c) /\ i < length vs /\
    tools_poi t v = (if length vs =? 1 then Ok [] else poi_loop (leaves_of s vs :: up) i) /\
    tools_poi (snd (mt_run t h)) v = (if length vs =? 1 then Ok [] else poi_loop ((leaves_of s vs ++ leaves_of s (flat_map op_values h)) :: up) i).
Proof.
  intros s t vs h v i B N F. destruct (stale_parts s t vs h B N) as (c & C & U & U' & R & R' & S & S' & L & L').
  assert (Li : i < length vs) by (rewrite <- (leaves_of_length s vs); apply nth_error_Some; destruct F as [F _]; congruence).
  exists (removelast c).
  assert (P : forall t0 X, t_secure t0 = s -> t_leaves t0 = X -> t_ready t0 = true -> t_upper t0 = Some (rev c) -> first_at X i (digest s v) ->
    tools_poi t0 v = poi_loop (removelast (X :: c)) i).
  { intros t0 X E1 E2 E3 E4 F0. unfold tools_poi. replace (stored (t_secure t0) v) with (digest s v) by (now rewrite E1). rewrite E2, (first_index _ _ _ F0).
    unfold levels. rewrite E4, E3, E2. cbn [option_map]. replace (rev c ++ [X]) with (rev (X :: c)) by reflexivity. now rewrite tl_rev. }
  rewrite (P t _ S L R U F), (P _ _ S' L' R' U' (first_app _ _ _ _ F)).
  inversion C as [l Hl E1 E2|l c' Hl Hc E1 E2]; subst.
  - rewrite leaves_of_length in Hl. split; [lia|]. split; [exact Li|]. replace (length vs =? 1) with true by (symmetry; apply Nat.eqb_eq; lia). split; reflexivity.
  - rewrite leaves_of_length in Hl. destruct (chain_head _ _ Hc) as [c' Ec].
    split; [intros _; exists c; split; [exact Hc|reflexivity]|]. split; [exact Li|]. replace (length vs =? 1) with false by (symmetry; apply Nat.eqb_neq; lia).
    rewrite Ec. split; reflexivity.
Qed.

Lemma poi_of_tools : forall t time v, t_ready t = true -> fst (get_poi t time (VBytes v)) =
  match tools_poi t v with Err e => Err e | Ok pr => match tools_root t with Err e => Err e | Ok r => Ok (mkProof MT_POI time v r (pairs pr)) end end.
Proof.
  intros t time v R. cbn [get_poi]. destruct (tools_poi t v) as [pr|e]; [|reflexivity]. rewrite get_root_ready by exact R. now destruct (tools_root t).
Qed.
Theorem stale_poi : forall s t vs h v i time, built_over s t vs -> forallb no_rebuild h = true -> first_at (leaves_of s vs) i (digest s v) ->
  let t' := snd (mt_run t h) in let ws := flat_map op_values h in
  (i + 1 < length vs \/ Nat.even (length vs) = true \/ length vs = 1 \/ ws = [] ->
    fst (get_poi t' time (VBytes v)) = fst (get_poi t time (VBytes v))) /\
  (i + 1 = length vs -> Nat.odd (length vs) = true -> 1 < length vs -> forall w ws', ws = w :: ws' -> exists p,
    fst (get_poi t time (VBytes v)) = Ok p /\
    fst (get_poi t' time (VBytes v)) = Ok (mkProof (pf_type p) time v (pf_root p) (PPair right_text (to_hex (digest s w)) :: pf_proof p))).
Proof.
  intros s t vs h v i time B N F t' ws. destruct (stale_loop s t vs h v i B N F) as (up & Up & Li & P & P'). fold t' ws in P'.
  destruct (stale_parts s t vs h B N) as (c & C & U & U' & R & R' & _). fold t' in U', R'.
  pose proof (stale_root s t vs h B N) as G'. cbv zeta in G'. fold t' in G'. pose proof (built_root s t vs B) as G.
  rewrite get_root_ready in G by exact R. rewrite get_root_ready in G' by exact R'. injection G as G. injection G' as G'.
  rewrite !poi_of_tools by assumption. rewrite G, G', P, P'. split.
  - intros K. destruct (Nat.eqb_spec (length vs) 1) as [E|E]; [reflexivity|]. rewrite loop_grown; [reflexivity|rewrite leaves_of_length; exact Li|].
    rewrite leaves_of_length. destruct K as [K|[K|[K|K]]]; [now left|right; now left|contradiction|]. right; right. now rewrite K.
  - intros Ei O L2 w ws' Ew. replace (length vs =? 1) with false by (symmetry; apply Nat.eqb_neq; lia).
    destruct (Up ltac:(lia)) as (c0 & C0 & ->). assert (C1 : chain (leaves_of s vs) (leaves_of s vs :: c0)) by (apply chain_step; [rewrite leaves_of_length; lia|exact C0]).
    destruct (poi_chain _ _ C1 i _ (proj1 F)) as (pa & Q & _). destruct (chain_head _ _ C0) as [c1 Ec].
    assert (Er : removelast (leaves_of s vs :: c0) = leaves_of s vs :: removelast c0) by (rewrite Ec; reflexivity). rewrite Er in Q.
    rewrite Q. eexists. split; [reflexivity|]. cbn [pf_type pf_root pf_proof]. rewrite Ew. cbn [leaves_of map]. fold (leaves_of s ws'). fold (digest s w).
    rewrite (loop_grown_last (leaves_of s vs) (digest s w) (leaves_of s ws') (removelast c0) i (hex_path pa)); [reflexivity|rewrite leaves_of_length; exact Ei|rewrite leaves_of_length; exact O|exact Q].
Qed.

(** The proof of the last of an odd number of values is rejected by the tree that made it. *)
Theorem stale_rejected : forall t vs h v time, built_over false t vs -> forallb no_rebuild h = true -> first_at vs (length vs - 1) v ->
  Nat.odd (length vs) = true -> 1 < length vs -> let t' := snd (mt_run t h) in forall w ws', flat_map op_values h = w :: ws' ->
  exists p q pa, fst (get_poi t time (VBytes v)) = Ok p /\ fst (verify_poi t p) = Ok true /\ proof_path (pf_proof p) = Some pa /\
    fst (get_poi t' time (VBytes v)) = Ok q /\ fst (verify_poi t' p) = Ok true /\
    (v <> keccak (v ++ w) -> no_collision (path_hashed (keccak (v ++ w)) pa ++ path_hashed v pa) -> fst (verify_poi t' q) = Ok false).
Proof.
  intros t vs h v time B N F O L2 t' w ws' Ew.
  assert (I : In v vs) by (destruct F as [F _]; exact (nth_error_In _ _ F)).
  destruct (built_poi false t vs v time B I) as (pa & Q & Gp). cbn [stored] in Q.
  assert (F' : first_at (leaves_of false vs) (length vs - 1) (digest false v)) by (rewrite leaves_of_plain; exact F).
  destruct (stale_poi false t vs h v (length vs - 1) time B N F') as [_ K]. fold t' in K. destruct (K ltac:(lia) O L2 w ws' Ew) as (p & Ep & Eq).
  rewrite Gp in Ep. cbn [fst] in Ep. injection Ep as Ep. subst p. cbn [pf_type pf_root pf_proof] in Eq.
  exists (mkProof MT_POI time v (to_hex (merkle_root (leaves_of false vs))) (pairs (hex_path pa))). eexists. exists pa.
  split; [rewrite Gp; reflexivity|].
  assert (V : forall t0, get_root t0 = (Ok (to_hex (merkle_root (leaves_of false vs))), t0) ->
    fst (verify_poi t0 (mkProof MT_POI time v (to_hex (merkle_root (leaves_of false vs))) (pairs (hex_path pa)))) = Ok true).
  { intros t0 G0. enough (X : verify_poi t0 (mkProof MT_POI time v (to_hex (merkle_root (leaves_of false vs))) (pairs (hex_path pa))) = (Ok true, t0)) by (now rewrite X).
    apply verify_exact. exists pa. cbn [pf_proof pf_root pf_key]. split; [apply proof_path_hex|]. split; [rewrite from_to_hex; now rewrite <- Q|exact G0]. }
  pose proof (stale_root false t vs h B N) as G'. cbv zeta in G'. fold t' in G'.
  split; [apply V; now apply built_root|]. split; [apply proof_path_hex|]. split; [exact Eq|]. split; [now apply V|].
  intros Ne Nc. set (q := mkProof _ _ _ _ _).
  assert (Pq : proof_path (pf_proof q) = Some ((false, w) :: pa)).
  { cbn [q pf_proof proof_path elem_step]. rewrite from_to_hex. cbn [bytes_eqb]. change (bytes_eqb right_text s_left) with false. change (bytes_eqb right_text s_right) with true.
    rewrite proof_path_hex. reflexivity. }
  rewrite (verify_wellformed t' q ((false, w) :: pa) _ Pq (from_to_hex _)); [reflexivity|].
  cbn [q pf_key path_root]. unfold combine_step. cbn [fst snd]. intros X. apply Ne. symmetry. apply (path_target pa); [|exact Nc]. rewrite X. now symmetry.
Qed.

(** A value put after the tree was built over two others has a proof for the root without it; it proves nothing. *)
Theorem uncovered_proof : forall t a b w time, built_over false t [a; b] -> w <> a -> w <> b ->
  let t' := snd (mt_run t [OPut (VBytes w)]) in let r := to_hex (keccak (a ++ b)) in
  fst (get_root t') = Ok r /\ fst (get_poi t' time (VBytes w)) = Ok (mkProof MT_POI time w r []) /\
  (w <> keccak (a ++ b) -> fst (verify_poi t' (mkProof MT_POI time w r [])) = Ok false).
Proof.
  intros t a b w time B Na Nb t' r. pose proof (stale_root false t [a; b] [OPut (VBytes w)] B eq_refl) as G. cbv zeta in G. fold t' in G.
  change (merkle_root (leaves_of false [a; b])) with (keccak (a ++ b)) in G. fold r in G.
  destruct (stale_parts false t [a; b] [OPut (VBytes w)] B eq_refl) as (c & C & _ & U & _ & R & _ & S & _ & L). fold t' in U, R, S, L.
  split; [now rewrite G|]. split.
  - rewrite poi_of_tools by exact R. rewrite get_root_ready in G by exact R. injection G as G. rewrite G.
    replace (tools_poi t' w) with (@Ok (list (bytes * bytes)) []); [reflexivity|]. unfold tools_poi, levels. rewrite S, L, U, R. cbn [stored].
    inversion C as [l Hl E1 E2|l c' Hl Hc E1 E2]; subst; [cbn in Hl; lia|]. inversion Hc as [l Hl' E1 E2|l c' Hl' Hc' E1 E2]; subst; [|cbn in Hl'; lia].
    cbn [leaves_of map app flat_map op_values good_prefix index_of option_map rev tl].
    destruct (bytes_eqb_spec w a); [contradiction|]. destruct (bytes_eqb_spec w b); [contradiction|]. rewrite bytes_eqb_refl. reflexivity.
  - intros Nw. rewrite (verify_wellformed t' (mkProof MT_POI time w r []) [] (keccak (a ++ b)) eq_refl (from_to_hex _) Nw). reflexivity.
Qed.

(** Comparing two trees after any calls. *)
Definition number_answer (r : option bytes) : result Z := match r with Some (x :: b) => Ok (number_of (x :: b)) | _ => Err ValueError end.
Lemma hash_any : forall s g t, abs s g t -> exists t', mt_hash t = (number_answer (root_of s g), t') /\ abs s (settled g) t'.
Proof.
  intros s g t A. destruct (abs_root s g t A) as (t' & E & A'). exists t'. split; [|exact A']. unfold mt_hash. rewrite E.
  destruct (root_of s g) as [[|x b]|]; [reflexivity| |reflexivity]. cbn [root_answer]. now rewrite int_to_hex.
Qed.
Theorem eq_any : forall s1 h1 outs1 g1 s2 h2 outs2 g2, follows s1 (View [] Fresh) h1 outs1 g1 -> follows s2 (View [] Fresh) h2 outs2 g2 ->
  let t1 := snd (mt_run (mt_new s1) h1) in let t2 := snd (mt_run (mt_new s2) h2) in
  (forall x b y c, root_of s1 g1 = Some (x :: b) -> root_of s2 g2 = Some (y :: c) ->
     exists r, fst (mt_eq t1 t2) = Ok r /\ (r = true <-> number_of (x :: b) = number_of (y :: c))) /\
  ((root_of s1 g1 = None \/ root_of s1 g1 = Some [] \/ root_of s2 g2 = None \/ root_of s2 g2 = Some []) -> fst (mt_eq t1 t2) = Err ValueError).
Proof.
  intros s1 h1 outs1 g1 s2 h2 outs2 g2 F1 F2 t1 t2. destruct (follows_model _ _ _ _ _ F1 _ (abs_new s1)) as (t1' & E1 & A1).
  destruct (follows_model _ _ _ _ _ F2 _ (abs_new s2)) as (t2' & E2 & A2). unfold t1, t2. rewrite E1, E2. cbn [snd].
  destruct (hash_any s1 g1 t1' A1) as (u1 & M1 & _). destruct (hash_any s2 g2 t2' A2) as (u2 & M2 & _). unfold mt_eq. rewrite M1, M2. split.
  - intros x b y c -> ->. cbn [number_answer]. eexists. split; [reflexivity|]. apply Z.eqb_eq.
  - intros K. destruct (root_of s1 g1) as [[|x b]|]; [reflexivity| |reflexivity]. cbn [number_answer].
    destruct (root_of s2 g2) as [[|y c]|]; [reflexivity| |reflexivity]. destruct K as [K|[K|[K|K]]]; discriminate.
Qed.

(** A reset tree is a new one. *)
Theorem reset_new : forall s h h', let t := snd (mt_run (mt_new s) (h ++ [OReset])) in mt_run t h' = mt_run (mt_new s) h'.
Proof.
  intros s h h' t. assert (E : t = mt_new s); [|now rewrite E]. unfold t. rewrite mt_run_app.
  pose proof (history_basic s h (fst (mt_run (mt_new s) h)) _ (surjective_pairing _)) as [B _].
  cbn [mt_run mt_call snd]. unfold reset_tree. now rewrite B.
Qed.

(** Verification after any calls. *)
Theorem verify_any : forall s h outs g, follows s (View [] Fresh) h outs g -> let t := snd (mt_run (mt_new s) h) in
  forall p r, fst (verify_poi t p) = r <-> exists asked, verdict (root_of s g) p r asked.
Proof.
  intros s h outs g F t p r. destruct (follows_model _ _ _ _ _ F _ (abs_new s)) as (t' & E & A). unfold t. rewrite E. cbn [snd].
  destruct (abs_root s g t' A) as (u & G & _). split.
  - intros <-. destruct (verdict_total (root_of s g) p) as (r & asked & V). exists asked. now rewrite (verdict_model _ _ _ _ _ _ G V).
  - intros [asked V]. now rewrite (verdict_model _ _ _ _ _ _ G V).
Qed.
End WithHash.
