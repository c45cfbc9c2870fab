(** Schedules of calls on one MerkleTree object that end badly. *)
From Coq Require Import List Bool Arith NArith ZArith Lia.
From Verif Require Import Base BaseProofs Spec ProofObj MptEq MerkleTree SpecMt MtProofs ThreadsPool EThreadsRun MtThreads SpecMtThreads MtThreadsRun.
Import ListNotations.

Notation go i n := (repeat (QGo i) n).
Definition va : bytes := [x61].
Definition vb : bytes := [x62].
Definition vc : bytes := [x63].
Definition vd : bytes := [x64].
Definition puts3 : list mmove := filled 0 [va; vb; vc].

(** [d] is put between the moment the leaves are counted and the moment the last one is taken. *)
Definition late : list mmove := puts3 ++ [QCall QRoot] ++ go 3 8 ++ [QCall (QPut (VBytes vd)); QGo 4] ++ go 3 40.
(** Two calls make the tree at the same time. *)
Definition both : list mmove := puts3 ++ [QCall QRoot; QCall QRoot] ++ go 4 14 ++ go 3 29 ++ go 4 2 ++ go 3 10 ++ go 4 40.
(** The tree is made again while its root is read. *)
Definition again1 : list mmove := puts3 ++ [QCall QMake] ++ go 3 40 ++ [QCall QRoot; QCall QMake; QGo 4; QGo 5; QGo 4].
Definition again2 : list mmove := puts3 ++ [QCall QMake] ++ go 3 40 ++ [QCall QRoot; QCall QMake] ++ go 4 3 ++ go 5 3 ++ go 4 2.

Section S.
Context {H : Hash}.
(** [apart], by computation. *)
Fixpoint apartb (sel : mtcmd -> bool) (w : mpool) (cs : list mtcmd) (ms : list mmove) : bool :=
  match ms with
  | [] => true
  | QCall c :: r =>
      (negb (sel c) || forallb (fun x => negb (sel (fst x)) || match manswer (snd x) with Some _ => true | None => false end) (combine cs (y_calls w))) &&
      apartb sel (mgo w (QCall c)) (cs ++ [c]) r
  | QGo i :: r => apartb sel (mgo w (QGo i)) cs r
  end.
Lemma apartb_apart : forall secure sel m1 m0 c m2, apartb sel (mrun (mpool_new secure) m0) (mcalls_of m0) (m1 ++ QCall c :: m2) = true -> sel c = true ->
  forall i c', nth_error (mcalls_of (m0 ++ m1)) i = Some c' -> sel c' = true -> manswer_of (mrun (mpool_new secure) (m0 ++ m1)) i <> None.
Proof.
  intros secure sel m1. induction m1 as [|m m1 IH]; intros m0 c m2 B Sc i c' Ei Sc'.
  - rewrite app_nil_r in *. cbn [app apartb] in B. apply andb_prop in B as [B _]. rewrite Sc in B. cbn [negb orb] in B. rewrite forallb_forall in B.
    unfold manswer_of. destruct (nth_error (y_calls (mrun (mpool_new secure) m0)) i) as [p|] eqn:Ep.
    + assert (X : In (c', p) (combine (mcalls_of m0) (y_calls (mrun (mpool_new secure) m0)))) by (apply (nth_error_In _ i); rewrite combine_nth_error, Ei, Ep; reflexivity).
      apply B in X. cbn [fst snd] in X. rewrite Sc' in X. cbn [negb orb] in X. destruct (manswer p); [discriminate|discriminate X].
    + apply nth_error_None in Ep. apply nth_lt in Ei. rewrite run_len in Ep. lia.
  - replace (m0 ++ m :: m1) with ((m0 ++ [m]) ++ m1) in * by (rewrite <- app_assoc; reflexivity). apply (IH (m0 ++ [m]) c m2) with (c' := c'); auto.
    rewrite mrun_snoc, mcalls_app. cbn [app apartb] in B. destruct m as [c0|j]; cbn [mcalls_of flat_map app].
    + apply andb_prop in B as [_ B]. exact B.
    + rewrite app_nil_r. exact B.
Qed.
Theorem apart_b : forall secure sel ms, apartb sel (mpool_new secure) [] ms = true -> apart secure sel ms.
Proof. intros secure sel ms B m1 m2 c i c' -> Sc Ei Sc'. apply (apartb_apart secure sel m1 [] c m2 B Sc i c' Ei Sc'). Qed.
Lemma late_apart : apart false builds late.
Proof. apply apart_b. reflexivity. Qed.

Definition h2 : bytes := keccak (va ++ vb).
Definition h3 : bytes := keccak (h2 ++ vc).
Notation at_ ms := (mrun (mpool_new false) ms).

(** make_tree mends the tree, whatever the calls before did to it. *)
Lemma puts_run : forall s vs t, t_secure t = s -> snd (mt_run t (map (fun v => OPut (VBytes v)) vs)) = mkMt (t_leaves t ++ leaves_of s vs) (t_upper t) (t_ready t) s.
Proof.
  intros s vs. induction vs as [|v vs IH]; intros t E; cbn [map mt_run].
  - unfold leaves_of. cbn [map snd]. rewrite app_nil_r. destruct t. cbn in *. subst. reflexivity.
  - cbn [mt_call put]. specialize (IH (add_leaf t v) E). destruct (mt_run (add_leaf t v) _) as [rs t'']. cbn [snd] in *. rewrite IH. unfold add_leaf, leaves_of, stored. cbn [map t_leaves t_upper t_ready].
    rewrite E, <- app_assoc. reflexivity.
Qed.
Lemma mt_run_app : forall h1 h2 t, snd (mt_run t (h1 ++ h2)) = snd (mt_run (snd (mt_run t h1)) h2).
Proof.
  induction h1 as [|o h1 IH]; intros h2 t; [reflexivity|]. cbn [app mt_run]. destruct (mt_call t o) as [r t']. specialize (IH h2 t').
  destruct (mt_run t' (h1 ++ h2)) as [rs t2]. destruct (mt_run t' h1) as [rs1 t1]. cbn [snd] in *. exact IH.
Qed.
Lemma values_puts : forall vs, values (map (fun v => OPut (VBytes v)) vs) = vs.
Proof.
  intros vs. unfold values. assert (G : forall vs acc, fold_left values_step (map (fun v => OPut (VBytes v)) vs) acc = acc ++ vs).
  { clear. induction vs as [|v vs IH]; intros acc; cbn [map fold_left]; [rewrite app_nil_r; reflexivity|]. rewrite IH. cbn [values_step op_values good_prefix]. rewrite <- app_assoc. reflexivity. }
  rewrite G. reflexivity.
Qed.
Theorem mended : forall s ms, placed [] ms <> [] -> built_over s (snd (msingle (y_obj (mrun (mpool_new s) ms)) QMake)) (placed [] ms).
Proof.
  intros s ms Ne. set (vs := placed [] ms) in *. exists (map (fun v => OPut (VBytes v)) vs ++ [OMake]), (fst (mt_run (mt_new s) (map (fun v => OPut (VBytes v)) vs ++ [OMake]))).
  split; [|split; [|split; [|exact Ne]]].
  - rewrite (surjective_pairing (mt_run _ _)). cbn [fst]. f_equal. rewrite mt_run_app, (puts_run s) by reflexivity. cbn [mt_new t_leaves t_upper t_ready app mt_run mt_call snd msingle].
    pose proof (puts_kept s ms) as L. fold vs in L. pose proof (run_secure s ms) as Sc. set (t := y_obj (mrun (mpool_new s) ms)) in *.
    assert (X : make_tree (mkMt (leaves_of s vs) None false s) = make_tree t).
    { unfold make_tree. cbn [t_leaves t_upper t_secure]. rewrite L, Sc. destruct (Nat.ltb_spec 0 (length (leaves_of s vs))) as [_|C]; [reflexivity|]. exfalso. apply Ne. destruct vs; [reflexivity|cbn in C; lia]. }
    unfold do_make. rewrite X, make_total. reflexivity.
  - unfold built. rewrite fold_left_app. reflexivity.
  - unfold values. rewrite fold_left_app. cbn [fold_left values_step op_values]. rewrite app_nil_r. apply values_puts.
Qed.

Hypothesis keccak_len : forall b, length (keccak b) = 32.
Lemma late_run : manswer_of (at_ late) 3 = Some (YBytes (Ok (to_hex (keccak (h2 ++ vd))))) /\ placed [] late = [va; vb; vc; vd].
Proof. split; reflexivity. Qed.
Lemma both_run : manswer_of (at_ both) 3 = Some (YBytes (Ok (to_hex h2))) /\ manswer_of (at_ both) 4 = Some (YBytes (Ok (to_hex h3))) /\
  y_obj (at_ both) = mkMt [va; vb; vc] (Some [[h3]; [h2; vc]; [h3]; [h2; vc]]) true false.
Proof. repeat split; reflexivity. Qed.
Lemma again1_run : manswer_of (at_ again1) 3 = Some (YUnit (Ok tt)) /\ manswer_of (at_ again1) 4 = Some (YBytes (Err ValueError)).
Proof. split; reflexivity. Qed.
Lemma again2_run : manswer_of (at_ again2) 3 = Some (YUnit (Ok tt)) /\ manswer_of (at_ again2) 4 = Some (YBytes (Ok (to_hex va))).
Proof. split; reflexivity. Qed.

Lemma len_app32 : forall x r, length (keccak x ++ r) = 32 + length r.
Proof. intros. rewrite app_length, keccak_len. reflexivity. Qed.
Lemma to_hex_inj : forall a b, to_hex a = to_hex b -> a = b.
Proof. intros a b E. apply (f_equal from_hex) in E. rewrite !from_to_hex in E. congruence. Qed.

Lemma late_wrong : no_collision [va ++ vb; h2 ++ vc; h2 ++ vd; h2 ++ keccak (vc ++ vd)] ->
  forall n, 1 <= n -> to_hex (keccak (h2 ++ vd)) <> to_hex (merkle_root (firstn n [va; vb; vc; vd])).
Proof.
  intros NC n L E. apply to_hex_inj in E.
  assert (C : keccak (h2 ++ vd) = va \/ keccak (h2 ++ vd) = h2 \/ keccak (h2 ++ vd) = h3 \/ keccak (h2 ++ vd) = keccak (h2 ++ keccak (vc ++ vd))).
  { destruct n as [|[|[|[|n]]]]; [lia|left; exact E|right; left; exact E|right; right; left; exact E|]. right. right. right. cbn [firstn] in E.
    destruct n; exact E. }
  clear E. destruct C as [E|[E|[E|E]]].
  - apply (f_equal (@length byte)) in E. rewrite keccak_len in E. discriminate.
  - apply NC in E; cbn; auto. apply (f_equal (@length byte)) in E. unfold h2 in E. rewrite len_app32 in E. discriminate.
  - apply NC in E; cbn; auto. apply app_inv_head in E. discriminate.
  - apply NC in E; cbn; auto. apply app_inv_head in E. apply (f_equal (@length byte)) in E. rewrite keccak_len in E. discriminate.
Qed.
Lemma both_wrong : no_collision [va ++ vb; h2 ++ vc] -> to_hex h2 <> to_hex h3.
Proof.
  intros NC E. apply to_hex_inj in E. apply NC in E; cbn; auto. apply (f_equal (@length byte)) in E. unfold h2 in E. rewrite len_app32 in E. discriminate.
Qed.
Lemma again2_wrong : to_hex va <> to_hex h3.
Proof. intros E. apply to_hex_inj in E. apply (f_equal (@length byte)) in E. unfold h3 in E. rewrite keccak_len in E. discriminate. Qed.

(** After both calls have answered, a proof that the tree gives is not accepted by the tree. *)
Definition bad_proof (tm : bytes) : proof := mkProof MT_POI tm va (to_hex h3) [PPair s_right (to_hex vb); PPair s_right (to_hex vc); PPair s_right (to_hex vc)].
Lemma to_hex_ascii : forall b, utf8_ok (to_hex b) = true.
Proof.
  assert (A : forall x r, utf8_ok (hexdigit (bN x / 16) :: hexdigit (bN x mod 16) :: r) = utf8_ok r) by (intros x r; destruct x; reflexivity).
  induction b as [|x b IH]; [reflexivity|]. cbn [to_hex flat_map app]. rewrite A. exact IH.
Qed.
Lemma both_then : forall tm, fst (msingle (y_obj (at_ both)) (QPoi tm (VBytes va))) = YProof (Ok (bad_proof tm)) /\ snd (msingle (y_obj (at_ both)) (QPoi tm (VBytes va))) = y_obj (at_ both).
Proof. intros tm. rewrite (proj2 (proj2 both_run)). split; reflexivity. Qed.
Lemma both_verify : no_collision [va ++ vb; h2 ++ vc; h3 ++ vc] -> forall tm, fst (msingle (y_obj (at_ both)) (QVerify (bad_proof tm))) = YBool (Ok false).
Proof.
  intros NC tm. rewrite (proj2 (proj2 both_run)). cbn [msingle]. unfold verify_poi, bad_proof. cbn [pf_proof pf_root pf_key].
  assert (D : mapM decode_elem [PPair s_right (to_hex vb); PPair s_right (to_hex vc); PPair s_right (to_hex vc)] = Ok [[(s_right, to_hex vb)]; [(s_right, to_hex vc)]; [(s_right, to_hex vc)]])
    by reflexivity.
  rewrite D. unfold decode_str. rewrite to_hex_ascii, from_to_hex.
  assert (V : tools_verify [[(s_right, to_hex vb)]; [(s_right, to_hex vc)]; [(s_right, to_hex vc)]] va h3 = Ok (bytes_eqb (keccak (h3 ++ vc)) h3)) by reflexivity.
  rewrite V. destruct (bytes_eqb (keccak (h3 ++ vc)) h3) eqn:Eb; [|reflexivity]. exfalso. apply bytes_eqb_eq in Eb. apply NC in Eb; cbn; auto. apply app_inv_tail in Eb.
  apply NC in Eb; cbn; auto. apply (f_equal (@length byte)) in Eb. unfold h2 in Eb. rewrite len_app32 in Eb. discriminate.
Qed.

(** ** A call that never ends *)
Definition two : list mmove := [QCall (QPut (VBytes va)); QGo 0; QCall (QPut (VBytes vb)); QGo 1; QCall QMake] ++ go 2 3.
(** The call of number [2] goes once through its loop; then another thread begins make_tree. *)
Definition round (k : nat) : list mmove := go 2 10 ++ [QCall QMake] ++ go (3 + k) 3.
Fixpoint rounds (k : nat) : list mmove := match k with O => two | S k => rounds k ++ round k end.

Lemma step2 : forall t cs p i, length cs = i -> forall r, mgo (mkMpool t (cs ++ p :: r)) (QGo i) = mkMpool (fst (mstep t p)) (cs ++ snd (mstep t p) :: r).
Proof.
  intros t cs p i L r. assert (E : nth_error (cs ++ p :: r) i = Some p) by (rewrite nth_error_app2, L, Nat.sub_diag by lia; reflexivity).
  pose proof (mgo_at (mkMpool t (cs ++ p :: r)) i p E) as X. cbn [y_obj y_calls] in X. rewrite X. f_equal. rewrite firstn_app, firstn_all2 by lia. replace (i - length cs) with 0 by lia. cbn [firstn].
  rewrite app_nil_r. f_equal. f_equal. rewrite <- L. clear. induction cs as [|c cs IH]; [reflexivity|]. exact IH.
Qed.
Lemma call2 : forall t cs c, mgo (mkMpool t cs) (QCall c) = mkMpool t (cs ++ mcall (t_secure t) c :: []).
Proof. reflexivity. Qed.
Definition unmade : mt := mkMt [va; vb] (Some []) false false.
Definition done2 : list mpc := [CDone (YUnit (Ok tt)); CDone (YUnit (Ok tt))].
Lemma rounds_run : forall k, at_ (rounds k) = mkMpool unmade (done2 ++ CWhile None :: repeat (CWhile None) k) /\ length (mcalls_of (rounds k)) = 3 + k.
Proof.
  induction k as [|k [IH1 IH2]]; [split; reflexivity|]. cbn [rounds]. split.
  - rewrite mrun_app, IH1. unfold round. cbn [repeat app mrun fold_left].
    set (cs := done2). set (r := repeat (CWhile None) k).
    rewrite !(step2 _ cs _ 2 eq_refl). cbn [mstep fst snd with_levels t_upper unmade top_of t_leaves length Nat.ltb Nat.leb Nat.odd Nat.even negb every2 firstn skipn combine map app set_upper].
    rewrite call2. cbn [set_upper t_secure unmade].
    assert (Lr : length (cs ++ CWhile None :: r) = 3 + k) by (rewrite app_length; cbn [length]; unfold r; rewrite repeat_length; reflexivity).
    cbn [mcall]. rewrite (step2 _ _ _ _ Lr). cbn [mstep fst snd]. rewrite (step2 _ _ _ _ Lr). cbn [mstep fst snd set_ready t_leaves length Nat.ltb Nat.leb]. rewrite (step2 _ _ _ _ Lr).
    cbn [mstep fst snd]. unfold unmade. f_equal. rewrite <- app_assoc. cbn [app]. f_equal. f_equal. unfold r. cbn [repeat]. rewrite <- repeat_cons. reflexivity.
  - rewrite mcalls_app, app_length, IH2. unfold round. rewrite !mcalls_app, !app_length. cbn. lia.
Qed.
Lemma rounds_turns : forall k, k <= mturns 2 (rounds k).
Proof.
  induction k as [|k IH]; [lia|]. cbn [rounds]. unfold mturns in *. rewrite filter_app, app_length. unfold round. cbn [repeat app filter Nat.eqb length]. lia.
Qed.
Lemma rounds_placed : forall k, placed [] (rounds k) = [va; vb].
Proof.
  intros k. pose proof (f_equal (@t_leaves) (f_equal y_obj (proj1 (rounds_run k)))) as E. rewrite (puts_kept false) in E. cbn [y_obj unmade t_leaves] in E.
  unfold leaves_of in E. rewrite map_id in E. exact E.
Qed.
Definition puts2 : list mmove := filled 0 [va; vb].
Lemma rounds_begin : forall k, exists m, rounds k = puts2 ++ QCall QMake :: m.
Proof.
  induction k as [|k [m IH]]; [eexists; reflexivity|]. exists (m ++ round k). cbn [rounds]. rewrite IH, <- app_assoc. reflexivity.
Qed.
Lemma never_ends : forall n, exists m, n <= mturns 2 m /\ manswer_of (at_ (puts2 ++ QCall QMake :: m)) 2 = None /\ length (placed [] (puts2 ++ QCall QMake :: m)) = 2.
Proof.
  intros n. destruct (rounds_begin n) as [m E]. exists m. rewrite <- E. split; [|split].
  - pose proof (rounds_turns n) as X. rewrite E in X. exact X.
  - destruct (rounds_run n) as [-> _]. reflexivity.
  - rewrite rounds_placed. reflexivity.
Qed.
End S.
