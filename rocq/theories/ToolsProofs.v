(** A MerkleTools object does exactly what SpecTools.v says. *)
From Coq Require Import List Bool Arith NArith ZArith Lia ZifyBool ZifyNat ZifyN.
From Verif Require Import Base BaseProofs ProofObj ProofJson Spec MptEq SpecJson MerkleTree SpecMt SpecText SpecAudit MtProofs MtProofs2 MtSound AuditProofs SpecMtObj
  MtTextProofs MtObjProofs MerkleTools SpecTools.
Import ListNotations.

(** ** Arguments *)
Lemma byte_of_ok : forall o c, byte_of o = Ok c <-> o = Some (Z.of_N (bN c)).
Proof.
  intros [z|] c; cbn [byte_of]; [|split; discriminate]. pose proof (bN_lt c) as B. destruct ((0 <=? z)%Z && (z <? 256)%Z) eqn:E.
  - split; intros X.
    + injection X as <-. rewrite bN_nB by lia. f_equal. lia.
    + injection X as ->. rewrite N2Z.id. now rewrite nB_bN.
  - split; [discriminate|]. intros X. injection X as ->. lia.
Qed.
Lemma bytes_of_ok : forall l b, mapM byte_of l = Ok b <-> l = map (fun c => Some (Z.of_N (bN c))) b.
Proof.
  induction l as [|o l IH]; intros b; cbn [mapM].
  - split; [intros E; now injection E as <-|destruct b; [reflexivity|discriminate]].
  - split.
    + destruct (byte_of o) as [c|e] eqn:E1; [|discriminate]. cbn [bind]. destruct (mapM byte_of l) as [b'|e] eqn:E2; [|discriminate]. cbn [bind].
      intros X. injection X as <-. apply byte_of_ok in E1. pose proof (proj1 (IH b') eq_refl) as E3. cbn [map]. now rewrite E1, E3.
    + destruct b as [|c b]; [discriminate|]. cbn [map]. intros X. injection X as -> X. apply IH in X. rewrite X.
      now rewrite (proj2 (byte_of_ok _ c) eq_refl).
Qed.
Lemma bytes_of_prefix : forall b o l, mapM byte_of (map (fun c => Some (Z.of_N (bN c))) b ++ o :: l) =
  match byte_of o with Err e => Err e | Ok c => match mapM byte_of l with Err e => Err e | Ok r => Ok (b ++ c :: r) end end.
Proof.
  induction b as [|c b IH]; intros o l; cbn [map app mapM].
  - destruct (byte_of o); [|reflexivity]. cbn [bind]. now destruct (mapM byte_of l).
  - rewrite (proj2 (byte_of_ok _ c) eq_refl). cbn [bind]. rewrite IH. destruct (byte_of o); [|reflexivity]. now destruct (mapM byte_of l).
Qed.
Lemma ints_cases : forall l, (exists b, l = map (fun c => Some (Z.of_N (bN c))) b) \/
  exists b o r e, l = map (fun c => Some (Z.of_N (bN c))) b ++ o :: r /\ byte_of o = Err e.
Proof.
  induction l as [|o l IH]; [left; now exists []|]. destruct (byte_of o) as [c|e] eqn:E.
  - apply byte_of_ok in E. destruct IH as [[b ->]|(b & o' & r & e & -> & X)]; [left; exists (c :: b); now rewrite E|].
    right. exists (c :: b), o', r, e. rewrite E. now split.
  - right. now exists [], o, l, e.
Qed.

Section WithHash.
Context {H : Hash}.
Section Mode.
Variable s : bool.

Lemma means_model : forall v b, means s v b -> stored_any s v = Ok (digest s b).
Proof.
  intros v b M. unfold stored_any, digest. destruct M as [b|n E|b E].
  - now destruct s.
  - rewrite E. cbn [bytearray_of]. destruct (Z.ltb_spec (Z.of_nat n) 0); [lia|]. now rewrite Nat2Z.id.
  - rewrite E. cbn [bytearray_of]. now apply bytes_of_ok.
Qed.
Lemma refused_model : forall v e, refused s v e -> stored_any s v = Err e.
Proof.
  intros v e R. unfold stored_any. destruct R as [| |z E|l E|z E L|b l E|b z l E L]; try (rewrite E; cbn [bytearray_of]); try (now destruct s); try reflexivity.
  - destruct (Z.ltb_spec z 0); [reflexivity|lia].
  - now rewrite bytes_of_prefix.
  - rewrite bytes_of_prefix. cbn [byte_of]. destruct ((0 <=? z)%Z && (z <? 256)%Z) eqn:X; [lia|reflexivity].
Qed.
Lemma arg_cases : forall v, (exists b, means s v b) \/ exists e, refused s v e.
Proof.
  intros [b|z|l| |].
  - left. eexists. apply means_buf.
  - destruct s eqn:E; [right; eexists; now apply refused_int|]. rewrite <- E. destruct (Z.lt_ge_cases z 0) as [L|L].
    + right. eexists. now apply refused_negative.
    + left. replace z with (Z.of_nat (Z.to_nat z)) by lia. eexists. now apply means_int.
  - destruct s eqn:E; [right; eexists; now apply refused_ints|]. rewrite <- E. destruct (ints_cases l) as [[b ->]|(b & o & r & e & -> & X)].
    + left. eexists. now apply means_ints.
    + right. destruct o as [z|]; [|eexists; now apply refused_element]. cbn [byte_of] in X.
      destruct ((0 <=? z)%Z && (z <? 256)%Z) eqn:Y; [discriminate|]. eexists. apply refused_range; [exact E|lia].
  - right. eexists. apply refused_str.
  - right. eexists. apply refused_other.
Qed.

(** ** Building *)
Lemma ne_cons : forall a b l, next_entries (a :: b :: l) = EBytes (keccak (entry_bytes a ++ entry_bytes b)) :: next_entries l.
Proof.
  intros a b l. unfold next_entries. cbn [length].
  assert (Eo : Nat.odd (S (S (length l))) = Nat.odd (length l)) by reflexivity. rewrite Eo.
  destruct (Nat.odd (length l)) eqn:E.
  - destruct l as [|c l]; [discriminate E|].
    replace (S (S (length (c :: l))) - 1) with (S (S (length (c :: l) - 1))) by (cbn [length]; lia).
    cbn [firstn]. assert (El : forall d, last (a :: b :: c :: l) d = last (c :: l) d) by reflexivity.
    rewrite El. set (m := firstn (length (c :: l) - 1) (c :: l)).
    cbn [skipn]. destruct m as [|m0 m']; reflexivity.
  - cbn [firstn]. rewrite firstn_all. cbn [skipn]. destruct l; reflexivity.
Qed.
Lemma ne_plain : forall l, map entry_bytes (next_entries l) = next_level (map entry_bytes l).
Proof. apply list_ind2; [reflexivity|reflexivity|]. intros a b l IH. rewrite ne_cons. cbn [map]. rewrite next_cons, <- IH. reflexivity. Qed.
Lemma ne_nth : forall l k, nth_error (next_entries l) k =
  match nth_error l (2 * k), nth_error l (2 * k + 1) with
  | Some a, Some b => Some (EBytes (keccak (entry_bytes a ++ entry_bytes b)))
  | Some a, None => Some a
  | None, _ => None
  end.
Proof.
  apply (list_ind2 entry (fun l => forall k, nth_error (next_entries l) k = match nth_error l (2 * k), nth_error l (2 * k + 1) with
    | Some a, Some b => Some (EBytes (keccak (entry_bytes a ++ entry_bytes b))) | Some a, None => Some a | None, _ => None end)).
  - intros k. replace (next_entries []) with (@nil entry) by reflexivity. destruct k; reflexivity.
  - intros a k. replace (next_entries [a]) with [a] by reflexivity. destruct k as [|k]; [reflexivity|]. replace (2 * S k) with (S (S (2 * k))) by lia. cbn. now destruct k.
  - intros a b l IH k. rewrite ne_cons. destruct k as [|k]; [reflexivity|]. replace (2 * S k) with (S (S (2 * k))) by lia. cbn [nth_error Nat.add]. apply IH.
Qed.
Inductive echain : list entry -> list (list entry) -> Prop :=
  | echain_end : forall l, length l <= 1 -> echain l [l]
  | echain_step : forall l c, 2 <= length l -> echain (next_entries l) c -> echain l (l :: c).
Lemma echain_head : forall l c, echain l c -> exists c', c = l :: c'.
Proof. destruct 1; eauto. Qed.
Lemma echain_plain : forall l c, echain l c -> chain (map entry_bytes l) (map (map entry_bytes) c).
Proof.
  induction 1 as [l L|l c L C IH]; cbn [map]; [constructor; now rewrite map_length|]. constructor; [now rewrite map_length|]. now rewrite <- ne_plain.
Qed.
Lemma ne_length : forall l, length (next_entries l) = (length l + 1) / 2.
Proof. intros l. rewrite <- (map_length entry_bytes), ne_plain, next_length, map_length. reflexivity. Qed.
Lemma be_total : forall f l below, length l <= S f -> exists c, echain l c /\ build_entries f l below = Some (rev c ++ below).
Proof.
  induction f as [|f IH]; intros l below Hl.
  - exists [l]. split; [constructor; lia|]. cbn [build_entries]. destruct (Nat.leb_spec (length l) 1); [reflexivity|lia].
  - cbn [build_entries]. destruct (Nat.leb_spec (length l) 1) as [Hs|Hs].
    + exists [l]. split; [constructor; lia|reflexivity].
    + destruct (IH (next_entries l) (l :: below)) as (c & Hc & E).
      { rewrite ne_length. apply Nat.lt_succ_r. apply Nat.div_lt_upper_bound; lia. }
      exists (l :: c). split; [constructor; [lia|exact Hc]|]. rewrite E. cbn [rev]. rewrite <- app_assoc. reflexivity.
Qed.
Lemma echain_next : forall l c, echain l c -> forall j a b, nth_error c j = Some a -> nth_error c (S j) = Some b -> b = next_entries a.
Proof.
  induction 1 as [l L|l c L C IH]; intros j a b A B; [destruct j; discriminate|]. destruct j as [|j]; [|now apply (IH j)].
  injection A as <-. destruct (echain_head _ _ C) as [c' ->]. now injection B as <-.
Qed.
(** Which entries are bytearrays. *)
Definition is_array (e : entry) : bool := match e with EArray _ => true | EBytes _ => false end.
Lemma echain_kind : forall ls c, ls <> [] -> echain (map EArray ls) c -> forall j lv, nth_error c j = Some lv -> forall k e, nth_error lv k = Some e ->
  is_array e = if j =? 0 then true else k * 2 ^ j =? length ls - 1.
Proof.
  intros ls c Ne C. assert (Hl : forall j lv, nth_error c j = Some lv -> forall k, nth_error lv k <> None <-> k * 2 ^ j < length ls).
  { intros j lv E k. assert (X : nth_error (map (map entry_bytes) c) j = Some (map entry_bytes lv)) by (now rewrite nth_error_map, E).
    pose proof (echain_plain _ _ C) as P. rewrite map_map, map_id in P. pose proof (chain_entry _ _ P Ne j _ X k) as Y. rewrite nth_error_map in Y.
    destruct (Nat.ltb_spec (k * 2 ^ j) (length ls)) as [Q|Q]; destruct (nth_error lv k); cbn in Y; try discriminate; split; try lia; congruence. }
  induction j as [|j IH]; intros lv E k e K.
  - destruct (echain_head _ _ C) as [c' ->]. injection E as <-. rewrite nth_error_map in K. destruct (nth_error ls k); [|discriminate]. now injection K as <-.
  - destruct (nth_error c j) as [lo|] eqn:El.
    2:{ apply nth_error_None in El. assert (S j < length c) by (apply nth_error_Some; congruence). lia. }
    rewrite (echain_next _ _ C j lo lv El E) in K. rewrite ne_nth in K. pose proof (Hl j lo El) as Hj. cbn [Nat.eqb].
    assert (Pw : k * 2 ^ S j = 2 * k * 2 ^ j) by (cbn [Nat.pow]; lia). pose proof (pow_pos j) as Pp.
    destruct (nth_error lo (2 * k)) as [a|] eqn:A; [|discriminate]. assert (La : 2 * k * 2 ^ j < length ls) by (apply Hj; congruence).
    destruct (nth_error lo (2 * k + 1)) as [b|] eqn:B.
    + injection K as <-. assert (Lb : (2 * k + 1) * 2 ^ j < length ls) by (apply Hj; congruence). cbn [is_array]. symmetry. apply Nat.eqb_neq. lia.
    + injection K as <-. assert (Lb : ~ (2 * k + 1) * 2 ^ j < length ls) by (rewrite <- Hj; congruence). rewrite (IH lo eq_refl _ _ A).
      destruct (Nat.eqb_spec j 0) as [->|]; [|now rewrite Pw]. symmetry. apply Nat.eqb_eq. cbn [Nat.pow] in *. lia.
Qed.

(** ** Checking a proof *)
Lemma side_ok : forall p name x, side p name = Ok x <-> item p name x.
Proof.
  intros p name x. unfold side, item. split.
  - destruct (dget p name) as [[h|]|]; try discriminate. destruct (from_hex h) as [y|] eqn:E; [|discriminate]. intros X. injection X as ->.
    exists h. split; [reflexivity|now apply from_hex_exact].
  - intros (h & -> & X). apply from_hex_exact in X. now rewrite X.
Qed.
Lemma side_bad : forall p name e, side p name = Err e <-> bad_item p name e.
Proof.
  intros p name e. unfold side. split.
  - destruct (dget p name) as [[h|]|] eqn:D.
    + destruct (from_hex h) as [y|] eqn:E; [discriminate|]. intros X. injection X as <-. apply bad_hex with h; [exact D|now apply from_hex_none].
    + intros X. injection X as <-. now apply bad_type.
    + intros X. injection X as <-. now apply bad_missing.
  - intros [D|D|h D N]; rewrite D; [reflexivity|reflexivity|]. apply from_hex_none in N. now rewrite N.
Qed.
Lemma side_none : forall p name, no_item p name <-> exists e, side p name = Err e.
Proof.
  intros p name. split.
  - intros N. destruct (side p name) as [x|e] eqn:E; [|eauto]. exfalso. apply (N x). now apply side_ok.
  - intros [e E] x I. apply side_ok in I. congruence.
Qed.
Lemma fold_path : forall l pa, Forall2 sibling_of l pa -> forall r b, fold_proof (l ++ r) b = fold_proof r (path_root b pa).
Proof.
  induction 1 as [|p st l pa S F IH]; intros r b; [reflexivity|]. cbn [app fold_proof path_root]. change s_left with left_text. change s_right with right_text.
  destruct S as [x I|x N I].
  - apply side_ok in I. rewrite I, IH. reflexivity.
  - apply side_none in N as [e N]. apply side_ok in I. rewrite N, I. cbn [bind]. now rewrite IH.
Qed.
Lemma fold_cases : forall l, (exists pa, Forall2 sibling_of l pa) \/
  exists l1 p l2 pa e, l = l1 ++ p :: l2 /\ Forall2 sibling_of l1 pa /\ no_item p left_text /\ bad_item p right_text e.
Proof.
  induction l as [|p l IH]; [left; exists []; constructor|].
  assert (C : (exists st, sibling_of p st) \/ exists e, no_item p left_text /\ bad_item p right_text e).
  { destruct (side p left_text) as [x|e] eqn:L; [left; exists (true, x); apply sib_left; now apply side_ok|].
    assert (N : no_item p left_text) by (apply side_none; eauto).
    destruct (side p right_text) as [x|e'] eqn:R; [left; exists (false, x); apply sib_right; [exact N|now apply side_ok]|].
    right. exists e'. split; [exact N|now apply side_bad]. }
  destruct C as [[st S]|(e & N & B)]; [|right; exists [], p, l, [], e; repeat split; auto].
  destruct IH as [[pa F]|(l1 & q & l2 & pa & e & -> & F & N & B)]; [left; exists (st :: pa); now constructor|].
  right. exists (p :: l1), q, l2, (st :: pa), e. repeat split; auto.
Qed.
Lemma target_eqb_iff : forall t u, target_eqb t u = true <-> t = u.
Proof.
  intros [a|a|] [b|b|]; cbn [target_eqb]; try (split; discriminate); try tauto; rewrite bytes_eqb_eq; (split; [now intros ->|intros X; now injection X]).
Qed.
Lemma target_eqb_no : forall t u, t <> u -> target_eqb t u = false.
Proof. intros t u N. destruct (target_eqb t u) eqn:E; [|reflexivity]. exfalso. now apply N, target_eqb_iff. Qed.
Lemma check_model : forall l t u r, checked l t u r -> tools_check l t u = r.
Proof.
  intros l t u r C. destruct C as [t|t u N|p l b pa F|p l b pa u F N|l1 p l2 b pa u x F N B|p l t u x N I|p l t u x N I].
  - cbn. now rewrite (proj2 (target_eqb_iff t t) eq_refl).
  - cbn. now rewrite target_eqb_no.
  - unfold tools_check. pose proof (fold_path _ _ F [] b) as E. rewrite app_nil_r in E. rewrite E. cbn [fold_proof bind]. f_equal. now apply target_eqb_iff.
  - unfold tools_check. pose proof (fold_path _ _ F [] b) as E. rewrite app_nil_r in E. rewrite E. cbn [fold_proof bind]. f_equal. apply target_eqb_no. congruence.
  - assert (E : fold_proof (l1 ++ p :: l2) b = Err x).
    { rewrite (fold_path _ _ F). cbn [fold_proof]. apply side_none in N as [e N]. apply side_bad in B. change s_left with left_text. change s_right with right_text.
      now rewrite N, B. }
    unfold tools_check. destruct (l1 ++ p :: l2) eqn:L; [now destruct l1|]. now rewrite E.
  - cbn [tools_check]. apply side_ok in I. destruct t as [b|b|]; [exfalso; now apply (N b)| |]; change s_right with right_text; now rewrite I.
  - cbn [tools_check]. apply side_bad in I. destruct t as [b|b|]; [exfalso; now apply (N b)| |]; change s_right with right_text; now rewrite I.
Qed.
Lemma check_total : forall l t u, exists r, checked l t u r.
Proof.
  intros l t u. assert (D : t = u \/ t <> u).
  { destruct (target_eqb t u) eqn:E; [left; now apply target_eqb_iff|right; intros X; apply target_eqb_iff in X; congruence]. }
  destruct l as [|p l]; [destruct D as [<-|D]; eexists; [apply checked_same|now apply checked_other]|].
  destruct t as [b|b|].
  - destruct (fold_cases (p :: l)) as [[pa F]|(l1 & q & l2 & pa & e & E & F & N & B)]; [|rewrite E; exists (Err e); now apply checked_bad with pa].
    assert (D' : u = TBuf (path_root b pa) \/ u <> TBuf (path_root b pa)).
    { destruct (target_eqb u (TBuf (path_root b pa))) eqn:E; [left; now apply target_eqb_iff|right; intros X; apply target_eqb_iff in X; congruence]. }
    destruct D' as [->|N]; eexists; [now apply checked_yes|now apply checked_no with pa].
  - destruct (side p right_text) as [x|e] eqn:R; [exists (Err TypeError); apply checked_type with x; [discriminate|now apply side_ok]|exists (Err e); apply checked_type_bad; [discriminate|now apply side_bad]].
  - destruct (side p right_text) as [x|e] eqn:R; [exists (Err TypeError); apply checked_type with x; [discriminate|now apply side_ok]|exists (Err e); apply checked_type_bad; [discriminate|now apply side_bad]].
Qed.

(** ** The object *)
Definition tabs (g : view) (t : tools) : Prop := abs s g (plain t) /\
  match v_stage g with
  | Made m => exists c, echain (map EArray (leaves_of s (firstn m (v_vals g)))) (map EArray (leaves_of s (firstn m (v_vals g))) :: c) /\ o_upper t = Some (rev c)
  | _ => o_upper t = None
  end.
Lemma tabs_new : tabs (View [] Fresh) (tools_new s).
Proof. split; [exact (abs_new s)|reflexivity]. Qed.
Lemma tabs_secure : forall g t, tabs g t -> o_secure t = s /\ o_leaves t = leaves_of s (v_vals g).
Proof. intros g t [[[A B] _] _]. split; [exact A|exact B]. Qed.
Lemma tabs_make : forall g t, tabs g t -> exists t', tools_make t = (Ok tt, t') /\
  tabs (View (v_vals g) (match v_vals g with [] => Void | _ => Made (length (v_vals g)) end)) t'.
Proof.
  intros g t T. destruct (tabs_secure g t T) as [Es El]. destruct T as [A U]. destruct (abs_make s g (plain t) A) as (t1 & M & A1).
  unfold tools_make. rewrite El, leaves_of_length. destruct (Nat.ltb_spec 0 (length (v_vals g))) as [L|L].
  - destruct (be_total (length (v_vals g)) (map EArray (leaves_of s (v_vals g))) []) as (c & C & E); [rewrite map_length, leaves_of_length; lia|]. rewrite E.
    destruct (echain_head _ _ C) as [c' ->]. eexists. split; [reflexivity|]. rewrite app_nil_r. cbn [rev]. rewrite removelast_last. rewrite Es.
    destruct (v_vals g) as [|v vs] eqn:V; [cbn in L; lia|]. rewrite <- V in *. split.
    + replace (plain _) with t1; [exact A1|]. destruct (make_tree_eq (plain t)) as (d & Hd & Ed); [cbn [plain t_leaves]; rewrite El; intros X; pose proof (leaves_of_length s (v_vals g)) as Y; rewrite X in Y; cbn in Y; lia|].
      rewrite Ed in M. injection M as <-. unfold plain. cbn [t_leaves t_secure o_leaves o_upper o_ready o_secure option_map]. rewrite El, Es. f_equal. f_equal.
      pose proof (echain_plain _ _ C) as P. rewrite map_map, map_id in P. cbn [plain t_leaves] in Hd. rewrite El in Hd. pose proof (chain_det _ _ Hd _ P) as X.
      cbn [map] in X. injection X as _ ->. now rewrite map_rev.
    + cbn [v_stage v_vals o_upper]. rewrite firstn_all. exists c'. split; [exact C|reflexivity].
  - assert (V : v_vals g = []) by (destruct (v_vals g); [reflexivity|cbn in L; lia]). eexists. split; [reflexivity|]. rewrite V in *. rewrite Es. split.
    + replace (plain _) with t1; [exact A1|]. unfold make_tree in M. cbn [plain t_leaves t_upper t_secure] in M. rewrite El, Es in M. cbn in M. injection M as <-. reflexivity.
    + cbn [v_stage o_upper]. destruct (v_stage g) as [| |m] eqn:E; [exact U|exact U|]. destruct A as [_ A]. rewrite E in A. destruct A as (_ & _ & Hm & _). rewrite V in Hm. cbn in Hm. lia.
Qed.
Lemma tabs_root : forall g t, tabs g t -> tools_root (plain t) = match known_root s g with Some r => Ok (to_hex r) | None => Err ValueError end.
Proof.
  intros g t [[B A] U]. unfold known_root. destruct (v_stage g) as [| |m].
  - unfold tools_root. now rewrite (proj1 A).
  - unfold tools_root, levels. now rewrite (proj1 A), (proj2 A).
  - now rewrite (holds_root _ _ _ _ A).
Qed.
Lemma spelled_exact : forall pa l, spelled pa l <-> l = hex_path pa.
Proof.
  unfold spelled. induction pa as [|st pa IH]; intros l.
  - split; [intros F; now inversion F|intros ->; constructor].
  - split.
    + intros F. inversion F as [|? e ? l' [E1 E2] F']; subst. apply IH in F'. subst l'. apply lower_hex_exact in E2. destruct e as [a h]. cbn [fst snd] in *. subst. reflexivity.
    + intros ->. constructor; [|now apply IH]. cbn [fst snd]. split; [reflexivity|now apply lower_hex_exact].
Qed.
Lemma prove_means : forall g t v b, tabs g t -> means s v b -> tools_prove t v = tools_poi (plain t) b.
Proof.
  intros g t v b T M. destruct (tabs_secure g t T) as [Es El]. unfold tools_prove. rewrite Es, (means_model v b M). cbn [bind].
  unfold tools_poi, stored. cbn [plain t_secure t_leaves t_ready]. rewrite Es. reflexivity.
Qed.
Lemma acts_model : forall g c a g' t, acts s g c a g' -> tabs g t -> exists t', tools_call t c = (a, t') /\ tabs g' t'.
Proof.
  intros g c a g' t D T. destruct (tabs_secure g t T) as [Es El]. pose proof T as [[[B1 B2] S] U].
  destruct D as [v b M|v e R|i v h P E L|i v h P Q E L|i Q| | | | |r h E L|E|v e R|v b M K|v b m i pa l M E F C W|v b m i e M E F C|l x y r C|r E N|E].
  - cbn [tools_call]. unfold tools_add. rewrite Es, (means_model v b M). eexists. split; [reflexivity|]. split.
    + pose proof (abs_more s g (plain t) [b] (conj (conj B1 B2) S)) as A. replace (plain _) with
        (mkMt (t_leaves (plain t) ++ leaves_of (t_secure (plain t)) [b]) (t_upper (plain t)) (t_ready (plain t)) (t_secure (plain t))); [exact A|].
      unfold plain. cbn [t_leaves t_upper t_ready t_secure o_leaves o_upper o_ready o_secure]. rewrite Es. reflexivity.
    + cbn [v_stage v_vals o_upper]. destruct (v_stage g) as [| |m]; [exact U|exact U|]. destruct S as (_ & _ & Hm & _).
      rewrite firstn_app. replace (m - length (v_vals g)) with 0 by lia. rewrite app_nil_r. exact U.
  - cbn [tools_call]. unfold tools_add. rewrite Es, (refused_model v e R). eauto.
  - exists t. split; [|exact T]. cbn [tools_call]. unfold get_leaf, py_nth. destruct (Z.ltb_spec i 0); [lia|]. cbn [plain t_leaves]. rewrite El. unfold leaves_of.
    rewrite nth_error_map, E. cbn [option_map]. apply lower_hex_exact in L. now subst h.
  - exists t. split; [|exact T]. cbn [tools_call]. unfold get_leaf, py_nth. destruct (Z.ltb_spec (- i) 0); [|lia]. cbn [plain t_leaves]. rewrite El, leaves_of_length.
    destruct (Z.ltb_spec (- i + Z.of_nat (length (v_vals g))) 0); [lia|].
    replace (Z.to_nat (- i + Z.of_nat (length (v_vals g)))) with (length (v_vals g) - Z.to_nat i) by lia. unfold leaves_of.
    rewrite nth_error_map, E. cbn [option_map]. apply lower_hex_exact in L. now subst h.
  - exists t. split; [|exact T]. cbn [tools_call]. unfold get_leaf, py_nth. cbn [plain t_leaves]. rewrite El, leaves_of_length.
    replace (if (i <? 0)%Z then _ else _) with (@None bytes); [reflexivity|]. destruct (Z.ltb_spec i 0).
    + destruct (Z.ltb_spec (i + Z.of_nat (length (v_vals g))) 0); [reflexivity|lia].
    + symmetry. apply nth_error_None. rewrite leaves_of_length. lia.
  - exists t. split; [|exact T]. cbn [tools_call]. now rewrite El, leaves_of_length.
  - exists t. split; [|exact T]. cbn [tools_call]. replace (o_ready t) with (t_ready (plain t)) by reflexivity. do 3 f_equal.
    destruct (v_stage g) as [| |m]; apply S.
  - destruct (tabs_make g t T) as (t' & M & T'). exists t'. split; [cbn [tools_call]; now rewrite M|exact T'].
  - eexists. split; [reflexivity|]. unfold tools_reset. rewrite Es. exact tabs_new.
  - exists t. split; [|exact T]. cbn [tools_call]. rewrite (tabs_root g t T), E. apply lower_hex_exact in L. now subst h.
  - exists t. split; [|exact T]. cbn [tools_call]. now rewrite (tabs_root g t T), E.
  - exists t. split; [|exact T]. cbn [tools_call]. unfold tools_prove. now rewrite Es, (refused_model v e R).
  - exists t. split; [|exact T]. cbn [tools_call]. rewrite (prove_means g t v b T M). unfold tools_poi, stored. cbn [plain t_secure t_leaves t_ready]. rewrite Es, El.
    change (if s then keccak b else b) with (digest s b). destruct (index_of (digest s b) (leaves_of s (v_vals g))) as [i|] eqn:I; [|reflexivity].
    destruct K as [K|K]; [|now rewrite (index_of_notin _ _ K) in I]. unfold known_root in K. unfold levels. cbn [t_upper plain].
    destruct (v_stage g) as [| |m]; [now rewrite U|now rewrite U|discriminate].
  - exists t. split; [|exact T]. cbn [tools_call]. rewrite (prove_means g t v b T M).
    destruct (tools_climb s g (plain t) m b i (proj1 T) E F) as (r' & C' & P). rewrite P, <- (climb_det _ _ _ _ _ C _ C'). cbn [path_answer].
    apply spelled_exact in W. now subst l.
  - exists t. split; [|exact T]. cbn [tools_call]. rewrite (prove_means g t v b T M).
    destruct (tools_climb s g (plain t) m b i (proj1 T) E F) as (r' & C' & P). rewrite P, <- (climb_det _ _ _ _ _ C _ C'). reflexivity.
  - exists t. split; [|exact T]. cbn [tools_call]. now rewrite (check_model l x y r C).
  - exists t. split; [|exact T]. cbn [tools_call]. unfold tools_number. rewrite (tabs_root g t T), E. cbn [bind].
    destruct r as [|x r]; [congruence|]. now rewrite int_to_hex.
  - exists t. split; [|exact T]. cbn [tools_call]. unfold tools_number. rewrite (tabs_root g t T). destruct E as [E|E]; now rewrite E.
Qed.
Lemma acts_total : forall g t c, tabs g t -> exists a g', acts s g c a g'.
Proof.
  intros g t c T. destruct c as [v|i| | | | | |v|l x y|].
  - destruct (arg_cases v) as [[b M]|[e R]]; do 2 eexists; [eapply acts_add, M|eapply acts_add_bad, R].
  - assert (K : forall j, j < length (v_vals g) -> exists v, nth_error (v_vals g) j = Some v).
    { intros j L. destruct (nth_error (v_vals g) j) as [v|] eqn:E; [eauto|]. apply nth_error_None in E. lia. }
    destruct (Z.lt_ge_cases i (- Z.of_nat (length (v_vals g)))) as [L|L]; [do 2 eexists; apply acts_leaf_none; now left|].
    destruct (Z.lt_ge_cases i (Z.of_nat (length (v_vals g)))) as [V|V]; [|do 2 eexists; apply acts_leaf_none; now right].
    destruct (Z.lt_ge_cases i 0) as [Hn|Hn].
    + destruct (K (length (v_vals g) - Z.to_nat (- i))) as [v E]; [lia|]. do 2 eexists. replace i with (- (- i))%Z at 1 by lia.
      apply (acts_leaf_end s g (- i) v (to_hex (digest s v))); [lia|lia|exact E|apply to_hex_lower].
    + destruct (K (Z.to_nat i)) as [v E]; [lia|]. do 2 eexists. apply (acts_leaf s g i v (to_hex (digest s v))); [exact Hn|exact E|apply to_hex_lower].
  - eauto using acts_count.
  - eauto using acts_ready.
  - eauto using acts_make.
  - eauto using acts_reset.
  - destruct (known_root s g) as [r|] eqn:E; [|eauto using acts_root_none]. do 2 eexists. apply (acts_root s g r (to_hex r) E (to_hex_lower r)).
  - destruct (arg_cases v) as [[b M]|[e R]]; [|do 2 eexists; eapply acts_prove_bad, R].
    destruct (in_dec (list_eq_dec Byte.byte_eq_dec) (digest s b) (leaves_of s (v_vals g))) as [I|N]; [|do 2 eexists; eapply acts_prove_none; [exact M|now right]].
    destruct (v_stage g) as [| |m] eqn:E;
      [do 2 eexists; eapply acts_prove_none; [exact M|left; unfold known_root; now rewrite E]
      |do 2 eexists; eapply acts_prove_none; [exact M|left; unfold known_root; now rewrite E]|].
    destruct (index_of_first _ _ I) as (i & _ & F & _). destruct (tools_climb s g (plain t) m b i (proj1 T) E F) as ([pa|e] & C & _).
    + do 2 eexists. eapply (acts_prove s g v b m i pa (hex_path pa) M E F C). now apply spelled_exact.
    + do 2 eexists. exact (acts_prove_fail s g v b m i e M E F C).
  - destruct (check_total l x y) as (r & C). do 2 eexists. exact (acts_verify s g l x y r C).
  - destruct (known_root s g) as [[|x r]|] eqn:E; [do 2 eexists; apply acts_number_none; now right| |do 2 eexists; apply acts_number_none; now left].
    do 2 eexists. apply (acts_number s g (x :: r) E). discriminate.
Qed.
Lemma performs_model : forall g h l g', performs s g h l g' -> forall t, tabs g t -> exists t', tools_run t h = (l, t') /\ tabs g' t'.
Proof.
  intros g h l g' F. induction F as [g|g c a g1 h l g2 D F IH]; intros t T; [exists t; split; [reflexivity|exact T]|].
  destruct (acts_model g c a g1 t D T) as (t1 & E & T1). destruct (IH t1 T1) as (t2 & E2 & T2). exists t2. split; [|exact T2]. cbn [tools_run]. now rewrite E, E2.
Qed.
Lemma performs_total : forall h g t, tabs g t -> exists l g', performs s g h l g'.
Proof.
  induction h as [|c h IH]; intros g t T; [exists [], g; constructor|]. destruct (acts_total g t c T) as (a & g1 & D).
  destruct (acts_model g c a g1 t D T) as (t1 & _ & T1). destruct (IH g1 t1 T1) as (l & g2 & F). exists (a :: l), g2. now apply performs_cons with g1.
Qed.
Theorem tools_exact : forall h l, fst (tools_run (tools_new s) h) = l <-> exists g, performs s (View [] Fresh) h l g.
Proof.
  intros h l. split.
  - intros <-. destruct (performs_total h _ _ tabs_new) as (l & g & F). destruct (performs_model _ _ _ _ F _ tabs_new) as (t & E & _). exists g. now rewrite E.
  - intros [g F]. destruct (performs_model _ _ _ _ F _ tabs_new) as (t & E & _). now rewrite E.
Qed.
Theorem tools_state : forall h l g, performs s (View [] Fresh) h l g -> exists t, tools_run (tools_new s) h = (l, t) /\
  forall h' l', fst (tools_run t h') = l' <-> exists g', performs s g h' l' g'.
Proof.
  intros h l g F. destruct (performs_model _ _ _ _ F _ tabs_new) as (t & E & T). exists t. split; [exact E|]. intros h' l'. split.
  - intros <-. destruct (performs_total h' _ _ T) as (o2 & g' & F'). destruct (performs_model _ _ _ _ F' _ T) as (t' & E' & _). exists g'. now rewrite E'.
  - intros [g' F']. destruct (performs_model _ _ _ _ F' _ T) as (t' & E' & _). now rewrite E'.
Qed.
End Mode.
End WithHash.
