(** A MerkleTree object does exactly what SpecMtObj.v says. *)
From Coq Require Import List Bool Arith NArith ZArith Lia.
From Verif Require Import Base BaseProofs ProofObj Spec MptEq SpecJson MerkleTree SpecMt SpecText SpecAudit MtProofs MtProofs2 MtSound AuditProofs SpecMtObj MtTextProofs.
Import ListNotations.

(** ** Checking a proof *)
Lemma bytes_eq_dec' : forall a b : bytes, {a = b} + {a <> b}.
Proof. intros a b. destruct (bytes_eqb_spec a b); [now left|now right]. Qed.
Lemma decode_str_ok : forall b, is_str b -> decode_str b = Ok b.
Proof. intros b E. unfold decode_str. apply utf8_ok_exact in E. now rewrite E. Qed.
Lemma decode_str_bad : forall b, ~ is_str b -> decode_str b = Err UnicodeDecodeError.
Proof. intros b E. unfold decode_str. apply utf8_not in E. now rewrite E. Qed.
Lemma is_str_dec : forall b, is_str b \/ ~ is_str b.
Proof. intros b. destruct (utf8_ok b) eqn:E; [left; now apply utf8_ok_exact|right; now apply utf8_not]. Qed.

Definition to_dict (e : pelem) : dict bytes := match e with PPair a b => [(a, b)] | PB _ => [] end.
Lemma decode_pair : forall e, pair_ok e -> decode_elem e = Ok (to_dict e).
Proof. intros e (a & b & -> & A & B). cbn [decode_elem]. rewrite (decode_str_ok a A), (decode_str_ok b B). reflexivity. Qed.
Lemma decode_bad : forall e x, bad_elem e x -> decode_elem e = Err x.
Proof.
  intros e x B. destruct B as [|c b|a b N]; [reflexivity|reflexivity|]. cbn [decode_elem].
  destruct (is_str_dec a) as [A|A]; [rewrite (decode_str_ok a A)|rewrite (decode_str_bad a A)]; cbn [bind]; [|reflexivity].
  destruct (is_str_dec b) as [B|B]; [exfalso; auto|rewrite (decode_str_bad b B)]. reflexivity.
Qed.
Lemma decode_all : forall l, Forall pair_ok l -> mapM decode_elem l = Ok (map to_dict l).
Proof. intros l F. induction F as [|e l P F IH]; [reflexivity|]. cbn [mapM map]. now rewrite (decode_pair e P), IH. Qed.
Lemma decode_first : forall l1 e l2 x, Forall pair_ok l1 -> bad_elem e x -> mapM decode_elem (l1 ++ e :: l2) = Err x.
Proof.
  intros l1 e l2 x F B. induction F as [|d l P F IH]; cbn [app mapM]; [now rewrite (decode_bad e x B)|]. now rewrite (decode_pair d P), IH.
Qed.
Lemma elem_cases : forall e, pair_ok e \/ exists x, bad_elem e x.
Proof.
  intros [[|c b]|a b]; [right; eexists; constructor|right; eexists; constructor|].
  destruct (is_str_dec a) as [A|A]; [destruct (is_str_dec b) as [B|B]|]; [left; exists a, b; auto|right; eexists; constructor; tauto|right; eexists; constructor; tauto].
Qed.
Lemma elems_cases : forall l, Forall pair_ok l \/ exists l1 e l2 x, l = l1 ++ e :: l2 /\ Forall pair_ok l1 /\ bad_elem e x.
Proof.
  induction l as [|e l IH]; [left; constructor|]. destruct (elem_cases e) as [P|[x B]].
  - destruct IH as [F|(l1 & d & l2 & x & E & F & B)]; [left; now constructor|].
    right. exists (e :: l1), d, l2, x. split; [now rewrite E|]. split; [now constructor|exact B].
  - right. exists [], e, l, x. auto.
Qed.

Lemma removelast_length : forall (A : Type) (a : A) c, length (removelast (a :: c)) = length c.
Proof. intros A a c. revert a. induction c as [|b c IH]; intros a; [reflexivity|]. change (removelast (a :: b :: c)) with (a :: removelast (b :: c)). cbn [length]. now rewrite IH. Qed.
Lemma removelast_nth : forall (A : Type) (a : A) c x v, nth_error (removelast (a :: c)) x = Some v -> x < length c /\ nth_error (a :: c) x = Some v.
Proof.
  intros A a c. revert a. induction c as [|b c IH]; intros a x v E; [destruct x; discriminate|]. change (removelast (a :: b :: c)) with (a :: removelast (b :: c)) in E.
  destruct x as [|x]; [split; [cbn; lia|exact E]|]. cbn [nth_error] in E. apply IH in E as [L E]. split; [cbn [length]; lia|exact E].
Qed.

Section WithHash.
Context {H : Hash}.

Lemma loop_left : forall b x r acc, hex_of b x -> verify_loop (to_dict (PPair left_text b) :: r) acc = verify_loop r (keccak (x ++ acc)).
Proof. intros b x r acc T. apply from_hex_exact in T. cbn [verify_loop to_dict]. unfold left_sibling, dget. cbn. now rewrite T. Qed.
Lemma loop_right : forall b x r acc, hex_of b x -> verify_loop (to_dict (PPair right_text b) :: r) acc = verify_loop r (keccak (acc ++ x)).
Proof. intros b x r acc T. apply from_hex_exact in T. cbn. now rewrite T. Qed.
Lemma loop_right_bad : forall b r acc, no_hex b -> verify_loop (to_dict (PPair right_text b) :: r) acc = Err ValueError.
Proof. intros b r acc T. apply from_hex_none in T. cbn. now rewrite T. Qed.
Lemma loop_left_bad : forall b r acc, no_hex b -> verify_loop (to_dict (PPair left_text b) :: r) acc = Err KeyError.
Proof. intros b r acc T. apply from_hex_none in T. cbn. now rewrite T. Qed.
Lemma loop_other : forall a b r acc, a <> left_text -> a <> right_text -> verify_loop (to_dict (PPair a b) :: r) acc = Err KeyError.
Proof.
  intros a b r acc A B. cbn [verify_loop to_dict]. unfold left_sibling. cbn [dget].
  destruct (bytes_eqb_spec s_left a) as [E|_]; [symmetry in E; contradiction|]. destruct (bytes_eqb_spec s_right a) as [E|_]; [symmetry in E; contradiction|]. reflexivity.
Qed.
Lemma loop_steps : forall l pa r acc, Forall2 step_of l pa -> verify_loop (map to_dict l ++ r) acc = verify_loop r (path_root acc pa).
Proof.
  intros l pa r acc F. revert acc. induction F as [|e s l pa S F IH]; intros acc; [reflexivity|]. cbn [map app].
  destruct S as [b x T|b x T]; [rewrite (loop_left b x) by exact T|rewrite (loop_right b x) by exact T]; rewrite IH; reflexivity.
Qed.
Lemma steps_cases : forall l, Forall pair_ok l -> (exists pa, Forall2 step_of l pa) \/ exists l1 a b l2 pa, l = l1 ++ PPair a b :: l2 /\
  Forall2 step_of l1 pa /\ ((a = right_text /\ no_hex b) \/ (a <> right_text /\ (a = left_text -> no_hex b))).
Proof.
  intros l F. induction F as [|e l (a & b & -> & A & B) F IH]; [left; exists []; constructor|].
  assert (K : (exists s, step_of (PPair a b) s) \/ ((a = right_text /\ no_hex b) \/ (a <> right_text /\ (a = left_text -> no_hex b)))).
  { destruct (from_hex b) as [x|] eqn:E; [apply from_hex_exact in E|apply from_hex_none in E].
    - destruct (bytes_eq_dec' a left_text) as [El|Nl]; [left; rewrite El; eexists; constructor; exact E|].
      destruct (bytes_eq_dec' a right_text) as [Er|Nr]; [left; rewrite Er; eexists; constructor; exact E|]. right. right. tauto.
    - right. destruct (bytes_eq_dec' a right_text); tauto. }
  destruct K as [[s S]|K].
  - destruct IH as [[pa P]|(l1 & a' & b' & l2 & pa & E & P & K)]; [left; exists (s :: pa); now constructor|].
    right. exists (PPair a b :: l1), a', b', l2, (s :: pa). split; [now rewrite E|]. split; [now constructor|exact K].
  - right. exists [], a, b, l, []. split; [reflexivity|]. split; [constructor|exact K].
Qed.
Lemma step_ok : forall e s, step_of e s -> pair_ok e.
Proof.
  intros e s S. destruct S as [b x T|b x T]; [exists left_text, b|exists right_text, b]; (split; [reflexivity|]); (split; [|exact (hex_is_str b x T)]);
    apply utf8_ok_exact; reflexivity.
Qed.
Lemma steps_ok : forall l pa, Forall2 step_of l pa -> Forall pair_ok l.
Proof. intros l pa F. induction F as [|e s l pa S F IH]; constructor; [exact (step_ok e s S)|exact IH]. Qed.

Definition root_answer (root : option bytes) : result bytes := match root with Some r => Ok (to_hex r) | None => Err ValueError end.

Lemma verdict_model : forall t t' root p r (asked : bool), get_root t = (root_answer root, t') -> verdict root p r asked ->
  verify_poi t p = (r, if asked then t' else t).
Proof.
  intros t t' root p r asked G V. unfold verify_poi.
  assert (K : forall b x, hex_of b x -> decode_str b = Ok b /\ from_hex b = Some x).
  { intros b x T. split; [exact (decode_str_ok b (hex_is_str b x T))|now apply from_hex_exact]. }
  destruct V as [l1 e l2 x E F B|F N|F S N|r l1 l2 a b pa F T E P A B|r l1 l2 b pa F T E P B|pa r P T N|pa P T N|pa r P T E L|pa r P T E L].
  - rewrite E, (decode_first l1 e l2 x F B). reflexivity.
  - rewrite (decode_all _ F), (decode_str_bad _ N). reflexivity.
  - rewrite (decode_all _ F), (decode_str_ok _ S). apply from_hex_none in N. rewrite N. reflexivity.
  - rewrite (decode_all _ F). destruct (K _ _ T) as [-> ->]. rewrite tools_verify_eq. rewrite E, map_app, (loop_steps l1 pa) by exact P. cbn [map].
    destruct (bytes_eq_dec' a left_text) as [El|Nl].
    + rewrite El, loop_left_bad by auto. reflexivity.
    + rewrite loop_other by assumption. reflexivity.
  - rewrite (decode_all _ F). destruct (K _ _ T) as [-> ->]. rewrite tools_verify_eq. rewrite E, map_app, (loop_steps l1 pa) by exact P. cbn [map].
    rewrite loop_right_bad by assumption. reflexivity.
  - rewrite (decode_all _ (steps_ok _ _ P)). destruct (K _ _ T) as [-> ->]. rewrite tools_verify_eq. rewrite <- (app_nil_r (map _ _)), (loop_steps _ pa) by exact P.
    cbn [verify_loop bind]. destruct (bytes_eqb_spec (path_root (pf_key p) pa) r); [contradiction|reflexivity].
  - rewrite (decode_all _ (steps_ok _ _ P)). destruct (K _ _ T) as [-> ->]. rewrite tools_verify_eq. rewrite <- (app_nil_r (map _ _)), (loop_steps _ pa) by exact P.
    cbn [verify_loop bind]. rewrite bytes_eqb_refl, G, N. reflexivity.
  - rewrite (decode_all _ (steps_ok _ _ P)). destruct (K _ _ T) as [-> ->]. rewrite tools_verify_eq. rewrite <- (app_nil_r (map _ _)), (loop_steps _ pa) by exact P.
    cbn [verify_loop bind]. rewrite bytes_eqb_refl, G, E. cbn [root_answer]. apply lower_hex_exact in L. rewrite <- L, bytes_eqb_refl. reflexivity.
  - rewrite (decode_all _ (steps_ok _ _ P)). destruct (K _ _ T) as [-> ->]. rewrite tools_verify_eq. rewrite <- (app_nil_r (map _ _)), (loop_steps _ pa) by exact P.
    cbn [verify_loop bind]. rewrite bytes_eqb_refl, G, E. cbn [root_answer]. destruct (bytes_eqb_spec (to_hex r) (pf_root p)) as [X|X]; [|reflexivity].
    exfalso. apply L. apply lower_hex_exact. now symmetry.
Qed.
Lemma verdict_total : forall root p, exists r asked, verdict root p r asked.
Proof.
  intros root p. destruct (elems_cases (pf_proof p)) as [F|(l1 & e & l2 & x & E & F & B)].
  2:{ exists (Err x), false. exact (ver_elem root p l1 e l2 x E F B). }
  destruct (is_str_dec (pf_root p)) as [S|N].
  2:{ exists (Err UnicodeDecodeError), false. now apply ver_text. }
  destruct (from_hex (pf_root p)) as [r|] eqn:T; [apply from_hex_exact in T|apply from_hex_none in T].
  2:{ exists (Err ValueError), false. now apply ver_hex. }
  destruct (steps_cases _ F) as [[pa P]|(l1 & a & b & l2 & pa & E & P & [[A B]|[A B]])].
  2:{ rewrite A in E. exists (Ok false), false. exact (ver_right root p r l1 l2 b pa F T E P B). }
  2:{ exists (Err KeyError), false. exact (ver_side root p r l1 l2 a b pa F T E P A B). }
  destruct (bytes_eq_dec' (path_root (pf_key p) pa) r) as [E|N]; [rewrite <- E in T|].
  2:{ exists (Ok false), false. exact (ver_path root p pa r P T N). }
  destruct root as [R|]; [|exists (Err ValueError), true; exact (ver_void None p pa P T eq_refl)].
  destruct (bytes_eq_dec' (pf_root p) (to_hex R)) as [L|L].
  - exists (Ok true), true. apply (ver_yes (Some R) p pa R P T eq_refl). now apply lower_hex_exact.
  - exists (Ok false), true. apply (ver_no (Some R) p pa R P T eq_refl). intros X. apply lower_hex_exact in X. contradiction.
Qed.

(** ** Levels *)
Lemma firstn_next : forall k l, firstn k (next_level l) = next_level (firstn (2 * k) l).
Proof.
  induction k as [|k IH]; intros l; [reflexivity|]. replace (2 * S k) with (S (S (2 * k))) by lia.
  destruct l as [|a [|b l]]; [reflexivity|rewrite next_one; cbn [firstn]; now rewrite firstn_nil|]. cbn [firstn]. rewrite !next_cons. cbn [firstn]. now rewrite IH.
Qed.
Lemma skipn_next : forall k l, skipn k (next_level l) = next_level (skipn (2 * k) l).
Proof.
  induction k as [|k IH]; intros l; [reflexivity|]. replace (2 * S k) with (S (S (2 * k))) by lia.
  destruct l as [|a [|b l]]; [reflexivity|rewrite next_one; cbn [skipn]; now rewrite skipn_nil|]. rewrite next_cons. cbn [skipn]. apply IH.
Qed.
Lemma nth_slice : forall (A : Type) k (l : list A), nth_error l k = hd_error (skipn k l).
Proof. induction k as [|k IH]; intros [|a l]; cbn; auto. Qed.
Definition slice (l : list bytes) (j k : nat) : list bytes := firstn (2 ^ j) (skipn (k * 2 ^ j) l).
Lemma slice_next : forall l j k, slice (next_level l) j k = next_level (slice l (S j) k).
Proof. intros l j k. unfold slice. rewrite skipn_next, firstn_next. rewrite Nat.pow_succ_r'. replace (2 * (k * 2 ^ j)) with (k * (2 * 2 ^ j)) by lia. reflexivity. Qed.
Lemma pow_pos : forall j, 1 <= 2 ^ j.
Proof. intros j. pose proof (Nat.pow_nonzero 2 j). lia. Qed.
Lemma next_len_lt : forall l x, x < length (next_level l) <-> 2 * x < length l.
Proof.
  intros l x. rewrite next_length. split; intros L.
  - pose proof (Nat.div_mod (length l + 1) 2). pose proof (Nat.mod_upper_bound (length l + 1) 2). lia.
  - apply Nat.div_le_lower_bound; lia.
Qed.
Lemma chain_entry : forall l c, chain l c -> l <> [] -> forall j lv, nth_error c j = Some lv -> forall k,
  nth_error lv k = if k * 2 ^ j <? length l then Some (merkle_root (slice l j k)) else None.
Proof.
  induction 1 as [l Hl|l c Hl Hc IH]; intros Ne j lv E k.
  - destruct j as [|[|j]]; try discriminate. injection E as <-. destruct l as [|a [|b l]]; [congruence| |cbn in Hl; lia].
    cbn [Nat.pow length]. rewrite Nat.mul_1_r. destruct k as [|k]; [reflexivity|]. destruct (Nat.ltb_spec (S k) 1); [lia|]. now destruct k.
  - destruct j as [|j].
    + injection E as <-. cbn [Nat.pow]. rewrite Nat.mul_1_r. destruct (Nat.ltb_spec k (length l)) as [L|L].
      * unfold slice. cbn [Nat.pow]. rewrite Nat.mul_1_r. rewrite nth_slice. destruct (skipn k l) as [|x r] eqn:S; [|reflexivity].
        apply (f_equal (@length _)) in S. rewrite skipn_length in S. cbn in S. lia.
      * now apply nth_error_None.
    + cbn [nth_error] in E. rewrite (IH (next_ne l Ne) j lv E k). rewrite slice_next.
      assert (X : k * 2 ^ j <? length (next_level l) = (k * 2 ^ S j <? length l)).
      { apply eq_true_iff_eq. rewrite !Nat.ltb_lt, next_len_lt. cbn [Nat.pow]. lia. }
      rewrite X. destruct (Nat.ltb_spec (k * 2 ^ S j) (length l)) as [L|L]; [|reflexivity].
      rewrite merkle_root_next; [reflexivity|]. intros Z. apply (f_equal (@length _)) in Z. unfold slice in Z. rewrite firstn_length, skipn_length in Z. cbn [length] in Z.
      pose proof (pow_pos (S j)). lia.
Qed.
Lemma chain_height : forall l c, chain l c -> l <> [] -> forall j, j < length (tl c) <-> 2 ^ j < length l.
Proof.
  induction 1 as [l Hl|l c Hl Hc IH]; intros Ne j.
  - cbn. pose proof (pow_pos j). destruct l as [|a [|b l]]; [congruence|cbn; lia|cbn in Hl; lia].
  - destruct (chain_head _ _ Hc) as [c' ->]. cbn [tl length]. destruct j as [|j]; [cbn [Nat.pow]; lia|].
    specialize (IH (next_ne l Ne) j). cbn [tl] in IH. rewrite next_len_lt in IH. cbn [Nat.pow]. lia.
Qed.

(** ** Climbing *)
Lemma climb_det : forall E m j i r, climb E m j i r -> forall r', climb E m j i r' -> r = r'.
Proof.
  intros E m j i r C. induction C as [j i L|j i r L V Y N C IH|j i L S V|j i x r L S C IH]; intros r' C'; inversion C'; subst; try lia; try reflexivity.
  - now apply IH.
  - exfalso. auto.
  - exfalso. unfold sibling in *. rewrite V in *. congruence.
  - exfalso. auto.
  - congruence.
  - exfalso. unfold sibling in *. match goal with X : Nat.even i = true |- _ => rewrite X in * end. congruence.
  - congruence.
  - f_equal; [congruence|now apply IH].
Qed.
Definition path_answer (r : result path) : result (list (bytes * bytes)) := match r with Ok pa => Ok (hex_path pa) | Err e => Err e end.
Lemma loop_climb : forall E m lv j i, (forall x level k, nth_error lv x = Some level -> E (j + x) k = nth_error level k) ->
  (forall x, x < length lv <-> 2 ^ (j + x) < m) -> exists r, climb E m j i r /\ poi_loop lv i = path_answer r.
Proof.
  intros E m lv. induction lv as [|level up IH]; intros j i Hn Hl.
  - exists (Ok []). split; [|reflexivity]. constructor. specialize (Hl 0). rewrite Nat.add_0_r in Hl. cbn in Hl. lia.
  - assert (Hj : 2 ^ j < m) by (specialize (Hl 0); rewrite Nat.add_0_r in Hl; cbn in Hl; lia).
    assert (H0 : forall k, E j k = nth_error level k) by (intros k; specialize (Hn 0 level k eq_refl); rewrite Nat.add_0_r in Hn; exact Hn).
    destruct (IH (S j) (i / 2)) as (r & C & P).
    { intros x lv' k X. rewrite <- (Hn (S x) lv' k X). f_equal. lia. }
    { intros x. specialize (Hl (S x)). cbn [length] in Hl. replace (S j + x) with (j + S x) by lia. lia. }
    cbn [poi_loop]. destruct ((i =? length level - 1) && Nat.odd (length level)) eqn:A.
    + apply andb_prop in A as [A1 A2]. apply Nat.eqb_eq in A1. exists r. split; [|exact P].
      assert (Lp : 0 < length level) by (destruct (length level); [discriminate|lia]).
      apply climb_alone; [exact Hj| | | |exact C].
      * rewrite A1. rewrite <- Nat.odd_succ. replace (S (length level - 1)) with (length level) by lia. exact A2.
      * rewrite H0. apply nth_error_Some. lia.
      * rewrite H0. apply nth_error_None. lia.
    + assert (Si : (if Nat.odd i then i - 1 else i + 1) = sibling i) by (unfold sibling; rewrite <- Nat.negb_odd; now destruct (Nat.odd i)).
      rewrite Si. destruct (nth_error level (sibling i)) as [x|] eqn:X.
      * exists (on_top (Nat.odd i, x) r). split; [apply climb_step; [exact Hj|now rewrite H0|exact C]|]. rewrite P. destruct r as [pa|e]; [|reflexivity].
        cbn. now destruct (Nat.odd i).
      * exists (Err IndexError). split; [|reflexivity]. apply climb_lost; [exact Hj|now rewrite H0|]. intros V. rewrite H0. apply nth_error_None.
        apply nth_error_None in X. unfold sibling in X. rewrite V in X. destruct (Nat.le_gt_cases (length level) i) as [L|L]; [exact L|]. exfalso.
        assert (Ei : i = length level - 1) by lia. rewrite <- Nat.odd_succ in V. replace (S i) with (length level) in V by lia.
        rewrite V, Ei, Nat.eqb_refl in A. discriminate.
Qed.

(** ** The object *)
Section Mode.
Variable s : bool.
Definition abs (g : view) (t : mt) : Prop := basic s t (v_vals g) /\
  match v_stage g with
  | Fresh => t_ready t = false /\ t_upper t = None
  | Void => t_ready t = true /\ t_upper t = None
  | Made m => holds s t (v_vals g) m
  end.
Lemma abs_new : abs (View [] Fresh) (mt_new s).
Proof. split; [apply basic_new|split; reflexivity]. Qed.
Lemma leaves_nil : forall vs, leaves_of s vs = [] -> vs = [].
Proof. intros [|v vs] E; [reflexivity|discriminate]. Qed.
Lemma abs_make : forall g t, abs g t -> exists t', make_tree t = Ok t' /\
  abs (View (v_vals g) (match v_vals g with [] => Void | _ => Made (length (v_vals g)) end)) t'.
Proof.
  intros [vs st] t [B S]. cbn [v_vals v_stage] in *. destruct vs as [|v vs].
  - exists (mkMt (t_leaves t) (t_upper t) true (t_secure t)). destruct B as [B1 B2]. split; [unfold make_tree; now rewrite B2|].
    split; [split; [exact B1|exact B2]|]. cbn [v_stage t_ready t_upper]. split; [reflexivity|].
    destruct st as [| |m]; [apply S|apply S|]. destruct S as (_ & _ & Hm & _). cbn in Hm. lia.
  - destruct (make_holds s t (v :: vs) B) as (t' & M & Hh); [discriminate|]. exists t'. split; [exact M|]. split; [apply Hh|exact Hh].
Qed.
Lemma abs_root : forall g t, abs g t -> exists t', get_root t = (root_answer (root_of s g), t') /\ abs (settled g) t'.
Proof.
  intros g t A. destruct (abs_make g t A) as (t' & M & A'). destruct A as [B S]. unfold root_of, settled. destruct (v_stage g) as [| |m] eqn:E; cbn [v_stage v_vals].
  - exists t'. unfold get_root. rewrite (proj1 S), M. split; [|exact A']. f_equal. destruct (v_vals g) as [|v vs] eqn:V.
    + destruct A' as [_ [_ U]]. cbn [root_answer]. unfold tools_root, levels. rewrite U. now destruct (t_ready t').
    + destruct A' as [_ Hh]. cbn [v_stage v_vals] in Hh. cbn [root_answer]. exact (holds_root _ _ _ _ Hh).
  - exists t. rewrite get_root_ready by apply S. split; [|split; [exact B|exact S]]. f_equal. unfold tools_root, levels. rewrite (proj2 S). now destruct (t_ready t).
  - exists t. rewrite get_root_ready by apply S. split; [|split; [exact B|exact S]]. f_equal. cbn [root_answer]. exact (holds_root _ _ _ _ S).
Qed.
Lemma abs_more : forall g t ws, abs g t ->
  abs (View (v_vals g ++ ws) (v_stage g)) (mkMt (t_leaves t ++ leaves_of (t_secure t) ws) (t_upper t) (t_ready t) (t_secure t)).
Proof.
  intros g t ws [B S]. assert (B' : basic s (mkMt (t_leaves t ++ leaves_of (t_secure t) ws) (t_upper t) (t_ready t) (t_secure t)) (v_vals g ++ ws)).
  { destruct B as [B1 B2]. split; [exact B1|]. cbn [t_leaves]. rewrite B1, B2. unfold leaves_of. now rewrite map_app. }
  split; [exact B'|]. cbn [v_stage v_vals]. destruct (v_stage g) as [| |m]; [exact S|exact S|].
  destruct S as (_ & R & Hm & c & C & U). split; [exact B'|]. split; [exact R|]. split; [rewrite app_length; lia|]. exists c.
  rewrite firstn_app. replace (m - length (v_vals g)) with 0 by lia. rewrite app_nil_r. split; [exact C|exact U].
Qed.
Lemma put_list_all : forall l t, put_list t (map VBytes l) = (Ok tt, mkMt (t_leaves t ++ leaves_of (t_secure t) l) (t_upper t) (t_ready t) (t_secure t)).
Proof.
  induction l as [|v l IH]; intros t; cbn [map put_list put].
  - cbn. rewrite app_nil_r. now destruct t.
  - rewrite IH. unfold add_leaf. cbn [t_leaves t_secure t_upper t_ready]. rewrite <- app_assoc. reflexivity.
Qed.
Lemma put_list_stop : forall l r t, put_list t (map VBytes l ++ VOther :: r) =
  (Err TypeError, mkMt (t_leaves t ++ leaves_of (t_secure t) l) (t_upper t) (t_ready t) (t_secure t)).
Proof.
  induction l as [|v l IH]; intros r t; cbn [map app put_list put].
  - cbn. rewrite app_nil_r. now destruct t.
  - rewrite IH. unfold add_leaf. cbn [t_leaves t_secure t_upper t_ready]. rewrite <- app_assoc. reflexivity.
Qed.
Lemma first_index : forall k l i, first_at l i k -> index_of k l = Some i.
Proof.
  intros k l. induction l as [|x l IH]; intros i [E F]; [destruct i; discriminate|]. cbn [index_of].
  destruct i as [|i].
  - injection E as ->. now rewrite bytes_eqb_refl.
  - destruct (bytes_eqb_spec k x) as [X|X]; [exfalso; apply (F 0); [lia|now rewrite X]|]. rewrite (IH i); [reflexivity|].
    split; [exact E|]. intros j L. apply (F (S j)). lia.
Qed.
Lemma written_exact : forall pa l, written pa l <-> l = pairs (hex_path pa).
Proof.
  intros pa l. split; [|intros ->; apply written_pairs]. intros W. induction W as [|st e pa l (h & L & ->) W IH]; [reflexivity|].
  apply lower_hex_exact in L. subst h l. unfold hex_path, pairs. cbn [map fst snd]. f_equal.
Qed.
Lemma leaves_firstn : forall m vs, leaves_of s (firstn m vs) = firstn m (leaves_of s vs).
Proof. intros m vs. unfold leaves_of. now rewrite firstn_map. Qed.

Lemma tools_climb : forall g t m v i, abs g t -> v_stage g = Made m -> first_at (leaves_of s (v_vals g)) i (digest s v) ->
  exists r, climb (entry_at (leaves_of s (v_vals g)) m) m 0 i r /\ tools_poi t v = path_answer r.
Proof.
  intros g t m v i [B S] E F. rewrite E in S. destruct S as (_ & R & Hm & c & C & U). destruct B as [B1 B2].
  assert (Ne : leaves_of s (firstn m (v_vals g)) <> []).
  { intros X. apply (f_equal (@length _)) in X. rewrite leaves_of_length, firstn_length in X. cbn in X. lia. }
  assert (Ln : length (leaves_of s (firstn m (v_vals g))) = m) by (rewrite leaves_of_length, firstn_length; lia).
  unfold tools_poi. replace (stored (t_secure t) v) with (digest s v) by (now rewrite B1). rewrite B2, (first_index _ _ _ F). unfold levels. rewrite U, R. cbn [option_map].
  rewrite B2. pose proof (chain_height _ _ C Ne) as Hh. cbn [tl] in Hh. rewrite Ln in Hh.
  replace (rev (tl (rev c ++ [leaves_of s (v_vals g)]))) with (removelast (leaves_of s (v_vals g) :: c)) by (rewrite <- tl_rev; reflexivity).
  apply loop_climb.
  - intros x level k X. cbn [Nat.add]. apply removelast_nth in X as [Xl X]. unfold entry_at. destruct x as [|x].
    + cbn [nth_error Nat.eqb] in *. now injection X as <-.
    + cbn [nth_error] in X. replace (S x =? 0) with false by reflexivity.
      rewrite (chain_entry _ _ C Ne (S x) level X k). rewrite Ln. unfold slice. now rewrite leaves_firstn.
  - intros x. cbn [Nat.add]. rewrite removelast_length. apply Hh.
Qed.

Lemma prove_state : forall g t time k, abs g t -> abs g (snd (get_poi t time k)).
Proof. intros g t time k A. now rewrite get_poi_state. Qed.
Lemma does_model : forall g o r g' t, does s g o r g' -> abs g t -> exists t', mt_call t o = (r, t') /\ abs g' t'.
Proof.
  intros g o r g' t D A. pose proof A as [[B1 B2] S].
  destruct D as [b| |l|l r| | |r h E L|E|time|time v K|time v m i pa r h l E F C R L W|time v m i e E F C|p r asked V|i v h P E L|i v h P Q E L|i Q|r E N|E].
  - eexists. split; [reflexivity|]. exact (abs_more g t [b] A).
  - exists t. split; [reflexivity|exact A].
  - eexists. split; [cbn [mt_call]; rewrite put_list_all; reflexivity|]. exact (abs_more g t l A).
  - eexists. split; [cbn [mt_call]; rewrite put_list_stop; reflexivity|]. exact (abs_more g t l A).
  - destruct (abs_make g t A) as (t' & M & A'). exists t'. split; [cbn [mt_call]; unfold do_make; now rewrite M|exact A'].
  - eexists. split; [reflexivity|]. split; [split; [exact B1|reflexivity]|split; reflexivity].
  - destruct (abs_root g t A) as (t' & M & A'). exists t'. split; [|exact A']. cbn [mt_call]. rewrite M, E. cbn [root_answer]. apply lower_hex_exact in L. now subst h.
  - destruct (abs_root g t A) as (t' & M & A'). exists t'. split; [|exact A']. cbn [mt_call]. now rewrite M, E.
  - exists t. split; [reflexivity|exact A].
  - exists t. split; [|exact A]. cbn [mt_call get_poi]. replace (tools_poi t v) with (@Err (list (bytes * bytes)) ValueError); [reflexivity|].
    unfold tools_poi. replace (stored (t_secure t) v) with (digest s v) by (now rewrite B1). rewrite B2.
    destruct (index_of (digest s v) (leaves_of s (v_vals g))) as [i|] eqn:I; [|reflexivity]. unfold levels.
    destruct K as [E|[E|N]]; [rewrite E in S; now rewrite (proj2 S)|rewrite E in S; now rewrite (proj2 S)|]. now rewrite (index_of_notin _ _ N) in I.
  - exists t. split; [|exact A]. cbn [mt_call get_poi]. destruct (tools_climb g t m v i A E F) as (r' & C' & P). rewrite P.
    rewrite <- (climb_det _ _ _ _ _ C _ C'). cbn [path_answer]. rewrite get_root_ready by (rewrite E in S; apply S).
    unfold root_of, settled in R. rewrite E in R. cbn [v_stage] in R. injection R as <-. rewrite E in S. rewrite (holds_root _ _ _ _ S).
    apply lower_hex_exact in L. apply written_exact in W. subst h l. reflexivity.
  - exists t. split; [|exact A]. cbn [mt_call get_poi]. destruct (tools_climb g t m v i A E F) as (r' & C' & P). rewrite P.
    rewrite <- (climb_det _ _ _ _ _ C _ C'). reflexivity.
  - destruct (abs_root g t A) as (t' & M & A'). exists (if asked then t' else t). split; [|now destruct asked].
    cbn [mt_call]. now rewrite (verdict_model t t' (root_of s g) p r asked M V).
  - exists t. split; [|exact A]. cbn [mt_call]. unfold get, get_leaf, py_nth. destruct (Z.ltb_spec i 0); [lia|]. rewrite B2. unfold leaves_of.
    rewrite nth_error_map, E. cbn [option_map]. apply lower_hex_exact in L. now subst h.
  - exists t. split; [|exact A]. cbn [mt_call]. unfold get, get_leaf, py_nth. destruct (Z.ltb_spec (- i) 0); [|lia]. rewrite B2, leaves_of_length.
    destruct (Z.ltb_spec (- i + Z.of_nat (length (v_vals g))) 0); [lia|].
    replace (Z.to_nat (- i + Z.of_nat (length (v_vals g)))) with (length (v_vals g) - Z.to_nat i) by lia. unfold leaves_of.
    rewrite nth_error_map, E. cbn [option_map]. apply lower_hex_exact in L. now subst h.
  - exists t. split; [|exact A]. cbn [mt_call]. unfold get, get_leaf, py_nth. rewrite B2, leaves_of_length.
    replace (if (i <? 0)%Z then _ else _) with (@None bytes); [reflexivity|]. destruct (Z.ltb_spec i 0).
    + destruct (Z.ltb_spec (i + Z.of_nat (length (v_vals g))) 0); [reflexivity|lia].
    + symmetry. apply nth_error_None. rewrite leaves_of_length. lia.
  - destruct (abs_root g t A) as (t' & M & A'). exists t'. split; [|exact A']. cbn [mt_call]. unfold mt_hash. rewrite M, E. cbn [root_answer].
    destruct r as [|x r]; [congruence|]. now rewrite int_to_hex.
  - destruct (abs_root g t A) as (t' & M & A'). exists t'. split; [|exact A']. cbn [mt_call]. unfold mt_hash. rewrite M. destruct E as [E|E]; now rewrite E.
Qed.
Lemma list_cases : forall vs, exists l, vs = map VBytes l \/ exists r, vs = map VBytes l ++ VOther :: r.
Proof.
  induction vs as [|[b|] vs (l & [E|[r E]])]; [exists []; now left|exists (b :: l); left; now rewrite E|exists (b :: l); right; exists r; now rewrite E| |];
    exists []; right; exists vs; reflexivity.
Qed.
Lemma does_total : forall g t o, abs g t -> exists r g', does s g o r g'.
Proof.
  intros g t o A. destruct o as [[b|]|vs| | | |time [v|]|p|i|].
  - eauto using does_put.
  - eauto using does_put_other.
  - destruct (list_cases vs) as (l & [E|[r E]]); subst vs; [eauto using does_list|eauto using does_list_other].
  - eauto using does_make.
  - eauto using does_reset.
  - destruct (root_of s g) as [r|] eqn:E; [|eauto using does_root_none]. do 2 eexists. apply (does_root s g r (to_hex r) E (to_hex_lower r)).
  - destruct (in_dec (list_eq_dec Byte.byte_eq_dec) (digest s v) (leaves_of s (v_vals g))) as [I|N]; [|do 2 eexists; apply does_prove_none; tauto].
    destruct (v_stage g) as [| |m] eqn:E; [do 2 eexists; apply does_prove_none; tauto|do 2 eexists; apply does_prove_none; tauto|].
    destruct (index_of_first _ _ I) as (i & _ & F & _). destruct (tools_climb g t m v i A E F) as ([pa|e] & C & _).
    + do 2 eexists. eapply (does_prove s g time v m i pa _ _ _ E F C); [unfold root_of, settled; rewrite E; reflexivity|apply to_hex_lower|apply written_pairs].
    + do 2 eexists. exact (does_prove_fail s g time v m i e E F C).
  - eauto using does_prove_other.
  - destruct (verdict_total (root_of s g) p) as (r & asked & V). do 2 eexists. exact (does_verify s g p r asked V).
  - assert (K : forall j, j < length (v_vals g) -> exists v, nth_error (v_vals g) j = Some v).
    { intros j L. destruct (nth_error (v_vals g) j) as [v|] eqn:E; [eauto|]. apply nth_error_None in E. lia. }
    destruct (Z.lt_ge_cases i (- Z.of_nat (length (v_vals g)))) as [L|L]; [do 2 eexists; apply does_get_none; now left|].
    destruct (Z.lt_ge_cases i (Z.of_nat (length (v_vals g)))) as [U|U]; [|do 2 eexists; apply does_get_none; now right].
    destruct (Z.lt_ge_cases i 0) as [Hn|Hn].
    + destruct (K (length (v_vals g) - Z.to_nat (- i))) as [v E]; [lia|]. do 2 eexists. replace i with (- (- i))%Z at 1 by lia.
      apply (does_get_end s g (- i) v (to_hex (digest s v))); [lia|lia|exact E|apply to_hex_lower].
    + destruct (K (Z.to_nat i)) as [v E]; [lia|]. do 2 eexists. apply (does_get s g i v (to_hex (digest s v))); [exact Hn|exact E|apply to_hex_lower].
  - destruct (root_of s g) as [[|x r]|] eqn:E; [do 2 eexists; apply does_hash_none; now right| |do 2 eexists; apply does_hash_none; now left].
    do 2 eexists. apply (does_hash s g (x :: r) E). discriminate.
Qed.

Lemma follows_model : forall g h outs g', follows s g h outs g' -> forall t, abs g t -> exists t', mt_run t h = (outs, t') /\ abs g' t'.
Proof.
  intros g h outs g' F. induction F as [g|g o r g1 h outs g2 D F IH]; intros t A; [exists t; split; [reflexivity|exact A]|].
  destruct (does_model g o r g1 t D A) as (t1 & E & A1). destruct (IH t1 A1) as (t2 & E2 & A2). exists t2. split; [|exact A2]. cbn [mt_run]. now rewrite E, E2.
Qed.
Lemma follows_total : forall h g t, abs g t -> exists outs g', follows s g h outs g'.
Proof.
  induction h as [|o h IH]; intros g t A; [exists [], g; constructor|]. destruct (does_total g t o A) as (r & g1 & D).
  destruct (does_model g o r g1 t D A) as (t1 & _ & A1). destruct (IH g1 t1 A1) as (outs & g2 & F). exists (r :: outs), g2. now apply follows_cons with g1.
Qed.
(** The answers of a new object to any calls. *)
Theorem object_exact : forall h outs, fst (mt_run (mt_new s) h) = outs <-> exists g, follows s (View [] Fresh) h outs g.
Proof.
  intros h outs. split.
  - intros <-. destruct (follows_total h _ _ abs_new) as (outs & g & F). destruct (follows_model _ _ _ _ F _ abs_new) as (t & E & _). exists g. now rewrite E.
  - intros [g F]. destruct (follows_model _ _ _ _ F _ abs_new) as (t & E & _). now rewrite E.
Qed.
(** What the calls leave is determined: later calls are answered alike. *)
Theorem object_state : forall h outs g, follows s (View [] Fresh) h outs g -> exists t, mt_run (mt_new s) h = (outs, t) /\
  forall h' outs', fst (mt_run t h') = outs' <-> exists g', follows s g h' outs' g'.
Proof.
  intros h outs g F. destruct (follows_model _ _ _ _ F _ abs_new) as (t & E & A). exists t. split; [exact E|]. intros h' outs'. split.
  - intros <-. destruct (follows_total h' _ _ A) as (o2 & g' & F'). destruct (follows_model _ _ _ _ F' _ A) as (t' & E' & _). exists g'. now rewrite E'.
  - intros [g' F']. destruct (follows_model _ _ _ _ F' _ A) as (t' & E' & _). now rewrite E'.
Qed.
End Mode.
End WithHash.
