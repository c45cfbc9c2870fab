(** The texts of the model are exactly those of SpecTexts.v. *)
From Coq Require Import String List Bool Arith NArith Lia.
From Verif Require Import Base BaseProofs ProofObj Keccak ProofJson ProofJsonProofs Texts SpecText SpecTexts TextProofs TextProofs2.
Import ListNotations.
Local Open Scope list_scope.

Lemma hex_value_det : forall h h' n, hex_value h n -> hex_value h' n -> h = h'.
Proof. intros h h' n [[A B]|[A B]] [[C D]|[C D]]; try lia; apply bN_inj; lia. Qed.
Lemma hex_value_n : forall h n m, hex_value h n -> hex_value h m -> n = m.
Proof. intros h n m [[A B]|[A B]] [[C D]|[C D]]; lia. Qed.
Lemma hex_value_lt : forall h n, hex_value h n -> (n < 16)%N.
Proof. intros h n [[A B]|[A B]]; lia. Qed.
Lemma shown_det : forall q c t u, q = x27 \/ q = x22 -> shown q c t -> shown q c u -> t = u.
Proof.
  intros q c t u Q A B. assert (P : forall x, x = x09 \/ x = x0a \/ x = x0d -> ~ printable x) by (intros x [->|[->| ->]]; cbv; intros [X _]; apply X; reflexivity).
  assert (Pq : printable q /\ printable x5c) by (split; [destruct Q as [->| ->]|]; cbv; split; discriminate). destruct Pq as [Pq Pb].
  destruct A as [A|A|A|A|A A1 A2|h l n m A A1 A2 A3 A4 A5 A6]; destruct B as [B|B|B|B|B B1 B2|h' l' n' m' B B1 B2 B3 B4 B5 B6]; try reflexivity;
    try (subst c; discriminate); try (exfalso; subst c; destruct A as [A|A]; subst; destruct Q; subst; discriminate);
    try (exfalso; subst c; destruct B as [B|B]; subst; destruct Q; subst; discriminate);
    try (exfalso; apply (P c); [tauto|assumption]); try (exfalso; tauto); try (exfalso; destruct A as [A|A]; subst c; tauto); try (exfalso; destruct B as [B|B]; subst c; tauto).
  pose proof (hex_value_lt _ _ A4). pose proof (hex_value_lt _ _ A5). pose proof (hex_value_lt _ _ B4). pose proof (hex_value_lt _ _ B5).
  assert (n = n' /\ m = m') as [-> ->] by lia. rewrite (hex_value_det _ _ _ A4 B4), (hex_value_det _ _ _ A5 B5). reflexivity.
Qed.
Lemma shown_all : forall q c, q = x27 \/ q = x22 -> shown q c (repr_byte q c).
Proof.
  intros q c [->| ->]; destruct c;
    first [ apply sh_self; solve [left; reflexivity | right; reflexivity]
          | apply sh_tab; reflexivity | apply sh_newline; reflexivity | apply sh_return; reflexivity
          | apply sh_plain; [cbv; split; discriminate|discriminate|discriminate]
          | match goal with |- shown _ ?c _ => let n := eval compute in (bN c / 16)%N in let m := eval compute in (bN c mod 16)%N in
              apply (sh_hex _ c _ _ n m); [cbv; intros [X Y]; first [now apply X | now apply Y]|discriminate|discriminate|discriminate| | |reflexivity];
              cbv; first [left; now repeat split | right; now repeat split] end ].
Qed.
Lemma forall2_det : forall {A B} (R : A -> B -> Prop), (forall a b c, R a b -> R a c -> b = c) -> forall l m n, Forall2 R l m -> Forall2 R l n -> m = n.
Proof.
  intros A B R D l m n X. revert n. induction X as [|a b l m R1 X IH]; intros n Y; inversion Y; subst; [reflexivity|]. f_equal; [eapply D; eassumption|apply IH; assumption].
Qed.
Lemma bytes_text_ok : forall b, bytes_text b (bytes_repr b).
Proof.
  intros b. destruct (repr_literal b) as (_ & _ & Q). unfold bytes_repr in *. cbn [nth] in Q. set (q := quote_of b) in *.
  assert (Eq : q = x27 \/ q = x22) by (unfold q, quote_of; match goal with |- context [if ?x then _ else _] => destruct x end; auto).
  exists q, (map (repr_byte q) b). split; [|split].
  - clear Q. induction b as [|c b IH]; cbn [map]; constructor; [apply shown_all, Eq|]. clear -Eq. clearbody q. induction b; cbn; constructor; [apply shown_all, Eq|assumption].
  - rewrite flat_map_concat_map. reflexivity.
  - destruct Eq as [E|E].
    + right. split; [exact E|]. intros X. apply Q in X. rewrite X in E. discriminate.
    + left. split; [exact E|]. apply Q, E.
Qed.
Lemma bytes_text_det : forall b t u, bytes_text b t -> bytes_text b u -> t = u.
Proof.
  intros b t u (q & ts & A & -> & Q) (q' & us & B & -> & Q'). assert (E : q = q') by (destruct Q as [[-> ?]|[-> ?]], Q' as [[-> ?]|[-> ?]]; tauto). subst q'.
  assert (Eq : q = x27 \/ q = x22) by tauto. rewrite (forall2_det (shown q) (fun a x y => shown_det q a x y Eq) _ _ _ A B). reflexivity.
Qed.
Theorem bytes_text_exact : forall b t, bytes_repr b = t <-> bytes_text b t.
Proof. intros b t. split; [intros <-; apply bytes_text_ok|intros X; eapply bytes_text_det; [apply bytes_text_ok|exact X]]. Qed.

Lemma elem_text_exact : forall e t, elem_repr e = t <-> elem_text e t.
Proof.
  intros e t. split.
  - intros <-. destruct e as [b|a b]; [constructor; apply bytes_text_ok|]. exact (et_pair a b _ _ (bytes_text_ok a) (bytes_text_ok b)).
  - intros [b u X|a b u w X Y]; apply bytes_text_exact in X; [exact X|]. apply bytes_text_exact in Y. subst. reflexivity.
Qed.
Lemma joined_det : forall sep ts t u, joined sep ts t -> joined sep ts u -> t = u.
Proof.
  intros sep ts t u A. revert u. induction A as [t|t ts w A IH]; intros u B; inversion B; subst; [reflexivity|inversion H2|inversion A|]. f_equal. f_equal. apply IH. assumption.
Qed.
Lemma joined_tail : forall e l, exists t, joined (bs ", ") (map elem_repr (e :: l)) t /\ elem_repr e ++ tail_repr l = t ++ bs ")".
Proof.
  intros e l. revert e. induction l as [|e' l IH]; intros e.
  - exists (elem_repr e). split; [constructor|reflexivity].
  - destruct (IH e') as (t & J & E). exists (elem_repr e ++ bs ", " ++ t). split; [exact (jo_more _ _ _ _ J)|]. cbn [tail_repr]. rewrite E, <- !app_assoc. reflexivity.
Qed.
Lemma forall2_map : forall l, Forall2 elem_text l (map elem_repr l).
Proof. induction l; cbn; constructor; [apply elem_text_exact; reflexivity|assumption]. Qed.
Theorem tuple_text_exact : forall l t, tuple_repr l = t <-> tuple_text l t.
Proof.
  intros l t. split.
  - intros <-. destruct l as [|e [|e' l]].
    + exact tu_none.
    + apply (tu_one e (elem_repr e)). apply elem_text_exact. reflexivity.
    + destruct (joined_tail e (e' :: l)) as (u & J & E). change (tuple_repr (e :: e' :: l)) with (x28 :: elem_repr e ++ tail_repr (e' :: l)). rewrite E.
      apply (tu_more (e :: e' :: l) (map elem_repr (e :: e' :: l)) u); [cbn; lia|apply forall2_map|exact J].
  - intros [|e u X|l' ts u L F J].
    + reflexivity.
    + apply elem_text_exact in X. subst u. reflexivity.
    + rewrite (forall2_det elem_text (fun a x y X Y => eq_trans (eq_sym (proj2 (elem_text_exact a x) X)) (proj2 (elem_text_exact a y) Y)) _ _ _ F (forall2_map l')) in J.
      destruct l' as [|e [|e' l']]; try (cbn in L; lia). destruct (joined_tail e (e' :: l')) as (w & J' & E). rewrite (joined_det _ _ _ _ J J').
      change (tuple_repr (e :: e' :: l')) with (x28 :: elem_repr e ++ tail_repr (e' :: l')). rewrite E. reflexivity.
Qed.
Lemma fields_exact : forall names p t, List.length names = 5 ->
  (fields_text names p t <-> t = List.concat (map (fun nt => bs (fst nt) ++ snd nt) (combine names (map bytes_repr [pf_type p; pf_time p; pf_key p; pf_root p] ++ [tuple_repr (pf_proof p)])))).
Proof.
  intros names p t L. split.
  - intros [ts u F T]. apply tuple_text_exact in T. subst u. f_equal. f_equal. f_equal. f_equal.
    eapply (forall2_det bytes_text bytes_text_det); [exact F|]. repeat constructor; apply bytes_text_ok.
  - intros ->. constructor; [repeat constructor; apply bytes_text_ok|apply tuple_text_exact; reflexivity].
Qed.
Theorem repr_text_exact : forall p t, proof_repr p = t <-> exists u, fields_text repr_names p u /\ t = u ++ bs ")".
Proof.
  intros p t. assert (E : proof_repr p = List.concat (map (fun nt => bs (fst nt) ++ snd nt) (combine repr_names (map bytes_repr [pf_type p; pf_time p; pf_key p; pf_root p] ++ [tuple_repr (pf_proof p)]))) ++ bs ")").
  { unfold proof_repr, repr_names. cbn [map app combine fst snd List.concat]. rewrite <- !app_assoc. reflexivity. }
  rewrite E. split.
  - intros <-. eexists. split; [apply fields_exact; reflexivity|reflexivity].
  - intros (u & F & ->). apply fields_exact in F; [|reflexivity]. subst u. reflexivity.
Qed.
Theorem str_text_exact : forall p t, proof_str p = t <-> exists u, fields_text dict_names p u /\ t = u ++ bs "}".
Proof.
  intros p t. assert (E : proof_str p = List.concat (map (fun nt => bs (fst nt) ++ snd nt) (combine dict_names (map bytes_repr [pf_type p; pf_time p; pf_key p; pf_root p] ++ [tuple_repr (pf_proof p)]))) ++ bs "}").
  { unfold proof_str, dict_names. cbn [map app combine fst snd List.concat]. rewrite <- !app_assoc. reflexivity. }
  rewrite E. split.
  - intros <-. eexists. split; [apply fields_exact; reflexivity|reflexivity].
  - intros (u & F & ->). apply fields_exact in F; [|reflexivity]. subst u. reflexivity.
Qed.

(** ** Times *)
Lemma value_snoc : forall t c, decimal_value (t ++ [c]) = (10 * decimal_value t + (bN c - 48))%N.
Proof. intros t c. unfold decimal_value. rewrite fold_left_app. reflexivity. Qed.
Lemma fixed_ok : forall w n, (n < 10 ^ N.of_nat w)%N -> decimals w n (fixed w n).
Proof.
  induction w as [|w IH]; intros n L.
  - cbn in *. split; [reflexivity|]. split; [constructor|]. cbn. lia.
  - cbn [fixed]. rewrite Nat2N.inj_succ, N.pow_succ_r' in L. assert (L1 : (n / 10 < 10 ^ N.of_nat w)%N) by (apply N.div_lt_upper_bound; lia).
    destruct (IH _ L1) as (A & B & C). assert (M : (n mod 10 < 10)%N) by (apply N.mod_lt; lia).
    assert (D : bN (nB (48 + n mod 10)) = (48 + n mod 10)%N) by (apply bN_nB; lia).
    split; [|split].
    + rewrite app_length, A. cbn. lia.
    + apply Forall_app. split; [exact B|]. constructor; [|constructor]. rewrite D. lia.
    + rewrite value_snoc, C, D. pose proof (N.div_mod n 10). lia.
Qed.
Lemma decimals_det : forall w n t u, decimals w n t -> decimals w n u -> t = u.
Proof.
  induction w as [|w IH]; intros n t u (A & B & C) (A' & B' & C').
  - destruct t, u; try discriminate. reflexivity.
  - destruct (@exists_last _ t) as (t1 & c & ->); [intros ->; discriminate|]. destruct (@exists_last _ u) as (u1 & d & ->); [intros ->; discriminate|].
    apply Forall_app in B, B'. destruct B as [B B0], B' as [B' B0']. inversion B0 as [|? ? X _]; subst. inversion B0' as [|? ? Y _]; subst.
    rewrite value_snoc in C'. rewrite value_snoc in C'. rewrite app_length in A, A'. cbn in A, A'.
    assert (decimal_value t1 = decimal_value u1 /\ bN c = bN d) as [E1 E2] by lia.
    f_equal; [|f_equal; apply bN_inj, E2]. apply (IH (decimal_value t1)); (split; [lia|split; [assumption|congruence]]).
Qed.
Theorem time_text_exact : forall t s, valid_time t -> (time_str t = s <-> time_text t s).
Proof.
  intros t s (V1 & V2 & V3 & V4 & V5 & V6 & V7). split.
  - intros <-. constructor; try (apply fixed_ok; assumption). destruct (N.eqb_spec (t_us t) 0) as [E|E]; [left; auto|right]. split; [exact E|].
    exists (fixed 6 (t_us t)). split; [apply fixed_ok; assumption|reflexivity].
  - intros [a b c d e f g A B C D E F G]. unfold time_str.
    rewrite (decimals_det _ _ _ _ A (fixed_ok 4 _ V1)), (decimals_det _ _ _ _ B (fixed_ok 2 _ V2)), (decimals_det _ _ _ _ C (fixed_ok 2 _ V3)),
      (decimals_det _ _ _ _ D (fixed_ok 2 _ V4)), (decimals_det _ _ _ _ E (fixed_ok 2 _ V5)), (decimals_det _ _ _ _ F (fixed_ok 2 _ V6)).
    destruct G as [[G ->]|[G (u & U & ->)]].
    + rewrite G. reflexivity.
    + rewrite (decimals_det _ _ _ _ U (fixed_ok 6 _ V7)). destruct (N.eqb_spec (t_us t) 0); [contradiction|reflexivity].
Qed.
