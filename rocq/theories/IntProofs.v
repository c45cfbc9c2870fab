(** [int(b, 16)] is exact, and with it hash and equality of tries. *)
From Coq Require Import List Bool Arith NArith ZArith Lia.
From Verif Require Import Base BaseProofs Rlp NibblePath Node ProofObj Mpt SpecJson JsonExact SpecInt MptEq.
Import ListNotations.
Local Open Scope Z_scope.

Lemma space_white : forall c, is_space c = true <-> In c [x09; x0a; x0b; x0c; x0d; x20].
Proof. intros c. split; [destruct c; try discriminate; cbn; tauto|]. intros I. cbn in I. intuition subst; reflexivity. Qed.
Lemma spaces_white : forall b, forallb is_space b = true <-> white b.
Proof.
  intros b. unfold white. rewrite forallb_forall, Forall_forall. split; intros F x I; apply space_white; auto.
Qed.
Lemma digit_val : forall c z, hexval c = Some z <-> exists n, hex_digit (bN c) n /\ z = Z.of_N n.
Proof.
  intros c z. split.
  - intros E. destruct (hexval_N _ _ E) as [n ->]. exists n. split; [now apply hexval_some|reflexivity].
  - intros (n & D & ->). now apply hexval_some.
Qed.
Lemma digit_not_space : forall c z, hexval c = Some z -> is_space c = false.
Proof. intros c z. destruct c; try reflexivity; discriminate. Qed.

(** What follows the first digit. *)
Inductive rest : Z -> bytes -> Z -> Prop :=
| rest_end : forall a, rest a [] a
| rest_digit : forall a c d s z, hexval c = Some d -> rest (16 * a + d) s z -> rest a (c :: s) z
| rest_under : forall a c d s z, hexval c = Some d -> rest (16 * a + d) s z -> rest a (x5f :: c :: s) z.
Lemma rest_snoc : forall a s z, rest a s z -> forall c d, hexval c = Some d -> rest a (s ++ [c]) (16 * z + d) /\ rest a (s ++ [x5f; c]) (16 * z + d).
Proof.
  induction 1 as [a|a c d s z E R IH|a c d s z E R IH]; intros c' d' E'; cbn [app].
  - split; [eapply rest_digit; [exact E'|constructor]|eapply rest_under; [exact E'|constructor]].
  - destruct (IH c' d' E') as [A B]. split; eapply rest_digit; eassumption.
  - destruct (IH c' d' E') as [A B]. split; eapply rest_under; eassumption.
Qed.
Lemma number_rest : forall s v, hex_number s v <-> exists c d r, s = c :: r /\ hexval c = Some d /\ rest d r v.
Proof.
  intros s v. split.
  - induction 1 as [c n D|s v c n N (c0 & d & r & -> & E & R) D|s v c n N (c0 & d & r & -> & E & R) D].
    + exists c, (Z.of_N n), []. split; [reflexivity|]. split; [apply digit_val; eauto|constructor].
    + exists c0, d, (r ++ [c]). split; [reflexivity|]. split; [exact E|]. apply (rest_snoc d r v R c). apply digit_val; eauto.
    + exists c0, d, (r ++ [x5f; c]). split; [reflexivity|]. split; [exact E|]. apply (rest_snoc d r v R c). apply digit_val; eauto.
  - intros (c & d & r & -> & E & R).
    assert (G : forall a r v, rest a r v -> forall s, hex_number s a -> hex_number (s ++ r) v).
    { clear. induction 1 as [a|a c d r z E R IH|a c d r z E R IH]; intros s N.
      - now rewrite app_nil_r.
      - apply digit_val in E as (n & D & ->). replace (s ++ c :: r) with ((s ++ [c]) ++ r) by (now rewrite <- app_assoc). apply IH. now apply num_more.
      - apply digit_val in E as (n & D & ->). replace (s ++ x5f :: c :: r) with ((s ++ [x5f; c]) ++ r) by (now rewrite <- app_assoc). apply IH. now apply num_underscore. }
    apply (G d r v R [c]). apply digit_val in E as (n & D & ->). now constructor.
Qed.

Lemma digits_space : forall w a, white w -> digits w a false true = Some a.
Proof.
  intros w a W. destruct w as [|c w]; [reflexivity|]. pose proof W as W'. apply spaces_white in W'. cbn [forallb] in W'. apply andb_true_iff in W' as [C W'].
  cbn [digits]. destruct (hexval c) as [d|] eqn:E; [apply digit_not_space in E; congruence|]. cbn [negb andb forallb]. rewrite C, W'. destruct c; try discriminate C; reflexivity.
Qed.
Lemma digits_sound : forall n b a z, (length b < n)%nat ->
  (digits b a false true = Some z -> exists s w, b = s ++ w /\ white w /\ rest a s z) /\
  (forall any, digits b a true any = Some z -> exists c d r w, b = (c :: r) ++ w /\ hexval c = Some d /\ white w /\ rest (16 * a + d) r z).
Proof.
  induction n as [|n IH]; intros b a z L; [lia|]. split.
  - intros E. destruct b as [|c b].
    + injection E as <-. exists [], []. split; [reflexivity|]. split; constructor.
    + cbn [length] in L. cbn [digits] in E. destruct (hexval c) as [d|] eqn:X.
      * destruct (IH b (16 * a + d) z) as [I _]; [lia|]. destruct (I E) as (s & w & -> & W & R). exists (c :: s), w. split; [reflexivity|]. split; [exact W|]. now apply rest_digit with d.
      * destruct (Byte.eqb c x5f) eqn:U.
        { apply Byte.byte_dec_bl in U. subst c. destruct (IH b a z) as [_ I]; [lia|]. destruct (I true E) as (c & d & r & w & -> & Xc & W & R).
          exists (x5f :: c :: r), w. split; [reflexivity|]. split; [exact W|]. now apply rest_under with d. }
        { assert (E' : (if true && negb false && forallb is_space (c :: b) then Some a else None) = Some z) by (destruct c; try exact E; discriminate U).
          destruct (forallb is_space (c :: b)) eqn:S; [|discriminate]. injection E' as <-. exists [], (c :: b). split; [reflexivity|]. split; [now apply spaces_white|constructor]. }
  - intros any E. destruct b as [|c b]; [cbn in E; rewrite andb_false_r in E; discriminate|]. cbn [length] in L. cbn [digits] in E. destruct (hexval c) as [d|] eqn:X.
    + destruct (IH b (16 * a + d) z) as [I _]; [lia|]. destruct (I E) as (s & w & -> & W & R). exists c, d, s, w. split; [reflexivity|]. split; [exact X|]. split; [exact W|exact R].
    + cbn [negb] in E. rewrite andb_false_r in E. cbn [andb] in E. destruct c; discriminate E.
Qed.
Lemma digits_rest : forall a s z, rest a s z -> forall w, white w -> digits (s ++ w) a false true = Some z.
Proof.
  induction 1 as [a|a c d s z E R IH|a c d s z E R IH]; intros w W; cbn [app].
  - now apply digits_space.
  - cbn [digits]. rewrite E. now apply IH.
  - cbn [digits hexval]. change (hexval x5f) with (@None Z). cbn iota. rewrite E. now apply IH.
Qed.
Lemma digits_exact : forall b z, digits b 0 true false = Some z <-> exists s w, b = s ++ w /\ white w /\ hex_number s z.
Proof.
  intros b z. split.
  - intros E. destruct (digits_sound (S (length b)) b 0 z) as [_ I]; [lia|]. destruct (I false E) as (c & d & r & w & -> & X & W & R).
    exists (c :: r), w. split; [reflexivity|]. split; [exact W|]. apply number_rest. exists c, d, r. auto.
  - intros (s & w & -> & W & N). apply number_rest in N as (c & d & r & -> & X & R). cbn [app digits]. rewrite X. now apply digits_rest.
Qed.

(** The prefix. *)
Definition strip_base (b : bytes) : bytes :=
  match b with x30 :: x78 :: r | x30 :: x58 :: r => match r with x5f :: r' => r' | _ => r end | _ => b end.
Lemma number_start : forall s v, hex_number s v -> exists c r, s = c :: r /\ hexval c <> None.
Proof. intros s v N. apply number_rest in N as (c & d & r & -> & X & _). exists c, r. split; [reflexivity|congruence]. Qed.
Lemma number_second : forall s v w, hex_number s v -> white w -> forall d r, s ++ w = x30 :: d :: r -> d <> x78 /\ d <> x58.
Proof.
  intros s v w N W d r E. apply number_rest in N as (c & a & t & -> & X & R). cbn [app] in E. injection E as -> E.
  destruct R as [a|a c d0 t z Y R|a c d0 t z Y R].
  - cbn [app] in E. subst w. inversion W as [|? ? I _]; subst. cbn in I. split; intros ->; intuition discriminate.
  - injection E as -> _. split; intros ->; discriminate.
  - injection E as <- _. split; discriminate.
Qed.
Lemma strip_exact : forall b z, digits (strip_base b) 0 true false = Some z <-> exists p s w, base_prefix p /\ b = p ++ s ++ w /\ white w /\ hex_number s z.
Proof.
  intros b z. rewrite digits_exact. split.
  - intros (s & w & E & W & N). destruct (number_start s z N) as (c & r & Es & Xc).
    assert (K : exists p, base_prefix p /\ b = p ++ strip_base b).
    { unfold strip_base, base_prefix. destruct b as [|b0 b]; [exists []; cbn; auto|].
      destruct (Byte.eqb b0 x30) eqn:Z0; [apply Byte.byte_dec_bl in Z0; subst b0|exists []; split; [cbn; auto|]; destruct b0; try reflexivity; discriminate Z0].
      destruct b as [|b1 b]; [exists []; cbn; auto|].
      destruct (Byte.eqb b1 x78) eqn:Z1; [apply Byte.byte_dec_bl in Z1; subst b1|destruct (Byte.eqb b1 x58) eqn:Z2; [apply Byte.byte_dec_bl in Z2; subst b1|exists []; split; [cbn; auto|]; destruct b1; try reflexivity; discriminate]].
      - destruct b as [|b2 b]; [exists [x30; x78]; cbn; auto|]. destruct (Byte.eqb b2 x5f) eqn:Z3; [apply Byte.byte_dec_bl in Z3; subst b2; exists [x30; x78; x5f]; cbn; auto 6|].
        exists [x30; x78]. split; [cbn; auto|]. destruct b2; try reflexivity; discriminate Z3.
      - destruct b as [|b2 b]; [exists [x30; x58]; cbn; auto|]. destruct (Byte.eqb b2 x5f) eqn:Z3; [apply Byte.byte_dec_bl in Z3; subst b2; exists [x30; x58; x5f]; cbn; auto 7|].
        exists [x30; x58]. split; [cbn; auto|]. destruct b2; try reflexivity; discriminate Z3. }
    destruct K as (p & P & Eb). exists p, s, w. split; [exact P|]. split; [rewrite Eb at 1; now rewrite E|]. split; assumption.
  - intros (p & s & w & P & -> & W & N). exists s, w. split; [|split; assumption]. destruct (number_start s z N) as (c & r & Es & Xc).
    assert (Nu : c <> x5f) by (intros ->; apply Xc; reflexivity).
    assert (Sk : forall q, match c :: q with x5f :: r' => r' | _ => c :: q end = c :: q) by (intros q; destruct c; try reflexivity; congruence).
    unfold base_prefix in P. cbn in P. destruct P as [<-|[<-|[<-|[<-|[<-|[]]]]]]; cbn [app].
    + pose proof (number_second s z w N W) as Q. rewrite Es in *. cbn [app] in *. unfold strip_base. destruct (Byte.eqb c x30) eqn:Z0.
      * apply Byte.byte_dec_bl in Z0. subst c. destruct (r ++ w) as [|d q]; [reflexivity|]. destruct (Q d q eq_refl) as [Q1 Q2]. destruct d; try reflexivity; congruence.
      * destruct c; try reflexivity; discriminate Z0.
    + rewrite Es. cbn [app strip_base]. apply Sk.
    + rewrite Es. cbn [app strip_base]. apply Sk.
    + reflexivity.
    + reflexivity.
Qed.

(** Sign and white space. *)
Lemma skip_exact : forall b, exists w, b = w ++ skip_space b /\ white w /\ (forall c r, skip_space b = c :: r -> is_space c = false).
Proof.
  induction b as [|c b (w & E & W & F)]; [exists []; cbn; split; [reflexivity|]; split; [constructor|discriminate]|]. cbn [skip_space].
  destruct (is_space c) eqn:S.
  - exists (c :: w). split; [cbn; now rewrite <- E|]. split; [|exact F]. constructor; [now apply space_white|exact W].
  - exists []. split; [reflexivity|]. split; [constructor|]. intros c' r X. injection X as <- _. exact S.
Qed.
Lemma skip_white : forall w b, white w -> (forall c r, b = c :: r -> is_space c = false) -> skip_space (w ++ b) = b.
Proof.
  intros w b W F. induction W as [|c w I W IH]; cbn [app skip_space].
  - destruct b as [|c b]; [reflexivity|]. cbn [skip_space]. now rewrite (F c b eq_refl).
  - apply space_white in I. rewrite I. exact IH.
Qed.
Lemma py_int16_eq : forall b, py_int16 b =
  match skip_space b with
  | x2b :: r => digits (strip_base r) 0 true false
  | x2d :: r => option_map Z.opp (digits (strip_base r) 0 true false)
  | _ => digits (strip_base (skip_space b)) 0 true false
  end.
Proof.
  intros b. unfold py_int16. fold strip_base. destruct (skip_space b) as [|c r]; [reflexivity|].
  assert (I : forall o : option Z, option_map (fun z => 1 * z) o = o) by (intros [z|]; [cbn [option_map]; f_equal; lia|reflexivity]).
  assert (J : forall o : option Z, option_map (fun z => -1 * z) o = option_map Z.opp o) by (intros [z|]; [cbn [option_map]; f_equal; lia|reflexivity]).
  destruct c; try (rewrite I; reflexivity). rewrite J. reflexivity.
Qed.
Lemma body_start : forall p s v w, base_prefix p -> hex_number s v -> exists c r, p ++ s ++ w = c :: r /\ hexval c <> None.
Proof.
  intros p s v w P N. destruct (number_start s v N) as (c & r & -> & X). unfold base_prefix in P. cbn in P.
  destruct P as [<-|[<-|[<-|[<-|[<-|[]]]]]]; cbn [app]; do 2 eexists; (split; [reflexivity|]); try exact X; discriminate.
Qed.
Theorem int_exact : forall b z, py_int16 b = Some z <-> int_text b z.
Proof.
  intros b z. rewrite py_int16_eq. split.
  - destruct (skip_exact b) as (w & E & W & F). intros X. unfold int_text. destruct (skip_space b) as [|c r] eqn:S; [discriminate|].
    destruct (Byte.eqb c x2b) eqn:P; [apply Byte.byte_dec_bl in P; subst c|destruct (Byte.eqb c x2d) eqn:M; [apply Byte.byte_dec_bl in M; subst c|]].
    + apply strip_exact in X as (p & s & w' & Pp & Er & W' & N). exists w, p, s, z, w'. split; [exact W|]. split; [exact Pp|]. split; [exact N|]. split; [exact W'|].
      right. left. split; [now rewrite E, Er|reflexivity].
    + destruct (digits (strip_base r) 0 true false) as [v|] eqn:D; [|discriminate]. injection X as <-.
      apply strip_exact in D as (p & s & w' & Pp & Er & W' & N). exists w, p, s, v, w'. split; [exact W|]. split; [exact Pp|]. split; [exact N|]. split; [exact W'|].
      right. right. split; [now rewrite E, Er|reflexivity].
    + assert (X' : digits (strip_base (c :: r)) 0 true false = Some z) by (destruct c; try exact X; discriminate).
      apply strip_exact in X' as (p & s & w' & Pp & Er & W' & N). exists w, p, s, z, w'. split; [exact W|]. split; [exact Pp|]. split; [exact N|]. split; [exact W'|].
      left. split; [now rewrite E, Er|reflexivity].
  - intros (w & p & s & v & w' & W & P & N & W' & K).
    assert (D : digits (strip_base (p ++ s ++ w')) 0 true false = Some v) by (apply strip_exact; exists p, s, w'; auto).
    destruct K as [[-> ->]|[[-> ->]|[-> ->]]].
    + destruct (body_start p s v w' P N) as (c & r & E & X). rewrite E in *. rewrite skip_white; [|exact W|].
      2:{ intros c' r' Y. injection Y as <- _. destruct (hexval c) as [d|] eqn:Z; [exact (digit_not_space c d Z)|congruence]. }
      destruct c; try exact D; exfalso; apply X; reflexivity.
    + rewrite skip_white; [exact D|exact W|]. intros c' r' Y. injection Y as <- _. reflexivity.
    + rewrite skip_white; [now rewrite D|exact W|]. intros c' r' Y. injection Y as <- _. reflexivity.
Qed.

Section WithHash.
Context {H : Hash}.
(** Hash and equality of tries. *)
Theorem hash_exact : forall t, (forall z, mpt_hash t = Ok z <-> exists r, m_root t = Some r /\ int_text (keccak r) z) /\
  (mpt_hash t = Err TypeError <-> m_root t = None) /\
  (mpt_hash t = Err ValueError <-> exists r, m_root t = Some r /\ forall z, ~ int_text (keccak r) z) /\
  (forall e, mpt_hash t = Err e -> e = TypeError \/ e = ValueError).
Proof.
  intros t. unfold mpt_hash. destruct (m_root t) as [r|].
  - destruct (py_int16 (keccak r)) as [z|] eqn:E.
    + apply int_exact in E. split; [intros z'; split|split; [split; discriminate|split]].
      * intros X. injection X as <-. eauto.
      * intros (r' & Er & X). injection Er as <-. apply int_exact in E, X. congruence.
      * split; [discriminate|]. intros (r' & Er & X). injection Er as <-. exfalso. exact (X z E).
      * discriminate.
    + assert (N : forall z, ~ int_text (keccak r) z) by (intros z X; apply int_exact in X; congruence).
      split; [intros z'; split; [discriminate|intros (r' & Er & X); injection Er as <-; exfalso; exact (N _ X)]|].
      split; [split; discriminate|]. split; [split; [intros _; eauto|reflexivity]|]. intros e X. injection X as <-. now right.
  - split; [intros z; split; [discriminate|intros (r & X & _); discriminate]|]. split; [tauto|]. split; [split; [discriminate|intros (r & X & _); discriminate]|].
    intros e X. injection X as <-. now left.
Qed.
Theorem eq_exact : forall t t' (b : bool), (mpt_eq t t' = Ok b <-> exists r r' z z', m_root t = Some r /\ m_root t' = Some r' /\
  int_text (keccak r) z /\ int_text (keccak r') z' /\ (b = true <-> z = z')) /\
  (forall e, mpt_eq t t' = Err e <-> mpt_hash t = Err e \/ ((exists z, mpt_hash t = Ok z) /\ mpt_hash t' = Err e)).
Proof.
  intros t t' b. unfold mpt_eq. pose proof (hash_exact t) as [A _]. pose proof (hash_exact t') as [A' _].
  destruct (mpt_hash t) as [z|e] eqn:E; cbn [bind].
  - destruct (proj1 (A z) eq_refl) as (r & Er & T). destruct (mpt_hash t') as [z'|e'] eqn:E'; cbn [bind].
    + destruct (proj1 (A' z') eq_refl) as (r' & Er' & T'). split; [split|].
      * intros X. injection X as <-. exists r, r', z, z'. repeat (split; [assumption|]). apply Z.eqb_eq.
      * intros (r1 & r1' & y & y' & X1 & X2 & Y1 & Y2 & ZZ). f_equal. assert (r1 = r) by congruence. assert (r1' = r') by congruence. subst r1 r1'.
        apply int_exact in T, T', Y1, Y2. assert (y = z) by congruence. assert (y' = z') by congruence. subst y y'. apply eq_true_iff_eq. rewrite Z.eqb_eq. now symmetry.
      * intros e. split; [discriminate|]. intros [X|[_ X]]; discriminate.
    + split; [split; [discriminate|]|].
      * intros (r1 & r1' & y & y' & X1 & X2 & Y1 & Y2 & ZZ). assert (Q : @Err Z e' = Ok y') by (apply A'; eauto). discriminate.
      * intros e. split; [intros X; right; split; [eauto|congruence]|]. intros [X|[_ X]]; congruence.
  - split; [split; [discriminate|]|].
    + intros (r1 & r1' & y & y' & X1 & X2 & Y1 & Y2 & ZZ). assert (Q : @Err Z e = Ok y) by (apply A; eauto). discriminate.
    + intros e'. split; [intros X; left; congruence|]. intros [X|[[z X] _]]; congruence.
Qed.
End WithHash.

From Verif Require Import MptHash.
(** What [hash] makes of a number, said without cases on its sign. *)
Theorem slot_hash_range : forall z, slot_hash z <> -1 /\ - 2 ^ 63 <= slot_hash z < 2 ^ 63.
Proof.
  intros z. unfold slot_hash. set (h := if ((- 2 ^ 63 <=? z) && (z <? 2 ^ 63))%bool then z else Z.sgn z * (Z.abs z mod (2 ^ 61 - 1))).
  assert (R : - 2 ^ 63 <= h < 2 ^ 63).
  { subst h. destruct ((- 2 ^ 63 <=? z) && (z <? 2 ^ 63))%bool eqn:E.
    - apply andb_true_iff in E as [A B]. apply Z.leb_le in A. apply Z.ltb_lt in B. lia.
    - pose proof (Z.mod_pos_bound (Z.abs z) (2 ^ 61 - 1) ltac:(lia)) as M. set (m := Z.abs z mod (2 ^ 61 - 1)) in *. destruct z as [|p|p]; cbn [Z.sgn]; lia. }
  destruct (Z.eqb_spec h (-1)); lia.
Qed.
Theorem slot_hash_exact : forall z h, slot_hash z = h <->
  (z <> -1 /\ - 2 ^ 63 <= z < 2 ^ 63 /\ h = z) \/ (z = -1 /\ h = -2) \/
  (2 ^ 63 <= z /\ exists q, z = q * (2 ^ 61 - 1) + h /\ 0 <= h < 2 ^ 61 - 1) \/
  (z < - 2 ^ 63 /\ exists q r, - z = q * (2 ^ 61 - 1) + r /\ 0 <= r < 2 ^ 61 - 1 /\ ((r <> 1 /\ h = - r) \/ (r = 1 /\ h = -2))).
Proof.
  intros z h. set (P := 2 ^ 61 - 1). assert (PP : P = 2305843009213693951) by reflexivity. unfold slot_hash. fold P.
  destruct ((- 2 ^ 63 <=? z) && (z <? 2 ^ 63))%bool eqn:E.
  - apply andb_true_iff in E as [A B]. apply Z.leb_le in A. apply Z.ltb_lt in B. destruct (Z.eqb_spec z (-1)) as [->|N].
    + split; [intros <-; right; left; auto|]. intros [(X & _)|[(_ & ->)|[(X & _)|(X & _)]]]; try lia.
    + split; [intros <-; left; auto|]. intros [(_ & _ & X)|[(X & _)|[(X & _)|(X & _)]]]; lia.
  - assert (R : z < - 2 ^ 63 \/ 2 ^ 63 <= z) by (apply andb_false_iff in E as [E|E]; [apply Z.leb_gt in E|apply Z.ltb_ge in E]; lia). clear E.
    pose proof (Z.mod_pos_bound (Z.abs z) P ltac:(lia)) as M. pose proof (Z.div_mod (Z.abs z) P ltac:(lia)) as D.
    set (m := Z.abs z mod P) in *. set (q := Z.abs z / P) in *. destruct R as [R|R].
    + assert (Sg : Z.sgn z = -1) by (apply Z.sgn_neg_iff; lia). rewrite Sg. assert (A : Z.abs z = - z) by lia. rewrite A in *.
      split.
      * intros <-. right. right. right. split; [exact R|]. exists q, m. split; [lia|]. split; [exact M|]. destruct (Z.eqb_spec (-1 * m) (-1)); lia.
      * intros [(_ & X & _)|[(X & _)|[(X & _)|(_ & q' & r & X & Y & K)]]]; try lia.
        assert (r = m). { apply (Z.mod_unique_pos (- z) P q' r) in Y; [|lia]. subst r. unfold m. now rewrite A. }
        subst r. destruct (Z.eqb_spec (-1 * m) (-1)); lia.
    + assert (Sg : Z.sgn z = 1) by (apply Z.sgn_pos_iff; lia). rewrite Sg. assert (A : Z.abs z = z) by lia. rewrite A in *.
      destruct (Z.eqb_spec (1 * m) (-1)); [lia|]. split.
      * intros <-. right. right. left. split; [exact R|]. exists q. lia.
      * intros [(_ & X & _)|[(X & _)|[(_ & q' & X & Y)|(X & _)]]]; try lia.
Qed.
Section WithHash2.
Context {H : Hash}.
Theorem builtin_exact : forall t h, mpt_builtin_hash t = Ok h <-> exists r z, m_root t = Some r /\ int_text (keccak r) z /\ slot_hash z = h.
Proof.
  intros t h. unfold mpt_builtin_hash. pose proof (hash_exact t) as [A _]. destruct (mpt_hash t) as [z|e] eqn:E; cbn [bind].
  - destruct (proj1 (A z) eq_refl) as (r & Er & T). split.
    + intros X. injection X as <-. eauto.
    + intros (r' & z' & Er' & T' & <-). assert (r' = r) by congruence. subst r'. apply int_exact in T, T'. assert (z' = z) by congruence. now subst z'.
  - split; [discriminate|]. intros (r' & z' & Er' & T' & <-). assert (Q : @Err Z e = Ok z') by (apply A; eauto). discriminate.
Qed.
Theorem builtin_raises : forall t e, mpt_builtin_hash t = Err e <-> mpt_hash t = Err e.
Proof. intros t e. unfold mpt_builtin_hash. destruct (mpt_hash t); cbn [bind]; split; congruence. Qed.
Theorem equal_hash : forall t t', mpt_eq t t' = Ok true -> exists h, mpt_builtin_hash t = Ok h /\ mpt_builtin_hash t' = Ok h.
Proof.
  intros t t' E. apply (eq_exact t t' true) in E as (r & r' & z & z' & Er & Er' & T & T' & K). assert (z = z') by tauto. subst z'.
  exists (slot_hash z). split; apply builtin_exact; eauto.
Qed.
Theorem any_exact : forall t o (b : bool), (mpt_eq_any t o = Ok b <-> (o = Other /\ b = false) \/ exists t', o = Trie t' /\ mpt_eq t t' = Ok b) /\
  (forall e, mpt_eq_any t o = Err e -> exists t', o = Trie t').
Proof.
  intros t [t'|] b; cbn [mpt_eq_any].
  - split; [split; [eauto|intros [[X _]|(t1 & X & Y)]; [discriminate|injection X as <-; exact Y]]|eauto].
  - split; [split; [intros X; injection X as <-; auto|intros [[_ ->]|(t1 & X & _)]; [reflexivity|discriminate]]|discriminate].
Qed.
End WithHash2.
