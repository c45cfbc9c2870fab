(** [json.loads] accepts exactly the texts of the grammar in SpecJson.v, with the values it gives them; UTF-8 likewise. *)
From Coq Require Import List Bool Arith NArith ZArith Lia ZifyN ZifyBool ZifyNat.
From Verif Require Import Base BaseProofs Json JsonProofs SpecJson.
Import ListNotations.
Local Open Scope N_scope.

(** ** UTF-8 *)
Lemma utf8_char_bytes : forall c x, utf8_char c = Some x -> utf8_bytes c x.
Proof.
  intros c x E. unfold utf8_char in E.
  destruct (c <? 128) eqn:C1.
  { apply some_inj in E; subst x. rewrite <- (bN_nB c) at 1 by lia. constructor. rewrite bN_nB; lia. }
  destruct (c <? 2048) eqn:C2.
  { apply some_inj in E; subst x. replace c with (c / 64 * 64 + c mod 64) at 1 by lia.
    constructor; try rewrite bN_nB; lia. }
  destruct ((55296 <=? c) && (c <=? 57343)) eqn:C3; [discriminate|].
  destruct (c <? 65536) eqn:C4.
  { apply some_inj in E; subst x. replace c with (c / 4096 * 4096 + c / 64 mod 64 * 64 + c mod 64) at 1 by lia.
    constructor; try rewrite bN_nB; lia. }
  destruct (c <? 1114112) eqn:C5; [|discriminate].
  apply some_inj in E; subst x. replace c with (c / 262144 * 262144 + c / 4096 mod 64 * 4096 + c / 64 mod 64 * 64 + c mod 64) at 1 by lia.
  constructor; try rewrite bN_nB; lia.
Qed.
Lemma cbits_val : forall b y, bN b = 128 + y -> y < 64 -> cbits b = Some y.
Proof. intros b y E L. unfold cbits. rewrite E. replace ((128 <=? 128 + y) && (128 + y <? 192)) with true by lia. f_equal. lia. Qed.
Lemma utf8_bytes_dec : forall c x r, utf8_bytes c x -> utf8_dec (x ++ r) = option_map (cons c) (utf8_dec r).
Proof.
  intros c x r B. destruct B; cbn [app utf8_dec].
  - replace (bN a <? 128) with true by lia. reflexivity.
  - rewrite H, (cbits_val b y) by assumption.
    replace (192 + x <? 128) with false by lia. replace (192 + x <? 192) with false by lia. replace (192 + x <? 224) with true by lia.
    cbv zeta. replace (192 + x - 192) with x by lia. unfold in_plane.
    replace ((128 <=? x * 64 + y) && (x * 64 + y <? 1114112) && negb ((55296 <=? x * 64 + y) && (x * 64 + y <=? 57343))) with true by lia.
    reflexivity.
  - rewrite H, (cbits_val b y), (cbits_val c z) by assumption.
    replace (224 + x <? 128) with false by lia. replace (224 + x <? 192) with false by lia. replace (224 + x <? 224) with false by lia.
    replace (224 + x <? 240) with true by lia. cbv zeta. replace (224 + x - 224) with x by lia. unfold in_plane.
    set (n := x * 4096 + y * 64 + z) in *.
    replace ((2048 <=? n) && (n <? 1114112) && negb ((55296 <=? n) && (n <=? 57343))) with true by lia.
    reflexivity.
  - rewrite H, (cbits_val b y), (cbits_val c z), (cbits_val d w) by assumption.
    replace (240 + x <? 128) with false by lia. replace (240 + x <? 192) with false by lia. replace (240 + x <? 224) with false by lia.
    replace (240 + x <? 240) with false by lia. replace (240 + x <? 248) with true by lia. cbv zeta. replace (240 + x - 240) with x by lia.
    unfold in_plane. set (n := x * 262144 + y * 4096 + z * 64 + w) in *.
    replace ((65536 <=? n) && (n <? 1114112) && negb ((55296 <=? n) && (n <=? 57343))) with true by lia.
    reflexivity.
Qed.
Lemma utf8_form_encode : forall s b, utf8_encode s = Ok b <-> utf8_form s b.
Proof.
  split.
  - revert b. induction s as [|c s IH]; intros b E; cbn [utf8_encode] in E.
    + injection E as <-. constructor.
    + destruct (utf8_char c) as [x|] eqn:Ec; [|discriminate]. destruct (utf8_encode s) as [y|] eqn:Es; [|discriminate].
      injection E as <-. constructor; [now apply utf8_char_bytes|auto].
  - intros F. apply utf8_dec_encode. induction F as [|c x s b B F IH]; [reflexivity|].
    rewrite (utf8_bytes_dec c x b B), IH. reflexivity.
Qed.
Lemma utf8_form_decode : forall s b, utf8_decode b = Ok s <-> utf8_form s b.
Proof.
  intros s b. rewrite <- utf8_form_encode. split; [apply utf8_decode_encode|apply utf8_encode_decode].
Qed.

(** ** White space *)
Lemma is_ws_in : forall c, is_ws c = true <-> In c [32; 9; 10; 13].
Proof. intros c. unfold is_ws. cbn [In]. lia. Qed.
Lemma ws_split : forall s, exists w, blank w /\ s = w ++ ws s.
Proof.
  induction s as [|c s [w [B E]]]; [exists []; split; [constructor|reflexivity]|]. cbn [ws].
  destruct (is_ws c) eqn:Ec.
  - exists (c :: w). split; [constructor; [now apply is_ws_in|exact B]|]. cbn [app]. now rewrite <- E.
  - exists []. split; [constructor|reflexivity].
Qed.
Lemma ws_blank : forall w r, blank w -> ws (w ++ r) = ws r.
Proof.
  induction w as [|c w IH]; intros r B; [reflexivity|]. inversion B; subst. cbn [app ws].
  replace (is_ws c) with true by (symmetry; now apply is_ws_in). now apply IH.
Qed.
Lemma ws_nil : forall s, ws s = [] <-> blank s.
Proof.
  intros s. split.
  - intros E. destruct (ws_split s) as [w [B W]]. rewrite E, app_nil_r in W. now subst.
  - intros B. rewrite <- (app_nil_r s). rewrite ws_blank by exact B. reflexivity.
Qed.
Lemma ws_keep : forall c r, is_ws c = false -> ws (c :: r) = c :: r.
Proof. intros c r E. cbn [ws]. now rewrite E. Qed.

(** ** Strings *)
Lemma unhexd_digit : forall c n, unhexd c = Some n <-> hex_digit c n.
Proof.
  intros c n. unfold unhexd. split.
  - destruct ((48 <=? c) && (c <=? 57)) eqn:A.
    { intros E. apply some_inj in E. subst n. replace c with (48 + (c - 48)) at 1 by lia. constructor. lia. }
    destruct ((97 <=? c) && (c <=? 102)) eqn:B.
    { intros E. apply some_inj in E. subst n. replace c with (97 + (c - 97)) at 1 by lia. replace (c - 87) with (10 + (c - 97)) by lia. constructor. lia. }
    destruct ((65 <=? c) && (c <=? 70)) eqn:D; [|discriminate].
    intros E. apply some_inj in E. subst n. replace c with (65 + (c - 65)) at 1 by lia. replace (c - 55) with (10 + (c - 65)) by lia. constructor. lia.
  - intros D. destruct D as [m L|m L|m L].
    + replace ((48 <=? 48 + m) && (48 + m <=? 57)) with true by lia. f_equal. lia.
    + replace ((48 <=? 97 + m) && (97 + m <=? 57)) with false by lia.
      replace ((97 <=? 97 + m) && (97 + m <=? 102)) with true by lia. f_equal. lia.
    + replace ((48 <=? 65 + m) && (65 + m <=? 57)) with false by lia.
      replace ((97 <=? 65 + m) && (65 + m <=? 102)) with false by lia.
      replace ((65 <=? 65 + m) && (65 + m <=? 70)) with true by lia. f_equal. lia.
Qed.
Lemma hex4_escape : forall p q r s u, hex4 p q r s = Some u <-> u_escape [92; 117; p; q; r; s] u.
Proof.
  intros p q r s u. unfold hex4. split.
  - destruct (unhexd p) eqn:P; [|discriminate]. destruct (unhexd q) eqn:Q; [|discriminate].
    destruct (unhexd r) eqn:R; [|discriminate]. destruct (unhexd s) eqn:S; [|discriminate].
    intros E. apply some_inj in E. subst u. constructor; now apply unhexd_digit.
  - intros U. inversion U; subst. 
    repeat match goal with h : hex_digit _ _ |- _ => apply unhexd_digit in h; rewrite h; clear h end. reflexivity.
Qed.
Lemma short_in : forall e c, simple_esc e = Some c <-> In (e, c) short_escapes.
Proof.
  intros e c. unfold simple_esc, short_escapes. cbn [In]. split.
  - repeat match goal with |- context [if ?e =? ?n then _ else _] => destruct (N.eqb_spec e n) end; intros E; try discriminate;
      apply some_inj in E; subst; tauto.
  - intros I. repeat destruct I as [I|I]; try contradiction; injection I as <- <-; reflexivity.
Qed.
Lemma hex_not_quote : forall c n, hex_digit c n -> c <> 34.
Proof. intros c n D E. destruct D; lia. Qed.
Lemma high_iff : forall u, is_high u = true <-> high u.
Proof. intros u. unfold is_high, high. lia. Qed.
Lemma low_iff : forall u, is_low u = true <-> low u.
Proof. intros u. unfold is_low, low. lia. Qed.

Lemma low_follows_body : forall b r, low_follows (b ++ 34 :: r) -> low_follows b.
Proof.
  intros b r [x [w [r' [E [U L]]]]]. destruct U as [p q s t a c d e Hp Hq Hs Ht]. cbn [app] in E.
  apply hex_not_quote in Hp as Np. apply hex_not_quote in Hq as Nq. apply hex_not_quote in Hs as Ns. apply hex_not_quote in Ht as Nt.
  destruct b as [|b1 b]; [discriminate E|]. cbn [app] in E. injection E as -> E.
  destruct b as [|b2 b]; [discriminate E|]. cbn [app] in E. injection E as -> E.
  destruct b as [|b3 b]; [cbn [app] in E; injection E as E _; congruence|]. cbn [app] in E. injection E as -> E.
  destruct b as [|b4 b]; [cbn [app] in E; injection E as E _; congruence|]. cbn [app] in E. injection E as -> E.
  destruct b as [|b5 b]; [cbn [app] in E; injection E as E _; congruence|]. cbn [app] in E. injection E as -> E.
  destruct b as [|b6 b]; [cbn [app] in E; injection E as E _; congruence|]. cbn [app] in E. injection E as -> E.
  exists [92; 117; p; q; s; t], (a * 4096 + c * 256 + d * 16 + e), b. split; [reflexivity|]. split; [now constructor|exact L].
Qed.
Lemma low_follows_more : forall b r, low_follows b -> low_follows (b ++ r).
Proof. intros b r [x [w [r' [-> H]]]]. exists x, w, (r' ++ r). rewrite app_assoc. split; [reflexivity|exact H]. Qed.

Lemma pstr_bad_u : forall p q s t r, hex4 p q s t = None -> pstr (92 :: 117 :: p :: q :: s :: t :: r) = None.
Proof. intros p q s t r E. cbn [pstr]. change (92 =? 34) with false. change (92 =? 92) with true. change (117 =? 117) with true. cbv iota. now rewrite E. Qed.
(** What the parser does after a high surrogate. *)
Lemma pstr_high : forall h1 h2 h3 h4 u r, hex4 h1 h2 h3 h4 = Some u -> is_high u = true ->
  pstr (92 :: 117 :: h1 :: h2 :: h3 :: h4 :: r) =
  match r with
  | b :: v :: k1 :: k2 :: k3 :: k4 :: r3 =>
      if (b =? 92) && (v =? 117) then
        match hex4 k1 k2 k3 k4 with
        | Some w => if is_low w then pcons (65536 + (u - 55296) * 1024 + (w - 56320)) (pstr r3) else pcons u (pstr r)
        | None => None
        end
      else pcons u (pstr r)
  | _ => pcons u (pstr r)
  end.
Proof.
  intros h1 h2 h3 h4 u r E Hh. cbn [pstr]. change (92 =? 34) with false. change (92 =? 92) with true. change (117 =? 117) with true.
  cbv iota. rewrite E, Hh. reflexivity.
Qed.
Lemma pstr_high_alone : forall h1 h2 h3 h4 u r y, hex4 h1 h2 h3 h4 = Some u -> is_high u = true -> ~ low_follows r -> pstr r = Some y ->
  pstr (92 :: 117 :: h1 :: h2 :: h3 :: h4 :: r) = pcons u (pstr r).
Proof.
  intros h1 h2 h3 h4 u r y E Hh NL Y. rewrite (pstr_high h1 h2 h3 h4 u r E Hh).
  destruct r as [|b [|v [|k1 [|k2 [|k3 [|k4 r3]]]]]]; try reflexivity.
  destruct ((b =? 92) && (v =? 117)) eqn:BV; [|reflexivity].
  assert (b = 92 /\ v = 117) as [-> ->] by lia.
  destruct (hex4 k1 k2 k3 k4) as [w|] eqn:K.
  - destruct (is_low w) eqn:W; [|reflexivity]. exfalso. apply NL. exists [92; 117; k1; k2; k3; k4], w, r3.
    split; [reflexivity|]. split; [now apply hex4_escape|now apply low_iff].
  - rewrite (pstr_bad_u k1 k2 k3 k4 r3 K) in Y. discriminate.
Qed.

Lemma pcons_some : forall c o s r, pcons c o = Some (s, r) -> exists s', o = Some (s', r) /\ s = c :: s'.
Proof. intros c [[s' r']|] s r E; [|discriminate]. cbn [pcons] in E. injection E as <- <-. eauto. Qed.

Lemma pstr_sound : forall n t s r, (length t < n)%nat -> pstr t = Some (s, r) -> exists b, t = b ++ 34 :: r /\ str_body b s.
Proof.
  induction n as [|n IH]; intros t s r L E; [lia|]. destruct t as [|c t]; [discriminate|]. cbn [length] in L.
  destruct (N.eqb_spec c 34) as [->|N34].
  { cbn [pstr] in E. change (34 =? 34) with true in E. cbv iota in E. injection E as <- <-. exists []. split; [reflexivity|constructor]. }
  destruct (N.eqb_spec c 92) as [->|N92].
  - destruct t as [|e t]; [discriminate|]. cbn [length] in L.
    destruct (N.eqb_spec e 117) as [->|N117].
    + destruct t as [|h1 [|h2 [|h3 [|h4 t]]]]; try discriminate. cbn [length] in L.
      destruct (hex4 h1 h2 h3 h4) as [u|] eqn:U; [|rewrite pstr_bad_u in E by exact U; discriminate].
      apply hex4_escape in U as X.
      assert (Alone : ~ (high u /\ low_follows t) -> pcons u (pstr t) = Some (s, r) ->
        exists b, 92 :: 117 :: h1 :: h2 :: h3 :: h4 :: t = b ++ 34 :: r /\ str_body b s).
      { intros N P. apply pcons_some in P as [s' [P ->]]. destruct (IH t s' r ltac:(lia) P) as [b [-> B]].
        exists ([92; 117; h1; h2; h3; h4] ++ b). split; [reflexivity|]. apply body_u; [exact X| |exact B].
        intros [Hu Lf]. apply N. split; [exact Hu|]. now apply low_follows_more. }
      destruct (is_high u) eqn:Hu.
      * rewrite (pstr_high h1 h2 h3 h4 u t U Hu) in E. apply high_iff in Hu.
        destruct t as [|b [|v [|k1 [|k2 [|k3 [|k4 t]]]]]];
          try (apply Alone; [|exact E]; intros [_ [x [w [r' [Q [Ux _]]]]]]; destruct Ux; discriminate Q).
        destruct ((b =? 92) && (v =? 117)) eqn:BV;
          [|apply Alone; [|exact E]; intros [_ [x [w [r' [Q [Ux _]]]]]]; destruct Ux; cbn [app] in Q; injection Q as -> -> _; discriminate BV].
        assert (b = 92 /\ v = 117) as [-> ->] by lia.
        destruct (hex4 k1 k2 k3 k4) as [w|] eqn:K; [|discriminate]. apply hex4_escape in K as Xk.
        destruct (is_low w) eqn:W.
        -- apply pcons_some in E as [s' [P ->]]. cbn [length] in L. destruct (IH t s' r ltac:(lia) P) as [b [-> B]].
           exists ([92; 117; h1; h2; h3; h4] ++ [92; 117; k1; k2; k3; k4] ++ b). split; [reflexivity|].
           apply body_pair; [exact X|exact Hu|exact Xk|now apply low_iff|exact B].
        -- apply Alone; [|exact E]. intros [_ [x [w' [r' [Q [Ux Lw]]]]]]. destruct Ux as [p q y z a' b' c' d' P1 P2 P3 P4]. cbn [app] in Q.
           injection Q as -> -> -> -> _. apply unhexd_digit in P1, P2, P3, P4. unfold hex4 in K. rewrite P1, P2, P3, P4 in K.
           apply some_inj in K. subst w. apply low_iff in Lw. congruence.
      * rewrite (pstr_u_raw h1 h2 h3 h4 u t U Hu) in E. apply Alone; [|exact E]. intros [Hh _]. apply high_iff in Hh. congruence.
    + cbn [pstr] in E. change (92 =? 34) with false in E. change (92 =? 92) with true in E. cbv iota in E.
      replace (e =? 117) with false in E by lia. destruct (simple_esc e) as [x|] eqn:S; [|discriminate].
      apply pcons_some in E as [s' [P ->]]. destruct (IH t s' r ltac:(lia) P) as [b [-> B]].
      exists (92 :: e :: b). split; [reflexivity|]. constructor; [now apply short_in|exact B].
  - cbn [pstr] in E. replace (c =? 34) with false in E by lia. replace (c =? 92) with false in E by lia.
    destruct (c <? 32) eqn:C; [discriminate|]. apply pcons_some in E as [s' [P ->]].
    destruct (IH t s' r ltac:(lia) P) as [b [-> B]]. exists (c :: b). split; [reflexivity|]. constructor; [lia|exact N34|exact N92|exact B].
Qed.
Lemma pstr_complete : forall b s, str_body b s -> forall r, pstr (b ++ 34 :: r) = Some (s, r).
Proof.
  intros b s B. induction B as [|c b s C N34 N92 B IH|e c b s I B IH|x u b s X N B IH|x u y w b s X Hu Y Hw B IH]; intros r.
  - reflexivity.
  - cbn [app pstr]. replace (c =? 34) with false by lia. replace (c =? 92) with false by lia. replace (c <? 32) with false by lia.
    rewrite IH. reflexivity.
  - cbn [app]. rewrite (pstr_simple e c); [rewrite IH; reflexivity| |now apply short_in].
    intros ->. cbn in I. repeat destruct I as [I|I]; try discriminate I; contradiction.
  - destruct X as [p q h t a c d e P Q R S].
    assert (X4 : hex4 p q h t = Some (a * 4096 + c * 256 + d * 16 + e)) by (apply hex4_escape; now constructor).
    cbn [app]. set (u := a * 4096 + c * 256 + d * 16 + e) in *. destruct (is_high u) eqn:Hu.
    + rewrite (pstr_high_alone p q h t u (b ++ 34 :: r) (s, r) X4 Hu); [rewrite IH; reflexivity| |apply IH].
      intros Lf. apply N. split; [now apply high_iff|]. exact (low_follows_body b r Lf).
    + rewrite (pstr_u_raw p q h t u _ X4 Hu), IH. reflexivity.
  - destruct X as [p q h t a c d e P Q R S]. destruct Y as [p' q' h' t' a' c' d' e' P' Q' R' S'].
    cbn [app]. rewrite (pstr_pair_raw p q h t p' q' h' t' (a * 4096 + c * 256 + d * 16 + e) (a' * 4096 + c' * 256 + d' * 16 + e')).
    + rewrite IH. reflexivity.
    + apply hex4_escape. now constructor.
    + now apply high_iff.
    + apply hex4_escape. now constructor.
    + now apply low_iff.
Qed.

(** ** Numbers *)
Lemma digit_iff : forall c, is_digit c = true <-> digit c.
Proof. intros c. unfold is_digit, digit. lia. Qed.
Definition no_digit (r : list N) : Prop := match r with c :: _ => ~ digit c | [] => True end.
(** What may stand after a number. *)
Definition stop (r : list N) : Prop := match r with c :: _ => ~ digit c /\ c <> 46 /\ c <> 101 /\ c <> 69 | [] => True end.

Lemma pdigits_sound : forall s d r, pdigits s = (d, r) -> s = d ++ r /\ Forall digit d.
Proof.
  induction s as [|c s IH]; intros d r E; cbn [pdigits] in E.
  - injection E as <- <-. split; [reflexivity|constructor].
  - destruct (is_digit c) eqn:C.
    + destruct (pdigits s) as [d' r'] eqn:P. injection E as <- <-. destruct (IH d' r' eq_refl) as [-> F].
      split; [reflexivity|]. constructor; [now apply digit_iff|exact F].
    + injection E as <- <-. split; [reflexivity|constructor].
Qed.
Lemma pdigits_complete : forall d r, Forall digit d -> no_digit r -> pdigits (d ++ r) = (d, r).
Proof.
  induction d as [|c d IH]; intros r F N.
  - destruct r as [|c r]; [reflexivity|]. cbn [app pdigits]. cbn [no_digit] in N.
    destruct (is_digit c) eqn:C; [|reflexivity]. apply digit_iff in C. contradiction.
  - inversion F; subst. cbn [app pdigits]. replace (is_digit c) with true by (symmetry; now apply digit_iff).
    rewrite IH by assumption. reflexivity.
Qed.
Lemma pfrac_sound : forall s f r, pfrac s = (f, r) -> s = f ++ r /\ fraction f.
Proof.
  intros [|c s] f r E; cbn [pfrac] in E.
  - injection E as <- <-. split; [reflexivity|now left].
  - destruct (N.eqb_spec c 46) as [->|].
    + destruct (pdigits s) as [d r'] eqn:P. destruct (pdigits_sound s d r' P) as [S F].
      destruct d as [|c d]; injection E as <- <-; [split; [reflexivity|now left]|].
      split; [rewrite S; reflexivity|]. right. exists (c :: d). split; [reflexivity|]. split; [discriminate|exact F].
    + injection E as <- <-. split; [reflexivity|now left].
Qed.
Lemma pfrac_complete : forall f r, fraction f -> no_digit r -> match r with c :: _ => c <> 46 | [] => True end -> pfrac (f ++ r) = (f, r).
Proof.
  intros f r [->|[d [-> [Nd F]]]] N P.
  - destruct r as [|c r]; [reflexivity|]. cbn [app pfrac]. replace (c =? 46) with false by lia. reflexivity.
  - cbn [app pfrac]. change (46 =? 46) with true. cbv iota. rewrite pdigits_complete by assumption. destruct d; [congruence|reflexivity].
Qed.
Lemma pexp_sound : forall s e r, pexp s = (e, r) -> s = e ++ r /\ exponent e.
Proof.
  intros [|c s] e r E; cbn [pexp] in E.
  - injection E as <- <-. split; [reflexivity|now left].
  - destruct ((c =? 101) || (c =? 69)) eqn:C; [|injection E as <- <-; split; [reflexivity|now left]].
    assert (exists g r1, (match s with g :: r' => if (g =? 43) || (g =? 45) then ([g], r') else ([], s) | [] => ([], s) end) = (g, r1)
      /\ s = g ++ r1 /\ (g = [] \/ g = [43] \/ g = [45])) as [g [r1 [Eg [Es G]]]].
    { destruct s as [|g s']; [exists [], []; auto|]. destruct ((g =? 43) || (g =? 45)) eqn:Gc.
      - exists [g], s'. split; [reflexivity|]. split; [reflexivity|]. right. assert (g = 43 \/ g = 45) as [->| ->] by lia; auto.
      - exists [], (g :: s'). auto. }
    rewrite Eg in E. destruct (pdigits r1) as [d r2] eqn:P. destruct (pdigits_sound r1 d r2 P) as [Er F].
    destruct d as [|c' d]; injection E as <- <-; [split; [reflexivity|now left]|].
    split; [subst; cbn [app]; rewrite <- app_assoc; reflexivity|]. right. exists c, g, (c' :: d). split; [reflexivity|].
    split; [lia|]. split; [exact G|]. split; [discriminate|exact F].
Qed.
Lemma pexp_complete : forall e r, exponent e -> stop r -> pexp (e ++ r) = (e, r).
Proof.
  intros e r [->|[c [g [d [-> [C [G [Nd F]]]]]]]] S.
  - destruct r as [|c r]; [reflexivity|]. cbn [app pexp]. destruct S as [_ [_ [S1 S2]]].
    replace ((c =? 101) || (c =? 69)) with false by lia. reflexivity.
  - cbn [app pexp]. replace ((c =? 101) || (c =? 69)) with true by lia.
    assert (Nr : no_digit r) by (destruct r; [exact I|exact (proj1 S)]).
    assert (Ed : exists c' d', d = c' :: d' /\ digit c') by (destruct d as [|c' d']; [congruence|inversion F; subst; eauto]).
    destruct Ed as [c' [d' [-> Dc]]]. unfold digit in Dc.
    destruct G as [->|[->| ->]]; cbn [app].
    + replace ((c' =? 43) || (c' =? 45)) with false by lia.
      change (c' :: d' ++ r) with ((c' :: d') ++ r). rewrite pdigits_complete by assumption. reflexivity.
    + change ((43 =? 43) || (43 =? 45)) with true. cbv iota.
      change (c' :: d' ++ r) with ((c' :: d') ++ r). rewrite pdigits_complete by assumption. reflexivity.
    + change ((45 =? 43) || (45 =? 45)) with true. cbv iota.
      change (c' :: d' ++ r) with ((c' :: d') ++ r). rewrite pdigits_complete by assumption. reflexivity.
Qed.

Definition pint (s1 : list N) : option (list N * list N) :=
  match s1 with
  | c :: r => if c =? 48 then Some ([c], r) else if is_digit c then Some (pdigits s1) else None
  | [] => None
  end.
Lemma pint_sound : forall s i r, pint s = Some (i, r) -> s = i ++ r /\ integer i.
Proof.
  intros [|c s] i r E; [discriminate|]. cbn [pint] in E. destruct (N.eqb_spec c 48) as [->|N0].
  - injection E as <- <-. split; [reflexivity|now left].
  - destruct (is_digit c) eqn:D; [|discriminate]. apply some_inj in E. destruct (pdigits_sound _ _ _ E) as [Es F].
    split; [exact Es|]. cbn [pdigits] in E. rewrite D in E. destruct (pdigits s) as [d' r']. injection E as <- <-.
    inversion F; subst. right. exists c, d'. split; [reflexivity|]. unfold digit in *. split; [lia|assumption].
Qed.
Lemma pint_complete : forall i r, integer i -> no_digit r -> pint (i ++ r) = Some (i, r).
Proof.
  intros i r [->|[c [d [-> [C F]]]]] N; [reflexivity|]. cbn [app pint]. replace (c =? 48) with false by lia.
  replace (is_digit c) with true by (unfold is_digit; lia). f_equal. change (c :: d ++ r) with ((c :: d) ++ r).
  apply pdigits_complete; [constructor; [unfold digit; lia|exact F]|exact N].
Qed.
Lemma pnum_sound : forall s t r, pnum s = Some (t, r) -> s = t ++ r /\ number t.
Proof.
  intros s t r E. unfold pnum in E.
  assert (exists g s1, (match s with c :: r => if c =? 45 then ([c], r) else ([], s) | [] => ([], s) end) = (g, s1) /\ s = g ++ s1 /\
    (g = [] \/ g = [45])) as [g [s1 [Eg [Es G]]]].
  { destruct s as [|c s']; [exists [], []; auto|]. destruct (N.eqb_spec c 45) as [->|]; [exists [45], s'; auto|exists [], (c :: s'); auto]. }
  rewrite Eg in E. change (match s1 with c :: r => if c =? 48 then Some ([c], r) else if is_digit c then Some (pdigits s1) else None
            | [] => None end) with (pint s1) in E.
  cbv zeta in E. destruct (pint s1) as [[i s2]|] eqn:I; [|discriminate]. destruct (pfrac s2) as [f s3] eqn:Fr.
  destruct (pexp s3) as [e s4] eqn:Ex. injection E as <- <-.
  apply pint_sound in I as [I1 I2]. apply pfrac_sound in Fr as [F1 F2]. apply pexp_sound in Ex as [E1 E2].
  split; [subst; rewrite <- !app_assoc; reflexivity|]. exists g, i, f, e. auto.
Qed.
Lemma integer_head : forall i, integer i -> exists c d, i = c :: d /\ digit c.
Proof. intros i [->|[c [d [-> [C F]]]]]; [exists 48, []|exists c, d]; (split; [reflexivity|unfold digit; lia]). Qed.
Lemma exp_stop : forall e r, exponent e -> stop r -> no_digit (e ++ r) /\ match e ++ r with c :: _ => c <> 46 | [] => True end.
Proof.
  intros e r [->|[c [g [d [-> [C _]]]]]] S.
  - cbn [app]. destruct r as [|c r]; [split; exact I|]. destruct S as [S1 [S2 _]]. split; assumption.
  - cbn [app no_digit]. unfold digit. lia.
Qed.
Lemma frac_no_digit : forall f r, fraction f -> no_digit r -> no_digit (f ++ r).
Proof. intros f r [->|[d [-> _]]] N; [exact N|]. cbn [app no_digit]. unfold digit. lia. Qed.
Lemma pnum_complete : forall t r, number t -> stop r -> pnum (t ++ r) = Some (t, r).
Proof.
  intros t r [g [i [f [e [-> [G [I [F E]]]]]]]] S. destruct (exp_stop e r E S) as [N1 N2].
  assert (P : pint (i ++ f ++ e ++ r) = Some (i, f ++ e ++ r)) by (apply pint_complete; [exact I|now apply frac_no_digit]).
  assert (Q : pfrac (f ++ e ++ r) = (f, e ++ r)) by (apply pfrac_complete; assumption).
  assert (R : pexp (e ++ r) = (e, r)) by (apply pexp_complete; assumption).
  assert (M : forall g, (match pint (i ++ f ++ e ++ r) with
    | None => None
    | Some (i, s2) => let (f, s3) := pfrac s2 in let (e, s4) := pexp s3 in Some (g ++ i ++ f ++ e, s4) end) = Some (g ++ i ++ f ++ e, r)).
  { intros g'. rewrite P, Q, R. reflexivity. }
  rewrite <- !app_assoc. destruct G as [->| ->].
  - cbn [app]. unfold pnum. destruct (integer_head i I) as [c [d [Ei D]]]. specialize (M []). cbn [app] in M.
    rewrite Ei in *. cbn [app] in *. replace (c =? 45) with false by (unfold digit in D; lia). exact M.
  - cbn [app]. unfold pnum. change (45 =? 45) with true. cbv iota. exact (M [45]).
Qed.

Lemma strip_some : forall l s r, strip l s = Some r <-> s = l ++ r.
Proof.
  induction l as [|a l IH]; intros s r; cbn [strip app].
  - split; [intros E; now injection E as <-|intros ->; reflexivity].
  - destruct s as [|b s]; [split; discriminate|]. destruct (N.eqb_spec a b) as [->|N].
    + rewrite IH. split; [intros ->; reflexivity|intros E; now injection E].
    + split; [discriminate|]. intros E. injection E as -> _. congruence.
Qed.
Lemma patom_sound : forall s v r, patom s = Some (v, r) -> exists x, s = x ++ r /\ value_text x v.
Proof.
  intros s v r E. unfold patom in E.
  repeat match type of E with match strip ?l s with _ => _ end = _ =>
    let S := fresh "S" in destruct (strip l s) as [r'|] eqn:S;
    [injection E as <- <-; apply strip_some in S; subst s; eexists; split; [reflexivity|]; constructor; cbn; auto; fail|clear S] end.
  destruct (pnum s) as [[t r']|] eqn:P; [|discriminate]. injection E as <- <-. apply pnum_sound in P as [-> N].
  exists t. split; [reflexivity|now constructor].
Qed.
Lemma number_head : forall t, number t -> exists c d, t = c :: d /\ (digit c \/ c = 45 /\ exists c' d', d = c' :: d' /\ digit c').
Proof.
  intros t [g [i [f [e [-> [G [I _]]]]]]]. destruct (integer_head i I) as [c [d [-> D]]]. destruct G as [->| ->].
  - exists c, (d ++ f ++ e). split; [reflexivity|now left].
  - exists 45, (c :: d ++ f ++ e). split; [reflexivity|]. right. eauto.
Qed.
Lemma strip_miss : forall a l c s, a <> c -> strip (a :: l) (c :: s) = None.
Proof. intros a l c s N. cbn [strip]. replace (a =? c) with false by lia. reflexivity. Qed.
Lemma patom_number : forall t r, number t -> stop r -> patom (t ++ r) = Some (JNum t, r).
Proof.
  intros t r T S. destruct (number_head t T) as [c [d [Et H]]]. unfold patom. rewrite (pnum_complete t r T S).
  rewrite Et. cbn [app].
  assert (N : c <> 110 /\ c <> 116 /\ c <> 102 /\ c <> 78 /\ c <> 73) by (unfold digit in H; lia).
  unfold lit_null, lit_true, lit_false, lit_nan, lit_inf. rewrite !strip_miss by lia.
  destruct H as [D|[-> [c' [d' [-> D]]]]].
  - rewrite strip_miss by (unfold digit in D; lia). reflexivity.
  - cbn [app strip]. change (45 =? 45) with true. cbv iota. replace (73 =? c') with false by (unfold digit in D; lia). reflexivity.
Qed.
Lemma patom_extra : forall t r, In t extra_numbers -> patom (t ++ r) = Some (JNum t, r).
Proof. intros t r I. cbn in I. repeat destruct I as [<-|I]; try contradiction; reflexivity. Qed.

(** ** Values *)
Lemma parse_sound : forall f,
  (forall s v r, pval f s = Some (v, r) -> exists x, s = x ++ r /\ value_text x v) /\
  (forall s l r, pelems f s = Some (l, r) -> exists x, s = x ++ 93 :: r /\ elems_text x l) /\
  (forall s d r, pmembers f s = Some (d, r) -> exists x, s = x ++ 125 :: r /\ members_text x d).
Proof.
  induction f as [|f [IHv [IHe IHm]]]; [repeat split; intros; discriminate|]. split; [|split].
  - intros s v r E. destruct s as [|c s]; [discriminate|]. cbn [pval] in E.
    destruct (N.eqb_spec c 34) as [->|N34].
    { destruct (pstr s) as [[x r']|] eqn:P; [|discriminate]. injection E as <- <-.
      apply (pstr_sound (S (length s))) in P as [b [-> B]]; [|lia]. exists (34 :: b ++ [34]). split; [cbn [app]; rewrite <- app_assoc; reflexivity|].
      now constructor. }
    destruct (N.eqb_spec c 91) as [->|N91].
    { destruct (ws_split s) as [w [B Es]]. destruct (ws s) as [|d s'] eqn:W; [discriminate|].
      destruct (N.eqb_spec d 93) as [->|N93].
      - injection E as <- <-. exists (91 :: w ++ [93]). split; [cbn [app]; rewrite <- app_assoc; cbn [app]; rewrite <- Es; reflexivity|now constructor].
      - destruct (pelems f (d :: s')) as [[l r']|] eqn:P; [|discriminate]. injection E as <- <-.
        apply IHe in P as [x [Ex X]]. exists (91 :: (w ++ x) ++ [93]). split.
        + rewrite Es, Ex. cbn [app]. rewrite <- !app_assoc. reflexivity.
        + constructor. destruct X as [w0 x0 w' v0 B0 X0 B'|w0 x0 w' v0 r0 l0 B0 X0 B' R0]; rewrite app_assoc; constructor; try assumption;
            apply Forall_app; split; assumption. }
    destruct (N.eqb_spec c 123) as [->|N123].
    { destruct (ws_split s) as [w [B Es]]. destruct (ws s) as [|d s'] eqn:W; [discriminate|].
      destruct (N.eqb_spec d 125) as [->|N125].
      - injection E as <- <-. exists (123 :: w ++ [125]). split; [cbn [app]; rewrite <- app_assoc; cbn [app]; rewrite <- Es; reflexivity|now constructor].
      - destruct (pmembers f (d :: s')) as [[l r']|] eqn:P; [|discriminate]. injection E as <- <-.
        apply IHm in P as [x [Ex X]]. exists (123 :: (w ++ x) ++ [125]). split.
        + rewrite Es, Ex. cbn [app]. rewrite <- !app_assoc. reflexivity.
        + constructor. destruct X; rewrite app_assoc; constructor; try assumption; apply Forall_app; split; assumption. }
    exact (patom_sound _ _ _ E).
  - intros s l r E. cbn [pelems] in E. destruct (pval f s) as [[v r0]|] eqn:P; [|discriminate].
    apply IHv in P as [x [Ex X]]. destruct (ws_split r0) as [w [B Er]]. destruct (ws r0) as [|c r1] eqn:W; [discriminate|].
    destruct (N.eqb_spec c 93) as [->|N93].
    + injection E as <- <-. exists ([] ++ x ++ w). split; [subst; cbn [app]; rewrite <- app_assoc; reflexivity|].
      constructor; [constructor|exact X|exact B].
    + destruct (N.eqb_spec c 44) as [->|]; [|discriminate].
      destruct (pelems f (ws r1)) as [[l' r2]|] eqn:Q; [|discriminate]. injection E as <- <-.
      apply IHe in Q as [y [Ey Y]]. destruct (ws_split r1) as [w1 [B1 E1]].
      exists ([] ++ x ++ w ++ 44 :: (w1 ++ y)). split.
      * subst s r0. rewrite E1, Ey. cbn [app]. rewrite <- !app_assoc. cbn [app]. rewrite <- app_assoc. reflexivity.
      * constructor; [constructor|exact X|exact B|].
        destruct Y; rewrite app_assoc; constructor; try assumption; apply Forall_app; split; assumption.
  - intros s d r E. cbn [pmembers] in E. destruct s as [|q s1]; [discriminate|]. destruct (N.eqb_spec q 34) as [->|]; [|discriminate].
    destruct (pstr s1) as [[k s2]|] eqn:P; [|discriminate]. apply (pstr_sound (S (length s1))) in P as [b [-> Bk]]; [|lia].
    destruct (ws_split s2) as [w1 [B1 E1]]. destruct (ws s2) as [|c s3] eqn:W1; [discriminate|].
    destruct (N.eqb_spec c 58) as [->|]; [|discriminate].
    destruct (ws_split s3) as [w2 [B2 E2]]. destruct (pval f (ws s3)) as [[v s4]|] eqn:V; [|discriminate].
    apply IHv in V as [x [Ex X]]. destruct (ws_split s4) as [w3 [B3 E3]]. destruct (ws s4) as [|c s5] eqn:W3; [discriminate|].
    destruct (N.eqb_spec c 125) as [->|].
    + injection E as <- <-. exists ([] ++ 34 :: b ++ 34 :: w1 ++ 58 :: w2 ++ x ++ w3). split.
      * rewrite E1, E2, Ex, E3. cbn [app]. repeat (rewrite <- !app_assoc; cbn [app]). reflexivity.
      * constructor; try assumption. constructor.
    + destruct (N.eqb_spec c 44) as [->|]; [|discriminate].
      destruct (pmembers f (ws s5)) as [[l s6]|] eqn:M; [|discriminate]. injection E as <- <-.
      apply IHm in M as [y [Ey Y]]. destruct (ws_split s5) as [w5 [B5 E5]].
      exists ([] ++ 34 :: b ++ 34 :: w1 ++ 58 :: w2 ++ x ++ w3 ++ 44 :: (w5 ++ y)). split.
      * rewrite E1, E2, Ex, E3, E5, Ey. cbn [app]. repeat (rewrite <- !app_assoc; cbn [app]). reflexivity.
      * constructor; try assumption; [constructor|].
        destruct Y; rewrite app_assoc; constructor; try assumption; apply Forall_app; split; assumption.
Qed.

Lemma value_head : forall x v, value_text x v -> exists c d, x = c :: d /\ is_ws c = false /\ c <> 93 /\ c <> 125 /\ c <> 65279.
Proof.
  intros x v X. destruct X as [b s B|t T|t T| | | |w B|x l X|w B|x d X]; cbn [app];
    try (do 2 eexists; split; [reflexivity|]; repeat split; discriminate).
  - destruct (number_head t T) as [c [d [-> H]]]. exists c, d. split; [reflexivity|]. unfold is_ws. unfold digit in H. lia.
  - cbn in T. repeat destruct T as [<-|T]; try contradiction; (do 2 eexists; split; [reflexivity|]; repeat split; discriminate).
Qed.
Lemma ws_value : forall x v r, value_text x v -> ws (x ++ r) = x ++ r.
Proof. intros x v r X. destruct (value_head x v X) as [c [d [-> [W _]]]]. cbn [app]. now apply ws_keep. Qed.

Scheme value_ind2 := Minimality for value_text Sort Prop
  with elems_ind2 := Minimality for elems_text Sort Prop
  with members_ind2 := Minimality for members_text Sort Prop.
Combined Scheme json_text_ind from value_ind2, elems_ind2, members_ind2.

Lemma stop_ws : forall w c r, blank w -> stop (c :: r) -> stop (w ++ c :: r).
Proof.
  intros [|d w] c r B S; [exact S|]. inversion B as [|? ? I _]; subst. cbn [app stop]. apply is_ws_in in I. unfold is_ws in I. unfold digit. lia.
Qed.
Lemma stop_char : forall c r, In c [44; 93; 125] -> stop (c :: r).
Proof. intros c r I. cbn in I. unfold stop, digit. lia. Qed.

Lemma parse_complete :
  (forall x v, value_text x v -> forall f r, (length x <= f)%nat -> stop r -> pval f (x ++ r) = Some (v, r)) /\
  (forall x l, elems_text x l -> forall f r, (length x + 1 <= f)%nat ->
     pelems f (ws (x ++ 93 :: r)) = Some (l, r) /\ exists c d, ws (x ++ 93 :: r) = c :: d /\ c <> 93) /\
  (forall x d, members_text x d -> forall f r, (length x + 1 <= f)%nat ->
     pmembers f (ws (x ++ 125 :: r)) = Some (d, r) /\ exists c d, ws (x ++ 125 :: r) = c :: d /\ c <> 125).
Proof.
  apply json_text_ind.
  - intros b s B f r L S. destruct f as [|f]; [cbn in L; lia|]. cbn [app pval]. change (34 =? 34) with true. cbv iota.
    rewrite <- app_assoc. cbn [app]. rewrite (pstr_complete b s B). reflexivity.
  - intros t T f r L S. destruct (number_head t T) as [c [d [Et H]]]. destruct f as [|f]; [rewrite Et in L; cbn in L; lia|].
    pose proof (patom_number t r T S) as P. rewrite Et in P |- *. cbn [app] in P |- *. cbn [pval].
    replace (c =? 34) with false by (unfold digit in H; lia). replace (c =? 91) with false by (unfold digit in H; lia).
    replace (c =? 123) with false by (unfold digit in H; lia). exact P.
  - intros t T f r L S. pose proof (patom_extra t r T) as P. destruct f as [|f].
    + exfalso. cbn in T. repeat destruct T as [<-|T]; try contradiction; cbn in L; lia.
    + cbn in T. repeat destruct T as [<-|T]; try contradiction; exact P.
  - intros f r L S. destruct f as [|f]; [cbn in L; lia|]. reflexivity.
  - intros f r L S. destruct f as [|f]; [cbn in L; lia|]. reflexivity.
  - intros f r L S. destruct f as [|f]; [cbn in L; lia|]. reflexivity.
  - intros w B f r L S. destruct f as [|f]; [cbn in L; lia|]. cbn [app pval]. change (91 =? 34) with false. change (91 =? 91) with true. cbv iota.
    rewrite <- app_assoc. rewrite ws_blank by exact B. cbn [app]. rewrite ws_keep by reflexivity. reflexivity.
  - intros x l X IH f r L S. destruct f as [|f]; [cbn in L; lia|]. cbn [length] in L. rewrite app_length in L. cbn [length] in L.
    cbn [app pval]. change (91 =? 34) with false. change (91 =? 91) with true. cbv iota.
    rewrite <- app_assoc. cbn [app]. destruct (IH f r ltac:(lia)) as [P [c [d [W N]]]]. rewrite W. replace (c =? 93) with false by lia.
    rewrite <- W, P. reflexivity.
  - intros w B f r L S. destruct f as [|f]; [cbn in L; lia|]. cbn [app pval]. change (123 =? 34) with false. change (123 =? 91) with false.
    change (123 =? 123) with true. cbv iota.
    rewrite <- app_assoc. rewrite ws_blank by exact B. cbn [app]. rewrite ws_keep by reflexivity. reflexivity.
  - intros x l X IH f r L S. destruct f as [|f]; [cbn in L; lia|]. cbn [length] in L. rewrite app_length in L. cbn [length] in L.
    cbn [app pval]. change (123 =? 34) with false. change (123 =? 91) with false. change (123 =? 123) with true. cbv iota.
    rewrite <- app_assoc. cbn [app]. destruct (IH f r ltac:(lia)) as [P [c [d [W N]]]]. rewrite W. replace (c =? 125) with false by lia.
    rewrite <- W, P. reflexivity.
  - intros w x w' v Bw X IH B' f r L. rewrite !app_length in L. destruct f as [|f]; [lia|].
    rewrite <- !app_assoc, ws_blank by exact Bw. rewrite (ws_value x v _ X). split.
    + cbn [pelems]. rewrite IH; [|lia|apply stop_ws; [exact B'|apply stop_char; cbn; auto]].
      rewrite ws_blank by exact B'. rewrite ws_keep by reflexivity. reflexivity.
    + destruct (value_head x v X) as [c [d [-> [_ [N _]]]]]. cbn [app]. eauto.
  - intros w x w' v y l Bw X IH B' Y IHy f r L. rewrite !app_length in L. cbn [length] in L. destruct f as [|f]; [lia|].
    repeat (rewrite <- !app_assoc; cbn [app]). rewrite ws_blank by exact Bw. rewrite (ws_value x v _ X). split.
    + cbn [pelems]. rewrite IH; [|lia|apply stop_ws; [exact B'|apply stop_char; cbn; auto]].
      rewrite ws_blank by exact B'. rewrite ws_keep by reflexivity. change (44 =? 93) with false. change (44 =? 44) with true. cbv iota.
      destruct (value_head x v X) as [c [d [Ex _]]]. rewrite Ex in L. cbn [length] in L.
      destruct (IHy f r ltac:(lia)) as [P _]. rewrite P. reflexivity.
    + destruct (value_head x v X) as [c [d [-> [_ [N _]]]]]. cbn [app]. eauto.
  - intros w b k w1 w2 x w3 v Bw Bk B1 B2 X IH B3 f r L. repeat (rewrite app_length in L || cbn [length] in L). destruct f as [|f]; [lia|].
    repeat (rewrite <- !app_assoc; cbn [app]). rewrite ws_blank by exact Bw. rewrite ws_keep by reflexivity. split; [|do 2 eexists; split; [reflexivity|discriminate]].
    cbn [pmembers]. change (34 =? 34) with true. cbv iota. rewrite (pstr_complete b k Bk). rewrite ws_blank by exact B1. rewrite ws_keep by reflexivity.
    change (58 =? 58) with true. cbv iota. rewrite ws_blank by exact B2. rewrite (ws_value x v _ X).
    rewrite IH; [|lia|apply stop_ws; [exact B3|apply stop_char; cbn; auto]].
    rewrite ws_blank by exact B3. rewrite ws_keep by reflexivity. reflexivity.
  - intros w b k w1 w2 x w3 v y d Bw Bk B1 B2 X IH B3 Y IHy f r L. repeat (rewrite app_length in L || cbn [length] in L). destruct f as [|f]; [lia|].
    repeat (rewrite <- !app_assoc; cbn [app]). rewrite ws_blank by exact Bw. rewrite ws_keep by reflexivity. split; [|do 2 eexists; split; [reflexivity|discriminate]].
    cbn [pmembers]. change (34 =? 34) with true. cbv iota. rewrite (pstr_complete b k Bk). rewrite ws_blank by exact B1. rewrite ws_keep by reflexivity.
    change (58 =? 58) with true. cbv iota. rewrite ws_blank by exact B2. rewrite (ws_value x v _ X).
    rewrite IH; [|lia|apply stop_ws; [exact B3|apply stop_char; cbn; auto]].
    rewrite ws_blank by exact B3. rewrite ws_keep by reflexivity. change (44 =? 125) with false. change (44 =? 44) with true. cbv iota.
    destruct (IHy f r ltac:(lia)) as [P _]. rewrite P. reflexivity.
Qed.

Lemma stop_blank : forall w, blank w -> stop w.
Proof.
  intros [|c w] B; [exact I|]. inversion B as [|? ? W _]; subst. apply is_ws_in in W. unfold is_ws in W. cbn [stop]. unfold digit. lia.
Qed.
Lemma loads_exact : forall s v, loads s = Ok v <-> json_text s v.
Proof.
  intros s v. split.
  - unfold loads. destruct (match s with c :: _ => c =? 65279 | [] => false end); [discriminate|].
    destruct (pval (2 * length s + 2) (ws s)) as [[v' r]|] eqn:P; [|discriminate]. destruct (ws r) eqn:W; [|discriminate].
    intros E. injection E as <-. apply parse_sound in P as [x [Ex X]]. destruct (ws_split s) as [w [B Es]].
    exists w, x, r. split; [congruence|]. split; [exact B|]. split; [exact X|now apply ws_nil].
  - intros [w [x [w' [-> [B [X B']]]]]]. unfold loads.
    replace (match w ++ x ++ w' with c :: _ => c =? 65279 | [] => false end) with false.
    + rewrite ws_blank by exact B. rewrite (ws_value x v w' X).
      rewrite (proj1 parse_complete x v X); [|rewrite !app_length; lia|now apply stop_blank].
      apply ws_nil in B'. rewrite B'. reflexivity.
    + symmetry. destruct w as [|c w].
      * destruct (value_head x v X) as [c [d [-> [_ [_ [_ N]]]]]]. cbn [app]. lia.
      * inversion B as [|? ? I _]; subst. cbn [app]. cbn in I. lia.
Qed.
Lemma loads_error : forall s e, loads s = Err e -> e = JSONDecodeError.
Proof.
  intros s e E. unfold loads in E. destruct (match s with c :: _ => c =? 65279 | [] => false end); [congruence|].
  destruct (pval (2 * length s + 2) (ws s)) as [[v' r]|]; [|congruence]. destruct (ws r); congruence.
Qed.
Lemma json_value_unique : forall s v v', json_text s v -> json_text s v' -> v = v'.
Proof. intros s v v' A B. apply loads_exact in A, B. congruence. Qed.

(** A proper beginning of the text of an object or array is not a JSON text. *)
Lemma delimited : forall x v c d, value_text x v -> x = c :: d -> In c [91; 123] -> forall f r, (length x <= f)%nat -> pval f (x ++ r) = Some (v, r).
Proof.
  intros x v c d X E I f r L. destruct f as [|f]; [subst x; cbn in L; lia|].
  assert (Ic : c = 91 \/ c = 123) by (cbn in I; lia).
  destruct X as [b s B|t T|t T| | | |w B|x l X|w B|x m X];
    try (injection E as <- _; exfalso; cbn in I; lia).
  - destruct (number_head t T) as [c' [d' [-> H]]]. injection E as -> _. exfalso. unfold digit in H. lia.
  - exfalso. cbn in T. repeat destruct T as [<-|T]; try contradiction; injection E as <- _; cbn in I; lia.
  - cbn [app pval]. change (91 =? 34) with false. change (91 =? 91) with true. cbv iota.
    rewrite <- app_assoc. rewrite ws_blank by exact B. cbn [app]. rewrite ws_keep by reflexivity. reflexivity.
  - cbn [length] in L. rewrite app_length in L. cbn [length] in L.
    cbn [app pval]. change (91 =? 34) with false. change (91 =? 91) with true. cbv iota.
    rewrite <- app_assoc. cbn [app]. destruct (proj1 (proj2 parse_complete) x l X f r ltac:(lia)) as [P [c' [d' [W N]]]]. rewrite W.
    replace (c' =? 93) with false by lia. rewrite <- W, P. reflexivity.
  - cbn [app pval]. change (123 =? 34) with false. change (123 =? 91) with false. change (123 =? 123) with true. cbv iota.
    rewrite <- app_assoc. rewrite ws_blank by exact B. cbn [app]. rewrite ws_keep by reflexivity. reflexivity.
  - cbn [length] in L. rewrite app_length in L. cbn [length] in L.
    cbn [app pval]. change (123 =? 34) with false. change (123 =? 91) with false. change (123 =? 123) with true. cbv iota.
    rewrite <- app_assoc. cbn [app]. destruct (proj2 (proj2 parse_complete) x m X f r ltac:(lia)) as [P [c' [d' [W N]]]]. rewrite W.
    replace (c' =? 125) with false by lia. rewrite <- W, P. reflexivity.
Qed.
Lemma prefix_not_json : forall s t v v' c d, value_text (s ++ t) v -> s ++ t = c :: d -> In c [91; 123] -> t <> [] -> ~ json_text s v'.
Proof.
  intros s t v v' c d X E I N [w [y [w' [-> [Bw [Y Bw']]]]]].
  destruct (value_head y v' Y) as [cy [dy [Ey _]]].
  assert (w = [] /\ cy = c) as [-> ->].
  { destruct w as [|a w]; [split; [reflexivity|]; rewrite Ey in E; cbn [app] in E; now injection E|].
    exfalso. cbn [app] in E. injection E as -> _. inversion Bw as [|? ? Ia _]; subst. cbn in I, Ia. lia. }
  cbn [app] in *. rewrite <- app_assoc in *.
  pose proof (delimited _ _ _ _ X E I (length (y ++ w' ++ t)) [] (le_n _)) as P. rewrite app_nil_r in P.
  assert (Q : pval (length (y ++ w' ++ t)) (y ++ w' ++ t) = Some (v', w' ++ t))
    by (apply (delimited y v' c dy Y Ey I); rewrite app_length; lia).
  rewrite Q in P. injection P as _ P. apply N. now apply app_eq_nil in P.
Qed.

Lemma jget_entry : forall d k v, jget d k = Some v <-> entry d k v.
Proof.
  induction d as [|[k' v'] d IH]; intros k v; cbn [jget].
  - split; [discriminate|]. intros [l [r [E _]]]. destruct l; discriminate.
  - split.
    + destruct (jget d k) as [x|] eqn:J.
      * intros E. apply some_inj in E. subst x. apply IH in J as [l [r [-> N]]]. exists ((k', v') :: l), r. split; [reflexivity|exact N].
      * destruct (ustr_eqb k k') eqn:K; [|discriminate]. intros E. apply some_inj in E. subst v'. apply ustr_eqb_eq in K. subst k'.
        exists [], d. split; [reflexivity|]. intros v' I.
        assert (X : forall d, In (k, v') d -> jget d k <> None).
        { clear. induction d as [|[k2 v2] d IH]; intros I; [contradiction|]. cbn [jget]. destruct (jget d k) eqn:J; [discriminate|].
          destruct I as [I|I]; [injection I as -> ->; rewrite ustr_eqb_refl; discriminate|]. exfalso. exact (IH I eq_refl). }
        exact (X d I J).
    + intros [l [r [E N]]]. destruct l as [|p l]; cbn [app] in E.
      * injection E as -> -> ->. rewrite ustr_eqb_refl. destruct (jget r k) as [x|] eqn:J; [|reflexivity].
        apply IH in J as [l [r' [-> _]]]. exfalso. apply (N x). apply in_or_app. right. now left.
      * injection E as _ ->. assert (J : jget (l ++ (k, v) :: r) k = Some v) by (apply IH; exists l, r; split; [reflexivity|exact N]).
        rewrite J. reflexivity.
Qed.

(** ** Writing *)
Lemma hexd_digit : forall n, n < 16 -> hex_digit (hexd n) n.
Proof. intros n L. apply unhexd_digit. now apply unhexd_hexd. Qed.
Lemma u_esc_escape : forall n, n < 65536 -> u_escape (u_esc n) n.
Proof.
  intros n L. unfold u_esc. replace n with (n / 4096 mod 16 * 4096 + n / 256 mod 16 * 256 + n / 16 mod 16 * 16 + n mod 16) at 5 by lia.
  constructor; apply hexd_digit; apply N.mod_lt; lia.
Qed.
Lemma u_escape_fun : forall x u w, u_escape x u -> u_escape x w -> u = w.
Proof.
  intros x u w U W. destruct U as [p q r s a b c d P Q R S]. apply hex4_escape in W. 
  assert (X : hex4 p q r s = Some (a * 4096 + b * 256 + c * 16 + d)) by (apply hex4_escape; now constructor). congruence.
Qed.
Lemma u_escape_len : forall x u, u_escape x u -> length x = 6%nat.
Proof. intros x u U. now destruct U. Qed.
Lemma app_cut : forall (a b c d : list N), length a = length c -> a ++ b = c ++ d -> a = c /\ b = d.
Proof.
  induction a as [|x a IH]; intros b [|y c] d L E; try discriminate; [auto|]. cbn [app] in E. injection E as -> E. cbn [length] in L.
  destruct (IH b c d ltac:(lia) E) as [-> ->]. auto.
Qed.
(** How a character is written. *)
Lemma esc_cases : forall c, c < 1114112 ->
  (exists e, esc_char c = [92; e] /\ In (e, c) short_escapes) \/
  (esc_char c = [c] /\ 32 <= c <= 126 /\ c <> 34 /\ c <> 92) \/
  (esc_char c = u_esc c /\ c < 65536 /\ (c < 32 \/ 126 < c)) \/
  (65536 <= c /\ exists u w, esc_char c = u_esc u ++ u_esc w /\ high u /\ low w /\ c = 65536 + (u - 55296) * 1024 + (w - 56320)).
Proof.
  intros c L. unfold esc_char.
  destruct (N.eqb_spec c 34) as [->|N1]; [left; exists 34; cbn; auto|].
  destruct (N.eqb_spec c 92) as [->|N2]; [left; exists 92; cbn; auto|].
  destruct (N.eqb_spec c 10) as [->|]; [left; exists 110; cbn; auto 10|].
  destruct (N.eqb_spec c 13) as [->|]; [left; exists 114; cbn; auto 10|].
  destruct (N.eqb_spec c 9) as [->|]; [left; exists 116; cbn; auto 10|].
  destruct (N.eqb_spec c 12) as [->|]; [left; exists 102; cbn; auto 10|].
  destruct (N.eqb_spec c 8) as [->|]; [left; exists 98; cbn; auto 10|].
  destruct ((32 <=? c) && (c <=? 126)) eqn:P; [right; left; split; [reflexivity|]; lia|].
  destruct (c <? 65536) eqn:Q; [right; right; left; split; [reflexivity|]; lia|].
  right; right; right. split; [lia|]. cbv zeta. exists (55296 + (c - 65536) / 1024), (56320 + (c - 65536) mod 1024).
  unfold high, low. split; [reflexivity|]. lia.
Qed.
Lemma low_follows_esc : forall s, python_str s -> low_follows (flat_map esc_char s) -> low_next s.
Proof.
  intros [|c s] V [x [w [r [E [U L]]]]]; [destruct U; discriminate E|]. inversion V as [|? ? Vc _]; subst. cbn [flat_map] in E.
  destruct (esc_cases c Vc) as [[e [Ee I]]|[[Ee [R [_ N92]]]|[[Ee [R _]]|[R [u [w' [Ee [Hu [Hw _]]]]]]]]]; rewrite Ee in E.
  - exfalso. destruct U. cbn [app] in E. injection E as E _. subst e. cbn in I. repeat destruct I as [I|I]; try discriminate I; contradiction.
  - exfalso. destruct U. cbn [app] in E. injection E as E _. congruence.
  - destruct (app_cut (u_esc c) (flat_map esc_char s) x r) as [X _]; [rewrite (u_escape_len x w U); reflexivity|exact E|].
    subst x. rewrite <- (u_escape_fun _ c w (u_esc_escape c ltac:(lia)) U) in L. exists c, s. auto.
  - exfalso. rewrite <- app_assoc in E. destruct (app_cut (u_esc u) (u_esc w' ++ flat_map esc_char s) x r) as [X _]; [rewrite (u_escape_len x w U); reflexivity|exact E|].
    subst x. unfold high in Hu. rewrite <- (u_escape_fun _ u w (u_esc_escape u ltac:(lia)) U) in L. unfold low in L. lia.
Qed.
Lemma low_next_dec : forall s, low_next s \/ ~ low_next s.
Proof.
  intros [|c s]; [right; intros [w [r [E _]]]; discriminate|].
  destruct (is_low c) eqn:E; [left; exists c, s; split; [reflexivity|now apply low_iff]|].
  right. intros [w [r [X L]]]. injection X as -> _. apply low_iff in L. congruence.
Qed.
Lemma dump_body : forall s s', python_str s -> joined s s' -> str_body (flat_map esc_char s) s'.
Proof.
  intros s s' V J. induction J as [|c r s N J IH|u w r s Hu Hw J IH].
  - constructor.
  - inversion V as [|? ? Vc Vr]; subst. cbn [flat_map]. specialize (IH Vr).
    destruct (esc_cases c Vc) as [[e [Ee I]]|[[Ee [R [N1 N2]]]|[[Ee [R _]]|[R [u [w [Ee [Hu [Hw Ec]]]]]]]]]; rewrite Ee.
    + cbn [app]. now constructor.
    + cbn [app]. constructor; [lia|exact N1|exact N2|exact IH].
    + apply body_u; [now apply u_esc_escape| |exact IH]. intros [H L]. apply N. split; [exact H|]. now apply low_follows_esc.
    + rewrite Ec. rewrite <- app_assoc. unfold high in Hu. unfold low in Hw. apply body_pair.
      * apply u_esc_escape. lia.
      * exact Hu.
      * apply u_esc_escape. lia.
      * exact Hw.
      * exact IH.
  - inversion V as [|? ? Vu Vr]; subst. inversion Vr as [|? ? Vw Vr']; subst. specialize (IH Vr'). cbn [flat_map].
    unfold high in Hu. unfold low in Hw.
    assert (Eu : esc_char u = u_esc u).
    { destruct (esc_cases u Vu) as [[e [_ I]]|[[_ [R _]]|[[Ee _]|[R _]]]]; [|lia|exact Ee|lia].
      cbn in I. repeat destruct I as [I|I]; try contradiction; injection I as _ <-; lia. }
    assert (Ew : esc_char w = u_esc w).
    { destruct (esc_cases w Vw) as [[e [_ I]]|[[_ [R _]]|[[Ee _]|[R _]]]]; [|lia|exact Ee|lia].
      cbn in I. repeat destruct I as [I|I]; try contradiction; injection I as _ <-; lia. }
    rewrite Eu, Ew. apply body_pair; [apply u_esc_escape; lia|exact Hu|apply u_esc_escape; lia|exact Hw|exact IH].
Qed.
Lemma joined_total : forall n s, (length s < n)%nat -> exists s', joined s s'.
Proof.
  induction n as [|n IH]; intros s L; [lia|]. destruct s as [|c s]; [exists []; constructor|]. cbn [length] in L.
  destruct (is_high c) eqn:H.
  - destruct (low_next_dec s) as [[w [r [-> Lw]]]|N].
    + cbn [length] in L. destruct (IH r ltac:(lia)) as [s' J]. eexists. apply joined_pair; [now apply high_iff|exact Lw|exact J].
    + destruct (IH s ltac:(lia)) as [s' J]. exists (c :: s'). constructor; [tauto|exact J].
  - destruct (IH s ltac:(lia)) as [s' J]. exists (c :: s'). constructor; [|exact J]. intros [Hc _]. apply high_iff in Hc. congruence.
Qed.
Lemma joined_same : forall s, (forall l u w r, s = l ++ u :: w :: r -> ~ (high u /\ low w)) -> joined s s.
Proof.
  induction s as [|c s IH]; intros N; [constructor|]. constructor.
  - intros [H [w [r [-> L]]]]. exact (N [] c w r eq_refl (conj H L)).
  - apply IH. intros l u w r ->. exact (N (c :: l) u w r eq_refl).
Qed.
Lemma joined_eq : forall s s', joined s s' -> (length s' <= length s)%nat /\ (s' = s -> forall l u w r, s = l ++ u :: w :: r -> ~ (high u /\ low w)).
Proof.
  intros s s' J. induction J as [|c r s N J [L IH]|u w r s Hu Hw J [L IH]].
  - split; [lia|]. intros _ [|? ?] u w r E; discriminate.
  - split; [cbn [length]; lia|]. intros E. injection E as ->. intros [|x l] u w r' E.
    + cbn [app] in E. injection E as -> ->. intros [Hu Hw]. apply N. split; [exact Hu|]. exists w, r'. auto.
    + cbn [app] in E. injection E as _ E. exact (IH eq_refl l u w r' E).
  - split; [cbn [length]; lia|]. intros E. exfalso. injection E as _ E. rewrite E in L. cbn [length] in L. lia.
Qed.

(** An object of strings. *)
Definition str_member (kv : list N * list N) : list N * json := (fst kv, JStr (snd kv)).
Lemma join_members : forall d d', Forall2 (fun kv kv' => python_str (fst kv) /\ python_str (snd kv) /\ joined (fst kv) (fst kv') /\ joined (snd kv) (snd kv')) d d' ->
  d <> [] -> members_text (join [44; 32] (map dump_member (map str_member d))) (map str_member d').
Proof.
  intros d d' F. induction F as [|[k v] [k' v'] d d' [Vk [Vv [Jk Jv]]] F IH]; intros N; [congruence|]. cbn [fst snd] in *.
  assert (Bk : str_body (flat_map esc_char k) k') by now apply dump_body.
  assert (Tv : value_text (dump_str v) (JStr v')) by (constructor; now apply dump_body).
  destruct d as [|kv d].
  - inversion F; subst. change (members_text (dump_member (k, JStr v)) [(k', JStr v')]). unfold dump_member. cbn [fst snd].
    change (dumps (JStr v)) with (dump_str v).
    unfold dump_str at 1. 
    replace ((34 :: flat_map esc_char k ++ [34]) ++ [58; 32] ++ dump_str v) with ([] ++ 34 :: flat_map esc_char k ++ 34 :: [] ++ 58 :: [32] ++ dump_str v ++ []).
    + apply m_one; try assumption; try (constructor; cbn; auto; constructor); constructor.
    + cbn [app]. rewrite app_nil_r, <- app_assoc. reflexivity.
  - inversion F as [|? kv' ? d2 P F' E1 E2]; subst. specialize (IH ltac:(discriminate)).
    change (map str_member ((k', v') :: kv' :: d2)) with ((k', JStr v') :: map str_member (kv' :: d2)).
    remember (map str_member (kv' :: d2)) as out.
    change (join [44; 32] (map dump_member (map str_member ((k, v) :: kv :: d)))) with
      (dump_member (k, JStr v) ++ [44; 32] ++ join [44; 32] (map dump_member (map str_member (kv :: d)))).
    set (rest := join [44; 32] (map dump_member (map str_member (kv :: d)))) in *. clearbody rest.
    unfold dump_member. cbn [fst snd]. change (dumps (JStr v)) with (dump_str v). unfold dump_str at 1.
    replace (((34 :: flat_map esc_char k ++ [34]) ++ [58; 32] ++ dump_str v) ++ [44; 32] ++ rest)
      with ([] ++ 34 :: flat_map esc_char k ++ 34 :: [] ++ 58 :: [32] ++ dump_str v ++ [] ++ 44 :: (32 :: rest)).
    + apply m_more; try assumption; try (constructor; cbn; auto; constructor); try constructor.
      assert (B : blank [32]) by (constructor; cbn; auto; constructor).
      destruct IH as [w b k2 w1 w2 x w3 v2 Bw|w b k2 w1 w2 x w3 v2 r d3 Bw].
      * change (32 :: w ++ 34 :: b ++ 34 :: w1 ++ 58 :: w2 ++ x ++ w3) with ((32 :: w) ++ 34 :: b ++ 34 :: w1 ++ 58 :: w2 ++ x ++ w3).
        constructor; try assumption. constructor; [cbn; auto|exact Bw].
      * change (32 :: w ++ 34 :: b ++ 34 :: w1 ++ 58 :: w2 ++ x ++ w3 ++ 44 :: r) with ((32 :: w) ++ 34 :: b ++ 34 :: w1 ++ 58 :: w2 ++ x ++ w3 ++ 44 :: r).
        constructor; try assumption. constructor; [cbn; auto|exact Bw].
    + cbn [app]. repeat (rewrite <- !app_assoc; cbn [app]). reflexivity.
Qed.
Lemma dumps_strings : forall d d', Forall2 (fun kv kv' => python_str (fst kv) /\ python_str (snd kv) /\ joined (fst kv) (fst kv') /\ joined (snd kv) (snd kv')) d d' ->
  d <> [] -> value_text (dumps (JObj (map str_member d))) (JObj (map str_member d')).
Proof. intros d d' F N. exact (v_obj _ _ (join_members d d' F N)). Qed.
