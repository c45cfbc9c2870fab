(** RLP is lossless and canonical. *)
From Coq Require Import List Bool Arith NArith ZArith Lia ZifyBool ZifyNat ZifyN.
From Verif Require Import Base BaseProofs Rlp.
Import ListNotations.
Local Open Scope N_scope.
Ltac Zify.zify_post_hook ::= Z.div_mod_to_equations.

Definition item_ind2 (P : item -> Prop)
  (HB : forall b, P (IBytes b)) (HL : forall l, Forall P l -> P (IList l)) :
  forall i, P i :=
  fix F (i : item) : P i :=
    match i with
    | IBytes b => HB b
    | IList l => HL l ((fix G (l : list item) : Forall P l :=
                          match l with [] => Forall_nil P | x :: r => Forall_cons x (F x) (G r) end) l)
    end.

Lemma blen_app : forall a b, blen (a ++ b) = blen a + blen b.
Proof. intros. unfold blen. rewrite app_length. lia. Qed.

Lemma split_at_app : forall a r, split_at (blen a) (a ++ r) = Some (a, r).
Proof.
  intros. unfold split_at. rewrite blen_app.
  destruct (N.ltb_spec (blen a + blen r) (blen a)); [lia|].
  unfold blen. rewrite Nnat.Nat2N.id.
  rewrite firstn_app, skipn_app, firstn_all, skipn_all, Nat.sub_diag. cbn.
  rewrite app_nil_r. reflexivity.
Qed.

Lemma split_at_inv : forall n b a r, split_at n b = Some (a, r) -> b = a ++ r /\ blen a = n.
Proof.
  intros n b a r E. unfold split_at in E.
  destruct (N.ltb_spec (blen b) n) as [|Hl]; [discriminate|].
  injection E as <- <-. split.
  - symmetry. apply firstn_skipn.
  - unfold blen in *. rewrite firstn_length. lia.
Qed.

Lemma blen_be : forall n, 56 <= n -> n < 2 ^ 64 -> 1 <= blen (be n) <= 8.
Proof.
  intros n H1 H2. split.
  - pose proof (be_head n) as Hh. destruct (be n); [lia|]. unfold blen. cbn [length]. lia.
  - unfold blen. pose proof (be_len n 8) as Hb.
    replace (256 ^ N.of_nat 8) with (2 ^ 64) in Hb by reflexivity. lia.
Qed.

Lemma long_payload_enc : forall pl r, 56 <= blen pl -> blen pl < 2 ^ 64 ->
  long_payload (blen (be (blen pl))) (be (blen pl) ++ pl ++ r) = Some (pl, r).
Proof.
  intros pl r H1 H2. unfold long_payload. rewrite split_at_app.
  pose proof (be_head (blen pl)) as Hh. destruct (be (blen pl)) as [|x lb] eqn:E; [lia|].
  destruct (N.eqb_spec (bN x) 0); [contradiction|].
  rewrite <- E, unbe_be. destruct (N.ltb_spec (blen pl) 56); [lia|]. apply split_at_app.
Qed.

Lemma long_payload_inv : forall ll b pl r, ll <= 8 -> long_payload ll b = Some (pl, r) ->
  b = be (blen pl) ++ pl ++ r /\ ll = blen (be (blen pl)) /\ 56 <= blen pl < 2 ^ 64.
Proof.
  intros ll b pl r Hll E. unfold long_payload in E.
  destruct (split_at ll b) as [[lb r0]|] eqn:E1; [|discriminate].
  apply split_at_inv in E1. destruct E1 as [-> Hlb].
  destruct lb as [|x lb]; [discriminate|].
  destruct (N.eqb_spec (bN x) 0) as [|Hx]; [discriminate|].
  destruct (N.ltb_spec (unbe (x :: lb)) 56) as [|Hn]; [discriminate|].
  apply split_at_inv in E. destruct E as [-> Hpl].
  rewrite Hpl, be_unbe by exact Hx. repeat split; auto.
  pose proof (unbe_lt (x :: lb)) as Hu.
  assert (256 ^ blen (x :: lb) <= 256 ^ 8) by (apply N.pow_le_mono_r; lia).
  change (256 ^ 8) with (2 ^ 64) in *. lia.
Qed.

Lemma parse1_hdr : forall k pl r, blen pl < 2 ^ 64 ->
  parse1 (hdr k pl ++ pl ++ r) = Some (k, pl, r).
Proof.
  intros k pl r Hb. destruct k.
  - unfold hdr, len_prefix. destruct (N.ltb_spec (blen pl) 56) as [Hs|Hs]; cbn [app parse1].
    + rewrite bN_nB by lia.
      destruct (N.ltb_spec (192 + blen pl) 128); [lia|].
      destruct (N.ltb_spec (192 + blen pl) 184); [lia|].
      destruct (N.ltb_spec (192 + blen pl) 192); [lia|].
      destruct (N.ltb_spec (192 + blen pl) 248); [|lia].
      replace (192 + blen pl - 192) with (blen pl) by lia. rewrite split_at_app. reflexivity.
    + pose proof (blen_be (blen pl) Hs Hb) as Hbe. set (c := 192 + 55 + blen (be (blen pl))) in *.
      rewrite bN_nB by lia.
      destruct (N.ltb_spec c 128); [lia|].
      destruct (N.ltb_spec c 184); [lia|].
      destruct (N.ltb_spec c 192); [lia|].
      destruct (N.ltb_spec c 248); [lia|].
      replace (c - 247) with (blen (be (blen pl))) by lia.
      rewrite long_payload_enc by auto. reflexivity.
  - assert (Hgen : forall pl, blen pl < 2 ^ 64 ->
        match pl with [b] => 128 <= bN b | _ => True end ->
        parse1 (len_prefix (blen pl) 128 ++ pl ++ r) = Some (false, pl, r)).
    { clear. intros pl Hb Hp. unfold len_prefix.
      destruct (N.ltb_spec (blen pl) 56) as [Hs|Hs]; cbn [app parse1].
      + rewrite bN_nB by lia.
        destruct (N.ltb_spec (128 + blen pl) 128); [lia|].
        destruct (N.ltb_spec (128 + blen pl) 184); [|lia].
        replace (128 + blen pl - 128) with (blen pl) by lia. rewrite split_at_app.
        destruct pl as [|x [|y pl]]; auto.
        destruct (N.ltb_spec (bN x) 128); [lia|]. reflexivity.
      + pose proof (blen_be (blen pl) Hs Hb) as Hbe. set (c := 128 + 55 + blen (be (blen pl))) in *.
        rewrite bN_nB by lia.
        destruct (N.ltb_spec c 128); [lia|].
        destruct (N.ltb_spec c 184); [lia|].
        destruct (N.ltb_spec c 192); [|lia].
        replace (c - 183) with (blen (be (blen pl))) by lia.
        rewrite long_payload_enc by auto. reflexivity. }
    unfold hdr. destruct pl as [|x [|y pl]].
    + apply Hgen; auto.
    + destruct (N.ltb_spec (bN x) 128) as [Hx|Hx].
      * cbn. destruct (N.ltb_spec (bN x) 128); [|lia]. reflexivity.
      * change 1 with (blen [x]). apply Hgen; auto.
    + apply Hgen; auto.
Qed.

Lemma parse1_inv : forall b k pl r, parse1 b = Some (k, pl, r) ->
  b = hdr k pl ++ pl ++ r /\ blen pl < 2 ^ 64 /\ hdr k pl ++ pl <> [].
Proof.
  intros b k pl r E. destruct b as [|b0 b]; [discriminate|]. cbn [parse1] in E.
  assert (Hne : forall l o p, len_prefix l o ++ p <> []).
  { intros. unfold len_prefix. destruct (l <? 56); cbn; congruence. }
  pose proof (bN_lt b0) as Hb0.
  destruct (N.ltb_spec (bN b0) 128) as [H1|H1].
  { injection E as <- <- <-. unfold hdr. destruct (N.ltb_spec (bN b0) 128); [|lia].
    repeat split; try discriminate. }
  destruct (N.ltb_spec (bN b0) 184) as [H2|H2].
  { destruct (split_at (bN b0 - 128) b) as [[pl' r']|] eqn:Es; [|discriminate].
    apply split_at_inv in Es. destruct Es as [-> Hl].
    assert (Hp : len_prefix (blen pl') 128 = [b0]).
    { unfold len_prefix. destruct (N.ltb_spec (blen pl') 56); [|lia].
      replace (128 + blen pl') with (bN b0) by lia. rewrite nB_bN. reflexivity. }
    assert (Hg : (match pl' with [x] => if bN x <? 128 then None else Some (false, pl', r')
                  | _ => Some (false, pl', r') end) = Some (k, pl, r) ->
                 hdr false pl' = [b0] /\ false = k /\ pl' = pl /\ r' = r).
    { unfold hdr. destruct pl' as [|x [|y pl']]; intros E'.
      - injection E' as <- <- <-. auto.
      - change (blen [x]) with 1 in Hp. destruct (bN x <? 128); [discriminate|].
        injection E' as <- <- <-. auto.
      - injection E' as <- <- <-. auto. }
    destruct (Hg E) as (Hh & <- & -> & ->). rewrite Hh. repeat split; try discriminate.
    lia. }
  destruct (N.ltb_spec (bN b0) 192) as [H3|H3].
  { destruct (long_payload (bN b0 - 183) b) as [[pl' r']|] eqn:Es; [|discriminate].
    apply long_payload_inv in Es; [|lia]. destruct Es as (-> & Hl & Hb).
    injection E as <- <- <-.
    assert (Hh : hdr false pl' = b0 :: be (blen pl')).
    { assert (Hh : hdr false pl' = len_prefix (blen pl') 128).
      { destruct pl' as [|x [|y pl']]; auto. unfold blen in Hb. cbn in Hb. lia. }
      rewrite Hh. unfold len_prefix. destruct (N.ltb_spec (blen pl') 56); [lia|].
      f_equal. rewrite <- Hl. replace (128 + 55 + (bN b0 - 183)) with (bN b0) by lia. apply nB_bN. }
    rewrite Hh. repeat split; try discriminate; lia. }
  destruct (N.ltb_spec (bN b0) 248) as [H4|H4].
  { destruct (split_at (bN b0 - 192) b) as [[pl' r']|] eqn:Es; [|discriminate].
    apply split_at_inv in Es. destruct Es as [-> Hl]. injection E as <- <- <-.
    assert (Hh : hdr true pl' = [b0]).
    { unfold hdr, len_prefix. destruct (N.ltb_spec (blen pl') 56); [|lia].
      replace (192 + blen pl') with (bN b0) by lia. rewrite nB_bN. reflexivity. }
    rewrite Hh. repeat split; try discriminate; lia. }
  { destruct (long_payload (bN b0 - 247) b) as [[pl' r']|] eqn:Es; [|discriminate].
    apply long_payload_inv in Es; [|lia]. destruct Es as (-> & Hl & Hb).
    injection E as <- <- <-.
    assert (Hh : hdr true pl' = b0 :: be (blen pl')).
    { unfold hdr, len_prefix. destruct (N.ltb_spec (blen pl') 56); [lia|].
      f_equal. rewrite <- Hl. replace (192 + 55 + (bN b0 - 247)) with (bN b0) by lia. apply nB_bN. }
    rewrite Hh. repeat split; try discriminate; lia. }
Qed.

Definition is_list (i : item) : bool := match i with IBytes _ => false | IList _ => true end.

Lemma renc_hdr : forall i, renc i = hdr (is_list i) (payload i) ++ payload i.
Proof. destruct i; reflexivity. Qed.

Lemma renc_nonempty : forall i, renc i <> [].
Proof.
  intros i. rewrite renc_hdr. destruct i as [b|l]; cbn [is_list payload].
  - unfold hdr, len_prefix. destruct b as [|x [|y b]]; cbn; try congruence.
    destruct (bN x <? 128); cbn; congruence.
    destruct (_ <? 56); cbn; congruence.
  - unfold hdr, len_prefix. destruct (_ <? 56); cbn; congruence.
Qed.

Lemma payload_len : forall i, blen (payload i) <= blen (renc i).
Proof. intros. rewrite renc_hdr, blen_app. lia. Qed.

Lemma flat_map_len_in : forall i l, In i l -> blen (renc i) <= blen (flat_map renc l).
Proof.
  induction l as [|x l IH]; cbn; [tauto|]. intros [->|Hi]; rewrite blen_app; [lia|].
  specialize (IH Hi). lia.
Qed.

(** [dec] with enough fuel. *)
Definition decs (b : bytes) : option (list item) := dec (length b) b.

Lemma hdr_list_pos : forall pl, (0 < length (hdr true pl))%nat.
Proof. intros. unfold hdr, len_prefix. destruct (_ <? 56); cbn; lia. Qed.

Lemma dec_fuel : forall b f1 f2, (length b <= f1)%nat -> (length b <= f2)%nat -> dec f1 b = dec f2 b.
Proof.
  intros b. induction b as [b IHb] using (induction_ltof1 _ (@length byte)). unfold ltof in IHb.
  intros f1 f2 H1 H2. destruct b as [|x b]; [destruct f1, f2; reflexivity|].
  destruct f1 as [|f1]; [cbn in H1; lia|]. destruct f2 as [|f2]; [cbn in H2; lia|].
  cbn [dec]. destruct (parse1 (x :: b)) as [[[k pl] r]|] eqn:E; auto.
  apply parse1_inv in E. destruct E as (E & _ & Hne).
  assert (Hlen : (length (x :: b) = length (hdr k pl) + length pl + length r)%nat).
  { rewrite E, !app_length. lia. }
  assert (Hpos : (0 < length (hdr k pl) + length pl)%nat).
  { destruct (hdr k pl), pl; cbn in *; try congruence; lia. }
  assert (Hr : dec f1 r = dec f2 r) by (apply IHb; lia).
  rewrite Hr. destruct k; auto.
  pose proof (hdr_list_pos pl).
  rewrite (IHb pl) with (f2 := f2) by lia. reflexivity.
Qed.

Lemma decs_step : forall b k pl r, parse1 b = Some (k, pl, r) ->
  decs b = match (if k then option_map IList (decs pl) else Some (IBytes pl)) with
           | None => None
           | Some i => option_map (cons i) (decs r)
           end.
Proof.
  intros b k pl r E. pose proof (parse1_inv _ _ _ _ E) as (Eb & _ & Hne).
  assert (Hlen : (length b = length (hdr k pl) + length pl + length r)%nat).
  { rewrite Eb, !app_length. lia. }
  assert (Hpos : (0 < length (hdr k pl) + length pl)%nat).
  { destruct (hdr k pl), pl; cbn in *; try congruence; lia. }
  unfold decs. destruct b as [|x b]; [discriminate|]. cbn [length] in Hlen. cbn [length dec]. rewrite E.
  rewrite (dec_fuel r (length b) (length r)) by lia.
  assert (Hp : (if k then option_map IList (dec (length b) pl) else Some (IBytes pl)) =
               (if k then option_map IList (dec (length pl) pl) else Some (IBytes pl))).
  { destruct k; auto. pose proof (hdr_list_pos pl).
    rewrite (dec_fuel pl (length b) (length pl)) by lia. reflexivity. }
  rewrite Hp. destruct (if k then _ else _); auto.
Qed.

(** Lossless. *)
Lemma decs_renc : forall i r, blen (payload i) < 2 ^ 64 ->
  decs (renc i ++ r) = option_map (cons i) (decs r).
Proof.
  induction i as [b|l IH] using item_ind2; intros r Hb.
  - rewrite (decs_step _ false b r).
    + reflexivity.
    + rewrite renc_hdr, <- app_assoc. apply parse1_hdr. exact Hb.
  - rewrite (decs_step _ true (flat_map renc l) r).
    + cut (decs (flat_map renc l) = Some l).
      { intros ->. reflexivity. }
      cbn [payload] in Hb. clear r.
      induction IH as [|i l Hi _ IHl]; [reflexivity|].
      cbn [flat_map] in *. rewrite blen_app in Hb.
      rewrite Hi, IHl by (pose proof (payload_len i); lia). reflexivity.
    + rewrite renc_hdr, <- app_assoc. apply parse1_hdr. exact Hb.
Qed.

Lemma rlp_decode_renc : forall i, blen (payload i) < 2 ^ 64 -> rlp_decode (renc i) = Ok i.
Proof.
  intros i Hb. pose proof (decs_renc i [] Hb) as Hd. rewrite app_nil_r in Hd.
  unfold rlp_decode. fold (decs (renc i)). rewrite Hd. reflexivity.
Qed.

Lemma rlp_encode_decode : forall i b, rlp_encode i = Ok b -> rlp_decode b = Ok i.
Proof.
  intros i b E. unfold rlp_encode in E. destruct (N.ltb_spec (blen (payload i)) (2 ^ 64)); [|discriminate].
  injection E as <-. apply rlp_decode_renc. auto.
Qed.

(** Canonical: what decodes is the encoding of the result. *)
Lemma decs_inv : forall b l, decs b = Some l ->
  b = flat_map renc l /\ Forall (fun i => blen (payload i) < 2 ^ 64) l.
Proof.
  intros b. induction b as [b IHb] using (induction_ltof1 _ (@length byte)). unfold ltof in IHb.
  intros l E. destruct b as [|x b].
  { injection E as <-. split; constructor. }
  destruct (parse1 (x :: b)) as [[[k pl] r]|] eqn:Ep.
  2: { unfold decs in E. cbn [length dec] in E. rewrite Ep in E. discriminate. }
  rewrite (decs_step _ _ _ _ Ep) in E.
  pose proof (parse1_inv _ _ _ _ Ep) as (Eb & Hpl & Hne).
  assert (Hlen : (length (x :: b) = length (hdr k pl) + length pl + length r)%nat).
  { rewrite Eb, !app_length. lia. }
  assert (Hpos : (0 < length (hdr k pl) + length pl)%nat).
  { destruct (hdr k pl), pl; cbn in *; try congruence; lia. }
  destruct (if k then _ else _) as [i|] eqn:Ei; [|discriminate].
  destruct (decs r) as [lr|] eqn:Er; [|discriminate]. injection E as <-.
  apply IHb in Er; [|lia]. destruct Er as [-> Hr].
  assert (Hi : renc i = hdr k pl ++ pl /\ blen (payload i) < 2 ^ 64).
  { destruct k.
    - destruct (decs pl) as [li|] eqn:El; [|discriminate]. injection Ei as <-.
      pose proof (hdr_list_pos pl). apply IHb in El; [|lia]. destruct El as [-> _]. split; auto.
    - injection Ei as <-. auto. }
  destruct Hi as [Hi1 Hi2]. split; [|constructor; auto].
  rewrite Eb. cbn [flat_map]. rewrite Hi1, <- app_assoc. reflexivity.
Qed.

Lemma rlp_decode_inv : forall b i, rlp_decode b = Ok i -> b = renc i /\ blen (payload i) < 2 ^ 64.
Proof.
  intros b i E. unfold rlp_decode in E. fold (decs b) in E.
  destruct (decs b) as [[|i' [|? ?]]|] eqn:Ed; try discriminate. injection E as <-.
  apply decs_inv in Ed. destruct Ed as [-> HF]. cbn. rewrite app_nil_r.
  inversion HF; auto.
Qed.

Lemma rlp_decode_encode : forall b i, rlp_decode b = Ok i -> rlp_encode i = Ok b.
Proof.
  intros b i E. apply rlp_decode_inv in E. destruct E as [-> Hb].
  unfold rlp_encode. destruct (N.ltb_spec (blen (payload i)) (2 ^ 64)); [reflexivity|lia].
Qed.

Lemma rlp_decode_err : forall b e, rlp_decode b = Err e -> e = DecodingError.
Proof.
  intros b e E. unfold rlp_decode in E. destruct (dec _ _) as [[|? [|? ?]]|]; congruence.
Qed.

Lemma renc_inj : forall i j, blen (payload i) < 2 ^ 64 -> blen (payload j) < 2 ^ 64 ->
  renc i = renc j -> i = j.
Proof.
  intros i j Hi Hj E. apply rlp_decode_renc in Hi. apply rlp_decode_renc in Hj. congruence.
Qed.

Lemma blen_hdr : forall k pl, blen pl < 2 ^ 64 -> blen (hdr k pl) <= 9.
Proof.
  intros k pl Hb.
  assert (Hg : forall o, blen (len_prefix (blen pl) o) <= 9).
  { intros o. unfold len_prefix. destruct (N.ltb_spec (blen pl) 56) as [|Hs].
    - cbn. lia.
    - pose proof (blen_be _ Hs Hb). unfold blen in *. cbn [length]. lia. }
  unfold hdr. destruct k; auto. destruct pl as [|x [|y pl]]; auto.
  destruct (bN x <? 128); cbn; lia.
Qed.

Lemma blen_renc : forall i, blen (payload i) < 2 ^ 64 -> blen (renc i) <= blen (payload i) + 9.
Proof. intros i Hb. rewrite renc_hdr, blen_app. pose proof (blen_hdr (is_list i) _ Hb). lia. Qed.
