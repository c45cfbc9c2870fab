(** Proofs about ProofJson.v. *)
From Coq Require Import String List Bool Arith NArith ZArith Lia.
From Verif Require Import Base BaseProofs ProofObj Json JsonProofs Keccak KeccakProofs ProofJson Spec NibblePath Node Mpt EmptProofs
  MerkleTree SpecMt MtProofs MtProofs2 MtRlp.
Import ListNotations.

(** A byte string that is the UTF-8 encoding of some text. *)
Definition text (b : bytes) : Prop := exists s, utf8_encode s = Ok b.
Lemma text_decode : forall b, text b <-> exists s, utf8_decode b = Ok s.
Proof.
  intros b. split; intros [s E]; exists s; [now apply utf8_encode_decode|now apply utf8_decode_encode].
Qed.
Lemma not_text : forall b, ~ text b <-> utf8_decode b = Err UnicodeDecodeError.
Proof.
  intros b. rewrite text_decode. unfold utf8_decode. destruct (utf8_dec b) as [s|]; split; intros E.
  - exfalso. apply E. eauto.
  - discriminate.
  - reflexivity.
  - intros [s E']. discriminate.
Qed.

Lemma mapM_elem_text : forall l els, mapM elem_text l = Ok els -> exists bl, l = map PB bl /\ mapM utf8_encode els = Ok bl /\ Forall (Forall scalar) els.
Proof.
  induction l as [|e l IH]; intros els E; cbn [mapM] in E.
  - injection E as <-. exists []. repeat split; constructor.
  - destruct (elem_text e) as [x|] eqn:Ee; [|discriminate]. destruct (mapM elem_text l) as [xs|] eqn:El; [|discriminate].
    injection E as <-. destruct (IH xs eq_refl) as [bl [-> [Em F]]]. destruct e as [b|]; [|discriminate]. cbn [elem_text] in Ee.
    exists (b :: bl). split; [reflexivity|]. split.
    + cbn [mapM]. rewrite (utf8_decode_encode _ _ Ee), Em. reflexivity.
    + constructor; [now apply utf8_decode_scalar in Ee|exact F].
Qed.
Lemma mapM_elem_text_total : forall bl, Forall text bl -> exists els, mapM elem_text (map PB bl) = Ok els.
Proof.
  induction bl as [|b bl IH]; intros F; cbn [map mapM]; [eauto|]. inversion F as [|? ? Fb Fl]; subst.
  apply text_decode in Fb as [s Es]. cbn [elem_text]. rewrite Es. destruct (IH Fl) as [els ->]. eauto.
Qed.
Lemma mapM_jencode : forall els, mapM jencode (map JStr els) = mapM utf8_encode els.
Proof. induction els as [|e els IH]; cbn [map mapM jencode]; [reflexivity|]. rewrite IH. reflexivity. Qed.

Lemma type_text : utf8_decode MT_POI = Ok (txt "MT-POI").
Proof. reflexivity. Qed.

(** The text of a proof and what it decodes to. *)
Lemma encode_json_form : forall p s, pf_type p = MT_POI -> proof_encode_json p = Ok s ->
  exists tm key root els, utf8_decode (pf_time p) = Ok tm /\ utf8_decode (pf_key p) = Ok key /\ utf8_decode (pf_root p) = Ok root /\
    mapM elem_text (pf_proof p) = Ok els /\
    s = dumps (JObj [(k_type, JStr (txt "MT-POI")); (k_time, JStr tm); (k_key, JStr key); (k_root, JStr root); (k_proof, JArr (map JStr els))]).
Proof.
  intros p s Ty E. unfold proof_encode_json in E. rewrite Ty, type_text in E. cbn [bind] in E.
  destruct (utf8_decode (pf_time p)) as [tm|]; [|discriminate]. cbn [bind] in E.
  destruct (utf8_decode (pf_key p)) as [key|]; [|discriminate]. cbn [bind] in E.
  destruct (utf8_decode (pf_root p)) as [root|]; [|discriminate]. cbn [bind] in E.
  change (has_sub (txt "MT") (txt "MT-POI")) with true in E. cbv iota zeta in E.
  destruct (mapM elem_text (pf_proof p)) as [els|]; [|discriminate]. cbn [bind] in E.
  exists tm, key, root, els. repeat split. congruence.
Qed.

Lemma scalar_txt : forall s, forallb (fun c => (c <? 128)%N) (txt s) = true -> Forall scalar (txt s).
Proof.
  intros s E. rewrite forallb_forall in E. apply Forall_forall. intros c Hc. apply E in Hc. apply N.ltb_lt in Hc. unfold scalar. lia.
Qed.
Lemma Forall_JStr : forall els, Forall (Forall scalar) els -> Forall jok (map JStr els).
Proof. induction els as [|e els IH]; intros F; cbn [map]; constructor; inversion F; subst; auto. Qed.

Lemma json_round_trip : forall p s, pf_type p = MT_POI -> proof_encode_json p = Ok s -> proof_decode_json s = Ok p.
Proof.
  intros p s Ty E. destruct (encode_json_form p s Ty E) as [tm [key [root [els [Et [Ek [Er [El ->]]]]]]]].
  destruct (mapM_elem_text _ _ El) as [bl [Ep [Em F]]].
  unfold proof_decode_json. rewrite loads_dumps.
  - cbn [bind].
    change (jindex _ k_proof) with (@Ok json (JArr (map JStr els))). cbn [bind].
    change (jindex _ k_type) with (@Ok json (JStr (txt "MT-POI"))). cbn [bind].
    change (jin (txt "MPT") (JStr (txt "MT-POI"))) with (Ok false). cbn [bind]. cbv iota.
    change (jin (txt "MT") (JStr (txt "MT-POI"))) with (Ok true). cbn [bind]. cbv iota.
    change (jiter (JArr (map JStr els))) with (@Ok (list json) (map JStr els)). cbn [bind].
    rewrite mapM_jencode, Em. cbn [bind].
    change (jindex _ k_key) with (@Ok json (JStr key)). cbn [bind jencode]. rewrite (utf8_decode_encode _ _ Ek). cbn [bind].
    change (jindex _ k_root) with (@Ok json (JStr root)). cbn [bind jencode]. rewrite (utf8_decode_encode _ _ Er). cbn [bind].
    change (utf8_encode (txt "MT-POI")) with (@Ok bytes MT_POI). cbn [bind].
    change (new_proof [] (pf_key p) (pf_root p) (map PB bl) MT_POI) with (Ok (mkProof MT_POI [] (pf_key p) (pf_root p) (map PB bl))). cbn [bind].
    change (jindex _ k_time) with (@Ok json (JStr tm)). cbn [bind jencode]. rewrite (utf8_decode_encode _ _ Et). cbn [bind].
    cbn [pf_type pf_key pf_root pf_proof]. rewrite <- Ep, <- Ty. destruct p; reflexivity.
  - apply jok_obj. repeat (apply Forall_cons || apply Forall_nil); cbn [fst snd]; (split; [apply scalar_txt; reflexivity|]).
    + apply scalar_txt. reflexivity.
    + now apply utf8_decode_scalar in Et.
    + now apply utf8_decode_scalar in Ek.
    + now apply utf8_decode_scalar in Er.
    + apply jok_arr. now apply Forall_JStr.
Qed.

(** When encoding succeeds. *)
Lemma json_encodes : forall p, pf_type p = MT_POI -> (exists s, proof_encode_json p = Ok s) <->
  text (pf_time p) /\ text (pf_key p) /\ text (pf_root p) /\ exists bl, pf_proof p = map PB bl /\ Forall text bl.
Proof.
  intros p Ty. split.
  - intros [s E]. destruct (encode_json_form p s Ty E) as [tm [key [root [els [Et [Ek [Er [El _]]]]]]]].
    repeat split; try (apply text_decode; eauto). destruct (mapM_elem_text _ _ El) as [bl [Ep [Em F]]]. exists bl. split; [exact Ep|].
    clear - Em. revert bl Em. induction els as [|e els IH]; intros bl Em; cbn [mapM] in Em.
    + injection Em as <-. constructor.
    + destruct (utf8_encode e) as [b|] eqn:Eb; [|discriminate]. destruct (mapM utf8_encode els) as [l|]; [|discriminate].
      injection Em as <-. constructor; [exists e; exact Eb|now apply IH].
  - intros [Tt [Tk [Tr [bl [Ep F]]]]]. apply text_decode in Tt as [tm Et]. apply text_decode in Tk as [key Ek]. apply text_decode in Tr as [root Er].
    destruct (mapM_elem_text_total bl F) as [els El].
    unfold proof_encode_json. rewrite Ty, type_text. cbn [bind]. rewrite Et. cbn [bind]. rewrite Ek. cbn [bind]. rewrite Er. cbn [bind].
    change (has_sub (txt "MT") (txt "MT-POI")) with true. cbv iota zeta. rewrite Ep, El. cbn [bind]. eauto.
Qed.

(** What decode_json accepts. *)
Lemma jencode_text : forall v b, jencode v = Ok b -> text b.
Proof. intros [s| | | | | |] b E; try discriminate. exists s. exact E. Qed.
Lemma mapM_jencode_text : forall l bl, mapM jencode l = Ok bl -> Forall text bl.
Proof.
  induction l as [|v l IH]; intros bl E; cbn [mapM] in E.
  - injection E as <-. constructor.
  - destruct (jencode v) as [b|] eqn:Eb; [|discriminate]. destruct (mapM jencode l) as [bl'|]; [|discriminate]. injection E as <-.
    constructor; [now apply jencode_text in Eb|now apply IH].
Qed.
Lemma has_MPT_of_type : forall s, utf8_encode s = Ok MPT_POI \/ utf8_encode s = Ok MPT_POE -> has_sub (txt "MPT") s = true.
Proof.
  intros s [E|E]; apply utf8_encode_dec in E as [E _].
  - change (utf8_dec MPT_POI) with (Some (txt "MPT-POI")) in E. injection E as <-. reflexivity.
  - change (utf8_dec MPT_POE) with (Some (txt "MPT-POE")) in E. injection E as <-. reflexivity.
Qed.
Lemma decode_json_accepts : forall s p, proof_decode_json s = Ok p ->
  pf_type p = MT_POI /\ text (pf_time p) /\ text (pf_key p) /\ text (pf_root p) /\ exists bl, pf_proof p = map PB bl /\ Forall text bl.
Proof.
  intros s p E. unfold proof_decode_json in E.
  destruct (loads s) as [v|]; [|discriminate]. cbn [bind] in E.
  destruct (jindex v k_proof) as [l|]; [|discriminate]. cbn [bind] in E.
  destruct (jindex v k_type) as [ty|]; [|discriminate]. cbn [bind] in E.
  destruct (jin (txt "MPT") ty) as [m|] eqn:Em; [|discriminate]. cbn [bind] in E. destruct m; [discriminate|].
  destruct (jin (txt "MT") ty) as [m'|] eqn:Em'; [|discriminate]. cbn [bind] in E. destruct m'; [|discriminate].
  destruct (jiter l) as [els|]; [|discriminate]. cbn [bind] in E.
  destruct (mapM jencode els) as [bl|] eqn:Eb; [|discriminate]. cbn [bind] in E.
  destruct (jindex v k_key) as [kv|]; [|discriminate]. cbn [bind] in E.
  destruct (jencode kv) as [k|] eqn:Ek; [|discriminate]. cbn [bind] in E.
  destruct (jindex v k_root) as [rv|]; [|discriminate]. cbn [bind] in E.
  destruct (jencode rv) as [r|] eqn:Er; [|discriminate]. cbn [bind] in E.
  destruct (jencode ty) as [t|] eqn:Et; [|discriminate]. cbn [bind] in E.
  destruct (new_proof [] k r (map PB bl) t) as [q|] eqn:Eq; [|discriminate]. cbn [bind] in E.
  destruct (jindex v k_time) as [tv|]; [|discriminate]. cbn [bind] in E.
  destruct (jencode tv) as [tm|] eqn:Etm; [|discriminate]. cbn [bind] in E.
  unfold new_proof in Eq. destruct (existsb (bytes_eqb t) accepted_types) eqn:Ea; [|discriminate].
  assert (Q : q = mkProof t [] k r (map PB bl)) by congruence. subst q. cbn [pf_type pf_key pf_root pf_proof] in E.
  assert (P : p = mkProof t tm k r (map PB bl)) by congruence. subst p. cbn [pf_type pf_time pf_key pf_root pf_proof].
  split.
  - destruct ty as [sty| | | | | |]; try discriminate. cbn [jencode] in Et. cbn [jin] in Em.
    unfold accepted_types in Ea. cbn [existsb] in Ea. rewrite !orb_true_iff in Ea.
    destruct Ea as [Ea|[Ea|[Ea|Ea]]]; [| | |discriminate]; apply bytes_eqb_eq in Ea; subst t.
    + rewrite (has_MPT_of_type sty) in Em; [discriminate|auto].
    + rewrite (has_MPT_of_type sty) in Em; [discriminate|auto].
    + reflexivity.
  - repeat split; try (eapply jencode_text; eassumption). exists bl. split; [reflexivity|]. now apply mapM_jencode_text in Eb.
Qed.

Lemma decode_json_reencodes : forall s p, proof_decode_json s = Ok p -> exists s', proof_encode_json p = Ok s' /\ proof_decode_json s' = Ok p.
Proof.
  intros s p E. destruct (decode_json_accepts s p E) as [Ty R].
  destruct (proj2 (json_encodes p Ty) R) as [s' E']. exists s'. split; [exact E'|]. now apply json_round_trip.
Qed.

Lemma json_mpt : forall p, pf_type p = MPT_POI \/ pf_type p = MPT_POE -> text (pf_time p) -> text (pf_key p) -> text (pf_root p) ->
  proof_encode_json p = Err NotImplementedError.
Proof.
  intros p Ty Tt Tk Tr. apply text_decode in Tt as [tm Et]. apply text_decode in Tk as [key Ek]. apply text_decode in Tr as [root Er].
  unfold proof_encode_json. destruct Ty as [-> | ->].
  - change (utf8_decode MPT_POI) with (@Ok (list N) (txt "MPT-POI")). cbn [bind]. rewrite Et. cbn [bind]. rewrite Ek. cbn [bind]. rewrite Er. reflexivity.
  - change (utf8_decode MPT_POE) with (@Ok (list N) (txt "MPT-POE")). cbn [bind]. rewrite Et. cbn [bind]. rewrite Ek. cbn [bind]. rewrite Er. reflexivity.
Qed.
Lemma json_mpt_never : forall p s, pf_type p = MPT_POI \/ pf_type p = MPT_POE -> proof_encode_json p <> Ok s.
Proof.
  intros p s Ty E. unfold proof_encode_json in E.
  assert (D : exists ty, utf8_decode (pf_type p) = Ok ty /\ has_sub (txt "MT") ty = false /\ has_sub (txt "MPT") ty = true).
  { destruct Ty as [-> | ->]; eexists; (split; [reflexivity|split; reflexivity]). }
  destruct D as [ty [D1 [D2 D3]]]. rewrite D1 in E. cbn [bind] in E.
  destruct (utf8_decode (pf_time p)) as [tm|]; [|discriminate]. cbn [bind] in E.
  destruct (utf8_decode (pf_key p)) as [key|]; [|discriminate]. cbn [bind] in E.
  destruct (utf8_decode (pf_root p)) as [root|]; [|discriminate]. cbn [bind] in E.
  rewrite D2, D3 in E. discriminate.
Qed.

(** A proof with a pair in it cannot be encoded. *)
Lemma json_pair : forall p s a b, In (PPair a b) (pf_proof p) -> pf_type p = MT_POI -> proof_encode_json p <> Ok s.
Proof.
  intros p s a b Hi Ty E. destruct (proj1 (json_encodes p Ty)) as [_ [_ [_ [bl [Ep _]]]]]; [eauto|].
  rewrite Ep in Hi. apply in_map_iff in Hi as [x [Ex _]]. discriminate.
Qed.

(** ** repr is injective *)
(** Reads one escaped byte back. *)
Definition unhexn (b : byte) : N := if (bN b <? 58)%N then (bN b - 48)%N else (bN b - 87)%N.
Definition unrepr (s : bytes) : option (byte * bytes) :=
  match s with
  | x5c :: e :: r =>
      match e with
      | x74 => Some (x09, r) | x6e => Some (x0a, r) | x72 => Some (x0d, r)
      | x78 => match r with a :: b :: r' => Some (nB (unhexn a * 16 + unhexn b), r') | _ => None end
      | _ => Some (e, r)
      end
  | c :: r => Some (c, r)
  | [] => None
  end.
Lemma unrepr_byte : forall q c r, q = x27 \/ q = x22 -> unrepr (repr_byte q c ++ r) = Some (c, r).
Proof. intros q c r [-> | ->]; destruct c; reflexivity. Qed.
Lemma repr_byte_head : forall q c, q = x27 \/ q = x22 -> exists h t, repr_byte q c = h :: t /\ h <> q.
Proof. intros q c [-> | ->]; destruct c; eexists; eexists; (split; [reflexivity|discriminate]). Qed.

Lemma body_inj : forall q, q = x27 \/ q = x22 -> forall b b' r r',
  flat_map (repr_byte q) b ++ q :: r = flat_map (repr_byte q) b' ++ q :: r' -> b = b' /\ r = r'.
Proof.
  intros q Hq. induction b as [|c b IH]; intros [|c' b'] r r' E; cbn [flat_map app] in E.
  - split; [reflexivity|congruence].
  - exfalso. destruct (repr_byte_head q c' Hq) as [h [t [Eh Nh]]]. rewrite Eh in E. cbn [app] in E. congruence.
  - exfalso. destruct (repr_byte_head q c Hq) as [h [t [Eh Nh]]]. rewrite Eh in E. cbn [app] in E. congruence.
  - rewrite <- !app_assoc in E. pose proof (f_equal unrepr E) as U. rewrite !unrepr_byte in U by exact Hq.
    injection U as Ec Er.
    destruct (IH b' r r' Er) as [-> ->]. subst c'. auto.
Qed.
Lemma quote_cases : forall b, quote_of b = x27 \/ quote_of b = x22.
Proof. intros b. unfold quote_of. destruct (_ && _); auto. Qed.
Lemma bytes_repr_app : forall b r, bytes_repr b ++ r = x62 :: quote_of b :: flat_map (repr_byte (quote_of b)) b ++ quote_of b :: r.
Proof. intros b r. unfold bytes_repr. cbv zeta. cbn [app]. rewrite <- app_assoc. reflexivity. Qed.
Lemma bytes_repr_inj : forall b b' r r', bytes_repr b ++ r = bytes_repr b' ++ r' -> b = b' /\ r = r'.
Proof.
  intros b b' r r' E. rewrite !bytes_repr_app in E.
  assert (Q : quote_of b = quote_of b') by congruence. rewrite Q in E.
  assert (E' : flat_map (repr_byte (quote_of b')) b ++ quote_of b' :: r = flat_map (repr_byte (quote_of b')) b' ++ quote_of b' :: r') by congruence.
  apply (body_inj _ (quote_cases b') b b' r r' E').
Qed.
Lemma elem_repr_inj : forall e e' r r', elem_repr e ++ r = elem_repr e' ++ r' -> e = e' /\ r = r'.
Proof.
  intros [b|a b] [b'|a' b'] r r' E; cbn [elem_repr] in E.
  - destruct (bytes_repr_inj _ _ _ _ E) as [-> ->]. auto.
  - rewrite (bytes_repr_app b) in E. cbn [app] in E. discriminate.
  - rewrite (bytes_repr_app b') in E. cbn [app] in E. discriminate.
  - cbn [app] in E. rewrite <- !app_assoc in E. cbn [app] in E.
    assert (E1 : bytes_repr a ++ x2c :: x20 :: (bytes_repr b ++ [x29]) ++ r = bytes_repr a' ++ x2c :: x20 :: (bytes_repr b' ++ [x29]) ++ r') by congruence.
    destruct (bytes_repr_inj _ _ _ _ E1) as [-> E2].
    assert (E3 : bytes_repr b ++ [x29] ++ r = bytes_repr b' ++ [x29] ++ r') by (rewrite !app_assoc; congruence).
    destruct (bytes_repr_inj _ _ _ _ E3) as [-> E4]. cbn [app] in E4. split; congruence.
Qed.
Lemma elem_repr_head : forall e r, exists h t, elem_repr e ++ r = h :: t /\ h <> x29.
Proof.
  intros [b|a b] r; cbn [elem_repr].
  - rewrite bytes_repr_app. do 2 eexists. split; [reflexivity|congruence].
  - cbn [app]. do 2 eexists. split; [reflexivity|congruence].
Qed.
Lemma tail_repr_inj : forall l l' r r', tail_repr l ++ r = tail_repr l' ++ r' -> l = l' /\ r = r'.
Proof.
  induction l as [|e l IH]; intros [|e' l'] r r' E; cbn [tail_repr app] in E.
  - split; [reflexivity|congruence].
  - congruence.
  - congruence.
  - assert (E1 : elem_repr e ++ tail_repr l ++ r = elem_repr e' ++ tail_repr l' ++ r') by (rewrite !app_assoc; congruence).
    destruct (elem_repr_inj _ _ _ _ E1) as [-> E2]. destruct (IH _ _ _ E2) as [-> ->]. auto.
Qed.
Lemma tuple_repr_inj : forall l l' r r', tuple_repr l ++ r = tuple_repr l' ++ r' -> l = l' /\ r = r'.
Proof.
  assert (N1 : forall e l r r', tuple_repr [] ++ r <> tuple_repr (e :: l) ++ r').
  { intros e l r r' E. destruct l as [|e2 l]; cbn [tuple_repr app] in E; rewrite <- app_assoc in E;
      [destruct (elem_repr_head e ([x2c; x29] ++ r')) as [h [t [Eh Nh]]]|destruct (elem_repr_head e (tail_repr (e2 :: l) ++ r')) as [h [t [Eh Nh]]]];
      rewrite Eh in E; congruence. }
  assert (N2 : forall e e' e2 l r r', tuple_repr [e] ++ r <> tuple_repr (e' :: e2 :: l) ++ r').
  { intros e e' e2 l r r' E. cbn [tuple_repr app] in E. rewrite <- !app_assoc in E.
    assert (E1 : elem_repr e ++ [x2c; x29] ++ r = elem_repr e' ++ tail_repr (e2 :: l) ++ r') by congruence.
    destruct (elem_repr_inj _ _ _ _ E1) as [_ E2]. cbn [tail_repr app] in E2. congruence. }
  intros [|e [|e2 l]] [|e' [|e2' l']] r r' E.
  - split; [reflexivity|]. cbn [tuple_repr app] in E. congruence.
  - destruct (N1 _ _ _ _ E).
  - destruct (N1 _ _ _ _ E).
  - destruct (N1 _ _ _ _ (eq_sym E)).
  - cbn [tuple_repr app] in E. rewrite <- !app_assoc in E.
    assert (E1 : elem_repr e ++ [x2c; x29] ++ r = elem_repr e' ++ [x2c; x29] ++ r') by congruence.
    destruct (elem_repr_inj _ _ _ _ E1) as [-> E2]. cbn [app] in E2. split; congruence.
  - destruct (N2 _ _ _ _ _ _ E).
  - destruct (N1 _ _ _ _ (eq_sym E)).
  - destruct (N2 _ _ _ _ _ _ (eq_sym E)).
  - change (tuple_repr (e :: e2 :: l)) with (x28 :: elem_repr e ++ tail_repr (e2 :: l)) in E.
    change (tuple_repr (e' :: e2' :: l')) with (x28 :: elem_repr e' ++ tail_repr (e2' :: l')) in E.
    cbn [app] in E. rewrite <- !app_assoc in E.
    assert (E1 : elem_repr e ++ tail_repr (e2 :: l) ++ r = elem_repr e' ++ tail_repr (e2' :: l') ++ r') by congruence.
    destruct (elem_repr_inj _ _ _ _ E1) as [-> E2]. destruct (tail_repr_inj _ _ _ _ E2) as [E3 ->]. rewrite E3. auto.
Qed.

Lemma proof_str_inj : forall p q, proof_str p = proof_str q -> p = q.
Proof.
  intros [ty tm k r l] [ty' tm' k' r' l'] E. unfold proof_str in E. cbn [pf_type pf_time pf_key pf_root pf_proof] in E.
  apply app_inv_head in E. destruct (bytes_repr_inj _ _ _ _ E) as [-> E1].
  apply app_inv_head in E1. destruct (bytes_repr_inj _ _ _ _ E1) as [-> E2].
  apply app_inv_head in E2. destruct (bytes_repr_inj _ _ _ _ E2) as [-> E3].
  apply app_inv_head in E3. destruct (bytes_repr_inj _ _ _ _ E3) as [-> E4].
  apply app_inv_head in E4. destruct (tuple_repr_inj _ _ _ _ E4) as [-> _]. reflexivity.
Qed.

(** ** Equality *)
Section WithHash.
Context {H : Hash}.

Lemma proof_eq_exact : forall d, (forall b, length (keccak b) = d) -> forall p q, no_collision [proof_str p; proof_str q] ->
  (proof_eq p q = true <-> p = q).
Proof.
  intros d L p q N. unfold proof_eq, proof_hash. rewrite N.eqb_eq. split; [|intros ->; reflexivity].
  intros E. apply unbe_inj in E; [|rewrite !L; reflexivity]. apply proof_str_inj, N; [left; reflexivity|right; left; reflexivity|exact E].
Qed.

Lemma mt_time_eq : forall d, (forall b, length (keccak b) = d) -> forall s t vs v t1 t2 p q, built_over s t vs -> In v vs -> t1 <> t2 ->
  get_poi t t1 (VBytes v) = (Ok p, t) -> get_poi t t2 (VBytes v) = (Ok q, t) -> no_collision [proof_str p; proof_str q] ->
  proof_eq p q = false.
Proof.
  intros d L s t vs v t1 t2 p q Hb Hi Ne E1 E2 N. destruct (proof_eq p q) eqn:E; [|reflexivity].
  apply (proof_eq_exact d L p q N) in E. subst q.
  destruct (built_poi s t vs v t1 Hb Hi) as [pa [_ P]]. destruct (built_poi s t vs v t2 Hb Hi) as [pb [_ Q]].
  rewrite E1 in P. rewrite E2 in Q. injection P as P. injection Q as Q. subst p. injection Q as Q _. congruence.
Qed.

Lemma mpt_poi_time : forall lim time t k p, mpt_get_poi lim time t k = Ok p -> pf_time p = time.
Proof.
  intros lim time t k p E. unfold mpt_get_poi in E. repeat (match type of E with context [if ?c then _ else _] => destruct c; [try discriminate|] end; try discriminate).
  destruct (get_poi_ _ _ _ _ _) as [l|]; [|discriminate]. cbn [bind] in E. injection E as E. subst p. reflexivity.
Qed.

Lemma mpt_time_eq : forall d, (forall b, length (keccak b) = d) -> forall lim t k t1 t2 p q, t1 <> t2 ->
  mpt_get_poi lim t1 t k = Ok p -> mpt_get_poi lim t2 t k = Ok q -> no_collision [proof_str p; proof_str q] -> proof_eq p q = false.
Proof.
  intros d L lim t k t1 t2 p q Ne E1 E2 N. destruct (proof_eq p q) eqn:E; [|reflexivity].
  apply (proof_eq_exact d L p q N) in E. subst q. apply mpt_poi_time in E1. apply mpt_poi_time in E2. congruence.
Qed.

(** ** Merkle tree proofs as JSON *)
Lemma mt_poi_type : forall s t vs v time p, built_over s t vs -> In v vs -> get_poi t time (VBytes v) = (Ok p, t) ->
  pf_type p = MT_POI /\ pf_time p = time /\ pf_key p = v.
Proof.
  intros s t vs v time p Hb Hi E. destruct (built_poi s t vs v time Hb Hi) as [pa [_ P]]. rewrite E in P. injection P as P.
  subst p. repeat split.
Qed.
Lemma mt_json_fails : forall s t vs v time p j, built_over s t vs -> In v vs -> 2 <= length vs ->
  get_poi t time (VBytes v) = (Ok p, t) -> proof_encode_json p <> Ok j.
Proof.
  intros s t vs v time p j Hb Hi L E. destruct (built_poi_ne s t vs v time p Hb Hi L E) as [x [y Hp]].
  apply (json_pair p j x y Hp). apply (mt_poi_type s t vs v time p Hb Hi E).
Qed.
(** With text everywhere else it is the pair that is refused. *)
Lemma utf8_ascii : forall b, Forall (fun x => (bN x < 128)%N) b -> utf8_encode (ascii b) = Ok b.
Proof.
  unfold ascii. induction 1 as [|x b Hx _ IH]; [reflexivity|]. cbn [map utf8_encode]. rewrite IH. unfold utf8_char.
  apply N.ltb_lt in Hx. rewrite Hx, nB_bN. reflexivity.
Qed.
Lemma hexdigit_ascii : forall n, (n < 16)%N -> (bN (hexdigit n) < 128)%N.
Proof.
  intros n L. unfold hexdigit. destruct (n <? 10)%N eqn:E; rewrite bN_nB; try lia; apply N.ltb_ge in E; lia.
Qed.
Lemma to_hex_ascii : forall b, Forall (fun x => (bN x < 128)%N) (to_hex b).
Proof.
  induction b as [|x b IH]; [constructor|]. rewrite to_hex_cons. pose proof (bN_lt x).
  constructor; [|constructor; [|exact IH]]; apply hexdigit_ascii; [apply N.div_lt_upper_bound; lia|apply N.mod_lt; lia].
Qed.
Lemma text_hex : forall b, text (to_hex b).
Proof. intros b. exists (ascii (to_hex b)). apply utf8_ascii, to_hex_ascii. Qed.

Lemma mt_json_error : forall s t vs v time p, built_over s t vs -> In v vs -> 2 <= length vs -> text time -> text v ->
  get_poi t time (VBytes v) = (Ok p, t) -> proof_encode_json p = Err AttributeError.
Proof.
  intros s t vs v time p Hb Hi L Tt Tv E. destruct (built_poi_ne s t vs v time p Hb Hi L E) as [x [y Hp]].
  destruct (built_poi s t vs v time Hb Hi) as [pa [_ P]]. rewrite E in P. injection P as P. subst p. cbn [pf_proof] in Hp.
  unfold proof_encode_json. cbn [pf_type pf_time pf_key pf_root pf_proof].
  apply text_decode in Tt as [tm Et]. apply text_decode in Tv as [key Ek].
  destruct (proj1 (text_decode _) (text_hex (merkle_root (leaves_of s vs)))) as [rt Er].
  change (utf8_decode MT_POI) with (@Ok (list N) (txt "MT-POI")). cbn [bind]. rewrite Et. cbn [bind]. rewrite Ek. cbn [bind].
  rewrite Er. cbn [bind]. destruct (pairs (hex_path pa)) as [|e l] eqn:Ee; [destruct Hp|].
  unfold pairs in Ee. destruct (hex_path pa) as [|h hl]; [discriminate|]. injection Ee as <- _. reflexivity.
Qed.

(** A tree with one value. *)
Lemma mt_json_single : forall s t v time p, built_over s t [v] -> text time -> get_poi t time (VBytes v) = (Ok p, t) ->
  (text v <-> exists j, proof_encode_json p = Ok j) /\ (forall j, proof_encode_json p = Ok j -> proof_decode_json j = Ok p).
Proof.
  intros s t v time p Hb Tt E. destruct (mt_poi_type s t [v] v time p Hb (or_introl eq_refl) E) as [Ty [Tm Tk]].
  pose proof (built_poi_one s t v time p Hb E) as El.
  destruct (built_poi s t [v] v time Hb (or_introl eq_refl)) as [pa [_ P]]. rewrite E in P. injection P as P.
  assert (Tr : text (pf_root p)) by (rewrite P; apply text_hex).
  split; [|intros j; apply json_round_trip; exact Ty]. rewrite (json_encodes p Ty), Tm, Tk, El. split.
  - intros Tv. split; [exact Tt|]. split; [exact Tv|]. split; [exact Tr|]. exists []. split; [reflexivity|constructor].
  - intros [_ [Tv _]]. exact Tv.
Qed.
End WithHash.

(** ** Iteration *)
Lemma list_items : forall p c fuel, 5 < fuel -> fst (proof_list fuel p c) = Ok (proof_items p).
Proof.
  intros p c fuel L. do 6 (destruct fuel as [|fuel]; [lia|]). reflexivity.
Qed.
Lemma nested_items : forall p c fuel, 5 < fuel -> fst (proof_pairs fuel p c) = Ok (map (pair (k_type, FB (pf_type p))) (proof_items p)).
Proof.
  intros p c fuel L. do 6 (destruct fuel as [|fuel]; [lia|]). reflexivity.
Qed.
