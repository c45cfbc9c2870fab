(** Exactly what [Proof.decode_json], key strings and encrypted messages may be. *)
From Coq Require Import String List Bool Arith NArith ZArith Lia ZifyN ZifyBool ZifyNat.
From Verif Require Import Base BaseProofs ProofObj Json JsonProofs SpecJson JsonGrammar Keccak ProofJson SpecWire ProofJsonProofs MptEq MerkleTree Keypairs SpecKeys KeysProofs.
Import ListNotations.

Lemma ok_inj : forall (A : Type) (x y : A), Ok x = Ok y -> x = y.
Proof. congruence. Qed.
Lemma text_form : forall b, text b <-> exists s, utf8_form s b.
Proof. intros b. unfold text. split; intros [s E]; exists s; now apply utf8_form_encode. Qed.

(** ** Iteration *)
Lemma existsb_In : forall (x : list N) l, existsb (ustr_eqb x) l = true <-> In x l.
Proof.
  intros x l. rewrite existsb_exists. split.
  - intros [y [I E]]. apply ustr_eqb_eq in E. now subst.
  - intros I. exists x. split; [exact I|apply ustr_eqb_refl].
Qed.
Lemma dedup_snoc : forall l x seen, dedup (l ++ [x]) seen = dedup l seen ++ (if existsb (ustr_eqb x) (l ++ seen) then [] else [x]).
Proof.
  induction l as [|k l IH]; intros x seen; cbn [app dedup].
  - destruct (existsb (ustr_eqb x) seen); reflexivity.
  - destruct (existsb (ustr_eqb k) seen) eqn:K.
    + rewrite IH. f_equal. cbn [app existsb]. destruct (ustr_eqb x k) eqn:XK; [|reflexivity]. cbn [orb]. apply ustr_eqb_eq in XK. subst k.
      apply existsb_In in K. replace (existsb (ustr_eqb x) (l ++ seen)) with true; [reflexivity|].
      symmetry. apply existsb_In. apply in_or_app. now right.
    + rewrite IH. cbn [app]. f_equal. f_equal. replace (existsb (ustr_eqb x) (l ++ k :: seen)) with (existsb (ustr_eqb x) (k :: l ++ seen)); [reflexivity|].
      cbn [existsb]. rewrite !existsb_app. cbn [existsb]. destruct (ustr_eqb x k), (existsb (ustr_eqb x) l); reflexivity.
Qed.
Lemma dedup_firsts : forall l m, dedup l [] = m <-> firsts l m.
Proof.
  assert (A : forall l, firsts l (dedup l [])).
  { induction l as [|x l IH] using rev_ind; [constructor|]. rewrite dedup_snoc, app_nil_r.
    destruct (existsb (ustr_eqb x) l) eqn:E.
    - rewrite app_nil_r. constructor; [exact IH|now apply existsb_In].
    - constructor; [exact IH|]. intros I. apply existsb_In in I. congruence. }
  intros l m. split; [intros <-; apply A|]. intros F. induction F as [|l m x F IH N|l m x F IH I].
  - reflexivity.
  - rewrite dedup_snoc, app_nil_r, IH. destruct (existsb (ustr_eqb x) l) eqn:E; [apply existsb_In in E; contradiction|reflexivity].
  - rewrite dedup_snoc, app_nil_r, IH. apply existsb_In in I. rewrite I. apply app_nil_r.
Qed.

Lemma Forall2_encode : forall l bl, mapM utf8_encode l = Ok bl <-> Forall2 utf8_form l bl.
Proof.
  induction l as [|s l IH]; intros bl; cbn [mapM].
  - split; [intros E; injection E as <-; constructor|intros F; inversion F; reflexivity].
  - split.
    + destruct (utf8_encode s) as [b|] eqn:E; [|discriminate]. destruct (mapM utf8_encode l) as [bl'|] eqn:M; [|discriminate].
      intros X. injection X as <-. constructor; [now apply utf8_form_encode|now apply IH].
    + intros F. inversion F as [|? b ? bl' U F' E1 E2]; subst. apply utf8_form_encode in U. apply IH in F'. rewrite U, F'. reflexivity.
Qed.
Lemma jencode_str : forall v b, jencode v = Ok b <-> exists s, v = JStr s /\ utf8_form s b.
Proof.
  intros v b. split.
  - destruct v as [s| | | | | |]; try discriminate. intros E. exists s. split; [reflexivity|now apply utf8_form_encode].
  - intros [s [-> U]]. now apply utf8_form_encode.
Qed.
Lemma mapM_jencode_strs : forall l bl, mapM jencode l = Ok bl -> exists ss, l = map JStr ss /\ Forall2 utf8_form ss bl.
Proof.
  induction l as [|v l IH]; intros bl E; cbn [mapM] in E.
  - injection E as <-. exists []. split; [reflexivity|constructor].
  - destruct (jencode v) as [b|] eqn:Ev; [|discriminate]. destruct (mapM jencode l) as [bl'|] eqn:M; [|discriminate]. injection E as <-.
    apply jencode_str in Ev as [s [-> U]]. destruct (IH bl' eq_refl) as [ss [-> F]]. exists (s :: ss). split; [reflexivity|now constructor].
Qed.
Lemma map_JStr_inj : forall a b, map JStr a = map JStr b -> a = b.
Proof. induction a as [|x a IH]; intros [|y b] E; try discriminate; [reflexivity|]. cbn [map] in E. injection E as -> E. f_equal. now apply IH. Qed.
Lemma loop_exact : forall v bl, (els <- jiter v ;; mapM jencode els)%res = Ok bl <-> exists ss, loop_strings v ss /\ Forall2 utf8_form ss bl.
Proof.
  intros v bl. split.
  - destruct v as [s|l|d| | | |]; try discriminate; cbn [jiter bind]; intros E; apply mapM_jencode_strs in E as [ss [E F]]; exists ss; (split; [|exact F]).
    + replace ss with (map (fun c => [c]) s); [constructor|]. apply map_JStr_inj. rewrite <- E, map_map. reflexivity.
    + subst l. constructor.
    + apply map_JStr_inj in E. constructor. now apply dedup_firsts.
  - intros [ss [L F]]. apply Forall2_encode in F.
    destruct L as [s|l|d m L]; cbn [jiter bind].
    + rewrite <- (map_map (fun c => [c]) JStr). rewrite mapM_jencode. exact F.
    + rewrite mapM_jencode. exact F.
    + apply dedup_firsts in L. rewrite L, mapM_jencode. exact F.
Qed.

Lemma jindex_entry : forall v k x, jindex v k = Ok x <-> exists d, v = JObj d /\ entry d k x.
Proof.
  intros v k x. split.
  - destruct v as [|l|d| | | |]; try discriminate. cbn [jindex]. destruct (jget d k) as [y|] eqn:J; [|discriminate]. intros E. injection E as <-.
    exists d. split; [reflexivity|now apply jget_entry].
  - intros [d [-> E]]. cbn [jindex]. apply jget_entry in E. rewrite E. reflexivity.
Qed.

(** ** Proofs *)
Lemma decode_json_exact : forall s p, proof_decode_json s = Ok p <-> proof_text s p.
Proof.
  intros s p. split.
  - intros E. pose proof (decode_json_accepts s p E) as [Ty _]. unfold proof_decode_json in E.
    destruct (loads s) as [v|] eqn:Lv; [|discriminate]. cbn [bind] in E.
    destruct (jindex v k_proof) as [l|] eqn:J1; [|discriminate]. cbn [bind] in E.
    destruct (jindex v k_type) as [ty|] eqn:J2; [|discriminate]. cbn [bind] in E.
    destruct (jin (txt "MPT") ty) as [m|] eqn:Em; [|discriminate]. cbn [bind] in E. destruct m; [discriminate|].
    destruct (jin (txt "MT") ty) as [m'|] eqn:Em'; [|discriminate]. cbn [bind] in E. destruct m'; [|discriminate].
    destruct (jiter l) as [els|] eqn:Ei; [|discriminate]. cbn [bind] in E.
    destruct (mapM jencode els) as [bl|] eqn:Eb; [|discriminate]. cbn [bind] in E.
    destruct (jindex v k_key) as [kv|] eqn:J3; [|discriminate]. cbn [bind] in E.
    destruct (jencode kv) as [k|] eqn:Ek; [|discriminate]. cbn [bind] in E.
    destruct (jindex v k_root) as [rv|] eqn:J4; [|discriminate]. cbn [bind] in E.
    destruct (jencode rv) as [r|] eqn:Er; [|discriminate]. cbn [bind] in E.
    destruct (jencode ty) as [t|] eqn:Et; [|discriminate]. cbn [bind] in E.
    destruct (new_proof [] k r (map PB bl) t) as [q|] eqn:Eq; [|discriminate]. cbn [bind] in E.
    destruct (jindex v k_time) as [tv|] eqn:J5; [|discriminate]. cbn [bind] in E.
    destruct (jencode tv) as [tm|] eqn:Etm; [|discriminate]. cbn [bind] in E.
    unfold new_proof in Eq. destruct (existsb (bytes_eqb t) accepted_types) eqn:Ea; [|discriminate].
    assert (Q : q = mkProof t [] k r (map PB bl)) by congruence. subst q. cbn [pf_type pf_key pf_root pf_proof] in E.
    assert (P : p = mkProof t tm k r (map PB bl)) by congruence. subst p. cbn [pf_type pf_time pf_key pf_root pf_proof] in *.
    apply loads_exact in Lv. apply jindex_entry in J1 as [d [-> J1]]. 
    apply jindex_entry in J2 as [d' [X J2]]; injection X as <-. apply jindex_entry in J3 as [d' [X J3]]; injection X as <-.
    apply jindex_entry in J4 as [d' [X J4]]; injection X as <-. apply jindex_entry in J5 as [d' [X J5]]; injection X as <-.
    apply jencode_str in Ek as [ks [-> Uk]]. apply jencode_str in Er as [rs [-> Ur]]. apply jencode_str in Et as [ts [-> Ut]].
    apply jencode_str in Etm as [ms [-> Um]].
    assert (Lp : exists ss, loop_strings l ss /\ Forall2 utf8_form ss bl) by (apply loop_exact; rewrite Ei; exact Eb).
    destruct Lp as [ss [Ls F]]. exists d, ms, ks, rs, l, ss, bl.
    assert (ts = txt "MT-POI"). { subst t. apply utf8_form_decode in Ut. rewrite type_text in Ut. congruence. }
    subst ts. unfold k_time, k_key, k_root, k_type, k_proof in *. cbn [pf_type pf_time pf_key pf_root pf_proof].
    split; [exact Lv|]. split; [exact J2|]. split; [exact J5|]. split; [exact J3|]. split; [exact J4|]. split; [exact J1|]. split; [exact Ls|].
    split; [exact Um|]. split; [exact Uk|]. split; [exact Ur|]. split; [exact F|]. split; [exact Ty|reflexivity].
  - intros [d [tm [key [root [l [items [els [T [Ey [Et [Ek [Er [El [Lp [Ut [Uk [Ur [F [Ty Ep]]]]]]]]]]]]]]]]]]].
    apply loads_exact in T. unfold proof_decode_json. rewrite T. cbn [bind].
    assert (J : forall k x, entry d k x -> jindex (JObj d) k = Ok x) by (intros k x X; apply jindex_entry; eauto).
    unfold k_time, k_key, k_root, k_type, k_proof. rewrite (J _ _ El), (J _ _ Ey). cbn [bind].
    change (jin (txt "MPT") (JStr (txt "MT-POI"))) with (Ok false). cbn [bind]. cbv iota.
    change (jin (txt "MT") (JStr (txt "MT-POI"))) with (Ok true). cbn [bind]. cbv iota.
    assert (M : exists ls, jiter l = Ok ls /\ mapM jencode ls = Ok els).
    { assert (X : (ls <- jiter l ;; mapM jencode ls)%res = Ok els) by (apply loop_exact; eauto).
      destruct (jiter l) as [ls|]; [|discriminate]. exists ls. split; [reflexivity|exact X]. }
    destruct M as [ls [-> M]]. cbn [bind]. rewrite M. cbn [bind].
    rewrite (J _ _ Ek). cbn [bind jencode]. apply utf8_form_encode in Uk. rewrite Uk. cbn [bind].
    rewrite (J _ _ Er). cbn [bind jencode]. apply utf8_form_encode in Ur. rewrite Ur. cbn [bind].
    change (utf8_encode (txt "MT-POI")) with (@Ok bytes MT_POI). cbn [bind].
    change (new_proof [] (pf_key p) (pf_root p) (map PB els) MT_POI) with (Ok (mkProof MT_POI [] (pf_key p) (pf_root p) (map PB els))). cbn [bind].
    rewrite (J _ _ Et). cbn [bind jencode]. apply utf8_form_encode in Ut. rewrite Ut. cbn [bind pf_type pf_key pf_root pf_proof].
    rewrite <- Ep. destruct p as [ty' tm' k' r' l']. cbn [pf_type pf_time pf_key pf_root pf_proof] in *. subst ty'. reflexivity.
Qed.

Lemma decode_json_not_json : forall s, (forall v, ~ json_text s v) <-> proof_decode_json s = Err JSONDecodeError.
Proof.
  intros s. split.
  - intros N. unfold proof_decode_json. destruct (loads s) as [v|e] eqn:L; [exfalso; apply loads_exact in L; exact (N v L)|].
    cbn [bind]. now rewrite (loads_error s e L).
  - intros E v T. apply loads_exact in T. unfold proof_decode_json in E. rewrite T in E. cbn [bind] in E. revert E.
    assert (Ji : forall v k, jindex v k <> Err JSONDecodeError) by (intros [| |d| | | |] k; cbn [jindex]; try destruct (jget d k); discriminate).
    assert (Jn : forall k v, jin k v <> Err JSONDecodeError) by (intros k [| | | | | |]; discriminate).
    assert (Jt : forall v, jiter v <> Err JSONDecodeError) by (intros [| | | | | |]; discriminate).
    assert (Ue : forall s, utf8_encode s <> Err JSONDecodeError)
      by (induction s0 as [|c s0 IH]; cbn [utf8_encode]; [discriminate|destruct (utf8_char c), (utf8_encode s0); discriminate]).
    assert (Je : forall v, jencode v <> Err JSONDecodeError) by (intros [| | | | | |]; cbn [jencode]; try discriminate; apply Ue).
    assert (Jm : forall l, mapM jencode l <> Err JSONDecodeError).
    { induction l as [|x l IH]; cbn [mapM]; [discriminate|]. destruct (jencode x) eqn:X; [|specialize (Je x); congruence].
      destruct (mapM jencode l); congruence. }
    destruct (jindex v k_proof) as [l|e] eqn:J1; cbn [bind]; [|specialize (Ji v k_proof); congruence].
    destruct (jindex v k_type) as [ty|e] eqn:J2; cbn [bind]; [|specialize (Ji v k_type); congruence].
    destruct (jin (txt "MPT") ty) as [m|e] eqn:Em; cbn [bind]; [|specialize (Jn (txt "MPT") ty); congruence]. destruct m; [discriminate|].
    destruct (jin (txt "MT") ty) as [m|e] eqn:Em'; cbn [bind]; [|specialize (Jn (txt "MT") ty); congruence]. destruct m; [|discriminate].
    destruct (jiter l) as [els|e] eqn:Ei; cbn [bind]; [|specialize (Jt l); congruence].
    destruct (mapM jencode els) as [bl|e] eqn:Eb; cbn [bind]; [|specialize (Jm els); congruence].
    destruct (jindex v k_key) as [kv|e] eqn:J3; cbn [bind]; [|specialize (Ji v k_key); congruence].
    destruct (jencode kv) as [k|e] eqn:Ek; cbn [bind]; [|specialize (Je kv); congruence].
    destruct (jindex v k_root) as [rv|e] eqn:J4; cbn [bind]; [|specialize (Ji v k_root); congruence].
    destruct (jencode rv) as [r|e] eqn:Er; cbn [bind]; [|specialize (Je rv); congruence].
    destruct (jencode ty) as [t|e] eqn:Et; cbn [bind]; [|specialize (Je ty); congruence].
    unfold new_proof. destruct (existsb (bytes_eqb t) accepted_types); cbn [bind]; [|discriminate].
    destruct (jindex v k_time) as [tv|e] eqn:J5; cbn [bind]; [|specialize (Ji v k_time); congruence].
    destruct (jencode tv) as [tm|e] eqn:Etm; cbn [bind]; [discriminate|specialize (Je tv); congruence].
Qed.

(** What encode_json writes. *)
Lemma encode_json_text : forall p s, pf_type p = MT_POI -> proof_encode_json p = Ok s -> exists time key root els bl,
  json_text s (JObj [(txt "proof_type", JStr (txt "MT-POI")); (txt "timestamp", JStr time); (txt "target_key", JStr key);
    (txt "root_hash", JStr root); (txt "proof", JArr (map JStr els))]) /\
  utf8_form time (pf_time p) /\ utf8_form key (pf_key p) /\ utf8_form root (pf_root p) /\ Forall2 utf8_form els bl /\ pf_proof p = map PB bl.
Proof.
  intros p s Ty E. destruct (encode_json_form p s Ty E) as [tm [key [root [els [Et [Ek [Er [El ->]]]]]]]].
  destruct (mapM_elem_text _ _ El) as [bl [Ep [Em F]]].
  exists tm, key, root, els, bl. split; [apply loads_exact, loads_dumps|].
  - apply jok_obj. repeat (apply Forall_cons || apply Forall_nil); cbn [fst snd]; (split; [apply scalar_txt; reflexivity|]).
    + apply scalar_txt. reflexivity.
    + now apply utf8_decode_scalar in Et.
    + now apply utf8_decode_scalar in Ek.
    + now apply utf8_decode_scalar in Er.
    + apply jok_arr. now apply Forall_JStr.
  - split; [now apply utf8_form_decode|]. split; [now apply utf8_form_decode|]. split; [now apply utf8_form_decode|].
    split; [now apply Forall2_encode|exact Ep].
Qed.

(** ** Hexadecimal text *)
Lemma is_space_list : forall b, is_space b = existsb (N.eqb (bN b)) [9; 10; 11; 12; 13; 32]%N.
Proof. destruct b; reflexivity. Qed.
Lemma is_space_in : forall b, is_space b = true <-> In (bN b) [9; 10; 11; 12; 13; 32]%N.
Proof.
  intros b. rewrite is_space_list, existsb_exists. split.
  - intros [x [I E]]. apply N.eqb_eq in E. rewrite E. exact I.
  - intros I. exists (bN b). split; [exact I|apply N.eqb_refl].
Qed.
Lemma hexval_digit : forall b, MptEq.hexval b = option_map Z.of_N (unhexd (bN b)).
Proof. destruct b; reflexivity. Qed.
Lemma hexval_some : forall b n, MptEq.hexval b = Some (Z.of_N n) <-> hex_digit (bN b) n.
Proof.
  intros b n. rewrite hexval_digit, <- unhexd_digit. destruct (unhexd (bN b)) as [m|]; cbn [option_map]; split; intros E; try discriminate.
  - f_equal. apply N2Z.inj. congruence.
  - congruence.
Qed.
Lemma hexval_N : forall b z, MptEq.hexval b = Some z -> exists n, z = Z.of_N n.
Proof. intros b z E. rewrite hexval_digit in E. destruct (unhexd (bN b)) as [m|]; [|discriminate]. injection E as <-. eauto. Qed.
Lemma digit_small : forall c n, hex_digit c n -> (c < 128 /\ n < 16)%N.
Proof. intros c n D. destruct D; lia. Qed.
Lemma digit_no_space : forall c n, hex_digit c n -> ~ In c [9; 10; 11; 12; 13; 32]%N.
Proof. intros c n D I. cbn in I. destruct D; lia. Qed.

Lemma from_hex_sound : forall n s b, (length s < n)%nat -> forallb (fun c => (c <? 128)%N) s = true -> from_hex (map nB s) = Some b -> hex_text s b.
Proof.
  induction n as [|n IH]; intros s b L A E; [lia|]. destruct s as [|c s].
  - injection E as <-. constructor.
  - cbn [length] in L. cbn [forallb] in A. apply andb_true_iff in A as [Ac A]. cbn [map from_hex] in E.
    destruct (is_space (nB c)) eqn:S.
    + apply is_space_in in S. rewrite bN_nB in S by lia. apply hex_space; [exact S|]. apply IH; [lia|exact A|exact E].
    + destruct s as [|d s]; [discriminate|]. cbn [length] in L. cbn [forallb] in A. apply andb_true_iff in A as [Ad A]. cbn [map] in E.
      destruct (MptEq.hexval (nB c)) as [x|] eqn:X; [|discriminate]. destruct (MptEq.hexval (nB d)) as [y|] eqn:Y; [|discriminate].
      destruct (from_hex (map nB s)) as [b'|] eqn:F; [|discriminate]. cbn [option_map] in E. apply some_inj in E. subst b.
      destruct (hexval_N _ _ X) as [h ->]. destruct (hexval_N _ _ Y) as [l ->]. apply hexval_some in X, Y. rewrite bN_nB in X, Y by lia.
      apply hex_byte with h l; [exact X|exact Y| |apply IH; [lia|exact A|exact F]].
      apply digit_small in X, Y. destruct X as [_ X], Y as [_ Y]. replace (Z.to_N (16 * Z.of_N h + Z.of_N l)) with (h * 16 + l)%N by (apply N2Z.inj; rewrite Z2N.id; lia). rewrite bN_nB; lia.
Qed.
Lemma from_hex_complete : forall s b, hex_text s b -> forallb (fun c => (c <? 128)%N) s = true /\ from_hex (map nB s) = Some b.
Proof.
  intros s b T. induction T as [|c s b I T [A E]|p q h l x s b P Q X T [A E]].
  - split; reflexivity.
  - assert (c < 128)%N by (cbn in I; lia). split.
    + cbn [forallb]. rewrite A. replace (c <? 128)%N with true by lia. reflexivity.
    + cbn [map from_hex]. replace (is_space (nB c)) with true; [exact E|]. symmetry. apply is_space_in. rewrite bN_nB by lia. exact I.
  - pose proof (digit_small p h P) as [Lp Lh]. pose proof (digit_small q l Q) as [Lq Ll]. split.
    + cbn [forallb]. rewrite A. replace (p <? 128)%N with true by lia. replace (q <? 128)%N with true by lia. reflexivity.
    + cbn [map from_hex]. replace (is_space (nB p)) with false.
      * assert (Hp : MptEq.hexval (nB p) = Some (Z.of_N h)) by (apply hexval_some; rewrite bN_nB by lia; exact P).
        assert (Hq : MptEq.hexval (nB q) = Some (Z.of_N l)) by (apply hexval_some; rewrite bN_nB by lia; exact Q).
        rewrite Hp, Hq, E. cbn [option_map]. do 2 f_equal. rewrite <- (nB_bN x). f_equal. lia.
      * symmetry. destruct (is_space (nB p)) eqn:S; [|reflexivity]. apply is_space_in in S. rewrite bN_nB in S by lia.
        exfalso. exact (digit_no_space p h P S).
Qed.
Lemma unhex_exact : forall v b, unhex_json v = Ok b <-> exists s, v = JStr s /\ hex_text s b.
Proof.
  intros v b. split.
  - destruct v as [s| | | | | |]; try discriminate. cbn [unhex_json]. destruct (forallb (fun c => (c <? 128)%N) s) eqn:A; [|discriminate].
    destruct (from_hex (map nB s)) as [b'|] eqn:E; [|discriminate]. intros X. injection X as <-.
    exists s. split; [reflexivity|]. exact (from_hex_sound (S (length s)) s b' (Nat.lt_succ_diag_r _) A E).
  - intros [s [-> T]]. apply from_hex_complete in T as [A E]. cbn [unhex_json]. rewrite A, E. reflexivity.
Qed.

Section WithCrypto.
Context {C : Crypto}.

(** ** Messages *)
Lemma open_exact : forall e esk nonce tag ct sig, open_envelope e = Ok (esk, nonce, tag, ct, sig) <-> message e esk nonce tag ct sig.
Proof.
  intros e esk nonce tag ct sig. split.
  - intros E. unfold open_envelope in E. destruct (utf8_decode e) as [s|] eqn:U; [|discriminate]. cbn [bind] in E.
    destruct (loads s) as [v|] eqn:L; [|discriminate]. cbn [bind] in E.
    destruct (jindex v k_esk) as [x1|] eqn:J1; [|discriminate]. cbn [bind] in E. destruct (unhex_json x1) as [y1|] eqn:H1; [|discriminate]. cbn [bind] in E.
    destruct (jindex v k_nonce) as [x2|] eqn:J2; [|discriminate]. cbn [bind] in E. destruct (unhex_json x2) as [y2|] eqn:H2; [|discriminate]. cbn [bind] in E.
    destruct (jindex v k_tag) as [x3|] eqn:J3; [|discriminate]. cbn [bind] in E. destruct (unhex_json x3) as [y3|] eqn:H3; [|discriminate]. cbn [bind] in E.
    destruct (jindex v k_ct) as [x4|] eqn:J4; [|discriminate]. cbn [bind] in E. destruct (unhex_json x4) as [y4|] eqn:H4; [|discriminate]. cbn [bind] in E.
    destruct (jindex v k_sig) as [x5|] eqn:J5; [|discriminate]. cbn [bind] in E. destruct (unhex_json x5) as [y5|] eqn:H5; [|discriminate]. cbn [bind] in E.
    injection E as <- <- <- <- <-. apply utf8_form_decode in U. apply loads_exact in L. apply jindex_entry in J1 as [d [-> J1]].
    apply jindex_entry in J2 as [d' [X J2]]; injection X as <-. apply jindex_entry in J3 as [d' [X J3]]; injection X as <-.
    apply jindex_entry in J4 as [d' [X J4]]; injection X as <-. apply jindex_entry in J5 as [d' [X J5]]; injection X as <-.
    apply unhex_exact in H1 as [s1 [-> T1]], H2 as [s2 [-> T2]], H3 as [s3 [-> T3]], H4 as [s4 [-> T4]], H5 as [s5 [-> T5]].
    exists s, d, s1, s2, s3, s4, s5. repeat (split; [assumption|]). assumption.
  - intros [s [d [h1 [h2 [h3 [h4 [h5 [U [L [J1 [J2 [J3 [J4 [J5 [T1 [T2 [T3 [T4 T5]]]]]]]]]]]]]]]]]].
    apply utf8_form_decode in U. apply loads_exact in L. unfold open_envelope. rewrite U. cbn [bind]. rewrite L. cbn [bind].
    assert (J : forall k x, entry d k x -> jindex (JObj d) k = Ok x) by (intros k x X; apply jindex_entry; eauto).
    assert (X : forall h b, hex_text h b -> unhex_json (JStr h) = Ok b) by (intros h b X; apply unhex_exact; eauto).
    unfold k_esk, k_nonce, k_tag, k_ct, k_sig. rewrite (J _ _ J1). cbn [bind]. rewrite (X _ _ T1). cbn [bind].
    rewrite (J _ _ J2). cbn [bind]. rewrite (X _ _ T2). cbn [bind]. rewrite (J _ _ J3). cbn [bind]. rewrite (X _ _ T3). cbn [bind].
    rewrite (J _ _ J4). cbn [bind]. rewrite (X _ _ T4). cbn [bind]. rewrite (J _ _ J5). cbn [bind]. rewrite (X _ _ T5). reflexivity.
Qed.
Lemma decrypt_exact : crypto_ok -> forall b e pk m, decrypt b e pk = Ok m <-> kp_cls b = Base /\
  exists esk nonce tag ct sig k kb sk, message e esk nonce tag ct sig /\ rsa_import pk None = Ok k /\ pkcs_verify k (sha256d ct) sig = Ok tt /\
  kp_key b = Some kb /\ oaep_dec kb esk = Ok sk /\ eax_enc sk nonce m = Ok (ct, tag).
Proof.
  intros OK b e pk m. split.
  - intros E. split.
    + unfold decrypt in E. destruct (kp_cls b) eqn:Eb; [reflexivity|discriminate|].
      destruct (open_envelope e) as [[[[[esk nonce] tag] ct] sig]|]; [|discriminate]. cbn [bind] in E. unfold signature_valid in E. rewrite Eb in E. discriminate.
    + destruct (decrypt_signed OK b e pk m E) as [esk [nonce [tag [ct [sig [k [kb [sk [O R]]]]]]]]]. apply open_exact in O.
      exists esk, nonce, tag, ct, sig, k, kb, sk. split; [exact O|exact R].
  - intros [B [esk [nonce [tag [ct [sig [k [kb [sk [O [I [V [K [D X]]]]]]]]]]]]]]. apply open_exact in O.
    unfold decrypt, signature_valid, key_of. rewrite B, O. cbn [bind]. rewrite I. cbn [bind]. rewrite V. cbn [bind]. cbv iota. rewrite K. cbn [bind].
    rewrite D. cbn [bind]. now apply (ok_eax_exact OK).
Qed.

(** What encrypt sends. *)
Lemma encrypt_exact : forall sk seed nonce a data receiver e, encrypt sk seed nonce a data receiver = Ok e ->
  kp_cls a = Base /\ exists rk ka esk ct tag sig, rsa_import receiver None = Ok rk /\ oaep_enc rk seed sk = Ok esk /\
  eax_enc sk nonce data = Ok (ct, tag) /\ kp_key a = Some ka /\ pkcs_sign ka (sha256d ct) = Ok sig /\ message e esk nonce tag ct sig.
Proof.
  intros sk seed nonce a data receiver e E. unfold encrypt in E. destruct (kp_cls a) eqn:A; [|discriminate|].
  2: { destruct (rsa_import receiver None); [|discriminate]. cbn [bind] in E. destruct (oaep_enc _ seed sk); [|discriminate]. cbn [bind] in E.
       destruct (eax_enc sk nonce data) as [[ct tag]|]; [|discriminate]. cbn [bind] in E. unfold sign in E. rewrite A in E. discriminate. }
  split; [reflexivity|]. destruct (rsa_import receiver None) as [rk|]; [|discriminate]. cbn [bind] in E.
  destruct (oaep_enc rk seed sk) as [esk|] eqn:O; [|discriminate]. cbn [bind] in E.
  destruct (eax_enc sk nonce data) as [[ct tag]|] eqn:X; [|discriminate]. cbn [bind] in E.
  destruct (sign a ct) as [sig|] eqn:S; [|discriminate]. cbn [bind] in E. unfold sign, key_of in S. rewrite A in S.
  destruct (kp_key a) as [ka|]; [|discriminate]. cbn [bind] in S.
  exists rk, ka, esk, ct, tag, sig. split; [reflexivity|]. split; [exact O|]. split; [reflexivity|]. split; [reflexivity|]. split; [exact S|].
  apply open_exact. destruct (envelope_open esk nonce tag ct sig) as [e' [E1 E2]]. assert (e' = e) by congruence. now subst e'.
Qed.

(** ** Key strings *)
Lemma key_string_exact : forall c s pass a, from_key_string c s pass = Ok a <->
  exists d nick h priv k, json_text s (JObj d) /\ entry d (txt "nickname") nick /\ entry d (txt "private_key") (JStr h) /\
  hex_text h priv /\ rsa_import priv (Some pass) = Ok k /\ a = mkKp c nick (Some k).
Proof.
  intros c s pass a. split.
  - intros E. unfold from_key_string in E. destruct (loads s) as [v|] eqn:L; [|discriminate]. cbn [bind] in E.
    destruct (jindex v k_nick) as [nick|] eqn:J1; [|discriminate]. cbn [bind] in E. 
    destruct (jindex v k_priv) as [x|] eqn:J2; [|discriminate]. cbn [bind] in E. destruct (unhex_json x) as [priv|] eqn:H; [|discriminate]. cbn [bind] in E.
    destruct (rsa_import priv (Some pass)) as [k|] eqn:I; [|discriminate]. cbn [bind] in E. injection E as <-.
    apply loads_exact in L. apply jindex_entry in J1 as [d [-> J1]]. apply jindex_entry in J2 as [d' [X J2]]; injection X as <-.
    apply unhex_exact in H as [h [-> H]]. exists d, nick, h, priv, k. repeat (split; [assumption|]). reflexivity.
  - intros [d [nick [h [priv [k [L [J1 [J2 [H [I ->]]]]]]]]]]. apply loads_exact in L. unfold from_key_string. rewrite L. cbn [bind].
    assert (J : forall k x, entry d k x -> jindex (JObj d) k = Ok x) by (intros k' x X; apply jindex_entry; eauto).
    unfold k_nick, k_priv. rewrite (J _ _ J1). cbn [bind]. rewrite (J _ _ J2). cbn [bind].
    assert (X : unhex_json (JStr h) = Ok priv) by (apply unhex_exact; eauto). rewrite X. cbn [bind]. rewrite I. reflexivity.
Qed.
Lemma to_key_string_obj : forall salt a pass s, to_key_string salt a pass = Ok s ->
  exists d, s = dumps (JObj d).
Proof.
  intros salt a pass s E. unfold to_key_string in E. destruct (key_of a) as [k|]; [|discriminate]. cbn [bind] in E.
  destruct (rsa_export (rsa_public k) [] None) as [pub|]; [|discriminate]. cbn [bind] in E. destruct (utf8_decode pub) as [pubs|]; [|discriminate]. cbn [bind] in E.
  destruct (rsa_export k salt (Some pass)) as [priv|]; [|discriminate]. cbn [bind] in E. apply ok_inj in E. eauto.
Qed.
Lemma scalar_joined : forall s, Forall scalar s -> python_str s /\ joined s s.
Proof.
  intros s F. split.
  - eapply Forall_impl; [|exact F]. intros c [L _]. exact L.
  - apply joined_same. intros l u w r -> [H _]. apply Forall_app in F as [_ F]. inversion F as [|? ? [_ N] _]; subst. apply N. unfold high in H. lia.
Qed.
Lemma hex_str_text : forall b, hex_text (hex_str b) b.
Proof. intros b. pose proof (unhex_hex b) as E. apply unhex_exact in E as [s [E T]]. injection E as <-. exact T. Qed.
Lemma hex_str_scalar : forall b, Forall scalar (hex_str b).
Proof. intros b. eapply Forall_impl; [|exact (asc_hex b)]. intros c L. cbv beta in L. unfold scalar. lia. Qed.

(** What to_key_string writes. *)
Lemma key_string_text : forall salt a n pass s, kp_nick a = JStr n -> python_str n -> to_key_string salt a pass = Ok s ->
  exists k pub pubs priv h nick, kp_key a = Some k /\ rsa_export (rsa_public k) [] None = Ok pub /\ utf8_form pubs pub /\
  rsa_export k salt (Some pass) = Ok priv /\ hex_text h priv /\ joined n nick /\
  value_text s (JObj [(txt "nickname", JStr nick); (txt "public_key", JStr pubs); (txt "private_key", JStr h)]).
Proof.
  intros salt a n pass s Na V E. unfold to_key_string in E. rewrite Na in E. destruct (key_of a) as [k|] eqn:K; [|discriminate]. cbn [bind] in E.
  destruct (rsa_export (rsa_public k) [] None) as [pub|] eqn:P; [|discriminate]. cbn [bind] in E.
  destruct (utf8_decode pub) as [pubs|] eqn:U; [|discriminate]. cbn [bind] in E.
  destruct (rsa_export k salt (Some pass)) as [priv|] eqn:X; [|discriminate]. cbn [bind] in E. apply ok_inj in E. subst s.
  destruct (joined_total (S (length n)) n (Nat.lt_succ_diag_r _)) as [nick J].
  exists k, pub, pubs, priv, (hex_str priv), nick.
  assert (Ka : kp_key a = Some k) by (unfold key_of in K; destruct (kp_key a); [congruence|discriminate]).
  split; [exact Ka|]. split; [exact P|]. split; [now apply utf8_form_decode|]. split; [exact X|]. split; [apply hex_str_text|]. split; [exact J|].
  pose proof (dumps_strings [(txt "nickname", n); (txt "public_key", pubs); (txt "private_key", hex_str priv)]
    [(txt "nickname", nick); (txt "public_key", pubs); (txt "private_key", hex_str priv)]) as D.
  apply D; [|discriminate].
  assert (T : forall t, forallb (fun c => (c <? 128)%N) (txt t) = true -> python_str (txt t) /\ joined (txt t) (txt t))
    by (intros t Et; apply scalar_joined; now apply scalar_txt).
  destruct (T "nickname"%string eq_refl) as [A1 A2]. destruct (T "public_key"%string eq_refl) as [B1 B2].
  destruct (T "private_key"%string eq_refl) as [C1 C2].
  destruct (scalar_joined pubs (utf8_decode_scalar _ _ U)) as [D1 D2]. destruct (scalar_joined _ (hex_str_scalar priv)) as [E1 E2].
  repeat (constructor; [cbn [fst snd]; split; [assumption|]; split; [assumption|]; split; assumption|]). constructor.
Qed.
Lemma value_json : forall s v, value_text s v -> json_text s v.
Proof. intros s v V. exists [], s, []. rewrite app_nil_r. split; [reflexivity|]. split; [constructor|]. split; [exact V|constructor]. Qed.
Lemma entry_here : forall k v r, (forall v', ~ In (k, v') r) -> forall l, entry (l ++ (k, v) :: r) k v.
Proof. intros k v r N l. exists l, r. auto. Qed.
Lemma key_string_loaded : crypto_ok -> forall salt a k n pass s c, kp_key a = Some k -> rsa_private k = true -> kp_nick a = JStr n -> python_str n ->
  to_key_string salt a pass = Ok s -> exists nick, joined n nick /\ from_key_string c s pass = Ok (mkKp c (JStr nick) (Some k)).
Proof.
  intros OK salt a k n pass s c K P Na V T. destruct (key_string_text salt a n pass s Na V T) as [k' [pub [pubs [priv [h [nick [K' [Ep [U [Ex [H [J W]]]]]]]]]]]].
  assert (k' = k) by congruence. subst k'. exists nick. split; [exact J|]. apply key_string_exact.
  exists [(txt "nickname", JStr nick); (txt "public_key", JStr pubs); (txt "private_key", JStr h)], (JStr nick), h, priv, k.
  split; [now apply value_json|]. split.
  { apply (entry_here _ _ [(txt "public_key", JStr pubs); (txt "private_key", JStr h)]) with (l := []).
    intros v' [X|[X|[]]]; apply (f_equal fst) in X; vm_compute in X; discriminate X. }
  split.
  { apply (entry_here _ _ []) with (l := [(txt "nickname", JStr nick); (txt "public_key", JStr pubs)]). intros v' []. }
  split; [exact H|]. split; [exact (ok_priv_import OK k salt pass priv P Ex)|reflexivity].
Qed.
(** A nickname comes back changed exactly if somewhere in it a low surrogate follows a high one. *)
Lemma key_string_nick : crypto_ok -> forall salt a k n pass s c, kp_key a = Some k -> rsa_private k = true -> kp_nick a = JStr n -> python_str n ->
  to_key_string salt a pass = Ok s ->
  (from_key_string c s pass = Ok (mkKp c (JStr n) (Some k)) <-> forall l u w r, n = l ++ u :: w :: r -> ~ (high u /\ low w)).
Proof.
  intros OK salt a k n pass s c K P Na V T. destruct (key_string_loaded OK salt a k n pass s c K P Na V T) as [nick [J E]]. rewrite E. split.
  - intros X. injection X as X. exact (proj2 (joined_eq _ _ J) X).
  - intros N. apply joined_same in N. do 3 f_equal. clear -J N.
    assert (F : forall s a, joined s a -> forall b, joined s b -> a = b).
    { clear. intros s a A. induction A as [|c r s N A IH|u w r s Hu Hw A IH]; intros b B.
      - inversion B. reflexivity.
      - inversion B as [|? ? ? N' B'|? w ? ? Hu Hw B']; subst; [f_equal; auto|]. exfalso. apply N. split; [exact Hu|]. exists w, r0. auto.
      - inversion B as [|? ? ? N' B'|? ? ? ? _ _ B']; subst; [|f_equal; auto]. exfalso. apply N'. split; [exact Hu|]. exists w, r. auto. }
    exact (F _ _ J _ N).
Qed.

(** A key file that was written only in part cannot be loaded. *)
Lemma file_lost_any : forall salt fs a nk file pass s c n, kp_nick a = JStr nk -> python_str nk -> to_key_string salt a pass = Ok s -> n < length s ->
  fst (to_key_file salt (Some n) fs a file pass) = Err StorageFault /\
  from_key_file (snd (to_key_file salt (Some n) fs a file pass)) c file pass = Err JSONDecodeError.
Proof.
  intros salt fs a nk file pass s c n Na V T L. destruct (key_string_text salt a nk pass s Na V T) as [k [pub [pubs [priv [h [nick [_ [_ [_ [_ [_ [_ W]]]]]]]]]]]].
  unfold to_key_file. rewrite T. cbn [fst snd]. split; [reflexivity|].
  unfold from_key_file. rewrite fget_fset, ustr_eqb_refl. unfold from_key_string.
  destruct (loads (firstn n s)) as [v|e] eqn:X; [|rewrite (loads_error _ _ X); reflexivity]. exfalso. apply loads_exact in X.
  assert (Es : exists r, s = 123%N :: r). { destruct (to_key_string_obj salt a pass s T) as [d ->]. eexists. reflexivity. }
  destruct Es as [r Er]. rewrite <- (firstn_skipn n s) in W, Er.
  refine (prefix_not_json (firstn n s) (skipn n s) _ v 123%N r W Er _ _ X); [cbn; auto|].
  intros Z. apply (f_equal (@length N)) in Z. rewrite skipn_length in Z. cbn [length] in Z. lia.
Qed.

Lemma plain_body : forall s, Forall (fun c => 32 <= c /\ c <> 34 /\ c <> 92)%N s -> str_body s s.
Proof. induction 1 as [|c s [A [B D]] F IH]; [constructor|]. now apply body_char. Qed.
Lemma plain_check : forall s, forallb (fun c => (32 <=? c) && negb (c =? 34) && negb (c =? 92))%N s = true -> str_body s s.
Proof.
  intros s F. apply plain_body, Forall_forall. intros c I. rewrite forallb_forall in F. specialize (F c I). cbv beta in F. lia.
Qed.
Lemma hexd_plain : forall n, (n < 16)%N -> (32 <= hexd n /\ hexd n <> 34 /\ hexd n <> 92)%N.
Proof. intros n L. unfold hexd. destruct (N.ltb_spec n 10); lia. Qed.
Lemma hex_str_body : forall b, str_body (hex_str b) (hex_str b).
Proof.
  intros b. apply plain_check. unfold hex_str, ascii, to_hex. rewrite flat_map_concat_map, concat_map, !map_map.
  induction b as [|x b IH]; [reflexivity|]. cbn [map concat]. rewrite forallb_app. apply andb_true_iff. split; [destruct x; reflexivity|exact IH].
Qed.
Lemma any_nickname : forall c pass priv k t v, rsa_import priv (Some pass) = Ok k -> value_text t v ->
  from_key_string c (ascii (bs "{""private_key"":""") ++ hex_str priv ++ ascii (bs """,""nickname"":") ++ t ++ ascii (bs "}")) pass = Ok (mkKp c v (Some k)).
Proof.
  intros c pass priv k t v I V. apply key_string_exact.
  exists [(txt "private_key", JStr (hex_str priv)); (txt "nickname", v)], v, (hex_str priv), priv, k. split.
  - apply value_json. set (h := hex_str priv).
    assert (E : ascii (bs "{""private_key"":""") ++ h ++ ascii (bs """,""nickname"":") ++ t ++ ascii (bs "}") =
      123%N :: ([] ++ 34%N :: txt "private_key" ++ 34%N :: [] ++ 58%N :: [] ++ (34%N :: h ++ [34%N]) ++ [] ++ 44%N :: ([] ++ 34%N :: txt "nickname" ++ 34%N :: [] ++ 58%N :: [] ++ t ++ [])) ++ [125%N]).
    { change (ascii (bs "{""private_key"":""")) with (123%N :: 34%N :: txt "private_key" ++ [34; 58; 34]%N).
      change (ascii (bs """,""nickname"":")) with (34%N :: 44%N :: 34%N :: txt "nickname" ++ [34; 58]%N). change (ascii (bs "}")) with [125%N].
      rewrite !app_nil_l, !app_nil_r. cbn [app]. rewrite <- !app_assoc. cbn [app]. rewrite <- !app_assoc. cbn [app]. rewrite <- ?app_assoc. cbn [app].
      rewrite <- ?app_assoc. reflexivity. }
    rewrite E. apply v_obj. assert (W : blank []) by constructor.
    apply m_more; try assumption; [apply plain_check; reflexivity|apply v_str, hex_str_body|].
    apply m_one; try assumption. apply plain_check; reflexivity.
  - split; [|split]; [| |split; [apply hex_str_text|split; [exact I|reflexivity]]].
    + apply (entry_here _ _ []) with (l := [(txt "private_key", JStr (hex_str priv))]). intros v' [].
    + apply (entry_here _ _ [(txt "nickname", v)]) with (l := []). intros v' [X|[]]. apply (f_equal fst) in X. vm_compute in X. discriminate X.
Qed.

Lemma key_type_unknown : forall key ty re, ty <> txt "public" -> ty <> txt "private" -> rsa_key_valid key ty re = Err ValueError.
Proof.
  intros key ty re N1 N2. unfold rsa_key_valid. destruct (ustr_eqb ty (txt "public")) eqn:E1; [apply ustr_eqb_eq in E1; contradiction|].
  destruct (ustr_eqb ty (txt "private")) eqn:E2; [apply ustr_eqb_eq in E2; contradiction|]. reflexivity.
Qed.
End WithCrypto.
