(** Proofs about KeyCalls.v. *)
From Coq Require Import String List Bool Arith NArith ZArith Lia.
From Verif Require Import Base BaseProofs ProofObj Json JsonProofs JsonGrammar ProofJson MerkleTree Keypairs SpecKeys KeysProofs KeyCalls SpecKeyCalls.
Import ListNotations.
Local Open Scope res_scope.

Section WithCrypto.
Context {C : Crypto}.

Lemma put_at_same : forall l i o x, nth_error l i = Some x -> nth_error (put_at l i o) i = Some o.
Proof. induction l as [|y l IH]; intros [|i] o x E; cbn in *; try discriminate; [reflexivity|exact (IH i o x E)]. Qed.
Lemma put_at_other : forall l i j o, i <> j -> nth_error (put_at l i o) j = nth_error l j.
Proof. induction l as [|y l IH]; intros [|i] [|j] o Ne; cbn; try reflexivity; [contradiction|apply IH; lia]. Qed.
Lemma put_at_length : forall l i o, length (put_at l i o) = length l.
Proof. induction l as [|y l IH]; intros [|i] o; cbn; try reflexivity. now rewrite IH. Qed.

(** ** What a call changes *)
Lemma add_obj_old : forall w r i o, nth_error (w_objs w) i = Some o -> nth_error (w_objs (snd (add_obj w r))) i = Some o.
Proof. intros w [x|e] i o E; [|exact E]. cbn. rewrite nth_error_app1; [exact E|]. apply nth_error_Some. congruence. Qed.
Lemma add_obj_files : forall w r, w_files (snd (add_obj w r)) = w_files w.
Proof. intros w [x|e]; reflexivity. Qed.

Lemma last_key_one : forall i c r had, last_key i (c :: r) had = last_key i r (last_key i [c] had).
Proof. intros i c r had. destruct c; try reflexivity. destruct len; try reflexivity. destruct gen; reflexivity. Qed.
Lemma last_nick_one : forall i c r had, last_nick i (c :: r) had = last_nick i r (last_nick i [c] had).
Proof. intros i c r had. destruct c; reflexivity. Qed.

Lemma kstep_obj : forall w c i o, nth_error (w_objs w) i = Some o ->
  nth_error (w_objs (snd (kstep w c))) i = Some (mkObj (ko_cls o) (last_nick i [c] (ko_nick o)) (last_key i [c] (ko_key o))).
Proof.
  intros w c i o E. assert (R : mkObj (ko_cls o) (ko_nick o) (ko_key o) = o) by (destruct o; reflexivity).
  destruct c; cbn [kstep last_nick last_key]; try (rewrite R; apply add_obj_old; exact E);
    try (destruct (nth_error (w_objs w) i0) as [x|]; cbn [snd]; rewrite R; exact E).
  - destruct (Nat.eqb_spec i0 i) as [->|Ne].
    + rewrite E. cbn. apply put_at_same with (x := o). exact E.
    + destruct (nth_error (w_objs w) i0) as [x|]; cbn [snd w_objs]; rewrite R; [rewrite put_at_other by exact Ne|]; exact E.
  - destruct (nth_error (w_objs w) i0) as [x|] eqn:X.
    + destruct len; cbn [py_generate snd]; try (rewrite R; exact E). destruct gen as [k|e]; cbn [bind snd w_objs]; [|rewrite R; exact E].
      destruct (Nat.eqb_spec i0 i) as [->|Ne].
      * rewrite E in X. injection X as <-. exact (put_at_same _ _ _ _ E).
      * rewrite R, put_at_other by exact Ne. exact E.
    + destruct (Nat.eqb_spec i0 i) as [->|Ne]; [congruence|]. destruct len; cbn [snd]; try (rewrite R; exact E). destruct gen; rewrite R; exact E.
  - destruct (nth_error (w_objs w) i0) as [x|]; cbn [snd]; [|rewrite R; exact E].
    destruct file; cbn [snd]; try (rewrite R; exact E). destruct pass; cbn [snd]; try (rewrite R; exact E).
    destruct (save _ _ _ _ _ _). rewrite R. exact E.
Qed.

Lemma krun_obj : forall cs w i o, nth_error (w_objs w) i = Some o ->
  nth_error (w_objs (krun w cs)) i = Some (mkObj (ko_cls o) (last_nick i cs (ko_nick o)) (last_key i cs (ko_key o))).
Proof.
  induction cs as [|c cs IH]; intros w i o E; cbn [krun].
  - rewrite E. destruct o; reflexivity.
  - rewrite (IH _ _ _ (kstep_obj w c i o E)). cbn [ko_cls ko_nick ko_key]. rewrite (last_key_one i c cs), (last_nick_one i c cs). reflexivity.
Qed.

Lemma save_other : forall salt d fs o file pass f, f <> file -> fget (snd (save salt d fs o file pass)) f = fget fs f.
Proof.
  intros salt d fs o file pass f Ne. unfold save.
  assert (X : ustr_eqb f file = false) by (destruct (ustr_eqb f file) eqn:X; [apply ustr_eqb_eq in X; contradiction|reflexivity]).
  destruct (key_text salt o pass) as [[t r]|e]; [|reflexivity]. destruct d; cbn [snd]; try reflexivity; [now rewrite fget_fset, X|].
  destruct (length t <=? n); cbn [snd]; now rewrite fget_fset, X.
Qed.
Lemma kstep_file : forall w c f, ~ saves_to f c -> fget (w_files (snd (kstep w c))) f = fget (w_files w) f.
Proof.
  intros w c f N. destruct c; cbn [kstep]; try (now rewrite add_obj_files); try (destruct (nth_error (w_objs w) i); reflexivity).
  - destruct (nth_error (w_objs w) i) as [o|]; [|reflexivity]. destruct (py_generate o len gen); reflexivity.
  - destruct (nth_error (w_objs w) i) as [o|]; [|reflexivity]. destruct file as [| s | | |]; try reflexivity. destruct pass as [| p | | |]; try reflexivity.
    assert (Ne : f <> s) by (intros ->; apply N; exists i, salt, d, (AStr p); reflexivity).
    pose proof (save_other salt d (w_files w) o s p f Ne) as X. destruct (save _ _ _ _ _ _) as [r fs]. exact X.
Qed.
Lemma krun_file : forall cs w f, (forall c, In c cs -> ~ saves_to f c) -> fget (w_files (krun w cs)) f = fget (w_files w) f.
Proof.
  induction cs as [|c cs IH]; intros w f N; [reflexivity|]. cbn [krun]. rewrite IH by (intros x I; apply N; now right).
  apply kstep_file, N. now left.
Qed.

Lemma last_key_kept : forall cs i had, (forall c, In c cs -> ~ regenerates i c) -> last_key i cs had = had.
Proof.
  induction cs as [|c cs IH]; intros i had N; [reflexivity|]. rewrite last_key_one.
  rewrite IH by (intros x I; apply N; now right). destruct c; try reflexivity. cbn [last_key]. destruct len; try reflexivity. destruct gen; try reflexivity.
  destruct (Nat.eqb_spec i0 i) as [->|Ne]; [|reflexivity]. exfalso. apply (N (KGenerate i (AInt z) (Ok a))); [now left|]. do 2 eexists. reflexivity.
Qed.

(** A call that raises changes no key pair. *)
Lemma raising_keeps : forall w c e, ksay w c = RErr e -> w_objs (snd (kstep w c)) = w_objs w.
Proof.
  intros w c e E. unfold ksay in E.
  assert (A : forall r, fst (add_obj w r) = RErr e -> w_objs (snd (add_obj w r)) = w_objs w) by (intros [x|x] X; [discriminate|reflexivity]).
  destruct c; cbn [kstep] in *; try (apply A; exact E); try (destruct (nth_error (w_objs w) i); reflexivity).
  - destruct (nth_error (w_objs w) i); [discriminate|reflexivity].
  - destruct (nth_error (w_objs w) i) as [o|]; [|reflexivity]. destruct (py_generate o len gen); [discriminate|reflexivity].
  - destruct (nth_error (w_objs w) i) as [o|]; [|reflexivity]. destruct file; try reflexivity. destruct pass; try reflexivity.
    destruct (save _ _ _ _ _ _). reflexivity.
Qed.

(** ** Wrong types *)
Lemma unfit_raises : forall w i o c, nth_error (w_objs w) i = Some o -> unfit (ko_cls o) i c -> kstep w c = (RErr ValueError, w).
Proof.
  intros w i o c E U. inversion U; subst; cbn [kstep]; rewrite E; try reflexivity.
  - destruct len; try reflexivity. exfalso. apply H. eexists. reflexivity.
  - unfold py_sign. destruct d; [exfalso; apply H0; eexists; reflexivity| | | |]; destruct (ko_cls o); try reflexivity; contradiction.
  - unfold py_valid. destruct (ko_cls o) eqn:K; [| |contradiction]; (destruct d; try reflexivity; destruct s; try reflexivity; destruct p; try reflexivity;
      exfalso; destruct H0 as [X|[X|[X Y]]]; try (apply X; eexists; reflexivity); try (apply Y; reflexivity)).
  - unfold py_encrypt. destruct (ko_cls o) eqn:K; [|contradiction|]; (destruct d; try reflexivity; destruct p; try reflexivity; exfalso; destruct H0 as [X|X]; apply X; eexists; reflexivity).
  - unfold py_decrypt. destruct (ko_cls o) eqn:K; [|contradiction|]; (destruct d; try reflexivity; destruct p; try reflexivity; exfalso; destruct H0 as [X|X]; apply X; eexists; reflexivity).
  - destruct p; try reflexivity. exfalso. apply H. eexists. reflexivity.
  - destruct f; try reflexivity. destruct p; try reflexivity. exfalso. destruct H as [X|X]; apply X; eexists; reflexivity.
Qed.
Lemma unfit_class_raises : forall w c, unfit_class c -> kstep w c = (RErr ValueError, w).
Proof.
  intros w c U. destruct U as [k s p N|k f p N|k nick g uuid gen N1 N2]; cbn [kstep].
  - destruct s; try reflexivity. destruct p; try reflexivity. exfalso. destruct N as [X|X]; apply X; eexists; reflexivity.
  - destruct f; try reflexivity. destruct p; try reflexivity. exfalso. destruct N as [X|X]; apply X; eexists; reflexivity.
  - unfold create. destruct nick as [j|]; [|reflexivity]. destruct j; try reflexivity; exfalso; [exact (N2 s eq_refl)|exact (N1 eq_refl)].
Qed.

(** ** Signatures, messages and files last *)
Lemma public_same : forall o o', ko_key o = ko_key o' -> public_key (plain o) = public_key (plain o').
Proof. intros o o' E. unfold public_key, key_of, plain. cbn [kp_key]. now rewrite E. Qed.

Section Correct.
Hypothesis OK : crypto_ok.

Lemma signature_lasts : forall w i o k d, nth_error (w_objs w) i = Some o -> ko_cls o <> Enc -> ko_key o = Some k -> good_key k ->
  exists s, ksay w (KSign i (ABytes d)) = RBytes s /\ forall cs, (forall c, In c cs -> ~ regenerates i c) ->
  ksay (krun w cs) (KValid i (ABytes d) (ABytes s) ANone) = RBool true.
Proof.
  intros w i o k d E Nc K G. destruct (sign_ok OK (plain o) k d Nc K G) as [s [S _]]. exists s. split.
  - unfold ksay. cbn [kstep]. rewrite E. unfold py_sign. destruct (ko_cls o) eqn:Kc; [| |contradiction]; rewrite S; reflexivity.
  - intros cs N. unfold ksay. cbn [kstep]. rewrite (krun_obj cs w i o E), (last_key_kept cs i _ N). cbn [fst]. rewrite K.
    set (o' := mkObj (ko_cls o) (last_nick i cs (ko_nick o)) (Some k)).
    assert (V : signature_valid (plain o') d s None = Ok true).
    { destruct (pub_key OK (plain o) k K) as [pk [P I]].
      destruct (sign_valid OK (plain o) k d (plain o') Nc Nc K G) as [s' [pk' [S' [P' [V' _]]]]]. 
      rewrite S in S'. injection S' as <-. unfold signature_valid in *. rewrite (public_same o' o) by (cbn; congruence). rewrite P' in *.
      exact V'. }
    unfold py_valid. cbn [ko_cls o']. fold o'. destruct (ko_cls o) eqn:Kc; [| |contradiction]; cbn [o' ko_cls]; rewrite V; reflexivity.
Qed.

Lemma signature_for_others : forall w i o k d s pk, nth_error (w_objs w) i = Some o -> ko_key o = Some k -> good_key k ->
  ksay w (KPublic i) = RBytes pk -> ksay w (KSign i (ABytes d)) = RBytes s ->
  forall cs j o', nth_error (w_objs (krun w cs)) j = Some o' -> ko_cls o' <> Enc ->
  ksay (krun w cs) (KValid j (ABytes d) (ABytes s) (ABytes pk)) = RBool true.
Proof.
  intros w i o k d s pk E K G P S cs j o' E' Nc'. unfold ksay in *. cbn [kstep] in *. rewrite E in P, S. rewrite E'. cbn [fst] in *.
  assert (Nc : ko_cls o <> Enc) by (intros X; unfold py_sign in S; rewrite X in S; discriminate).
  destruct (sign_valid OK (plain o) k d (plain o') Nc Nc' K G) as [s' [pk' [S' [P' [_ V]]]]].
  rewrite P' in P. injection P as <-. unfold py_sign in S.
  assert (s = s') by (destruct (ko_cls o); [| |contradiction]; rewrite S' in S; injection S as <-; reflexivity). subst s'.
  unfold py_valid. destruct (ko_cls o'); [| |contradiction]; rewrite V; reflexivity.
Qed.

Lemma message_lasts : forall w i j a b ka kb pka pkb sk seed nonce m, nth_error (w_objs w) i = Some a -> nth_error (w_objs w) j = Some b ->
  ko_cls a = Base -> ko_cls b = Base -> ko_key a = Some ka -> ko_key b = Some kb -> good_key ka -> good_key kb ->
  ksay w (KPublic i) = RBytes pka -> ksay w (KPublic j) = RBytes pkb ->
  length sk = 16 -> length seed = 20 -> length nonce = 16 ->
  exists e, ksay w (KEncrypt i sk seed nonce (ABytes m) (ABytes pkb)) = RBytes e /\
  forall cs, (forall c, In c cs -> ~ regenerates j c) -> ksay (krun w cs) (KDecrypt j (ABytes e) (ABytes pka)) = RBytes m.
Proof.
  intros w i j a b ka kb pka pkb sk seed nonce m Ei Ej Ca Cb Ka Kb Ga Gb Pa Pb L1 L2 L3.
  unfold ksay in Pa, Pb. cbn [kstep] in Pa, Pb. rewrite Ei in Pa. rewrite Ej in Pb. cbn [fst] in Pa, Pb.
  destruct (round_trip OK sk seed nonce (plain a) ka (plain b) kb m) as [pka' [pkb' [e [A1 [A2 [A3 A4]]]]]]; auto;
    try (split; [assumption|split; assumption]).
  rewrite A1 in Pa. injection Pa as <-. rewrite A2 in Pb. injection Pb as <-. exists e. split.
  - unfold ksay. cbn [kstep]. rewrite Ei. unfold py_encrypt. rewrite Ca, A3. reflexivity.
  - intros cs N. unfold ksay. cbn [kstep]. rewrite (krun_obj cs w j b Ej), (last_key_kept cs j _ N). unfold py_decrypt. cbn [ko_cls fst]. rewrite Cb.
    assert (X : plain (mkObj Base (last_nick j cs (ko_nick b)) (ko_key b)) = plain b) by (unfold plain; cbn; now rewrite Cb).
    rewrite X, A4. reflexivity.
Qed.

Lemma json_string_round_trip : forall salt c0 n k pass s c, rsa_private k = true -> jok n ->
  to_key_string salt (mkKp c0 n (Some k)) pass = Ok s -> from_key_string c s pass = Ok (mkKp c n (Some k)).
Proof.
  intros salt c0 n k pass s c P J T. unfold to_key_string, key_of in T. cbn [kp_key kp_nick bind] in T.
  destruct (rsa_export (rsa_public k) [] None) as [pk|] eqn:Pk; [|discriminate]. cbn [bind] in T.
  destruct (utf8_decode pk) as [pub|] eqn:U; [|discriminate]. cbn [bind] in T.
  destruct (rsa_export k salt (Some pass)) as [priv|] eqn:X; [|discriminate]. cbn [bind] in T.
  replace s with (dumps (JObj [(k_nick, n); (k_pub, JStr pub); (k_priv, JStr (hex_str priv))])) by (injection T as T; exact T).
  unfold from_key_string. rewrite loads_dumps.
  - cbn [bind]. change (jindex _ k_nick) with (@Ok json n). cbn [bind].
    change (jindex _ k_priv) with (@Ok json (JStr (hex_str priv))). cbn [bind]. rewrite unhex_hex. cbn [bind].
    rewrite (ok_priv_import OK k salt pass priv P X). reflexivity.
  - apply jok_obj. constructor; [split; [apply key_scalar; reflexivity|exact J]|].
    constructor; [split; [apply key_scalar; reflexivity|exact (utf8_decode_scalar _ _ U)]|].
    constructor; [split; [apply key_scalar; reflexivity|apply asc_scalar, asc_hex]|]. constructor.
Qed.

Lemma file_lasts : forall w i o k n salt d f p, nth_error (w_objs w) i = Some o -> ko_key o = Some k -> rsa_private k = true ->
  ko_nick o = NJson n -> jok n -> ksay w (KToFile i salt d (AStr f) (AStr p)) = RNone ->
  forall cs c, (forall x, In x cs -> ~ saves_to f x) ->
  let w' := krun (snd (kstep w (KToFile i salt d (AStr f) (AStr p)))) cs in
  kstep w' (KFromFile c (AStr f) (AStr p)) =
  (RNew (length (w_objs w')), mkWorld (w_objs w' ++ [mkObj c (NJson n) (Some k)]) (w_files w')).
Proof.
  intros w i o k n salt d f p E K P N J S cs c Nf w'. unfold w'. clear w'.
  set (w1 := snd (kstep w (KToFile i salt d (AStr f) (AStr p)))) in *.
  assert (F : exists t, fget (w_files w1) f = Some t /\ to_key_string salt (mkKp (ko_cls o) n (Some k)) p = Ok t).
  { unfold w1. unfold ksay in S. cbn [kstep] in *. rewrite E in *. unfold save, key_text in *. rewrite N, K in *.
    destruct (to_key_string salt _ p) as [t|e]; [|discriminate]. cbn [bind] in *. exists t. split; [|reflexivity]. destruct d as [| |m]; cbn in *.
    - rewrite ustr_eqb_refl. reflexivity.
    - discriminate.
    - destruct (length t <=? m); cbn in *; [rewrite ustr_eqb_refl; reflexivity|discriminate]. }
  destruct F as [t [F T]]. clearbody w1. cbn [kstep py_from_file]. unfold from_key_file. rewrite (krun_file cs w1 f Nf), F.
  rewrite (json_string_round_trip salt _ n k p t c P J T). reflexivity.
Qed.

Lemma string_lasts : forall w i o k n salt p s, nth_error (w_objs w) i = Some o -> ko_key o = Some k -> rsa_private k = true ->
  ko_nick o = NJson n -> jok n -> ksay w (KToString i salt (AStr p)) = RText s ->
  forall w' c, kstep w' (KFromString c (AStr s) (AStr p)) = (RNew (length (w_objs w')), mkWorld (w_objs w' ++ [mkObj c (NJson n) (Some k)]) (w_files w')).
Proof.
  intros w i o k n salt p s E K P N J S w' c. unfold ksay in S. cbn [kstep] in S. rewrite E in S. unfold py_to_string, key_text in S. rewrite N, K in S.
  destruct (to_key_string salt _ p) as [t|e] eqn:T; [|discriminate]. cbn [bind of_result fst] in S. injection S as ->.
  cbn [kstep py_from_string]. rewrite (json_string_round_trip salt _ n k p s c P J T). reflexivity.
Qed.
Lemma public_forms : forall w i o k, nth_error (w_objs w) i = Some o -> ko_key o = Some k ->
  exists b t, ksay w (KPublic i) = RBytes b /\ ksay w (KPublicText i) = RText t /\ utf8_decode b = Ok t /\ rsa_import b None = Ok (rsa_public k).
Proof.
  intros w i o k E K. destruct (pub_key OK (plain o) k K) as [b [P I]].
  assert (Q : rsa_export (rsa_public k) [] None = Ok b) by (unfold public_key, key_of, plain in P; cbn [kp_key] in P; rewrite K in P; exact P).
  destruct (ok_pub_text OK k b Q) as [t T]. exists b, t. unfold ksay. cbn [kstep]. rewrite E. unfold public_text. rewrite P. cbn [bind]. rewrite T. auto.
Qed.
End Correct.

(** ** Saving *)
Lemma save_exact : forall salt d fs o f p r fs', save salt d fs o f p = (r, fs') ->
  (exists e, key_text salt o p = Err e /\ r = Err e /\ fs' = fs) \/
  (exists x, key_text salt o p = Ok x /\ d = DNoOpen /\ r = Err StorageFault /\ fs' = fs) \/
  (exists t x n, key_text salt o p = Ok (t, x) /\ d = DFull n /\ n < length t /\ r = Err StorageFault /\ fs' = fset fs f (firstn n t)) \/
  (exists t x, key_text salt o p = Ok (t, x) /\ d <> DNoOpen /\ (forall n, d = DFull n -> length t <= n) /\
    r = match x with None => Ok tt | Some e => Err e end /\ fs' = fset fs f t).
Proof.
  intros salt d fs o f p r fs' E. unfold save in E. destruct (key_text salt o p) as [[t x]|e] eqn:T; [|left; exists e; injection E as <- <-; auto].
  destruct d as [| |n].
  - right. right. right. exists t, x. injection E as <- <-. repeat split; try discriminate.
  - right. left. exists (t, x). injection E as <- <-. auto.
  - destruct (Nat.leb_spec (length t) n) as [L|L]; injection E as <- <-.
    + right. right. right. exists t, x. repeat split; try discriminate. intros m X. injection X as <-. exact L.
    + right. right. left. exists t, x, n. auto.
Qed.

Lemma failing_save : forall w i o salt d f p e, nth_error (w_objs w) i = Some o -> ksay w (KToFile i salt d (AStr f) (AStr p)) = RErr e ->
  let now := fget (w_files (snd (kstep w (KToFile i salt d (AStr f) (AStr p))))) f in
  now = fget (w_files w) f \/ (exists n t, d = DFull n /\ n < length t /\ now = Some (firstn n t)) \/
  (exists t, ko_nick o = NBad t e /\ now = Some (txt "{""nickname"": " ++ t)).
Proof.
  intros w i o salt d f p e E S. cbn zeta. unfold ksay in S. cbn [kstep] in *. rewrite E in *.
  destruct (save salt d (w_files w) o f p) as [r fs] eqn:X. cbn [fst snd w_files] in *.
  destruct (save_exact _ _ _ _ _ _ _ _ X) as [[e1 [T [R F]]]|[[x [T [D [R F]]]]|[[t [x [n [T [D [L [R F]]]]]]]|[t [x [T [D [L [R F]]]]]]]]]; subst r fs.
  - now left.
  - now left.
  - right. left. exists n, t. repeat split; auto. now rewrite fget_fset, ustr_eqb_refl.
  - right. right. destruct x as [e1|]; [|discriminate]. cbn in S. injection S as <-. unfold key_text in T. destruct (ko_nick o) as [j|t0 e0].
    + destruct (to_key_string _ _ _); discriminate.
    + destruct (key_of _); [|discriminate]. cbn [bind] in T. destruct (public_text o); [|discriminate]. cbn [bind] in T.
      destruct (rsa_export _ _ _); [|discriminate]. cbn [bind] in T. assert (A : txt "{""nickname"": " ++ t0 = t) by congruence. assert (B : e0 = e1) by congruence.
      subst t e0. exists t0. split; [reflexivity|]. now rewrite fget_fset, ustr_eqb_refl.
Qed.
Lemma json_nickname_keeps_file : forall w i o n salt d f p e, nth_error (w_objs w) i = Some o -> ko_nick o = NJson n -> (forall m, d <> DFull m) ->
  ksay w (KToFile i salt d (AStr f) (AStr p)) = RErr e -> forall g, fget (w_files (snd (kstep w (KToFile i salt d (AStr f) (AStr p))))) g = fget (w_files w) g.
Proof.
  intros w i o n salt d f p e E N D S g. destruct (list_eq_dec N.eq_dec g f) as [->|Ne].
  - destruct (failing_save w i o salt d f p e E S) as [X|[[m [t [X _]]]|[t [X _]]]]; [exact X|destruct (D m X)|congruence].
  - apply kstep_file. intros [i' [s' [d' [p' X]]]]. congruence.
Qed.

(** A nickname that cannot be written: the file is lost. *)
Lemma nickname_loses_file : forall w i o k e salt f p priv, nth_error (w_objs w) i = Some o -> ko_key o = Some k -> ko_nick o = NBad [] e ->
  (exists t, public_text o = Ok t) -> rsa_export k salt (Some p) = Ok priv ->
  ksay w (KToFile i salt DFine (AStr f) (AStr p)) = RErr e /\
  forall cs c q, (forall x, In x cs -> ~ saves_to f x) ->
  ksay (krun (snd (kstep w (KToFile i salt DFine (AStr f) (AStr p)))) cs) (KFromFile c (AStr f) (AStr q)) = RErr JSONDecodeError.
Proof.
  intros w i o k e salt f p priv E K N [t T] X.
  assert (S : kstep w (KToFile i salt DFine (AStr f) (AStr p)) = (RErr e, mkWorld (w_objs w) (fset (w_files w) f (txt "{""nickname"": ")))).
  { cbn [kstep]. rewrite E. unfold save, key_text, key_of. rewrite N. cbn [plain kp_key]. rewrite K. cbn [bind]. rewrite T. cbn [bind]. rewrite X.
    cbn [bind of_result]. rewrite app_nil_r. reflexivity. }
  unfold ksay at 1. rewrite S. split; [reflexivity|]. intros cs c q Nf. cbn [snd]. unfold ksay. cbn [kstep py_from_file].
  unfold from_key_file. rewrite (krun_file cs _ f Nf). cbn [w_files]. rewrite fget_fset, ustr_eqb_refl.
  unfold from_key_string. assert (L : loads (txt "{""nickname"": ") = Err JSONDecodeError) by (vm_compute; reflexivity).
  rewrite L. reflexivity.
Qed.
(** The same from strings: to_key_string raises and nothing is lost. *)
Lemma nickname_no_string : forall w i o e salt p t, nth_error (w_objs w) i = Some o -> ko_nick o = NBad t e ->
  exists e', kstep w (KToString i salt (AStr p)) = (RErr e', w).
Proof.
  intros w i o e salt p t E N. cbn [kstep]. rewrite E. unfold py_to_string, key_text. rewrite N.
  destruct (key_of (plain o)); [|eexists; reflexivity]. cbn [bind]. destruct (public_text o); [|eexists; reflexivity]. cbn [bind].
  destruct (rsa_export _ _ _); eexists; reflexivity.
Qed.

(** ** Nicknames *)
Lemma created_nickname : forall w c nick g uuid gen i, ksay w (KNew c nick g uuid gen) = RNew i ->
  exists s, ksay (snd (kstep w (KNew c nick g uuid gen))) (KNick i) = RNick (NJson (JStr s)).
Proof.
  intros w c nick g uuid gen i E. unfold ksay in *. cbn [kstep] in *. unfold add_obj in *.
  destruct (create c nick g uuid gen) as [o|] eqn:Cr; [|discriminate]. injection E as <-. cbn [snd w_objs].
  rewrite nth_error_app2 by lia. rewrite Nat.sub_diag. cbn [nth_error fst].
  unfold create in Cr. destruct nick as [j|]; [|discriminate]. destruct j; try discriminate; cbn [bind] in Cr; destruct g; cbn [bind] in Cr;
    try (destruct gen; [|discriminate]; cbn [bind] in Cr); injection Cr as <-; eexists; reflexivity.
Qed.
Lemma any_nickname : forall w i o v, nth_error (w_objs w) i = Some o -> ksay w (KSetNick i v) = RNone /\
  ksay (snd (kstep w (KSetNick i v))) (KNick i) = RNick v.
Proof.
  intros w i o v E. unfold ksay. cbn [kstep]. rewrite E. split; [reflexivity|]. cbn [snd w_objs].
  rewrite (put_at_same _ _ _ _ E). reflexivity.
Qed.
End WithCrypto.
