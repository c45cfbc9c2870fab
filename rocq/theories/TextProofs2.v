(** Errors of [Proof.decode_json], iterators, names of files, texts of key pairs. *)
From Coq Require Import String List Bool Arith NArith Lia ZifyBool ZifyNat ZifyN.
From Verif Require Import Base BaseProofs ProofObj Json SpecJson JsonProofs JsonGrammar JsonExact SpecWire Keccak ProofJson ProofJsonProofs Keypairs Texts UtilsMisc SpecText.
Import ListNotations.

(** ** decode_json *)
Lemma strip_iff : forall sub s r, strip sub s = Some r <-> s = sub ++ r.
Proof.
  induction sub as [|c sub IH]; intros s r; cbn [strip app]; [split; [now intros [= ->]|now intros ->]|].
  destruct s as [|d s]; [split; discriminate|]. destruct (N.eqb_spec c d) as [->|N].
  - rewrite IH. split; [now intros ->|now intros [= ->]].
  - split; [discriminate|]. intros E. injection E as -> _. contradiction.
Qed.
Lemma has_sub_iff : forall sub s, has_sub sub s = true <-> exists a b, s = a ++ sub ++ b.
Proof.
  intros sub. induction s as [|c s IH].
  - cbn [has_sub]. destruct (strip sub []) as [r|] eqn:E.
    + apply strip_iff in E. split; [intros _; now exists [], r|reflexivity].
    + split; [discriminate|]. intros [a [b E2]]. destruct a as [|? a]; [|discriminate]. cbn [app] in E2. apply strip_iff in E2. congruence.
  - cbn [has_sub]. destruct (strip sub (c :: s)) as [r|] eqn:E.
    + apply strip_iff in E. split; [intros _; now exists [], r|reflexivity].
    + rewrite IH. split; [intros [a [b ->]]; now exists (c :: a), b|]. intros [a [b E2]]. destruct a as [|d a].
      * cbn [app] in E2. apply strip_iff in E2. congruence.
      * cbn [app] in E2. injection E2 as -> ->. now exists a, b.
Qed.
Lemma ustr_eqb_iff : forall a b, ustr_eqb a b = true <-> a = b.
Proof.
  induction a as [|x a IH]; intros [|y b]; cbn [ustr_eqb]; try (split; discriminate); [split; reflexivity|].
  rewrite andb_true_iff, IH, N.eqb_eq. split; [now intros [-> ->]|now intros [= -> ->]].
Qed.
Lemma jin_contains : forall sub v, jin sub v = Ok true <-> contains sub v.
Proof.
  intros sub [s|l|d| | | |]; cbn [jin]; try (split; [discriminate|intros C; inversion C]).
  - split.
    + intros [= E]. apply has_sub_iff in E as [a [b ->]]. constructor.
    + intros C. inversion C as [a b E| |]. f_equal. apply has_sub_iff. now exists a, b.
  - split.
    + intros [= E]. apply existsb_exists in E as [[x| | | | | |] [I E]]; try discriminate. apply ustr_eqb_iff in E. subst x. now constructor.
    + intros C. inversion C as [|l' I|]; subst. f_equal. apply existsb_exists. exists (JStr sub). split; [exact I|now apply ustr_eqb_iff].
  - split.
    + intros [= E]. apply existsb_exists in E as [[k x] [I E]]. cbn [fst] in E. apply ustr_eqb_iff in E. subst k. exact (con_obj sub d x I).
    + intros C. inversion C as [| |d' x I]; subst. f_equal. apply existsb_exists. exists (sub, x). split; [exact I|now apply ustr_eqb_iff].
Qed.
Lemma utf8_encode_err : forall s e, utf8_encode s = Err e -> e = UnicodeEncodeError.
Proof.
  induction s as [|c s IH]; intros e E; cbn [utf8_encode] in E; [discriminate|]. destruct (utf8_char c); [|congruence].
  destruct (utf8_encode s); [discriminate|congruence].
Qed.
Lemma jencode_err : forall v e, jencode v = Err e -> e = AttributeError \/ e = UnicodeEncodeError.
Proof. intros [s| | | | | |] e E; cbn [jencode] in E; try (left; congruence). right. exact (utf8_encode_err s e E). Qed.
Lemma jindex_err : forall v k e, jindex v k = Err e -> e = KeyError \/ e = TypeError.
Proof. intros [| |d| | | |] k e E; cbn [jindex] in E; try (right; congruence). destruct (jget d k); [discriminate|left; congruence]. Qed.
Lemma jin_err : forall k v e, jin k v = Err e -> e = TypeError.
Proof. intros k [| | | | | |] e E; cbn [jin] in E; congruence. Qed.
Lemma jiter_err : forall v e, jiter v = Err e -> e = TypeError.
Proof. intros [| | | | | |] e E; cbn [jiter] in E; congruence. Qed.
Lemma mapM_jencode_err : forall l e, mapM jencode l = Err e -> e = AttributeError \/ e = UnicodeEncodeError.
Proof.
  induction l as [|x l IH]; intros e E; cbn [mapM] in E; [discriminate|]. destruct (jencode x) as [|e'] eqn:X; cbn [bind] in E.
  - destruct (mapM jencode l) as [|e'']; cbn [bind] in E; [discriminate|]. injection E as <-. now apply IH.
  - injection E as <-. exact (jencode_err x e' X).
Qed.
Lemma new_proof_err : forall t k r l ty e, new_proof t k r l ty = Err e -> e = TypeError.
Proof. intros t k r l ty e E. unfold new_proof in E. destruct (existsb (bytes_eqb ty) accepted_types); congruence. Qed.
Lemma decode_json_errors : forall s e, proof_decode_json s = Err e -> In e json_errors /\
  (e = NotImplementedError <-> exists d l ty, json_text s (JObj d) /\ entry d (txt "proof") l /\ entry d (txt "proof_type") ty /\ contains (txt "MPT") ty).
Proof.
  intros s e E.
  assert (K : forall a, In a json_errors -> a <> NotImplementedError ->
    (forall d l ty, json_text s (JObj d) -> entry d (txt "proof") l -> entry d (txt "proof_type") ty -> contains (txt "MPT") ty -> False) ->
    In a json_errors /\ (a = NotImplementedError <-> exists d l ty, json_text s (JObj d) /\ entry d (txt "proof") l /\ entry d (txt "proof_type") ty /\ contains (txt "MPT") ty)).
  { intros a I N F. split; [exact I|]. split; [intros X; contradiction|]. intros [d [l [ty [T [A [B C]]]]]]. exfalso. exact (F d l ty T A B C). }
  unfold proof_decode_json in E. destruct (loads s) as [v|e0] eqn:L; cbn [bind] in E.
  2: { injection E as <-. rewrite (loads_error s e0 L). apply K; [cbn; tauto|discriminate|]. intros d l ty T. apply loads_exact in T. congruence. }
  assert (V : forall d, json_text s (JObj d) -> v = JObj d) by (intros d T; apply loads_exact in T; congruence).
  destruct (jindex v k_proof) as [l|e1] eqn:J1; cbn [bind] in E.
  2: { injection E as <-. apply K; [destruct (jindex_err _ _ _ J1) as [-> | ->]; cbn; tauto|destruct (jindex_err _ _ _ J1) as [-> | ->]; discriminate|].
       intros d l ty T A. specialize (V d T). assert (jindex v k_proof = Ok l) by (apply jindex_entry; eauto). congruence. }
  destruct (jindex v k_type) as [ty|e2] eqn:J2; cbn [bind] in E.
  2: { injection E as <-. apply K; [destruct (jindex_err _ _ _ J2) as [-> | ->]; cbn; tauto|destruct (jindex_err _ _ _ J2) as [-> | ->]; discriminate|].
       intros d l' ty T _ A. specialize (V d T). assert (jindex v k_type = Ok ty) by (apply jindex_entry; eauto). congruence. }
  assert (U : forall d ty', json_text s (JObj d) -> entry d (txt "proof_type") ty' -> ty' = ty).
  { intros d ty' T A. specialize (V d T). assert (jindex v k_type = Ok ty') by (apply jindex_entry; eauto). congruence. }
  destruct (jin (txt "MPT") ty) as [[|]|e3] eqn:M; cbn [bind] in E.
  - injection E as <-. split; [cbn; tauto|]. split; [intros _|reflexivity]. apply jin_contains in M. apply loads_exact in L.
    apply jindex_entry in J1 as [d [-> J1]]. apply jindex_entry in J2 as [d' [X J2]]. injection X as <-. exists d, l, ty. auto.
  - assert (NC : forall d l ty, json_text s (JObj d) -> entry d (txt "proof") l -> entry d (txt "proof_type") ty -> contains (txt "MPT") ty -> False).
    { intros d l' ty' T _ A C. rewrite (U d ty' T A) in C. apply jin_contains in C. congruence. }
    assert (K1 : e = TypeError -> In e json_errors /\ (e = NotImplementedError <-> exists d l ty, json_text s (JObj d) /\ entry d (txt "proof") l /\ entry d (txt "proof_type") ty /\ contains (txt "MPT") ty)) by (intros ->; apply K; [cbn; tauto|discriminate|exact NC]).
    assert (K2 : e = AttributeError \/ e = UnicodeEncodeError -> In e json_errors /\ (e = NotImplementedError <-> exists d l ty, json_text s (JObj d) /\ entry d (txt "proof") l /\ entry d (txt "proof_type") ty /\ contains (txt "MPT") ty)) by (intros [-> | ->]; (apply K; [cbn; tauto|discriminate|exact NC])).
    assert (K3 : e = KeyError \/ e = TypeError -> In e json_errors /\ (e = NotImplementedError <-> exists d l ty, json_text s (JObj d) /\ entry d (txt "proof") l /\ entry d (txt "proof_type") ty /\ contains (txt "MPT") ty)) by (intros [-> | ->]; (apply K; [cbn; tauto|discriminate|exact NC])).
    clear K NC V U.
    destruct (jin (txt "MT") ty) as [[|]|e4] eqn:M2; cbn [bind] in E; [|apply K1; congruence|injection E as <-; apply K1; exact (jin_err _ _ _ M2)].
    destruct (jiter l) as [els|e5] eqn:X5; cbn [bind] in E; [|injection E as <-; apply K1; exact (jiter_err _ _ X5)].
    destruct (mapM jencode els) as [bl|e6] eqn:X6; cbn [bind] in E; [|injection E as <-; apply K2; exact (mapM_jencode_err _ _ X6)].
    destruct (jindex v k_key) as [kv|e7] eqn:X7; cbn [bind] in E; [|injection E as <-; apply K3; exact (jindex_err _ _ _ X7)].
    destruct (jencode kv) as [k|e8] eqn:X8; cbn [bind] in E; [|injection E as <-; apply K2; exact (jencode_err _ _ X8)].
    destruct (jindex v k_root) as [rv|e9] eqn:X9; cbn [bind] in E; [|injection E as <-; apply K3; exact (jindex_err _ _ _ X9)].
    destruct (jencode rv) as [r|e10] eqn:X10; cbn [bind] in E; [|injection E as <-; apply K2; exact (jencode_err _ _ X10)].
    destruct (jencode ty) as [t|e11] eqn:X11; cbn [bind] in E; [|injection E as <-; apply K2; exact (jencode_err _ _ X11)].
    destruct (new_proof [] k r (map PB bl) t) as [p|e12] eqn:X12; cbn [bind] in E; [|injection E as <-; apply K1; exact (new_proof_err _ _ _ _ _ _ X12)].
    destruct (jindex v k_time) as [tv|e13] eqn:X13; cbn [bind] in E; [|injection E as <-; apply K3; exact (jindex_err _ _ _ X13)].
    destruct (jencode tv) as [tm|e14] eqn:X14; cbn [bind] in E; [discriminate|injection E as <-; apply K2; exact (jencode_err _ _ X14)].
  - injection E as <-. pose proof (jin_err _ _ _ M) as ->. apply K; [cbn; tauto|discriminate|].
    intros d l' ty' T _ A C. rewrite (U d ty' T A) in C. apply jin_contains in C. congruence.
Qed.
Lemma decode_json_mpt : forall s d l ty, json_text s (JObj d) -> entry d (txt "proof") l -> entry d (txt "proof_type") ty -> contains (txt "MPT") ty ->
  proof_decode_json s = Err NotImplementedError.
Proof.
  intros s d l ty T A B C. apply loads_exact in T. unfold proof_decode_json. rewrite T. cbn [bind].
  replace (jindex (JObj d) k_proof) with (@Ok json l) by (symmetry; apply jindex_entry; eauto). cbn [bind].
  replace (jindex (JObj d) k_type) with (@Ok json ty) by (symmetry; apply jindex_entry; eauto). cbn [bind].
  apply jin_contains in C. rewrite C. reflexivity.
Qed.

(** ** The iterator *)
Lemma next_without_iter : forall n, nexts n None = (repeat (Err AttributeError) n, None).
Proof. induction n as [|n IH]; cbn [nexts proof_next repeat]; [reflexivity|]. now rewrite IH. Qed.
Lemma next_after_iter : forall p n, fst (nexts (5 + n) (proof_iter p)) = map (fun x => Ok (Some x)) (proof_items p) ++ repeat (Ok None) n.
Proof.
  intros p n. set (d := proof_items p).
  assert (X : forall m, nexts m (Some (d, 5)) = (repeat (Ok None) m, Some (d, 5))).
  { induction m as [|m IH]; [reflexivity|]. cbn [nexts repeat]. change (proof_next (Some (d, 5))) with (@Ok (option (list N * field)) None, Some (d, 5)). cbv iota. now rewrite IH. }
  assert (S1 : forall m c, fst (nexts (S m) c) = fst (proof_next c) :: fst (nexts m (snd (proof_next c)))).
  { intros m c. cbn [nexts]. destruct (proof_next c) as [r c']. cbn [fst snd]. now destruct (nexts m c'). }
  change (5 + n) with (S (S (S (S (S n))))). rewrite !S1.
  change (snd (proof_next (snd (proof_next (snd (proof_next (snd (proof_next (snd (proof_next (proof_iter p)))))))))))  with (Some (d, 5)).
  rewrite X. reflexivity.
Qed.

(** ** Names of files *)
Lemma components_app : forall a b, components (a ++ slash :: b) = components a ++ components b.
Proof.
  induction a as [|c a IH]; intros b; cbn [app components]; [now rewrite N.eqb_refl|]. rewrite IH. destruct (N.eqb c slash); [reflexivity|].
  destruct (components a) as [|w t] eqn:E; [|reflexivity]. destruct a as [|d a]; cbn [components] in E; [discriminate|].
  destruct (N.eqb d slash); [discriminate|]. destruct (components a); discriminate.
Qed.
Lemma components_some : forall a, components a <> [].
Proof. intros [|c a]; cbn [components]; [discriminate|]. destruct (N.eqb c slash); [discriminate|]. destruct (components a); discriminate. Qed.
Lemma last_app : forall A (l m : list A) d, m <> [] -> last (l ++ m) d = last m d.
Proof.
  induction l as [|x l IH]; intros m d N; [reflexivity|]. cbn [app last]. destruct (l ++ m) eqn:E; [destruct l; [cbn in E; congruence|discriminate]|]. rewrite <- E. now apply IH.
Qed.
Lemma place_app : forall a b, filter counts (components (a ++ slash :: b)) = filter counts (components a) ++ filter counts (components b).
Proof. intros a b. now rewrite components_app, filter_app. Qed.
Lemma last_char : forall (cwd : list N) d, cwd <> [] -> exists a, cwd = a ++ [last cwd d].
Proof. intros cwd d N. exists (removelast cwd). now apply app_removelast_last. Qed.
Lemma place_join : forall cwd r, cwd <> [] -> hd dot cwd = slash -> hd dot r <> slash -> place cwd (path_join cwd r) = (filter counts (components cwd) ++ filter counts (components r), negb (counts (last (components r) []))).
Proof.
  intros cwd r N Hc Hr.
  assert (J : exists a, path_join cwd r = a ++ slash :: r /\ filter counts (components a) = filter counts (components cwd) /\ (a = [] \/ hd dot a = slash)).
  { assert (G : forall x, path_join cwd r = (if N.eqb (last cwd slash) slash then cwd ++ r else cwd ++ slash :: r) -> x = path_join cwd r -> exists a, x = a ++ slash :: r /\ filter counts (components a) = filter counts (components cwd) /\ (a = [] \/ hd dot a = slash)).
    { intros x E ->. rewrite E. destruct (N.eqb_spec (last cwd slash) slash) as [L|L].
      - destruct (last_char cwd slash N) as [a Ea]. rewrite L in Ea. exists a. split; [rewrite Ea, <- app_assoc; reflexivity|]. split.
        + rewrite Ea, place_app. cbn. now rewrite app_nil_r.
        + destruct a as [|c a]; [auto|]. right. rewrite Ea in Hc. exact Hc.
      - exists cwd. auto. }
    apply (G (path_join cwd r)); [|reflexivity]. unfold path_join. destruct cwd as [|c cwd]; [contradiction|]. cbn [length Nat.eqb orb].
    destruct r as [|d r]; [now rewrite app_nil_r|]. cbn [hd] in Hr. apply N.eqb_neq in Hr. now rewrite Hr. }
  destruct J as [a [-> [F Hd]]]. unfold place. rewrite components_app, last_app by apply components_some. rewrite <- components_app, place_app, F. f_equal.
  destruct Hd as [->|Hd]; [cbn [app]; now rewrite N.eqb_refl|]. destruct a as [|c a]; [cbn [app]; now rewrite N.eqb_refl|]. cbn [hd] in Hd. subst c. cbn [app]. now rewrite N.eqb_refl.
Qed.
Lemma exists_place : forall fs cwd name, hd dot cwd = slash -> (forall r, name <> dot :: slash :: slash :: r) ->
  exists_ (fun n => fs (place cwd n)) cwd name = fs (place cwd name).
Proof.
  intros fs cwd name Hc D. unfold exists_. destruct name as [|d [|s r]]; try reflexivity.
  destruct (N.eqb_spec d dot) as [->|]; [|reflexivity]. destruct (N.eqb_spec s slash) as [->|]; [|reflexivity]. cbn [andb].
  rewrite place_join; [|intros ->; discriminate|exact Hc|].
  - f_equal. unfold place. change (N.eqb dot slash) with false. cbv iota. change (dot :: slash :: r) with ([dot] ++ slash :: r).
    rewrite place_app, components_app, last_app by apply components_some. reflexivity.
  - destruct r as [|e r]; [discriminate|]. cbn [hd]. intros ->. exact (D r eq_refl).
Qed.
Lemma exists_double : forall is cwd r, exists_ is cwd (dot :: slash :: slash :: r) = is (slash :: r).
Proof. reflexivity. Qed.

(** ** Key pairs *)
Section WithCrypto.
Context {C : Crypto}.
Lemma kp_text_public : forall str_of a b, kp_cls a = kp_cls b -> kp_nick a = kp_nick b ->
  kp_str str_of a = kp_str str_of b /\ (public_key a = public_key b -> kp_repr str_of a = kp_repr str_of b) /\
  (forall t, kp_repr str_of a = Ok t -> kp_repr str_of b = Ok t -> public_key a = public_key b).
Proof.
  intros str_of a b E1 E2. unfold kp_str, kp_repr. rewrite E1, E2. split; [reflexivity|]. split; [now intros ->|]. intros t A B.
  destruct (public_key a) as [pa|]; [|discriminate]. destruct (public_key b) as [pb|]; [|discriminate]. cbn [bind] in A, B. f_equal.
  destruct (utf8_decode pa) as [sa|] eqn:Da; [|discriminate]. destruct (utf8_decode pb) as [sb|] eqn:Db; [|discriminate]. cbn [bind] in A, B.
  apply utf8_decode_encode in Da. apply utf8_decode_encode in Db. rewrite <- B in A. injection A as A. apply app_inv_head in A. cbn [txt] in A.
  repeat (apply app_inv_head in A || injection A as A). apply app_inv_tail in A. congruence.
Qed.
Lemma kp_text_no_key : forall str_of a, kp_key a = None -> kp_repr str_of a = Err AttributeError.
Proof. intros str_of a E. unfold kp_repr, public_key, key_of. now rewrite E. Qed.
End WithCrypto.
