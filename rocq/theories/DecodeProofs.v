(** Decoding raises exactly what SpecDecode.v says. *)
From Coq Require Import List Bool Arith NArith ZArith Lia.
From Verif Require Import Base BaseProofs Rlp RlpProofs NibblePath NibbleProofs Node NodeSkeleton ProofObj Mpt Empt SpecCodec CodecProofs SpecRlp RlpExact DecodeExact VerdictProofs SpecDecode.
Import ListNotations.

Lemma binlist_cases : forall i, (exists l, i = IList (map IBytes l) /\ d_binlist i = Ok l) \/
  ((forall l, i <> IList (map IBytes l)) /\ d_binlist i = Err DeserializationError).
Proof.
  intros [s|l]; cbn [d_binlist]; [right; split; [discriminate|reflexivity]|].
  induction l as [|[s|k] l [(ys & E & M)|(N & M)]]; cbn [mapM d_binary bind].
  - left. exists []. split; reflexivity.
  - left. exists (s :: ys). injection E as ->. rewrite M. cbn [bind map]. split; reflexivity.
  - right. rewrite M. cbn [bind]. split; [|reflexivity]. intros [|y ys] X; [discriminate|]. cbn [map] in X. injection X as -> X. apply (N ys). now rewrite X.
  - right. split; [|reflexivity]. intros [|y zs] X; discriminate.
  - right. split; [|reflexivity]. intros [|y zs] X; discriminate.
Qed.
Lemma bool_cases : forall i, (exists s, i = IBytes (flag_bytes s) /\ d_bool i = Ok s) \/ ((forall s, i <> IBytes (flag_bytes s)) /\ d_bool i = Err DeserializationError).
Proof.
  intros [s|l]; [|right; split; [discriminate|reflexivity]]. destruct s as [|x [|y s]].
  - left. exists false. split; reflexivity.
  - destruct x; try (right; split; [intros [|] X; discriminate X|reflexivity]). left. exists true. split; reflexivity.
  - right. split; [intros [|] X; discriminate X|]. destruct x; reflexivity.
Qed.
Lemma int_cases : forall i, (exists n, i = IBytes n /\ (n = [] \/ exists x r, n = x :: r /\ x <> x00) /\ d_int i = Ok (unbe n)) \/
  ((forall n, i = IBytes n -> exists r, n = x00 :: r) /\ d_int i = Err DeserializationError).
Proof.
  intros [[|x r]|l].
  - left. exists []. split; [reflexivity|]. split; [auto|reflexivity].
  - cbn [d_int]. destruct (N.eqb_spec (bN x) 0) as [E|E].
    + right. split; [|reflexivity]. intros n X. injection X as <-. exists r. f_equal. destruct x; try discriminate E. reflexivity.
    + left. exists (x :: r). split; [reflexivity|]. split; [|reflexivity]. right. exists x, r. split; [reflexivity|]. intros ->. now apply E.
  - right. split; [discriminate|reflexivity].
Qed.

Section Ladder.
Context {A : Type}.
Variables (dec : bytes -> result A) (read : item -> result A) (good : item -> Prop) (late : item -> exn -> Prop).
Hypothesis dec_read : forall b, dec b = bind (rlp_decode b) read.
Hypothesis read_cases : forall i, (good i /\ forall e, read i = Err e <-> late i e) \/ (~ good i /\ read i = Err DeserializationError).
Lemma ladder : forall b e, dec b = Err e <-> decode_fault good late b e.
Proof.
  intros b e. rewrite dec_read. split.
  - destruct (rlp_decode b) as [i|x] eqn:D; cbn [bind].
    2:{ intros X. injection X as <-. pose proof (rlp_decode_err _ _ D) as ->. apply df_text. now apply decode_fails. }
    apply decode_form in D. destruct (read_cases i) as [[G L]|[G L]].
    + intros X. apply df_late with i; [exact D|exact G|now apply L].
    + rewrite L. intros X. injection X as <-. now apply df_shape with i.
  - intros [N|i D G|i x D G L].
    + apply decode_fails in N. now rewrite N.
    + apply decode_form in D. rewrite D. cbn [bind]. destruct (read_cases i) as [[G' _]|[_ L]]; [now elim G|exact L].
    + apply decode_form in D. rewrite D. cbn [bind]. destruct (read_cases i) as [[_ L']|[G' _]]; [now apply L'|now elim G'].
Qed.
End Ladder.

Lemma binary_cases : forall i, (exists s, i = IBytes s) \/ (exists l, i = IList l).
Proof. intros [s|l]; eauto. Qed.

Ltac bad := right; split; [intros XX; inversion XX; subst; try congruence|reflexivity].

Lemma trie_raises : forall (H : Hash) b e, mpt_decode b = Err e <-> decode_fault trie_shape never b e.
Proof.
  intros H. eapply ladder; [intros b; reflexivity|]. intros i.
  destruct i as [s|l]; [bad|]. destruct l as [|ri [|li [|si [|]]]]; try (bad; fail).
  destruct ri as [r|k]; [|bad]. cbn [d_binary bind].
  destruct (binlist_cases li) as [(l & -> & E)|(N & E)]; rewrite E; cbn [bind]; [|right; split; [intros XX; inversion XX; subst; eapply N; reflexivity|reflexivity]].
  destruct (bool_cases si) as [(s & -> & E')|(N & E')]; rewrite E'; cbn [bind]; [|right; split; [intros XX; inversion XX; subst; eapply N; reflexivity|reflexivity]].
  left. split; [constructor|]. intros e. split; [discriminate|intros []].
Qed.

Lemma reference_raises : forall (H : Hash) b e, ref_decode b = Err e <-> decode_fault reference_shape reference_late b e.
Proof.
  intros H. eapply ladder; [intros b; reflexivity|]. intros i.
  destruct i as [s|l]; [bad|]. destruct l as [|fi [|ki [|di [|hi [|]]]]]; try (bad; fail).
  destruct fi as [f|x]; [|bad]. destruct ki as [k|x]; [|bad]. destruct di as [d|x]; [|bad]. cbn [d_binary bind].
  destruct (int_cases hi) as [(n & -> & S & E)|(N & E)]; rewrite E; cbn [bind].
  2:{ right. split; [|reflexivity]. intros XX. inversion XX; subst; destruct (N _ eq_refl) as [r Er]; [discriminate|congruence]. }
  left. split; [destruct S as [-> | (x & r & -> & X)]; now constructor|]. intros e.
  assert (U : forall y, unbe y = base256 y) by (intros; symmetry; apply base_unbe).
  destruct (bytes_eqb f ref_flag) eqn:F; cbn [new_ref bind].
  - apply bytes_eqb_eq in F as ->. unfold ref_hash. cbn [r_key r_data]. destruct (N.eqb_spec (unbe (keccak (k ++ d))) (unbe n)) as [Q|Q].
    + split; [discriminate|]. intros [_ (f' & k' & d' & n' & X & [Y|Y])]; injection X as <- <- <- <-; [now elim Y|elim Y; rewrite <- !U; congruence].
    + split; [intros X; injection X as <-|intros [-> _]; reflexivity]. split; [reflexivity|]. exists ref_flag, k, d, n. split; [reflexivity|]. right. rewrite <- !U. congruence.
  - split; [intros X; injection X as <-|intros [-> _]; reflexivity]. split; [reflexivity|]. exists f, k, d, n. split; [reflexivity|]. left. intros ->.
    assert (bytes_eqb ref_flag ref_flag = true) by reflexivity. change [x46; x46] with ref_flag in F. congruence.
Qed.

Lemma proof_raises : forall b e, proof_decode_rlp b = Err e <-> decode_fault proof_shape proof_late b e.
Proof.
  eapply ladder; [intros b; reflexivity|]. intros i.
  destruct i as [s|l]; [bad|]. destruct l as [|a [|t [|k [|r [|li [|]]]]]]; try (bad; fail).
  destruct a as [a|x]; [|bad]. destruct t as [t|x]; [|bad]. destruct k as [k|x]; [|bad]. destruct r as [r|x]; [|bad]. cbn [d_binary bind].
  destruct (binlist_cases li) as [(l & -> & E)|(N & E)]; rewrite E; cbn [bind]; [|right; split; [intros XX; inversion XX; subst; eapply N; reflexivity|reflexivity]].
  left. split; [constructor|]. intros e. unfold new_proof. destruct (existsb (bytes_eqb a) accepted_types) eqn:X.
  - split; [discriminate|]. intros [_ (ty & l' & Y & N)]. injection Y as <- _. apply existsb_exists in X as (ty & I & Q). apply bytes_eqb_eq in Q as ->. now elim N.
  - split; [intros Y; injection Y as <-|intros [-> _]; reflexivity]. split; [reflexivity|]. eexists _, _. split; [reflexivity|]. intros I.
    assert (existsb (bytes_eqb a) accepted_types = true); [|congruence]. apply existsb_exists. exists a. split; [exact I|]. now apply bytes_eqb_eq.
Qed.

Lemma shape_raises : forall b e, node_decode_bare b = Err e <-> shape_fault b e.
Proof.
  intros b e. split.
  - unfold node_decode_bare. destruct (rlp_decode b) as [i|x] eqn:D; cbn [bind].
    2:{ intros X. injection X as <-. pose proof (rlp_decode_err _ _ D) as ->. apply sf_rlp. now apply decode_fails. }
    apply decode_form in D. destruct i as [s|l].
    + destruct ((length s =? 17) || (length s =? 2)) eqn:L; intros X; injection X as <-.
      * apply sf_string with s; [exact D|]. apply orb_true_iff in L as [L|L]; apply Nat.eqb_eq in L; auto.
      * apply orb_false_iff in L as [L1 L2]. apply Nat.eqb_neq in L1, L2. now apply sf_string_length with s.
    + pose proof (usage_total b l D) as U. destruct (Nat.eqb_spec (length l) 17) as [L|L].
      * destruct (mapM_total (firstn 16 l)) as [rs Er]; [apply Forall_forall; intros i I; apply (proj1 (Forall_forall _ _) U); rewrite <- (firstn_skipn 16 l); apply in_or_app; auto|].
        rewrite Er. discriminate.
      * destruct l as [|a [|c [|]]]; try (intros X; injection X as <-; eapply sf_count; [exact D|cbn; lia|exact L]).
        destruct a as [d|[|y k]].
        -- destruct (np_decode_with_type d) as [[p leaf]|x] eqn:P; cbn [bind].
           ++ destruct leaf; [discriminate|]. inversion U as [|? ? _ U']; subst. inversion U' as [|? ? [r Ec] _]; subst. rewrite Ec. discriminate.
           ++ destruct d as [|f d]; [|discriminate]. injection P as <-. intros X. injection X as <-. apply sf_no_path with (IBytes []) c; auto.
        -- intros X. injection X as <-. apply sf_no_path with (IList []) c; auto.
        -- intros X. injection X as <-. now apply sf_path with y k c.
  - unfold node_decode_bare. intros F. destruct F as [b N|b s D L|b s D L1 L2|b l D L1 L2|b a i D A|b x l i D].
    + apply decode_fails in N. now rewrite N.
    + apply decode_form in D. rewrite D. cbn [bind]. destruct L as [-> | ->]; reflexivity.
    + apply decode_form in D. rewrite D. cbn [bind]. apply Nat.eqb_neq in L1, L2. now rewrite L1, L2.
    + apply decode_form in D. rewrite D. cbn [bind]. apply Nat.eqb_neq in L2. rewrite L2. destruct l as [|a [|c [|]]]; try reflexivity. elim L1. reflexivity.
    + apply decode_form in D. rewrite D. cbn [bind length Nat.eqb]. destruct A as [-> | ->]; reflexivity.
    + apply decode_form in D. rewrite D. reflexivity.
Qed.
