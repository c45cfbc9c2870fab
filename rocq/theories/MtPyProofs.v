(** Lemmas about MerkleTreePy.v. *)
From Coq Require Import String List Bool Arith NArith Lia ZifyN ZifyBool.
From Verif Require Import Base BaseProofs Keccak ProofObj Spec MerkleTree SpecMt MtProofs MtProofs2 SpecMtObj MtObjProofs MerkleTreePy.
Import ListNotations.

Lemma lower_spec : forall c d, (bN d < 65 \/ 90 < bN d)%N -> (lower_byte_of c = d <-> same_letter c d).
Proof.
  intros c d L. unfold lower_byte_of, same_letter. destruct ((65 <=? bN c)%N && (bN c <=? 90)%N) eqn:E.
  - split.
    + intros <-. right. rewrite bN_nB; lia.
    + intros [->|[A B]]; [lia|]. rewrite <- (nB_bN d). f_equal. exact B.
  - split; [now left|]. intros [X|[A B]]; [exact X|]. lia.
Qed.
Definition lower_name (n : bytes) : bool := forallb (fun d => (bN d <? 65)%N || (90 <? bN d)%N) n.
Lemma lower_text_spec : forall n t, lower_name n = true -> (lower_text t = n <-> Forall2 same_letter t n).
Proof.
  induction n as [|d n IH]; intros t L.
  - destruct t; split; try discriminate; [constructor|reflexivity|inversion 1].
  - cbn [lower_name forallb] in L. apply andb_true_iff in L as [L1 L2]. destruct t as [|c t]; [split; [discriminate|inversion 1]|]. cbn [lower_text map]. split.
    + intros E. injection E as E1 E2. constructor; [apply lower_spec; [lia|exact E1]|now apply IH].
    + intros F. inversion F as [|? ? ? ? S F']; subst. apply lower_spec in S; [|lia]. apply IH in F'; [|exact L2]. unfold lower_text in F'. now rewrite S, F'.
Qed.
Lemma names_known : forall n, In n hash_names <-> In n known_hashes.
Proof. intros n. cbn. tauto. Qed.
Lemma names_lower : forall n, In n hash_names -> lower_name n = true.
Proof. apply Forall_forall. repeat constructor. Qed.

Section WithHash.
Context {H : Hash}.
Theorem init_exact : forall secure t name tree, mt_init secure t = NewTree name tree <->
  exists s, secure = Some s /\ In name known_hashes /\ Forall2 same_letter t name /\ tree = mt_new s.
Proof.
  intros secure t name tree. unfold mt_init. destruct secure as [s|]; [|split; [discriminate|intros (s & E & _); discriminate]].
  destruct (existsb (bytes_eqb (lower_text t)) hash_names) eqn:E.
  - apply existsb_exists in E as (n & I & E). apply bytes_eqb_eq in E. split.
    + intros X. injection X as <- <-. exists s. split; [reflexivity|]. rewrite E. split; [now apply names_known|]. split; [|reflexivity]. apply lower_text_spec; [now apply names_lower|exact E].
    + intros (s' & Es & I' & F & ->). apply names_known in I'. injection Es as <-. apply lower_text_spec in F; [now rewrite F|now apply names_lower].
  - split; [discriminate|]. intros (s' & Es & I' & F & ->). apply names_known in I'. apply lower_text_spec in F; [|now apply names_lower]. exfalso.
    assert (X : existsb (bytes_eqb (lower_text t)) hash_names = true); [|congruence]. apply existsb_exists. exists name. split; [exact I'|]. rewrite F. apply bytes_eqb_refl.
Qed.
Theorem init_refused : forall secure t, (mt_init secure t = SecureTypeError <-> secure = None) /\
  (mt_init secure t = UnsupportedHash <-> secure <> None /\ forall name, In name known_hashes -> ~ Forall2 same_letter t name).
Proof.
  intros secure t. pose proof (init_exact secure t) as X. unfold mt_init in *. destruct secure as [s|].
  2:{ split; [tauto|]. split; [discriminate|intros [E _]; congruence]. }
  destruct (existsb (bytes_eqb (lower_text t)) hash_names) eqn:E.
  - split; [split; discriminate|]. split; [discriminate|]. intros [_ N]. exfalso. destruct (proj1 (X _ _) eq_refl) as (s' & _ & I & F & _). exact (N _ I F).
  - split; [split; discriminate|]. split; [|reflexivity]. intros _. split; [discriminate|]. intros name I F.
    assert (Y : @UnsupportedHash = NewTree name (mt_new s)); [|discriminate]. apply X. exists s. auto.
Qed.
Theorem counts : forall s h outs g, follows s (View [] Fresh) h outs g -> exists t, mt_run (mt_new s) h = (outs, t) /\
  get_count t = length (v_vals g) /\ v_vals g = values h /\ (ready_state t = false <-> v_stage g = Fresh) /\ is_secure t = s.
Proof.
  intros s h outs g F. destruct (follows_model _ _ _ _ _ F _ (abs_new s)) as (t & E & [B S]). exists t. split; [exact E|].
  pose proof (history_basic s h outs t E) as [_ B2']. destruct B as [B1 B2]. unfold get_count, ready_state, is_secure. split; [rewrite B2; apply leaves_of_length|].
  split.
  { clear -F. assert (G : forall g h outs g', follows s g h outs g' -> v_vals g' = fold_left values_step h (v_vals g)).
    { intros a b c d X. induction X as [|g0 o r g1 h0 outs0 g2 D X IH]; [reflexivity|]. rewrite IH. cbn [fold_left]. f_equal. clear -D.
      assert (P : forall l, good_prefix (map VBytes l) = l) by (induction l as [|v l IH]; [reflexivity|]; cbn; now rewrite IH).
      assert (P' : forall l w, good_prefix (map VBytes l ++ VOther :: w) = l) by (induction l as [|v l IH]; intros w; [reflexivity|]; cbn; now rewrite IH).
      destruct D; cbn [v_vals settled values_step op_values good_prefix]; rewrite ?app_nil_r, ?P, ?P'; try reflexivity. now destruct asked. }
    exact (G _ _ _ _ F). }
  split; [|exact B1]. destruct (v_stage g) as [| |m]; [tauto| |]; (split; [|discriminate]); destruct S as [S1 S2]; try congruence. destruct S2; congruence.
Qed.
End WithHash.
