(** Which bytes the Merkle tree model takes for text and for hexadecimal text: those of SpecJson.v. *)
From Coq Require Import List Bool Arith NArith ZArith Lia ZifyN ZifyBool ZifyNat.
From Verif Require Import Base BaseProofs ProofObj SpecJson JsonGrammar JsonExact MptEq MerkleTree SpecMt SpecText SpecAudit MtProofs AuditProofs SpecMtObj.
Import ListNotations.
Local Open Scope N_scope.

Lemma form_more : forall c x b, utf8_bytes c x -> is_str b -> is_str (x ++ b).
Proof. intros c x b B [s F]. exists (c :: s). now constructor. Qed.
Ltac ranges := unfold cont in *; unfold in_range in *; repeat match goal with
  | X : (_ && _)%bool = true |- _ => apply andb_true_iff in X as [? ?]
  end.
Lemma form1 : forall a, bN a <= 127 -> exists n, utf8_bytes n [a].
Proof. intros a L. exists (bN a). constructor. lia. Qed.
Lemma form2 : forall a b, 194 <= bN a <= 223 -> 128 <= bN b <= 191 -> exists n, utf8_bytes n [a; b].
Proof. intros a b A B. eexists. apply (utf8_2 a b (bN a - 192) (bN b - 128)); lia. Qed.
Lemma form3 : forall a b c, 224 <= bN a <= 239 -> 128 <= bN b <= 191 -> 128 <= bN c <= 191 ->
  (bN a = 224 -> 160 <= bN b) -> (bN a = 237 -> bN b <= 159) -> exists n, utf8_bytes n [a; b; c].
Proof. intros a b c A B C X Y. eexists. apply (utf8_3 a b c (bN a - 224) (bN b - 128) (bN c - 128)); lia. Qed.
Lemma form4 : forall a b c d, 240 <= bN a <= 244 -> 128 <= bN b <= 191 -> 128 <= bN c <= 191 -> 128 <= bN d <= 191 ->
  (bN a = 240 -> 144 <= bN b) -> (bN a = 244 -> bN b <= 143) -> exists n, utf8_bytes n [a; b; c; d].
Proof. intros a b c d A B C D X Y. eexists. apply (utf8_4 a b c d (bN a - 240) (bN b - 128) (bN c - 128) (bN d - 128)); lia. Qed.

Lemma utf8_ok_sound : forall n b, (length b < n)%nat -> utf8_ok b = true -> is_str b.
Proof.
  induction n as [|n IH]; intros b L E; [lia|]. destruct b as [|a r]; [exists []; constructor|]. cbn [length] in L. cbn [utf8_ok] in E.
  destruct (in_range 0 127 a) eqn:R1.
  { ranges. destruct (form1 a) as [c C]; [lia|]. apply (form_more c [a] r C). apply IH; [lia|exact E]. }
  destruct r as [|b r]; [discriminate|]. cbn [length] in L. destruct (in_range 194 223 a) eqn:R2.
  { ranges. destruct (form2 a b) as [m C]; [lia|lia|]. apply (form_more m [a; b] r C). apply IH; [lia|assumption]. }
  destruct r as [|c r]; [discriminate|]. cbn [length] in L. destruct (in_range 224 224 a) eqn:R3.
  { ranges. destruct (form3 a b c) as [m C]; [lia|lia|lia|lia|lia|]. apply (form_more m [a; b; c] r C). apply IH; [lia|assumption]. }
  destruct (in_range 237 237 a) eqn:R4.
  { ranges. destruct (form3 a b c) as [m C]; [lia|lia|lia|lia|lia|]. apply (form_more m [a; b; c] r C). apply IH; [lia|assumption]. }
  destruct (in_range 225 239 a) eqn:R5.
  { ranges. destruct (form3 a b c) as [m C]; [lia|lia|lia|lia|lia|]. apply (form_more m [a; b; c] r C). apply IH; [lia|assumption]. }
  destruct r as [|d r]; [discriminate|]. cbn [length] in L. destruct (in_range 240 240 a) eqn:R6.
  { ranges. destruct (form4 a b c d) as [m C]; [lia|lia|lia|lia|lia|lia|]. apply (form_more m [a; b; c; d] r C). apply IH; [lia|assumption]. }
  destruct (in_range 241 243 a) eqn:R7.
  { ranges. destruct (form4 a b c d) as [m C]; [lia|lia|lia|lia|lia|lia|]. apply (form_more m [a; b; c; d] r C). apply IH; [lia|assumption]. }
  destruct (in_range 244 244 a) eqn:R8; [|discriminate].
  { ranges. destruct (form4 a b c d) as [m C]; [lia|lia|lia|lia|lia|lia|]. apply (form_more m [a; b; c; d] r C). apply IH; [lia|assumption]. }
Qed.
Ltac rng := match goal with |- context [in_range ?l ?h ?a] =>
  first [replace (in_range l h a) with true by (symmetry; unfold in_range; lia)
        |replace (in_range l h a) with false by (symmetry; unfold in_range; lia)] end.
Lemma utf8_ok_step : forall c x r, utf8_bytes c x -> utf8_ok (x ++ r) = utf8_ok r.
Proof.
  intros c x r B. destruct B; cbn [app utf8_ok]; unfold cont.
  - rng. reflexivity.
  - rng. rng. rng. reflexivity.
  - rng. rng. destruct (N.eq_dec x 0); [|destruct (N.eq_dec x 13)]; repeat rng; reflexivity.
  - rng. rng. rng. rng. rng. destruct (N.eq_dec x 0); [|destruct (N.eq_dec x 4)]; repeat rng; reflexivity.
Qed.
Lemma utf8_ok_complete : forall s b, utf8_form s b -> utf8_ok b = true.
Proof. intros s b F. induction F as [|c x s b B F IH]; [reflexivity|]. rewrite (utf8_ok_step c x b B). exact IH. Qed.
Theorem utf8_ok_exact : forall b, utf8_ok b = true <-> is_str b.
Proof. intros b. split; [apply (utf8_ok_sound (S (length b))); lia|]. intros [s F]. exact (utf8_ok_complete s b F). Qed.
Lemma utf8_not : forall b, utf8_ok b = false <-> ~ is_str b.
Proof. intros b. rewrite <- utf8_ok_exact. destruct (utf8_ok b); split; congruence. Qed.

(** ** Hexadecimal text *)
Lemma map_nB_bN : forall b, map nB (map bN b) = b.
Proof. induction b as [|a b IH]; [reflexivity|]. cbn [map]. now rewrite nB_bN, IH. Qed.
Lemma from_hex_ascii : forall n b x, (length b < n)%nat -> from_hex b = Some x -> forallb (fun c => c <? 128) (map bN b) = true.
Proof.
  induction n as [|n IH]; intros b x L E; [lia|]. destruct b as [|c r]; [reflexivity|]. cbn [length] in L. cbn [from_hex] in E.
  cbn [map forallb]. destruct (is_space c) eqn:S.
  - apply space_ascii in S. unfold in_range in S. rewrite (IH r x) by (lia || exact E). replace (bN c <? 128) with true by lia. reflexivity.
  - destruct r as [|d r]; [discriminate|]. cbn [length] in L. destruct (MptEq.hexval c) eqn:X; [|discriminate]. destruct (MptEq.hexval d) eqn:Y; [|discriminate].
    destruct (from_hex r) as [y|] eqn:F; [|discriminate]. apply hex_ascii in X, Y. unfold in_range in X, Y. cbn [map forallb].
    rewrite (IH r y) by (lia || exact F). replace (bN c <? 128) with true by lia. replace (bN d <? 128) with true by lia. reflexivity.
Qed.
Theorem from_hex_exact : forall b x, from_hex b = Some x <-> hex_of b x.
Proof.
  intros b x. unfold hex_of. split.
  - intros E. apply (from_hex_sound (S (length (map bN b)))); [lia| |rewrite map_nB_bN; exact E]. exact (from_hex_ascii (S (length b)) b x ltac:(lia) E).
  - intros T. apply from_hex_complete in T as [_ E]. now rewrite map_nB_bN in E.
Qed.
Lemma from_hex_none : forall b, from_hex b = None <-> no_hex b.
Proof.
  intros b. unfold no_hex. split.
  - intros E x T. apply from_hex_exact in T. congruence.
  - intros N. destruct (from_hex b) as [x|] eqn:E; [|reflexivity]. apply from_hex_exact in E. now apply N in E.
Qed.
Lemma hex_is_str : forall b x, hex_of b x -> is_str b.
Proof. intros b x T. apply from_hex_exact in T. apply utf8_ok_exact. exact (from_hex_utf8 (length b) b x (le_n _) T). Qed.

Lemma hexdigit_of : forall c n, hex_value c n -> hexdigit n = c.
Proof. intros c n V. unfold hexdigit. rewrite <- (nB_bN c). destruct V as [[L E]|[L E]]; [replace (n <? 10) with true by lia|replace (n <? 10) with false by lia]; f_equal; lia. Qed.
Theorem lower_hex_exact : forall h b, lower_hex h b <-> h = to_hex b.
Proof.
  intros h b. split; [|intros ->; apply to_hex_lower]. intros L. induction L as [|p q n m c h b V W E L IH]; [reflexivity|].
  rewrite to_hex_cons. assert (n < 16 /\ m < 16) as [? ?] by (unfold hex_value in *; lia).
  replace (bN c / 16) with n by (rewrite E; lia). replace (bN c mod 16) with m by (rewrite E; lia).
  now rewrite (hexdigit_of p n V), (hexdigit_of q m W), IH.
Qed.
