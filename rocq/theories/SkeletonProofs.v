(** Node.encode and Node.decode with include_data=False. *)
From Coq Require Import List Bool Arith NArith Lia ZifyBool ZifyNat ZifyN.
From Verif Require Import Base BaseProofs Rlp RlpProofs NibblePath NibbleProofs Node NodeSkeleton SpecCodec CodecProofs SpecRlp RlpExact.
Import ListNotations.

Lemma bare_decode_exact : forall b n, (exists n', node_decode_bare b = Ok n' /\ same_node n n') <-> shape_read b n.
Proof.
  intros b n. split.
  - intros [n' [E S]]. unfold node_decode_bare in E. destruct (rlp_decode b) as [i|] eqn:D; [|discriminate]. cbn [bind] in E. apply decode_form in D.
    destruct i as [s|l]; [destruct ((length s =? 17) || (length s =? 2)); discriminate|].
    destruct (Nat.eqb_spec (length l) 17) as [L|L].
    + destruct (mapM prep_usage (firstn 16 l)) as [rs|] eqn:M; [|discriminate]. cbn [bind] in E.
      remember (nth 16 l (IBytes [])) as v eqn:V. symmetry in V. injection E as <-. destruct n as [| |rs' v']; try contradiction. destruct S as [-> ->].
      apply shape_branch with (is := firstn 16 l) (i := v); [|rewrite firstn_length; lia|now apply mapM_read].
      assert (X : firstn 16 l ++ [v] = l).
      { rewrite <- (firstn_skipn 16 l) at 2. f_equal. rewrite <- V. clear - L. do 17 (destruct l as [|? l]; [discriminate|]). destruct l; [reflexivity|discriminate]. }
      rewrite X. exact D.
    + destruct l as [|a [|c [|? ?]]]; try discriminate. destruct a as [h|[|? ?]]; try discriminate.
      destruct (np_decode_with_type h) as [[p leaf]|] eqn:P; [|discriminate]. cbn [bind] in E.
      destruct leaf.
      * injection E as <-. destruct n as [q w| |]; try contradiction. destruct S as [S ->].
        apply shape_leaf with (h := h) (i := c); [exact D|]. apply decode_path_read. exists p. split; [exact P|now symmetry].
      * destruct (prep_usage c) as [r|] eqn:R; [|discriminate]. cbn [bind] in E. injection E as <-. destruct n as [|q s|]; try contradiction. destruct S as [S ->].
        apply shape_ext with (h := h) (i := c); [exact D| |now apply prep_usage_read]. apply decode_path_read. exists p. split; [exact P|now symmetry].
  - intros X. inversion X as [b' h p v D R E1 E2|b' h p i r D R Q E1 E2|b' is rs v D L R E1 E2]; subst; apply decode_form in D; unfold node_decode_bare; rewrite D; cbn [bind].
    + apply decode_path_read in R as [p' [R S]]. cbn [length Nat.eqb]. rewrite R. cbn [bind]. eexists. split; [reflexivity|]. split; [now symmetry|reflexivity].
    + apply decode_path_read in R as [p' [R S]]. apply prep_usage_read in Q. cbn [length Nat.eqb]. rewrite R. cbn [bind]. rewrite Q. cbn [bind].
      eexists. split; [reflexivity|]. split; [now symmetry|reflexivity].
    + apply mapM_read in R. rewrite app_length, L. change (16 + length [v] =? 17) with true. cbv iota.
      rewrite firstn_app, L. change (firstn (16 - 16) [v]) with (@nil item). rewrite app_nil_r, firstn_all2 by lia. rewrite R. cbn [bind].
      eexists. split; [reflexivity|]. split; reflexivity.
Qed.

Lemma shape_of_node : forall b n, node_read b n -> exists n', node_decode_bare b = Ok n' /\ same_node (match n with Leaf p _ => Leaf p [x31] | Extension p r => Extension p r | Branch rs _ => Branch rs [x31] end) n'.
Proof.
  intros b n R. apply bare_decode_exact. inversion R as [b' h p v D X E1 E2|b' h p i r D X Q E1 E2|b' is rs v D L X E1 E2]; subst.
  - now apply shape_leaf with (h := h) (i := IBytes v).
  - now apply shape_ext with (h := h) (i := i).
  - now apply shape_branch with (is := is) (i := IBytes v).
Qed.
Lemma mapM_length : forall (A B : Type) (f : A -> result B) l m, mapM f l = Ok m -> length m = length l.
Proof.
  intros A B f. induction l as [|x l IH]; intros m E; cbn [mapM] in E; [now injection E as <-|].
  destruct (f x) as [y|]; [|discriminate]. cbn [bind] in E. destruct (mapM f l) as [t|]; [|discriminate]. cbn [bind] in E. injection E as <-. cbn [length]. f_equal. now apply IH.
Qed.
Lemma bare_unreadable : forall n b, (forall rs v, n = Branch rs v -> length rs = 16) -> node_encode_bare n = Ok b ->
  node_decode b = Err AssertionError /\ node_decode_bare b = Err AssertionError.
Proof.
  assert (G : forall l b, rlp_encode (IList l) = Ok b -> (length l = 1 \/ length l = 16) -> node_decode b = Err AssertionError /\ node_decode_bare b = Err AssertionError).
  { intros l b E L. apply encode_form in E. apply decode_form in E. unfold node_decode, node_decode_bare. rewrite E. cbn [bind].
    destruct (Nat.eqb_spec (length l) 17) as [X|X]; [lia|]. destruct l as [|x [|y [|z l]]]; cbn [length] in L; try lia; split; try reflexivity; destruct x as [|[]]; reflexivity. }
  intros n b B E. destruct n as [p v|p r|rs v]; cbn [node_encode_bare] in E.
  - apply (G _ _ E). now left.
  - destruct (prep_encoding r); [|discriminate]. cbn [bind] in E. apply (G _ _ E). now left.
  - destruct (mapM prep_encoding rs) as [is|] eqn:M; [|discriminate]. cbn [bind] in E. apply (G _ _ E). right. rewrite (mapM_length _ _ _ _ _ M). exact (B rs v eq_refl).
Qed.
Lemma marker_always : forall b rs, node_decode b = Ok (Branch rs []) -> node_decode_bare b = Ok (Branch rs [x31]).
Proof.
  intros b rs E. assert (R : node_read b (Branch rs [])) by (apply node_decode_exact; exists (Branch rs []); split; [exact E|split; reflexivity]).
  destruct (shape_of_node _ _ R) as [n' [D S]]. destruct n'; try contradiction. destruct S as [<- <-]. exact D.
Qed.
