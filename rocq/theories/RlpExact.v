(** The RLP coder is exactly the relation of SpecRlp.v; what each decoder of the library accepts. *)
From Coq Require Import List Bool Arith NArith ZArith Lia ZifyBool ZifyNat ZifyN.
From Verif Require Import Base BaseProofs Rlp RlpProofs NibblePath NibbleProofs Node SpecCodec CodecProofs SpecRlp.
Import ListNotations.
Local Open Scope N_scope.

Lemma fold_base : forall b a, fold_left (fun acc x => acc * 256 + bN x) b a = a * 256 ^ N.of_nat (length b) + base256 b.
Proof.
  induction b as [|x b IH]; intros a; cbn [fold_left base256 length]; [rewrite N.pow_0_r; lia|].
  rewrite IH. rewrite Nat2N.inj_succ, N.pow_succ_r'. lia.
Qed.
Lemma base_unbe : forall b, base256 b = unbe b.
Proof. intros b. unfold unbe. rewrite fold_base. lia. Qed.
Lemma shortest_be : forall b n, shortest b n <-> b = be n.
Proof.
  intros b n. unfold shortest. rewrite base_unbe. split.
  - intros [<- H]. symmetry. apply be_unbe. destruct b as [|x r]; [exact I|]. exact (H x r eq_refl).
  - intros ->. rewrite unbe_be. split; [reflexivity|]. intros x r E. pose proof (be_head n) as Hh. rewrite E in Hh. exact Hh.
Qed.
Lemma bN_eq : forall t n, bN t = n <-> n < 256 /\ t = nB n.
Proof.
  intros t n. split.
  - intros <-. split; [apply bN_lt|]. symmetry. apply nB_bN.
  - intros [L ->]. now apply bN_nB.
Qed.
Scheme rlp_form_mut := Minimality for rlp_form Sort Prop with rlp_forms_mut := Minimality for rlp_forms Sort Prop.
Combined Scheme rlp_both from rlp_form_mut, rlp_forms_mut.

Lemma be_of_8 : forall l n, l = be n -> (length l <= 8)%nat -> n < 2 ^ 64.
Proof.
  intros l n -> L. pose proof (unbe_lt (be n)) as U. rewrite unbe_be in U.
  assert (256 ^ blen (be n) <= 256 ^ 8) by (apply N.pow_le_mono_r; unfold blen; lia). change (256 ^ 8) with (2 ^ 64) in *. lia.
Qed.
Lemma form_renc : (forall b i, rlp_form b i -> b = renc i /\ blen (payload i) < 2 ^ 64) /\
  (forall b is, rlp_forms b is -> b = flat_map renc is).
Proof.
  apply rlp_both.
  - intros x L. cbn [renc hdr payload]. destruct (N.ltb_spec (bN x) 128); [|lia]. split; [reflexivity|]. unfold blen. cbn. lia.
  - intros t s N L T. apply bN_eq in T as [T ->]. split; [|cbn [payload]; unfold blen; lia].
    cbn [renc]. unfold hdr. assert (P : len_prefix (blen s) 128 = [nB (128 + N.of_nat (length s))])
      by (unfold len_prefix, blen; destruct (N.ltb_spec (N.of_nat (length s)) 56); [reflexivity|lia]).
    destruct s as [|x [|y r]]; [now rewrite P| |now rewrite P].
    specialize (N x eq_refl). destruct (N.ltb_spec (bN x) 128); [lia|]. change (len_prefix 1 128) with (len_prefix (blen [x]) 128). now rewrite P.
  - intros t l s L S L8 T. apply shortest_be in S. apply bN_eq in T as [T ->].
    assert (B : N.of_nat (length s) < 2 ^ 64) by (apply (be_of_8 l); assumption). split; [|exact B].
    cbn [renc]. unfold hdr. assert (P : len_prefix (blen s) 128 = nB (183 + N.of_nat (length l)) :: l).
    { unfold len_prefix, blen. rewrite <- S. destruct (N.ltb_spec (N.of_nat (length s)) 56); [lia|]. first [reflexivity|repeat f_equal; lia]. }
    destruct s as [|x [|y r]]; cbn [length] in L; [lia|lia|]. rewrite P. reflexivity.
  - intros t p is _ -> L T. apply bN_eq in T as [T ->]. split; [|cbn [payload]; unfold blen; lia].
    cbn [renc]. unfold hdr, len_prefix, blen. destruct (N.ltb_spec (N.of_nat (length (flat_map renc is))) 56); [reflexivity|lia].
  - intros t l p is _ -> L S L8 T. apply shortest_be in S. apply bN_eq in T as [T ->].
    assert (B : N.of_nat (length (flat_map renc is)) < 2 ^ 64) by (apply (be_of_8 l); assumption). split; [|exact B].
    cbn [renc]. unfold hdr, len_prefix, blen. rewrite <- S. destruct (N.ltb_spec (N.of_nat (length (flat_map renc is))) 56); [lia|].
    cbn [app]. first [reflexivity|repeat f_equal; lia].
  - reflexivity.
  - intros b i p is _ [-> _] _ ->. reflexivity.
Qed.
Lemma renc_form : forall i, blen (payload i) < 2 ^ 64 -> rlp_form (renc i) i.
Proof.
  induction i as [s|l IH] using item_ind2; intros B.
  - cbn [renc payload] in *. unfold hdr.
    assert (P : (forall x, s = [x] -> 128 <= bN x) -> rlp_form (len_prefix (blen s) 128 ++ s) (IBytes s)).
    { intros N. unfold len_prefix. destruct (N.ltb_spec (blen s) 56) as [X|X]; unfold blen in *.
      - apply rlp_short; [exact N|lia|apply bN_nB; lia].
      - pose proof (blen_be (N.of_nat (length s)) X B) as Y. unfold blen in Y. cbn [app]. apply rlp_long; [lia|now apply shortest_be|lia|].
        rewrite bN_nB by lia. lia. }
    destruct s as [|x [|y r]]; [apply P; discriminate| |apply P; discriminate].
    destruct (N.ltb_spec (bN x) 128); [now apply rlp_byte|]. apply P. intros z E. now injection E as <-.
  - cbn [renc payload] in *. assert (F : rlp_forms (flat_map renc l) l).
    { induction IH as [|i l Hi _ IHl]; [constructor|]. cbn [flat_map] in *. rewrite blen_app in B. pose proof (payload_len i).
      constructor; [apply Hi; lia|apply IHl; lia]. }
    unfold hdr, len_prefix. destruct (N.ltb_spec (blen (flat_map renc l)) 56) as [X|X]; unfold blen in *.
    + apply rlp_list; [exact F|lia|apply bN_nB; lia].
    + pose proof (blen_be _ X B) as Y. unfold blen in Y. cbn [app]. apply rlp_longlist; [exact F|lia|now apply shortest_be|lia|].
      rewrite bN_nB by lia. lia.
Qed.
Lemma decode_form : forall b i, rlp_decode b = Ok i <-> rlp_form b i.
Proof.
  intros b i. split.
  - intros E. apply rlp_decode_inv in E as [-> B]. now apply renc_form.
  - intros F. apply (proj1 form_renc) in F as [-> B]. now apply rlp_decode_renc.
Qed.
Lemma encode_form : forall b i, rlp_encode i = Ok b <-> rlp_form b i.
Proof. intros b i. rewrite <- decode_form. split; [apply rlp_encode_decode|apply rlp_decode_encode]. Qed.
Lemma form_unique : forall b i j, rlp_form b i -> rlp_form b j -> i = j.
Proof. intros b i j A B. apply decode_form in A, B. congruence. Qed.
Lemma form_unique_text : forall b c i, rlp_form b i -> rlp_form c i -> b = c.
Proof. intros b c i A B. apply (proj1 form_renc) in A as [-> _], B as [-> _]. reflexivity. Qed.
Lemma decode_fails : forall b, (forall i, ~ rlp_form b i) <-> rlp_decode b = Err DecodingError.
Proof.
  intros b. split.
  - intros N. destruct (rlp_decode b) as [i|e] eqn:E; [exfalso; apply (N i); now apply decode_form|]. now rewrite (rlp_decode_err _ _ E).
  - intros E i F. apply decode_form in F. congruence.
Qed.
Lemma encode_too_long : forall i, (forall b, ~ rlp_form b i) <-> rlp_encode i = Err ValueError.
Proof.
  intros i. split.
  - intros N. unfold rlp_encode. destruct (blen (payload i) <? 2 ^ 64) eqn:L; [|reflexivity]. exfalso. apply (N (renc i)), renc_form. lia.
  - intros E b F. apply encode_form in F. congruence.
Qed.

(** ** Hex prefix *)
Local Close Scope N_scope.
Lemma even_nibs : forall d, Nat.odd (length (nibs_of d)) = false.
Proof. intros d. rewrite nibs_of_length. rewrite <- Nat.negb_even, Nat.even_mul. reflexivity. Qed.
Lemma encode_path_form : forall p leaf b, np_encode p leaf = b <-> hex_prefix b (path_nibbles p) leaf.
Proof.
  intros p leaf b. rewrite np_encode_hp. change (path_nibbles p) with (nibs p). pose proof (nibs_ok p) as O. set (x := nibs p) in *. clearbody x.
  unfold hp. split.
  - intros <-. destruct (Nat.odd (length x)) eqn:E.
    + destruct x as [|a r]; [discriminate|]. inversion O as [|? ? Oa Or]; subst.
      assert (V : Nat.even (length r) = true) by (rewrite <- Nat.odd_succ; exact E).
      assert (X : hex_prefix (mkb (if leaf then 3 else 1) a :: pack r) (a :: nibbles (pack r)) leaf).
      { apply hp_odd; [exact Oa|]. unfold mkb. rewrite bN_nB by (destruct leaf; lia). destruct leaf; lia. }
      change (nibbles (pack r)) with (nibs_of (pack r)) in X. rewrite nibs_of_pack in X by assumption. exact X.
    + assert (V : Nat.even (length x) = true) by (rewrite <- Nat.negb_odd, E; reflexivity).
      assert (X : hex_prefix (mkb (if leaf then 2 else 0) 0 :: pack x) (nibbles (pack x)) leaf).
      { apply hp_even. unfold mkb. rewrite bN_nB by (destruct leaf; lia). destruct leaf; reflexivity. }
      change (nibbles (pack x)) with (nibs_of (pack x)) in X. rewrite nibs_of_pack in X by assumption. exact X.
  - intros X. inversion X as [f d lf F E1 E2 E3|f d lf n L F E1 E2 E3]; subst.
    + change (nibbles d) with (nibs_of d). rewrite even_nibs, pack_nibs_of. f_equal. apply bN_eq in F as [F ->]. unfold mkb. f_equal. destruct leaf; reflexivity.
    + change (nibbles d) with (nibs_of d). cbn [length]. rewrite Nat.odd_succ, <- Nat.negb_odd, even_nibs. cbn [negb]. rewrite pack_nibs_of.
      f_equal. apply bN_eq in F as [F ->]. unfold mkb. f_equal. destruct leaf; lia.
Qed.
Lemma flag_bits : forall f, exists u z (odd leaf : bool), u < 4 /\ z < 16 /\ bN f = (N.of_nat (64 * u + z) + (if odd then 16 else 0) + (if leaf then 32 else 0))%N /\
  (N.land (bN f) 16 =? 16)%N = odd /\ (N.land (bN f) 32 =? 32)%N = leaf /\ lo f = z.
Proof.
  intros f. exists (N.to_nat (bN f / 64)), (N.to_nat (bN f mod 16)), (N.land (bN f) 16 =? 16)%N, (N.land (bN f) 32 =? 32)%N.
  destruct f; vm_compute; repeat split; try reflexivity; lia.
Qed.
Lemma decode_path_read : forall h x leaf, (exists p, np_decode_with_type h = Ok (p, leaf) /\ path_nibbles p = x) <-> hex_read h x leaf.
Proof.
  intros h x leaf. destruct h as [|f d].
  { split; [intros [p [E _]]; discriminate|intros X; inversion X]. }
  destruct (flag_bits f) as [u [z [odd [lf [U [Z [F [B1 [B2 L]]]]]]]]]. cbn [np_decode_with_type]. rewrite B1, B2. cbv zeta.
  assert (P : path_nibbles (mkNp (f :: d) (if odd then 1 else 2)) = if odd then z :: nibbles d else nibbles d).
  { unfold path_nibbles. cbn [np_off np_data]. change (nibbles (f :: d)) with (hi f :: lo f :: nibbles d). destruct odd; cbn [skipn]; [now rewrite L|reflexivity]. }
  split.
  - intros [p [E <-]]. injection E as <- <-. rewrite P. destruct odd.
    + apply (hr_odd f d lf u z U Z). rewrite F. destruct lf; lia.
    + apply (hr_even f d lf u z U Z). rewrite F. destruct lf; lia.
  - intros X. inversion X as [f' d' lf' u' z' U' Z' F' E1 E2 E3|f' d' lf' u' n' U' Z' F' E1 E2 E3]; subst f' d' lf'.
    + rewrite F in F'. assert (odd = false /\ lf = leaf) as [-> ->] by (destruct odd, lf, leaf; split; try reflexivity; exfalso; lia).
      eexists. split; [reflexivity|exact P].
    + rewrite F in F'. assert (odd = true /\ lf = leaf /\ z = n') as [-> [-> ->]] by (destruct odd, lf, leaf; repeat split; try reflexivity; try (exfalso; lia); lia).
      eexists. split; [reflexivity|exact P].
Qed.

(** ** Nodes *)
Lemma prep_usage_read : forall i r, prep_usage i = Ok r <-> ref_read i r.
Proof.
  intros i r. destruct i as [b|l]; cbn [prep_usage].
  - split; [intros E; injection E as <-; constructor|intros X; now inversion X].
  - rewrite encode_form. split; [intros F; now constructor|intros X; now inversion X].
Qed.
Lemma mapM_read : forall is rs, mapM prep_usage is = Ok rs <-> Forall2 ref_read is rs.
Proof.
  induction is as [|i is IH]; intros rs; cbn [mapM].
  - split; [intros E; injection E as <-; constructor|intros X; now inversion X].
  - split.
    + intros E. destruct (prep_usage i) as [r|] eqn:Ei; [|discriminate]. cbn [bind] in E. destruct (mapM prep_usage is) as [t|] eqn:Et; [|discriminate].
      cbn [bind] in E. injection E as <-. constructor; [now apply prep_usage_read|now apply IH].
    + intros X. inversion X as [|? r ? t A B]; subst. apply prep_usage_read in A. apply IH in B. rewrite A. cbn [bind]. rewrite B. reflexivity.
Qed.
Lemma node_decode_exact : forall b n, (exists n', node_decode b = Ok n' /\ same_node n n') <-> node_read b n.
Proof.
  intros b n. split.
  - intros [n' [E S]]. unfold node_decode in E. destruct (rlp_decode b) as [i|] eqn:D; [|discriminate]. cbn [bind] in E. apply decode_form in D.
    destruct i as [s|l]; [destruct ((length s =? 17) || (length s =? 2)); discriminate|].
    destruct (Nat.eqb_spec (length l) 17) as [L|L].
    + destruct (mapM prep_usage (firstn 16 l)) as [rs|] eqn:M; [|discriminate]. cbn [bind] in E.
      destruct (nth 16 l (IBytes [])) as [v|] eqn:V; [|discriminate]. injection E as <-. destruct n as [| |rs' v']; try contradiction. destruct S as [-> ->].
      apply read_branch with (is := firstn 16 l); [|rewrite firstn_length; lia|now apply mapM_read].
      assert (X : firstn 16 l ++ [IBytes v] = l).
      { rewrite <- (firstn_skipn 16 l) at 2. f_equal. rewrite <- V. clear - L. do 17 (destruct l as [|? l]; [discriminate|]). destruct l; [reflexivity|discriminate]. }
      rewrite X. exact D.
    + destruct l as [|a [|c [|? ?]]]; try discriminate. destruct a as [h|[|? ?]]; try discriminate.
      destruct (np_decode_with_type h) as [[p leaf]|] eqn:P; [|discriminate]. cbn [bind] in E.
      destruct leaf.
      * destruct c as [v|]; [|discriminate]. injection E as <-. destruct n as [q w| |]; try contradiction. destruct S as [S ->].
        apply read_leaf with (h := h); [exact D|]. apply decode_path_read. exists p. split; [exact P|now symmetry].
      * destruct (prep_usage c) as [r|] eqn:R; [|discriminate]. cbn [bind] in E. injection E as <-. destruct n as [|q s|]; try contradiction. destruct S as [S ->].
        apply read_ext with (h := h) (i := c); [exact D| |now apply prep_usage_read]. apply decode_path_read. exists p. split; [exact P|now symmetry].
  - intros X. inversion X as [b' h p v D R E1 E2|b' h p i r D R Q E1 E2|b' is rs v D L R E1 E2]; subst; apply decode_form in D; unfold node_decode; rewrite D; cbn [bind].
    + apply decode_path_read in R as [p' [R S]]. cbn [length Nat.eqb]. rewrite R. cbn [bind]. eexists. split; [reflexivity|]. split; [now symmetry|reflexivity].
    + apply decode_path_read in R as [p' [R S]]. apply prep_usage_read in Q. cbn [length Nat.eqb]. rewrite R. cbn [bind]. rewrite Q. cbn [bind].
      eexists. split; [reflexivity|]. split; [now symmetry|reflexivity].
    + apply mapM_read in R. rewrite app_length, L. change (16 + length [IBytes v] =? 17) with true. cbv iota.
      rewrite firstn_app, L. change (firstn (16 - 16) [IBytes v]) with (@nil item). rewrite app_nil_r, firstn_all2 by lia. rewrite R. cbn [bind].
      rewrite app_nth2 by lia. rewrite L. change (nth (16 - 16) [IBytes v] (IBytes [])) with (IBytes v). cbv iota.
      eexists. split; [reflexivity|]. split; reflexivity.
Qed.
