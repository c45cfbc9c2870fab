(** What the library's encoders write and its decoders accept, in terms of SpecRlp.v. *)
From Coq Require Import List Bool Arith NArith ZArith Lia ZifyBool ZifyNat ZifyN.
From Verif Require Import Base BaseProofs Rlp RlpProofs NibblePath NibbleProofs Node ProofObj Mpt Empt SpecCodec CodecProofs MtRlp EmptProofs MptCodecProofs SpecRlp RlpExact.
Import ListNotations.

Lemma prep_encoding_write : forall r i, prep_encoding r = Ok i <-> ref_write r i.
Proof.
  intros r i. unfold prep_encoding. destruct ((0 <? length r) && (length r <? 32)) eqn:L.
  - rewrite decode_form. split; [intros F; apply write_inline; [lia|exact F]|].
    intros X. inversion X; subst; cbn [length] in *; [lia|lia|assumption].
  - split.
    + intros E. injection E as <-. destruct r as [|x r]; [constructor|]. apply write_digest. cbn [length] in *. lia.
    + intros X. inversion X; subst; [reflexivity|reflexivity|lia].
Qed.
Lemma mapM_write : forall rs is, mapM prep_encoding rs = Ok is <-> Forall2 ref_write rs is.
Proof.
  induction rs as [|r rs IH]; intros is; cbn [mapM].
  - split; [intros E; injection E as <-; constructor|intros X; now inversion X].
  - split.
    + intros E. destruct (prep_encoding r) as [i|] eqn:Ei; [|discriminate]. cbn [bind] in E. destruct (mapM prep_encoding rs) as [t|] eqn:Et; [|discriminate].
      cbn [bind] in E. injection E as <-. constructor; [now apply prep_encoding_write|now apply IH].
    + intros X. inversion X as [|? i ? t A B]; subst. apply prep_encoding_write in A. apply IH in B. rewrite A. cbn [bind]. rewrite B. reflexivity.
Qed.
Lemma node_encode_exact : forall n b, node_encode n = Ok b <-> node_write n b.
Proof.
  intros n b. destruct n as [p v|p r|rs v]; cbn [node_encode].
  - rewrite encode_form. split.
    + intros F. apply nw_leaf with (h := np_encode p true); [now apply encode_path_form|exact F].
    + intros X. inversion X as [? ? h ? Hh F| |]; subst. apply encode_path_form in Hh. now subst h.
  - split.
    + intros E. destruct (prep_encoding r) as [i|] eqn:P; [|discriminate]. cbn [bind] in E.
      apply nw_ext with (h := np_encode p false) (i := i); [now apply encode_path_form|now apply prep_encoding_write|now apply encode_form].
    + intros X. inversion X as [|? ? h i ? Hh W F|]; subst. apply encode_path_form in Hh. subst h. apply prep_encoding_write in W. rewrite W. cbn [bind].
      now apply encode_form.
  - split.
    + intros E. destruct (mapM prep_encoding rs) as [is|] eqn:P; [|discriminate]. cbn [bind] in E.
      apply nw_branch with (is := is); [now apply mapM_write|now apply encode_form].
    + intros X. inversion X as [| |? ? is ? W F]; subst. apply mapM_write in W. rewrite W. cbn [bind]. now apply encode_form.
Qed.

(** ** Proofs *)
Lemma proof_decode_exact : forall b p, proof_decode_rlp b = Ok p <->
  exists els, rlp_form b (IList [IBytes (pf_type p); IBytes (pf_time p); IBytes (pf_key p); IBytes (pf_root p); IList (map IBytes els)]) /\
    In (pf_type p) [MPT_POI; MPT_POE; MT_POI] /\ pf_proof p = map PB els.
Proof.
  intros b p. split.
  - intros E. unfold proof_decode_rlp in E. destruct (rlp_decode b) as [i|] eqn:D; [|discriminate]. cbn [bind] in E. apply decode_form in D.
    destruct i as [|[|a [|t [|k [|r [|l [|]]]]]]]; try discriminate.
    destruct a as [a|]; [|discriminate]. destruct t as [t|]; [|discriminate]. destruct k as [k|]; [|discriminate]. destruct r as [r|]; [|discriminate].
    cbn [d_binary bind] in E. destruct l as [|l]; [discriminate|]. cbn [d_binlist] in E. destruct (mapM d_binary l) as [els|] eqn:M; [|discriminate].
    cbn [bind] in E. unfold new_proof in E. destruct (existsb (bytes_eqb a) accepted_types) eqn:X; [|discriminate]. injection E as <-.
    apply mapM_binary_inv in M. subst l. exists els. cbn [pf_type pf_time pf_key pf_root pf_proof]. split; [exact D|]. split; [|reflexivity].
    apply existsb_exists in X as (x & X1 & X2). apply bytes_eqb_eq in X2. subst x. exact X1.
  - intros [els [F [I E]]]. apply decode_form in F. unfold proof_decode_rlp. rewrite F. cbn [bind d_binary]. rewrite d_binlist_map. cbn [bind].
    unfold new_proof. destruct p as [ty tm key root pr]. cbn [pf_type pf_time pf_key pf_root pf_proof] in *. subst pr.
    assert (X : existsb (bytes_eqb ty) accepted_types = true) by (apply existsb_exists; exists ty; split; [exact I|apply bytes_eqb_refl]).
    rewrite X. reflexivity.
Qed.

(** ** Tries and references *)
Section WithHash.
Context {H : Hash}.

Lemma rekey_app : forall l1 l2 d, rekey (l1 ++ l2) d = rekey l2 (rekey l1 d).
Proof. induction l1 as [|x l1 IH]; intros l2 d; [reflexivity|]. cbn [app rekey]. apply IH. Qed.
Lemma rekey_keyed : forall l, keyed_by_digest (rekey l []) l.
Proof.
  induction l as [|x l IH] using rev_ind; intros h e.
  - split; [discriminate|]. intros [[|] [l2 [E _]]]; discriminate.
  - rewrite rekey_app. cbn [rekey]. rewrite dget_dset. destruct (bytes_eqb_spec h (keccak x)) as [->|N].
    + split.
      * intros E. injection E as <-. exists l, []. split; [reflexivity|]. split; [reflexivity|]. intros e' [].
      * intros [l1 [l2 [E [K R]]]]. destruct l2 as [|y l2] using rev_ind.
        { apply app_inj_tail in E as [_ ->]. reflexivity. }
        exfalso. clear IHl2. change (l1 ++ e :: l2 ++ [y]) with (l1 ++ (e :: l2) ++ [y]) in E. rewrite app_assoc in E.
        apply app_inj_tail in E as [_ ->]. apply (R y); [apply in_or_app; right; left; reflexivity|reflexivity].
    + split.
      * intros E. apply IH in E as [l1 [l2 [-> [K R]]]]. exists l1, (l2 ++ [x]). split; [now rewrite <- app_assoc|]. split; [exact K|].
        intros e' I. apply in_app_or in I as [I|[<-|[]]]; [now apply R|congruence].
      * intros [l1 [l2 [E [K R]]]]. destruct l2 as [|y l2] using rev_ind.
        { apply app_inj_tail in E as [_ ->]. congruence. }
        clear IHl2. change (l1 ++ e :: l2 ++ [y]) with (l1 ++ (e :: l2) ++ [y]) in E. rewrite app_assoc in E. apply app_inj_tail in E as [-> ->].
        apply IH. exists l1, l2. split; [reflexivity|]. split; [exact K|]. intros e' I. apply R. apply in_or_app. now left.
Qed.
Lemma d_bool_flag : forall i s, d_bool i = Ok s <-> i = IBytes (flag_bytes s).
Proof.
  intros i s. split.
  - destruct i as [[|x [|y r]]|l]; cbn [d_bool]; try discriminate; [now intros E; injection E as <-|destruct x; try discriminate; now intros E; injection E as <-|].
    destruct x; discriminate.
  - intros ->. destruct s; reflexivity.
Qed.
Lemma mpt_decode_exact : forall b, 
  (forall t, mpt_decode b = Ok t -> exists r l s, rlp_form b (IList [IBytes r; IList (map IBytes l); IBytes (flag_bytes s)]) /\ decoded t r l s) /\
  (forall r l s, rlp_form b (IList [IBytes r; IList (map IBytes l); IBytes (flag_bytes s)]) -> exists t, mpt_decode b = Ok t /\ decoded t r l s) /\
  ((forall i, ~ rlp_form b i) -> mpt_decode b = Err DecodingError) /\
  (forall i, rlp_form b i -> (forall r l s, i <> IList [IBytes r; IList (map IBytes l); IBytes (flag_bytes s)]) -> mpt_decode b = Err DeserializationError).
Proof.
  intros b. split; [|split; [|split]].
  - intros t E. unfold mpt_decode in E. destruct (rlp_decode b) as [i|] eqn:D; [|discriminate]. cbn [bind] in E. apply decode_form in D.
    destruct i as [|[|r [|l [|s [|]]]]]; try discriminate. destruct r as [r|]; [|discriminate]. cbn [d_binary bind] in E.
    destruct l as [|l]; [discriminate|]. cbn [d_binlist] in E. destruct (mapM d_binary l) as [els|] eqn:M; [|discriminate]. cbn [bind] in E.
    destruct (d_bool s) as [sb|] eqn:B; [|discriminate]. cbn [bind] in E. injection E as <-. apply mapM_binary_inv in M. subst l. apply d_bool_flag in B. subst s.
    exists r, els, sb. split; [exact D|]. split; [reflexivity|]. split; [reflexivity|]. cbn [m_map mpt_init]. apply rekey_keyed.
  - intros r l s F. apply decode_form in F. unfold mpt_decode. rewrite F. cbn [bind d_binary]. rewrite d_binlist_map. cbn [bind].
    rewrite (proj2 (d_bool_flag _ s) eq_refl). cbn [bind]. eexists. split; [reflexivity|]. split; [reflexivity|]. split; [reflexivity|].
    cbn [m_map mpt_init]. apply rekey_keyed.
  - intros N. apply decode_fails in N. unfold mpt_decode. rewrite N. reflexivity.
  - intros i F N. apply decode_form in F. unfold mpt_decode. rewrite F. cbn [bind].
    destruct i as [|[|r [|l [|s [|]]]]]; try reflexivity. destruct r as [r|]; [|reflexivity]. cbn [d_binary bind].
    destruct l as [|l]; [reflexivity|]. cbn [d_binlist]. destruct (mapM d_binary l) as [els|e] eqn:M.
    + apply mapM_binary_inv in M. subst l. cbn [bind]. destruct (d_bool s) as [sb|e] eqn:B.
      * apply d_bool_flag in B. subst s. now specialize (N r els sb).
      * cbn [bind]. destruct s as [[|x [|y z]]|]; cbn [d_bool] in B; try congruence; destruct x; congruence.
    + cbn [bind]. clear -M. revert e M. induction l as [|[x|x] l IH]; intros e M; cbn [mapM d_binary] in M; [discriminate| |cbn [bind] in M; congruence].
      cbn [bind] in M. destruct (mapM d_binary l); [discriminate|]. cbn [bind] in M. apply IH. exact M.
Qed.
Lemma ref_decode_exact : forall b r, ref_decode b = Ok r <->
  exists n, rlp_form b (IList [IBytes [x46; x46]; IBytes (r_key r); IBytes (r_data r); IBytes n]) /\ shortest n (base256 (keccak (r_key r ++ r_data r))).
Proof.
  intros b [k d]. cbn [r_key r_data]. split.
  - intros E. apply ref_decode_sound in E. rewrite ref_encode_eq in E. apply encode_form in E. exists (be (ref_hash (mkRef k d))).
    split; [exact E|]. apply shortest_be. rewrite base_unbe. reflexivity.
  - intros [n [F S]]. apply shortest_be in S. apply ref_round_trip. rewrite ref_encode_eq. apply encode_form. unfold e_int. rewrite base_unbe in S.
    change (ref_hash (mkRef k d)) with (unbe (keccak (k ++ d))). rewrite <- S. exact F.
Qed.
End WithHash.
