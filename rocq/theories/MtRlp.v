(** RLP encoding of Proof objects. *)
From Coq Require Import List Bool Arith NArith ZArith Lia.
From Verif Require Import Base BaseProofs Rlp RlpProofs ProofObj Spec MptEq MerkleTree SpecMt MtProofs MtProofs2 CodecProofs.
Import ListNotations.

Definition flat (p : proof) : Prop := exists l, pf_proof p = map PB l.

Lemma encode_eq : forall p b, proof_encode_rlp p = Ok b -> has_MT (pf_type p) = true /\
  rlp_encode (IList [IBytes (pf_type p); IBytes (pf_time p); IBytes (pf_key p);
                     IBytes (pf_root p); IList (map pelem_item (pf_proof p))]) = Ok b.
Proof. intros p b E. unfold proof_encode_rlp in E. destruct (has_MT (pf_type p)); [auto|discriminate]. Qed.

Lemma mapM_binary : forall l, mapM d_binary (map pelem_item (map PB l)) = Ok l.
Proof. induction l as [|x l IH]; [reflexivity|]. cbn [map mapM pelem_item d_binary]. rewrite IH. reflexivity. Qed.

Lemma accepted_type : forall p, In (pf_type p) accepted_types -> existsb (bytes_eqb (pf_type p)) accepted_types = true.
Proof. intros p Hin. apply existsb_exists. exists (pf_type p). split; [exact Hin|apply bytes_eqb_refl]. Qed.

Lemma flat_round_trip : forall p b, flat p -> In (pf_type p) accepted_types -> proof_encode_rlp p = Ok b ->
  proof_decode_rlp b = Ok p.
Proof.
  intros p b [l Hl] Ht E. apply encode_eq in E as [_ E]. apply rlp_encode_decode in E. unfold proof_decode_rlp. rewrite E.
  cbn [bind d_binary d_binlist]. rewrite Hl, mapM_binary. cbn [bind]. unfold new_proof.
  rewrite accepted_type by exact Ht. rewrite <- Hl. destruct p; reflexivity.
Qed.

Lemma mapM_binary_inv : forall l els, mapM d_binary l = Ok els -> l = map IBytes els.
Proof.
  induction l as [|i l IH]; intros els E; [injection E as <-; reflexivity|]. cbn [mapM] in E.
  destruct i as [b|]; [|discriminate]. cbn [d_binary] in E. destruct (mapM d_binary l) as [r|]; [|discriminate].
  injection E as <-. rewrite (IH r eq_refl). reflexivity.
Qed.

Lemma decode_exact : forall b p, proof_decode_rlp b = Ok p ->
  flat p /\ In (pf_type p) accepted_types /\ (pf_type p = MT_POI -> proof_encode_rlp p = Ok b) /\
  (pf_type p <> MT_POI -> proof_encode_rlp p = Err NotImplementedError).
Proof.
  intros b p E. unfold proof_decode_rlp in E. destruct (rlp_decode b) as [i|] eqn:Ei; [|discriminate]. cbn [bind] in E.
  destruct i as [|[|a [|t [|k [|r [|l [|]]]]]]]; try discriminate.
  destruct a as [a|]; [|discriminate]. destruct t as [t|]; [|discriminate]. destruct k as [k|]; [|discriminate].
  destruct r as [r|]; [|discriminate]. destruct l as [|l]; [discriminate|]. cbn [bind d_binary d_binlist] in E.
  destruct (mapM d_binary l) as [els|] eqn:El; [|discriminate]. cbn [bind] in E. unfold new_proof in E.
  destruct (existsb (bytes_eqb a) accepted_types) eqn:Ea; [|discriminate]. injection E as <-.
  apply mapM_binary_inv in El. subst l. cbn [pf_type]. split; [exists els; reflexivity|].
  assert (Hin : In a accepted_types).
  { apply existsb_exists in Ea as (x & X1 & X2). apply bytes_eqb_eq in X2. subst. exact X1. }
  split; [exact Hin|]. split.
  - intros ->. apply rlp_decode_encode in Ei. unfold proof_encode_rlp. cbn [pf_type pf_time pf_key pf_root pf_proof].
    assert (Em : map pelem_item (map PB els) = map IBytes els) by (rewrite map_map; reflexivity). rewrite Em. exact Ei.
  - intros Hn. destruct Hin as [<-|[<-|[<-|[]]]]; [reflexivity|reflexivity|congruence].
Qed.

(** Everything of a reasonable size encodes. *)
Definition proof_size (p : proof) : N :=
  (blen (pf_type p) + blen (pf_time p) + blen (pf_key p) + blen (pf_root p) +
   fold_right (fun e n => (match e with PB b => blen b | PPair a b => blen a + blen b end) + 32 + n) 0 (pf_proof p))%N.

Lemma renc_bytes_len : forall b, (blen b < 2 ^ 64)%N -> (blen (renc (IBytes b)) <= blen b + 9)%N.
Proof. intros b Hb. apply (blen_renc (IBytes b)). exact Hb. Qed.

Lemma elem_len : forall e, let n := match e with PB b => blen b | PPair a b => (blen a + blen b)%N end in
  (n < 2 ^ 62 -> blen (renc (pelem_item e)) <= n + 32)%N.
Proof.
  intros [b|a b] n Hn; subst n; cbn [pelem_item].
  - pose proof (renc_bytes_len b ltac:(lia)). lia.
  - pose proof (renc_bytes_len a ltac:(lia)) as H1. pose proof (renc_bytes_len b ltac:(lia)) as H2.
    assert (Hp : (blen (payload (IList [IBytes a; IBytes b])) <= blen a + blen b + 18)%N).
    { cbn [payload flat_map]. rewrite app_nil_r, blen_app. lia. }
    pose proof (blen_renc (IList [IBytes a; IBytes b]) ltac:(lia)). lia.
Qed.

Lemma elems_len : forall l, let n := fold_right (fun e n => (match e with PB b => blen b | PPair a b => blen a + blen b end) + 32 + n)%N 0%N l in
  (n < 2 ^ 62 -> blen (flat_map renc (map pelem_item l)) <= n)%N.
Proof.
  induction l as [|e l IH]; cbn zeta; intros Hn; [cbn; lia|]. cbn [map flat_map fold_right] in *. rewrite blen_app.
  pose proof (elem_len e) as He. cbn zeta in He. cbn zeta in IH. specialize (He ltac:(lia)). specialize (IH ltac:(lia)). lia.
Qed.

Lemma encode_total : forall p, pf_type p = MT_POI -> (proof_size p < 2 ^ 62)%N -> exists b, proof_encode_rlp p = Ok b.
Proof.
  intros p Ht Hs. unfold proof_encode_rlp. rewrite Ht. unfold proof_size in Hs. rewrite Ht in Hs.
  set (n := fold_right _ 0%N (pf_proof p)) in Hs.
  pose proof (elems_len (pf_proof p)) as Hl. cbn zeta in Hl. fold n in Hl. specialize (Hl ltac:(lia)).
  assert (Em : has_MT MT_POI = true) by reflexivity. rewrite Em. set (i := IList _).
  assert (Hp : (blen (payload i) < 2 ^ 64)%N).
  { unfold i. cbn [payload flat_map]. rewrite app_nil_r, !blen_app.
    pose proof (renc_bytes_len MT_POI ltac:(cbn; lia)). pose proof (renc_bytes_len (pf_time p) ltac:(lia)).
    pose proof (renc_bytes_len (pf_key p) ltac:(lia)). pose proof (renc_bytes_len (pf_root p) ltac:(lia)).
    pose proof (blen_renc (IList (map pelem_item (pf_proof p))) ltac:(cbn [payload]; lia)) as Hi. cbn [payload] in Hi. lia. }
  apply rlp_encode_total. exact Hp.
Qed.

(** A pair among the elements cannot be decoded. *)
Lemma mapM_pair : forall l, (exists a b, In (PPair a b) l) -> mapM d_binary (map pelem_item l) = Err DeserializationError.
Proof.
  induction l as [|e l IH]; intros (a & b & Hin); [destruct Hin|]. destruct e as [x|x y]; [|reflexivity].
  destruct Hin as [Hin|Hin]; [discriminate|]. cbn [map mapM pelem_item d_binary]. rewrite IH; [reflexivity|eauto].
Qed.

Lemma pair_undecodable : forall p b, (exists x y, In (PPair x y) (pf_proof p)) -> proof_encode_rlp p = Ok b ->
  proof_decode_rlp b = Err DeserializationError.
Proof.
  intros p b Hin E. apply encode_eq in E as [_ E]. apply rlp_encode_decode in E. unfold proof_decode_rlp. rewrite E.
  cbn [bind d_binary d_binlist]. rewrite mapM_pair by exact Hin. reflexivity.
Qed.

Section WithHash.
Context {H : Hash}.

Lemma built_poi_ne : forall s t vs v time p, built_over s t vs -> In v vs -> 2 <= length vs ->
  get_poi t time (VBytes v) = (Ok p, t) -> exists x y, In (PPair x y) (pf_proof p).
Proof.
  intros s t vs v time p Hb Hin H2 E. destruct (built_poi s t vs v time Hb Hin) as (pa & P1 & P2).
  pose proof (built_over_holds _ _ _ Hb) as Hh. unfold get_poi in E, P2.
  destruct (tools_poi t v) as [r|] eqn:Er; [|discriminate].
  rewrite (built_root _ _ _ Hb) in E. injection E as E. subst p. cbn [pf_proof].
  assert (Hne : r <> []).
  { destruct Hh as ([B1 B2] & R & Hm & c & C & U). rewrite firstn_all in C. unfold tools_poi, levels in Er.
    rewrite U, R, B1, B2 in Er. cbn [option_map] in Er.
    destruct (index_of_in (stored s v) (leaves_of s vs)) as (i & E1 & E2).
    { unfold leaves_of, stored. apply (in_map (fun v => if s then keccak v else v)). exact Hin. }
    rewrite E1 in Er.
    assert (E : rev (tl (rev c ++ [leaves_of s vs])) = removelast (leaves_of s vs :: c)).
    { change (rev c ++ [leaves_of s vs]) with (rev (leaves_of s vs :: c)). apply tl_rev. }
    rewrite E in Er. apply (poi_chain_ne _ _ C i _ r E2) with (2 := Er). rewrite leaves_of_length. exact H2. }
  destruct r as [|[x y] r]; [congruence|]. exists x, y. left. reflexivity.
Qed.

Lemma built_poi_one : forall s t v time p, built_over s t [v] -> get_poi t time (VBytes v) = (Ok p, t) -> pf_proof p = [].
Proof.
  intros s t v time p Hb E. destruct (built_poi s t [v] v time Hb (or_introl eq_refl)) as (pa & _ & P2).
  pose proof (built_over_holds _ _ _ Hb) as ([B1 B2] & R & Hm & c & C & U).
  cbn [length firstn leaves_of map] in C. inversion C; subst; [|cbn in *; lia].
  unfold get_poi, tools_poi, levels in E. rewrite U, R, B2 in E. cbn [leaves_of map rev app option_map index_of] in E.
  unfold stored in E. rewrite bytes_eqb_refl in E. cbn [tl rev poi_loop] in E.
  rewrite (built_root _ _ _ Hb) in E. injection E as E. subst p. reflexivity.
Qed.

Lemma mt_proof_rlp_fails : forall s t vs v time p b, built_over s t vs -> In v vs -> 2 <= length vs ->
  get_poi t time (VBytes v) = (Ok p, t) -> proof_encode_rlp p = Ok b -> proof_decode_rlp b = Err DeserializationError.
Proof.
  intros s t vs v time p b Hb Hin H2 E Eb. apply (pair_undecodable p b); [|exact Eb].
  exact (built_poi_ne s t vs v time p Hb Hin H2 E).
Qed.

Lemma mt_proof_rlp_single : forall s t v time p b, built_over s t [v] ->
  get_poi t time (VBytes v) = (Ok p, t) -> proof_encode_rlp p = Ok b -> proof_decode_rlp b = Ok p.
Proof.
  intros s t v time p b Hb E Eb. apply flat_round_trip; [exists []; exact (built_poi_one s t v time p Hb E)| |exact Eb].
  destruct (built_poi s t [v] v time Hb (or_introl eq_refl)) as (pa & _ & P2). rewrite P2 in E. injection E as E. subst p.
  cbn. tauto.
Qed.
End WithHash.
