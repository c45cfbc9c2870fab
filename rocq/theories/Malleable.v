(** Verification of proofs does not see how a node other than the first one is written. *)
From Coq Require Import List Bool Arith NArith ZArith Lia ZifyBool ZifyNat ZifyN.
From Verif Require Import Base BaseProofs Rlp RlpProofs NibblePath NibbleProofs Node ProofObj Mpt SpecCodec CodecProofs SpecRlp RlpExact.
Import ListNotations.

Definition alike (b b' : bytes) : Prop := exists n n', node_decode b = Ok n /\ node_decode b' = Ok n' /\ same_node n n'.
Lemma same_node_refl : forall n, same_node n n.
Proof. destruct n; split; reflexivity. Qed.
Lemma reading_alike : forall b b', same_reading b b' -> alike b b'.
Proof.
  intros b b' [n [A B]]. apply node_decode_exact in A as [m [A SA]], B as [m' [B SB]]. exists m, m'.
  split; [exact A|]. split; [exact B|]. exact (same_node_trans n m m' SA SB).
Qed.
Definition like (b b' : bytes) : Prop := b = b' \/ alike b b'.

Lemma bool_iff : forall a b : bool, (a = true <-> b = true) -> a = b.
Proof. intros [] [] X; try reflexivity; [symmetry; now apply X|now apply X]. Qed.
Lemma eq_same : forall p q x, path_nibbles p = path_nibbles q -> np_eq p x = np_eq q x.
Proof. intros p q x E. apply bool_iff. rewrite !np_eq_spec. change (nibs p) with (path_nibbles p). rewrite E. reflexivity. Qed.
Lemma starts_same : forall p q x, path_nibbles p = path_nibbles q -> np_starts_with x p = np_starts_with x q.
Proof. intros p q x E. rewrite !np_starts_with_spec. change (nibs p) with (path_nibbles p). rewrite E. reflexivity. Qed.
Lemma len_same : forall p q, path_nibbles p = path_nibbles q -> np_len p = np_len q.
Proof. intros p q E. rewrite !np_len_spec. change (nibs p) with (path_nibbles p). rewrite E. reflexivity. Qed.

(** ** Storages with the same keys *)
Definition likeD (d d' : dict bytes) : Prop := Forall2 (fun x y => fst x = fst y /\ like (snd x) (snd y)) d d'.
Lemma like_dset : forall d d' k b b', likeD d d' -> like b b' -> likeD (dset d k b) (dset d' k b').
Proof.
  intros d d' k b b' D L. induction D as [|[k1 v1] [k2 v2] d d' [E X] D IH]; cbn [dset].
  - constructor; [split; [reflexivity|exact L]|constructor].
  - cbn [fst snd] in *. subst k2. destruct (bytes_eqb k k1); constructor; auto.
Qed.
Lemma like_dget : forall d d' k, likeD d d' ->
  (dget d k = None /\ dget d' k = None) \/ exists b b', dget d k = Some b /\ dget d' k = Some b' /\ like b b'.
Proof.
  intros d d' k D. induction D as [|[k1 v1] [k2 v2] d d' [E X] D IH]; cbn [dget]; [left; split; reflexivity|].
  cbn [fst snd] in *. subst k2. destruct (bytes_eqb k k1); [|exact IH]. right. eauto.
Qed.
Lemma like_ddel : forall d d' k, likeD d d' -> likeD (ddel d k) (ddel d' k).
Proof.
  intros d d' k D. induction D as [|[k1 v1] [k2 v2] d d' [E X] D IH]; cbn [ddel]; [constructor|].
  cbn [fst snd] in *. subst k2. destruct (bytes_eqb k k1); [exact D|constructor; auto].
Qed.
Lemma likeD_length : forall d d', likeD d d' -> length d = length d'.
Proof. intros d d' D. induction D; cbn [length]; auto. Qed.
Lemma like_decode : forall b b', like b b' ->
  (exists e, node_decode b = Err e /\ node_decode b' = Err e) \/ exists n n', node_decode b = Ok n /\ node_decode b' = Ok n' /\ same_node n n'.
Proof.
  intros b b' [<-|A]; [|right; exact A]. destruct (node_decode b) as [n|e]; [right|left; eauto]. exists n, n. split; [reflexivity|]. split; [reflexivity|apply same_node_refl].
Qed.

(** ** Another text of the same node *)
Lemma other_flag : forall f d x leaf, hex_read (f :: d) x leaf -> exists f', f' <> f /\ hex_read (f' :: d) x leaf.
Proof.
  intros f d x leaf R. pose proof (bN_lt f) as B.
  assert (K : forall u, u < 4 -> exists u', u' < 4 /\ u' <> u) by (intros [|u] U; [exists 1|exists 0]; lia).
  assert (G : forall f' n, (n < 256)%N -> f' = nB n -> bN f' = n) by (intros f' n Hn ->; now apply bN_nB).
  inversion R as [f0 d0 l0 u z U Z E E1 E2 E3|f0 d0 l0 u n U Z E E1 E2 E3]; subst; destruct (K u U) as [u' [U' D]].
  - exists (nB (N.of_nat (64 * u' + z) + (if leaf then 32 else 0))). pose proof (G _ (N.of_nat (64 * u' + z) + (if leaf then 32 else 0))%N ltac:(destruct leaf; lia) eq_refl) as F.
    split; [intros X; rewrite X in F; rewrite E in F; destruct leaf; lia|]. exact (hr_even _ d leaf u' z U' Z F).
  - exists (nB (N.of_nat (64 * u' + n) + (if leaf then 48 else 16))). pose proof (G _ (N.of_nat (64 * u' + n) + (if leaf then 48 else 16))%N ltac:(destruct leaf; lia) eq_refl) as F.
    split; [intros X; rewrite X in F; rewrite E in F; destruct leaf; lia|]. exact (hr_odd _ d leaf u' n U' Z F).
Qed.
Lemma other_path : forall h x leaf, hex_read h x leaf -> exists h', h' <> h /\ length h' = length h /\ hex_read h' x leaf.
Proof.
  intros [|f d] x leaf R; [inversion R|]. destruct (other_flag f d x leaf R) as [f' [D R']]. exists (f' :: d).
  split; [congruence|]. split; [reflexivity|exact R'].
Qed.
Lemma renc_same_length : forall h h', length h = length h' -> (blen (renc (IBytes h')) <= blen (renc (IBytes h)) + 1)%N.
Proof.
  intros h h' L. rewrite !renc_hdr. cbn [is_list payload]. unfold blen. rewrite !app_length, <- L.
  enough (length (hdr false h') <= length (hdr false h) + 1) by lia.
  destruct h' as [|y [|y' t']]; destruct h as [|x [|x' t]]; cbn [length] in L; try lia; cbn [hdr].
  - change (length (len_prefix 1 128)) with 1. destruct (bN y <? 128)%N, (bN x <? 128)%N; try change (length (len_prefix 1 128)) with 1; cbn [length]; lia.
  - unfold blen. replace (length (y :: y' :: t')) with (length (x :: x' :: t)) by (cbn [length]; lia). lia.
Qed.
Lemma other_item : forall b l1 i j l2, rlp_form b (IList (l1 ++ i :: l2)) -> j <> i -> (blen (renc j) <= blen (renc i) + 9)%N -> (N.of_nat (length b) < 2 ^ 63)%N ->
  exists b', b' <> b /\ rlp_form b' (IList (l1 ++ j :: l2)).
Proof.
  intros b l1 i j l2 F D L S. exists (renc (IList (l1 ++ j :: l2))).
  assert (F' : rlp_form (renc (IList (l1 ++ j :: l2))) (IList (l1 ++ j :: l2))).
  { apply renc_form. destruct (proj1 form_renc _ _ F) as [-> P]. pose proof (payload_len (IList (l1 ++ i :: l2))) as Q.
    assert (E : forall g, blen (payload (IList (l1 ++ g :: l2))) = (blen (flat_map renc l1) + blen (renc g) + blen (flat_map renc l2))%N).
    { intros g. cbn [payload]. rewrite flat_map_app. cbn [flat_map]. unfold blen. rewrite !app_length. lia. }
    rewrite E in *. fold (blen (renc (IList (l1 ++ i :: l2)))) in S. change (2 ^ 64)%N with (2 * 2 ^ 63)%N. remember (2 ^ 63)%N as M. assert (9 < M)%N by (subst M; reflexivity). lia. }
  split; [|exact F']. intros E. rewrite E in F'. pose proof (form_unique _ _ _ F F') as X. injection X as X. apply app_inv_head in X. injection X as X. congruence.
Qed.
Lemma other_list : forall b h h' i, rlp_form b (IList [IBytes h; i]) -> length h = length h' -> h' <> h -> (N.of_nat (length b) < 2 ^ 63)%N ->
  exists b', b' <> b /\ rlp_form b' (IList [IBytes h'; i]).
Proof.
  intros b h h' i F L D S. apply (other_item b [] (IBytes h) (IBytes h') [i] F); [congruence| |exact S]. pose proof (renc_same_length h h' L). lia.
Qed.
Lemma other_reading : forall b n, node_read b n -> (forall rs v, n <> Branch rs v) -> (N.of_nat (length b) < 2 ^ 63)%N ->
  exists b', b' <> b /\ node_read b' n.
Proof.
  intros b n R NB S. inversion R as [b0 h p v F X E1 E2|b0 h p i r F X Y E1 E2|b0 is rs v F X Y E1 E2]; subst; [| |exfalso; exact (NB _ _ eq_refl)].
  - destruct (other_path _ _ _ X) as [h' [D [L X']]]. destruct (other_list b h h' _ F (eq_sym L) D S) as [b' [D' F']]. exists b'. split; [exact D'|]. exact (read_leaf b' h' p v F' X').
  - destruct (other_path _ _ _ X) as [h' [D [L X']]]. destruct (other_list b h h' _ F (eq_sym L) D S) as [b' [D' F']]. exists b'. split; [exact D'|]. exact (read_ext b' h' p i r F' X' Y).
Qed.

Lemma other_text : forall b n, node_decode b = Ok n -> (forall rs v, n <> Branch rs v) -> (N.of_nat (length b) < 2 ^ 63)%N ->
  exists b' n', b' <> b /\ node_decode b' = Ok n' /\ same_node n n'.
Proof.
  intros b n E NB S. assert (R : node_read b n) by (apply node_decode_exact; exists n; split; [exact E|apply same_node_refl]).
  destruct (other_reading b n R NB S) as [b' [D R']]. apply node_decode_exact in R' as [n' [E' Q]]. eauto.
Qed.
(** A nested node can be written as a string too. *)
Lemma string_longer : forall r l, rlp_form r (IList l) -> (N.of_nat (length r) < 2 ^ 63)%N -> (blen (renc (IBytes r)) <= blen (renc (IList l)) + 9)%N.
Proof.
  intros r l F S. destruct (proj1 form_renc _ _ F) as [E _]. rewrite <- E. apply (blen_renc (IBytes r)). cbn [payload]. unfold blen. lia.
Qed.
Lemma Forall2_mid : forall (A B : Type) (R : A -> B -> Prop) l1 i l2 rs, Forall2 R (l1 ++ i :: l2) rs -> exists r1 r r2, rs = r1 ++ r :: r2 /\ Forall2 R l1 r1 /\ R i r /\ Forall2 R l2 r2.
Proof.
  intros A B R l1 i l2 rs F. apply Forall2_app_inv_l in F as [r1 [t [F1 [F2 ->]]]]. inversion F2 as [|? r ? r2 X Y]; subst. eauto 8.
Qed.
Lemma nested_as_string : forall b l1 k l2 rs v, rlp_form b (IList (l1 ++ IList k :: l2 ++ [IBytes v])) -> length (l1 ++ IList k :: l2) = 16 ->
  Forall2 ref_read (l1 ++ IList k :: l2) rs -> (N.of_nat (length b) < 2 ^ 63)%N -> exists b', b' <> b /\ node_read b (Branch rs v) /\ node_read b' (Branch rs v).
Proof.
  intros b l1 k l2 rs v F L R S.
  assert (A : node_read b (Branch rs v)).
  { apply read_branch with (is := l1 ++ IList k :: l2); [|exact L|exact R]. rewrite <- app_assoc. exact F. }
  destruct (Forall2_mid _ _ _ _ _ _ _ R) as [r1 [r [r2 [-> [R1 [Ri R2]]]]]]. inversion Ri as [|? ? Fr]; subst.
  assert (Sr : (N.of_nat (length r) < 2 ^ 63)%N).
  { destruct (proj1 form_renc _ _ F) as [E _]. destruct (proj1 form_renc _ _ Fr) as [Er _]. pose proof (payload_len (IList (l1 ++ IList k :: l2 ++ [IBytes v]))) as Q. rewrite <- E in Q.
    cbn [payload] in Q. rewrite flat_map_app in Q. cbn [flat_map] in Q. change (flat_map renc (IList k :: l2 ++ [IBytes v])) with (renc (IList k) ++ flat_map renc (l2 ++ [IBytes v])) in Q.
    rewrite <- Er in Q. unfold blen in Q. rewrite !app_length in Q. lia. }
  destruct (other_item b l1 (IList k) (IBytes r) (l2 ++ [IBytes v]) F ltac:(discriminate) (string_longer _ _ Fr Sr) S) as [b' [D F']].
  exists b'. split; [exact D|]. split; [exact A|]. apply read_branch with (is := l1 ++ IBytes r :: l2); [rewrite <- app_assoc; exact F'| |].
  - rewrite app_length in *. cbn [length] in *. exact L.
  - apply Forall2_app; [exact R1|]. constructor; [constructor|exact R2].
Qed.

Section WithHash.
Context {H : Hash}.
Definition likeP (e e' : pelem) : Prop := match e, e' with PB b, PB b' => like b b' | _, _ => e = e' end.
Lemma likeP_refl : forall e, likeP e e.
Proof. intros [b|a b]; [left; reflexivity|reflexivity]. Qed.

Lemma like_store : forall d d' e e', likeD d d' -> likeP e e' ->
  (exists x, store_proof_node d e = Err x /\ store_proof_node d' e' = Err x) \/
  exists r r', store_proof_node d e = Ok r /\ store_proof_node d' e' = Ok r' /\ likeD r r'.
Proof.
  intros d d' e e' D L. destruct e as [b|x y]; destruct e' as [b'|x' y']; cbn [likeP] in L; try discriminate.
  2: { left. exists TypeError. split; reflexivity. }
  cbn [store_proof_node]. destruct (like_decode b b' L) as [[x [-> ->]]|[n [n' [-> [-> S]]]]]; [left; exists x; split; reflexivity|].
  cbn [bind]. unfold into_reference. rewrite (same_node_encode _ _ S). destruct (node_encode n') as [t|x]; cbn [bind]; [|left; exists x; split; reflexivity].
  right. eexists. eexists. split; [reflexivity|]. split; [reflexivity|]. now apply like_dset.
Qed.
Lemma like_poi_storage : forall l l', Forall2 likeP l l' -> forall d d', likeD d d' ->
  (exists x, poi_storage l d = Err x /\ poi_storage l' d' = Err x) \/ (poi_storage l d = Ok None /\ poi_storage l' d' = Ok None) \/
  exists r r', poi_storage l d = Ok (Some r) /\ poi_storage l' d' = Ok (Some r') /\ likeD r r'.
Proof.
  induction 1 as [|e e' l l' L F IH]; intros d d' D; cbn [poi_storage].
  - right. right. eauto.
  - destruct (like_store d d' e e' D L) as [[x [-> ->]]|[r [r' [-> [-> D']]]]]; [|exact (IH r r' D')].
    destruct x; try (left; eexists; split; reflexivity). right. left. split; reflexivity.
Qed.
Lemma like_poe_storage : forall l l', Forall2 likeP l l' -> forall d d', likeD d d' ->
  (exists x, poe_storage l d = Err x /\ poe_storage l' d' = Err x) \/
  exists r r', poe_storage l d = Ok r /\ poe_storage l' d' = Ok r' /\ likeD r r'.
Proof.
  induction 1 as [|e e' l l' L F IH]; intros d d' D; cbn [poe_storage].
  - right. eauto.
  - destruct (like_store d d' e e' D L) as [[x [-> ->]]|[r [r' [-> [-> D']]]]]; cbn [bind]; [left; eexists; split; reflexivity|exact (IH r r' D')].
Qed.

Lemma like_raw : forall (c : bool) d d' (r : bytes), likeD d d' -> forall o o', (if c then dget d r else Some r) = o -> (if c then dget d' r else Some r) = o' ->
  (o = None /\ o' = None) \/ exists b b', o = Some b /\ o' = Some b' /\ like b b'.
Proof.
  intros c d d' r D o o' <- <-. destruct c; [now apply like_dget|]. right. exists r, r. split; [reflexivity|]. split; [reflexivity|now left].
Qed.
Lemma like_verify_poi : forall f d d' r path, likeD d d' -> verify_poi_ f d r path = verify_poi_ f d' r path.
Proof.
  induction f as [|f IH]; intros d d' r path D; [reflexivity|]. cbn [verify_poi_]. cbv zeta.
  match goal with |- context[if ?c then dget d r else Some r] => set (cc := c) end; destruct (like_raw cc d d' r D _ _ eq_refl eq_refl) as [[E1 E2]|[b [b' [E1 [E2 L]]]]]; rewrite E1, E2; clear E1 E2; [reflexivity|].
  destruct (like_decode b b' L) as [[x [-> ->]]|[n [n' [-> [-> S]]]]]; [reflexivity|]. cbn [bind].
  destruct n as [p v|p s|bs v]; destruct n' as [p' v'|p' s'|bs' v']; try contradiction; destruct S as [S ->].
  - destruct (np_len path =? 0); [reflexivity|]. now rewrite (eq_same p p' path S).
  - destruct (np_len path =? 0); [reflexivity|]. rewrite (starts_same p p' path S), (len_same p p' S). destruct (np_starts_with path p'); [now apply IH|reflexivity].
  - subst bs'. destruct (np_len path =? 0); [reflexivity|]. destruct (0 <? length (nth (np_at path 0) bs [])); [now apply IH|reflexivity].
Qed.
Definition like_end (a b : option node * dict bytes) : Prop :=
  likeD (snd a) (snd b) /\ match fst a, fst b with None, None => True | Some n, Some n' => same_node n n' | _, _ => False end.
Lemma like_verify_poe : forall f d d' r path, likeD d d' ->
  (exists x, verify_poe_ f d r path = Err x /\ verify_poe_ f d' r path = Err x) \/
  exists a b, verify_poe_ f d r path = Ok a /\ verify_poe_ f d' r path = Ok b /\ like_end a b.
Proof.
  induction f as [|f IH]; intros d d' r path D; [left; exists RecursionError; split; reflexivity|]. cbn [verify_poe_]. cbv zeta.
  match goal with |- context[if ?c then dget d r else Some r] => set (cc := c) end; destruct (like_raw cc d d' r D _ _ eq_refl eq_refl) as [[E1 E2]|[b [b' [E1 [E2 L]]]]]; rewrite E1, E2; clear E1 E2.
  { right. eexists. eexists. split; [reflexivity|]. split; [reflexivity|]. split; [exact D|exact I]. }
  destruct (like_decode b b' L) as [[x [-> ->]]|[n [n' [-> [-> S]]]]]; [left; exists x; split; reflexivity|]. cbn [bind].
  destruct (like_dget d d' r D) as [[-> ->]|[c [c' [-> [-> _]]]]]; [left; exists PoeError; split; reflexivity|].
  pose proof (like_ddel d d' r D) as D'.
  assert (St : (exists x, @Err (option node * dict bytes) x = Err PoeError /\ False) \/ exists a b, Ok (Some n, ddel d r) = Ok a /\ Ok (Some n', ddel d' r) = Ok b /\ like_end a b).
  { right. eexists. eexists. split; [reflexivity|]. split; [reflexivity|]. split; [exact D'|exact S]. }
  assert (Go : forall (P Q : result (option node * dict bytes)), P = Ok (Some n, ddel d r) -> Q = Ok (Some n', ddel d' r) ->
    (exists x, P = Err x /\ Q = Err x) \/ exists a b, P = Ok a /\ Q = Ok b /\ like_end a b).
  { intros P Q -> ->. right. eexists. eexists. split; [reflexivity|]. split; [reflexivity|]. split; [exact D'|exact S]. }
  clear St. destruct (np_len path =? 0); [now apply Go|].
  destruct n as [p v|p s|bs v]; destruct n' as [p' v'|p' s'|bs' v']; try contradiction; destruct S as [S ->].
  - now apply Go.
  - rewrite (starts_same p p' path S), (len_same p p' S). destruct (np_starts_with path p'); [now apply IH|now apply Go].
  - subst bs'. destruct (0 <? length (nth (np_at path 0) bs [])); [now apply IH|now apply Go].
Qed.

Lemma like_verify : forall lim t ty tm key root e l l', Forall2 likeP l l' ->
  mpt_verify_poi lim t (mkProof ty tm key root (e :: l)) = mpt_verify_poi lim t (mkProof ty tm key root (e :: l')).
Proof.
  intros lim t ty tm key root e l l' F. unfold mpt_verify_poi. cbn [pf_type pf_proof pf_key pf_root hash_first].
  destruct (negb (bytes_eqb ty MPT_POI)); [reflexivity|]. destruct (root_is_empty t); [reflexivity|].
  destruct e as [b|]; [|reflexivity]. cbn [bind]. destruct (negb _); [reflexivity|].
  assert (G : Forall2 likeP (PB b :: l) (PB b :: l')) by (constructor; [apply likeP_refl|exact F]).
  destruct (like_poi_storage _ _ G [] [] ltac:(constructor)) as [[x [-> ->]]|[[-> ->]|[r [r' [-> [-> D]]]]]]; [reflexivity|reflexivity|].
  cbn [bind]. now rewrite (like_verify_poi lim r r' (root_ref t) (np_of key) D).
Qed.
Lemma like_removelast : forall l l', Forall2 likeP l l' -> Forall2 likeP (removelast l) (removelast l').
Proof.
  induction 1 as [|e e' l l' L F IH]; [constructor|]. destruct F as [|x x' l l' L' F]; [constructor|]. cbn [removelast] in *. now constructor.
Qed.
Lemma like_last : forall l l' x, Forall2 likeP l l' -> likeP (last l x) (last l' x).
Proof.
  intros l l' x F. induction F as [|e e' l l' L F IH]; [apply likeP_refl|]. destruct F as [|y y' l l' L' F]; [exact L|]. exact IH.
Qed.
Lemma like_verify_out : forall lim t ty tm key root e l l', Forall2 likeP l l' ->
  mpt_verify_poe lim t (mkProof ty tm key root (e :: l)) = mpt_verify_poe lim t (mkProof ty tm key root (e :: l')).
Proof.
  intros lim t ty tm key root e l l' F. unfold mpt_verify_poe. cbn [pf_type pf_proof pf_key pf_root hash_first].
  destruct (negb (bytes_eqb ty MPT_POE)); [reflexivity|]. destruct (root_is_empty t); [reflexivity|].
  destruct e as [b|]; [|reflexivity]. cbn [bind]. destruct (negb _); [reflexivity|].
  assert (G : Forall2 likeP (PB b :: l) (PB b :: l')) by (constructor; [apply likeP_refl|exact F]).
  assert (E : (exists x, (ln <- decode_last (PB b :: l) ;; node_data ln)%res = Err x /\ (ln <- decode_last (PB b :: l') ;; node_data ln)%res = Err x) \/
    exists v, (ln <- decode_last (PB b :: l) ;; node_data ln)%res = Ok v /\ (ln <- decode_last (PB b :: l') ;; node_data ln)%res = Ok v).
  { unfold decode_last. pose proof (like_last _ _ (PB []) G) as L. destruct (last (PB b :: l) (PB [])) as [z|z1 z2]; destruct (last (PB b :: l') (PB [])) as [z'|z1' z2']; cbn [likeP] in L; try discriminate.
    - destruct (like_decode z z' L) as [[x [-> ->]]|[n [n' [-> [-> S]]]]]; [left; exists x; split; reflexivity|]. cbn [bind].
      destruct n as [p v|p s|bs v]; destruct n' as [p' v'|p' s'|bs' v']; try contradiction; destruct S as [S ->]; cbn [node_data]; eauto.
    - left. exists TypeError. split; reflexivity. }
  assert (X : forall A (k : bytes -> result A) m, (ln <- m ;; d <- node_data ln ;; k d)%res = (d <- (ln <- m ;; node_data ln) ;; k d)%res)
    by (intros A k [m|]; reflexivity).
  rewrite !X. clear X. destruct E as [[x [-> ->]]|[v [-> ->]]]; [reflexivity|]. cbn [bind]. destruct (negb _); [reflexivity|].
  apply like_removelast in G. destruct (like_poe_storage _ _ G [] [] ltac:(constructor)) as [[x [-> ->]]|[r [r' [-> [-> D]]]]]; [reflexivity|]. cbn [bind].
  destruct (like_verify_poe lim r r' (root_ref t) (np_of key) D) as [[x [-> ->]]|[[o a] [[o' a'] [-> [-> [E1 E2]]]]]]; [reflexivity|]. cbn [bind fst snd] in *.
  rewrite (likeD_length _ _ E1). destruct (negb _); [reflexivity|].
  destruct o as [n|], o' as [n'|]; try contradiction; [|reflexivity].
  destruct n as [p w|p s|bs w]; destruct n' as [p' w'|p' s'|bs' w']; try contradiction; destruct E2 as [S _]; try reflexivity.
  now rewrite (eq_same p p' (np_of key) S).
Qed.

Lemma like_pairs : forall l l', Forall2 (fun b b' => b = b' \/ same_reading b b') l l' -> Forall2 likeP (map PB l) (map PB l').
Proof. intros l l' F. induction F as [|b b' l l' [->|R] F IH]; cbn [map]; constructor; auto; [now left|right; now apply reading_alike]. Qed.
Lemma Forall2_same : forall (A : Type) (R : A -> A -> Prop) l, (forall x, R x x) -> Forall2 R l l.
Proof. intros A R l X. induction l; constructor; auto. Qed.
Lemma like_swap : forall pre b b' post, same_reading b b' -> Forall2 likeP (pre ++ PB b :: post) (pre ++ PB b' :: post).
Proof.
  intros pre b b' post R. apply Forall2_app; [apply Forall2_same; exact likeP_refl|]. constructor; [right; now apply reading_alike|apply Forall2_same; exact likeP_refl].
Qed.
Lemma proof_changed : forall lim t ty tm key root e pre b post n, node_read b n -> (forall rs v, n <> Branch rs v) -> (N.of_nat (length b) < 2 ^ 63)%N ->
  exists b', b' <> b /\
    mpt_verify_poi lim t (mkProof ty tm key root (e :: pre ++ PB b' :: post)) = mpt_verify_poi lim t (mkProof ty tm key root (e :: pre ++ PB b :: post)) /\
    mpt_verify_poe lim t (mkProof ty tm key root (e :: pre ++ PB b' :: post)) = mpt_verify_poe lim t (mkProof ty tm key root (e :: pre ++ PB b :: post)).
Proof.
  intros lim t ty tm key root e pre b post n R NB S. destruct (other_reading b n R NB S) as [b' [D R']]. exists b'. split; [exact D|].
  assert (SR : same_reading b' b) by (exists n; split; assumption).
  split; [apply like_verify|apply like_verify_out]; now apply like_swap.
Qed.
Lemma proof_other_bytes : forall lim t ty tm key root e pre b post n, node_decode b = Ok n -> (forall rs v, n <> Branch rs v) -> (N.of_nat (length b) < 2 ^ 63)%N ->
  exists b', b' <> b /\
    mpt_verify_poi lim t (mkProof ty tm key root (e :: pre ++ PB b' :: post)) = mpt_verify_poi lim t (mkProof ty tm key root (e :: pre ++ PB b :: post)) /\
    mpt_verify_poe lim t (mkProof ty tm key root (e :: pre ++ PB b' :: post)) = mpt_verify_poe lim t (mkProof ty tm key root (e :: pre ++ PB b :: post)).
Proof.
  intros lim t ty tm key root e pre b post n E. apply proof_changed. apply node_decode_exact. exists n. split; [exact E|apply same_node_refl].
Qed.
Lemma readings_count : forall lim t ty tm key root e l l', Forall2 (fun b b' => b = b' \/ same_reading b b') l l' ->
  mpt_verify_poi lim t (mkProof ty tm key root (e :: map PB l)) = mpt_verify_poi lim t (mkProof ty tm key root (e :: map PB l')) /\
  mpt_verify_poe lim t (mkProof ty tm key root (e :: map PB l)) = mpt_verify_poe lim t (mkProof ty tm key root (e :: map PB l')).
Proof. intros lim t ty tm key root e l l' F. apply like_pairs in F. split; [now apply like_verify|now apply like_verify_out]. Qed.
Lemma first_node : forall lim t p, (mpt_verify_poi lim t p = Ok true \/ mpt_verify_poe lim t p = Ok true) ->
  exists b l, pf_proof p = PB b :: l /\ keccak b = root_hash t.
Proof.
  intros lim t [ty tm key root l] A. unfold mpt_verify_poi, mpt_verify_poe in A. cbn [pf_type pf_proof pf_key pf_root hash_first] in A.
  assert (G : forall (c : bool) e (x : result bool), (if c then Err e else x) = Ok true -> x = Ok true) by (intros [] e x E; [discriminate|exact E]).
  assert (K : forall k : bytes -> result bool, bind (hash_first (mkProof ty tm key root l)) k = Ok true -> exists b l', l = PB b :: l' /\ k (keccak b) = Ok true).
  { intros k E. unfold hash_first in E. cbn [pf_proof] in E. destruct l as [|[b|] l]; try discriminate. cbn [bind] in E. eauto. }
  cbn [pf_proof]. destruct A as [A|A]; apply G in A; apply G in A; apply K in A as [b [l' [-> A]]]; exists b, l'; (split; [reflexivity|]);
    destruct (bytes_eqb (root_hash t) (keccak b)) eqn:E; cbn [negb] in A; try discriminate; apply bytes_eqb_eq in E; now symmetry.
Qed.
End WithHash.
