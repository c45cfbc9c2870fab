(** What iterators over an EMPT give: the theorems. *)
From Coq Require Import List Bool Arith NArith ZArith Lia.
From Verif Require Import Base BaseProofs Rlp NibblePath Node ProofObj Mpt StoreProofs Spec SpecEmpt Empt MptProofs EmptProofs SpecEvery MptPy SpecMptEvery Threads SpecThreads ThreadsSeq ThreadsPool
  ThreadsAlone ThreadsSerial ThreadsRace EThreads SpecEThreads EThreadsRun EThreadsSerial EThreadsAlone EThreadsTrace EThreadsRead SpecETally ETallyProofs Walking SpecWalking WalkingProofs.
Import ListNotations.

Section S.
Context {H : Hash}.
Variable secure : bool.
Notation start := (tour_new secure).
Notation after us := (urun secure start us).
Notation under_way := (under_way secure).
Notation keys_at := (keys_at secure).
Notation eafter ms := (erun secure (epool_new secure) ms).

Theorem walk_beside : forall us j p, nth_error (u_walks (after us)) j = Some p ->
  (forall k, In k (given_of p) -> exists u, under_way us j u /\ In k (keys_at u) /\
     exists i lim v, nth_error (ecalls_of (umoves u)) i = Some (lim, XPut k v) /\ eanswer_of (eafter (umoves u)) i = Some (RNone (Ok tt))) /\
  (exists u, under_way us j u /\ length (given_of p) <= length (keys_at u)) /\
  (calm_keys secure us j -> exists u, under_way us j u /\
     match p with WAt _ _ g => g = firstn (length g) (keys_at u) | WEnd g => g = keys_at u | WFail _ => False end).
Proof.
  intros us j p E. destruct (walks_run secure us j p E) as (T & u0 & U & L & M). split; [|split].
  - intros k I. destruct (T k I) as (u & A & B). exists u. split; [exact A|]. split; [exact B|].
    unfold SpecWalking.keys_at in B. destruct (dget (x_data (eafter (umoves u))) k) as [v|] eqn:Ed.
    + destruct (tallies secure (umoves u) k) as (_ & _ & X). destruct (X v Ed) as (i & lim & P & Q). eauto 6.
    + exfalso. apply dget_None_key in Ed. contradiction.
  - eauto.
  - intros C. assert (D : ~ differ secure us j) by (intros (u & u' & A & B & N); apply N, C; assumption).
    exists u0. split; [exact U|]. destruct p as [n c g|g|g].
    + destruct M as [_ M]. destruct c; [apply M|contradiction].
    + destruct M as [M|M]; [exact M|contradiction].
    + contradiction.
Qed.

(** An iterator ends. *)
Lemma walk_on : forall u2 u1 j n c g, nth_error (u_walks (after u1)) j = Some (WAt n c g) -> length g <= n ->
  (exists c' g', nth_error (u_walks (after (u1 ++ u2))) j = Some (WAt n c' g') /\ length g' = length g + unexts j u2 /\ length g' <= n) \/
  (exists g', nth_error (u_walks (after (u1 ++ u2))) j = Some (WEnd g') \/ nth_error (u_walks (after (u1 ++ u2))) j = Some (WFail g')).
Proof.
  intros u2. induction u2 as [|x u2 IH] using rev_ind; intros u1 j n c g E L.
  { left. exists c, g. rewrite app_nil_r. cbn. split; [exact E|lia]. }
  rewrite app_assoc, urun_snoc.
  assert (Un : unexts j (u2 ++ [x]) = unexts j u2 + match x with UNext i _ => if i =? j then 1 else 0 | _ => 0 end).
  { unfold unexts. rewrite filter_app, app_length. destruct x as [m| |i pick]; cbn; try reflexivity. destruct (i =? j); reflexivity. }
  rewrite Un. destruct (IH _ _ _ _ _ E L) as [(c' & g' & E' & L1 & L2)|(g' & E')].
  - destruct x as [m| |i pick]; cbn [ugo].
    + left. cbn [u_walks]. rewrite nth_error_map, E'. cbn [option_map mark]. eexists _, g'. split; [reflexivity|lia].
    + left. cbn [u_walks]. rewrite nth_snoc_old by (eapply nth_lt, E'). exists c', g'. split; [exact E'|lia].
    + destruct (nth_error (u_walks (after (u1 ++ u2))) i) as [q|] eqn:Eq.
      * cbn [u_walks]. destruct (Nat.eqb_spec i j) as [->|N].
        -- rewrite (upd_same _ _ _ _ _ Eq). rewrite E' in Eq. injection Eq as <-. cbn [wnext]. destruct (_ =? n); [|right; eauto].
           destruct (nth_error _ (if c' then length g' else pick)) as [k|]; [|right; eauto]. destruct (Nat.ltb_spec (length g') n); [|right; eauto].
           left. exists c', (g' ++ [k]). rewrite app_length. cbn [length]. split; [reflexivity|lia].
        -- assert (N' : j <> i) by auto. rewrite (upd_other _ _ _ _ _ _ Eq N'). left. exists c', g'. split; [exact E'|lia].
      * left. destruct (Nat.eqb_spec i j) as [->|N]; [congruence|]. exists c', g'. split; [exact E'|lia].
  - right. exists g'. assert (Keep : forall p, nth_error (u_walks (after (u1 ++ u2))) j = Some p -> (forall b, mark b p = p) -> (forall ks pk, wnext ks pk p = p) ->
      nth_error (u_walks (ugo secure (after (u1 ++ u2)) x)) j = Some p).
    { intros p Ep F1 F2. destruct x as [m| |i pick]; cbn [ugo].
      - cbn [u_walks]. rewrite nth_error_map, Ep. cbn [option_map]. f_equal. apply F1.
      - cbn [u_walks]. rewrite nth_snoc_old by (eapply nth_lt, Ep). exact Ep.
      - destruct (nth_error (u_walks (after (u1 ++ u2))) i) as [q|] eqn:Eq; [|exact Ep]. cbn [u_walks]. destruct (Nat.eq_dec j i) as [<-|N].
        + rewrite (upd_same _ _ _ _ _ Eq). rewrite Ep in Eq. injection Eq as <-. f_equal. apply F2.
        + rewrite (upd_other _ _ _ _ _ _ Eq N). exact Ep. }
    destruct E' as [E'|E']; [left|right]; apply Keep; auto.
Qed.
Theorem walk_ends : forall u1 u2, S (length (keys_at u1)) <= unexts (uiters u1) u2 ->
  exists g, nth_error (u_walks (after (u1 ++ UIter :: u2))) (uiters u1) = Some (WEnd g) \/ nth_error (u_walks (after (u1 ++ UIter :: u2))) (uiters u1) = Some (WFail g).
Proof.
  intros u1 u2 L. assert (E : nth_error (u_walks (after (u1 ++ [UIter]))) (uiters u1) = Some (WAt (length (keys_at u1)) true [])).
  { rewrite urun_snoc. cbn [ugo u_walks]. rewrite <- walks_len with (secure := secure), nth_snoc_new, keys_now. reflexivity. }
  change (u1 ++ UIter :: u2) with (u1 ++ [UIter] ++ u2). rewrite app_assoc. destruct (walk_on u2 _ _ _ _ _ E) as [(c & g & _ & L1 & L2)|X]; [cbn; lia|cbn in L1; lia|exact X].
Qed.

(** A key that another thread adds. *)
Lemma umoves_map : forall b, umoves (map UMove b) = b.
Proof. induction b as [|m b IH]; [reflexivity|]. unfold umoves in *. cbn [map flat_map app]. now rewrite IH. Qed.
Lemma umoves_app : forall a b, umoves (a ++ b) = umoves a ++ umoves b.
Proof. intros. apply flat_map_app. Qed.
Theorem walk_resized : forall us j n c g b pick, nth_error (u_walks (after us)) j = Some (WAt n c g) -> length (keys_at (us ++ map UMove b)) <> n ->
  nth_error (u_walks (after (us ++ map UMove b ++ [UNext j pick]))) j = Some (WFail g).
Proof.
  intros us j n c g b pick E N. rewrite app_assoc, urun_snoc. cbn [ugo].
  assert (On : exists c', nth_error (u_walks (after (us ++ map UMove b))) j = Some (WAt n c' g)).
  { clear N. induction b as [|m b IH] using rev_ind; [exists c; rewrite app_nil_r; exact E|]. destruct IH as [c' IH]. rewrite map_app, app_assoc. cbn [map]. rewrite urun_snoc. cbn [ugo u_walks].
    rewrite nth_error_map, IH. cbn [option_map mark]. eauto. }
  destruct On as [c' On]. rewrite On. cbn [u_walks]. rewrite (upd_same _ _ _ _ _ On). cbn [wnext]. rewrite keys_now. destruct (Nat.eqb_spec (length (keys_at (us ++ map UMove b))) n); [contradiction|reflexivity].
Qed.
Lemma dset_more : forall V (d : dict V) k v, dget d k = None -> length (dset d k v) = S (length d).
Proof. intros V d k v. induction d as [|[k' v'] d IH]; intros E; [reflexivity|]. cbn in *. destruct (bytes_eqb k k'); [discriminate|]. cbn. rewrite IH; auto. Qed.
Theorem walk_put : (forall b, length (keccak b) = 32) -> forall us j c g lim k v m pick, let e := eobject secure (eafter (umoves us)) in let i := length (ecalls_of (umoves us)) in
  nth_error (u_walks (after us)) j = Some (WAt (length (keys_at us)) c g) -> 0 < lim -> 6 * lim + 14 <= m -> ~ In k (keys_at us) -> fst (empt_update lim [] false e k v) = Ok tt ->
  nth_error (u_walks (after (us ++ map UMove (ECall lim (XPut k v) :: repeat (EGo i) m) ++ [UNext j pick]))) j = Some (WFail g).
Proof.
  intros KL us j c g lim k v m pick e i E Ll Lm N P. apply walk_resized with (n := length (keys_at us)) (c := c); [exact E|].
  unfold SpecWalking.keys_at at 1. rewrite umoves_app, umoves_map. destruct (ealone secure KL (umoves us) lim (XPut k v) m Ll Lm) as [_ O].
  fold i in O. apply (f_equal e_data) in O. cbn [eobject e_data] in O. rewrite O. fold e. cbn [esingle]. destruct (empt_update lim [] false e k v) as [r e'] eqn:Eu. cbn [fst snd] in *. subst r.
  unfold empt_update in Eu. destruct (bind (update_ref k v) _) as [rb|]; [|discriminate]. destruct (mpt_update lim [] (e_trie e) k rb) as [[u|x] t]; [|discriminate]. injection Eu as <-. cbn [e_data].
  unfold SpecWalking.keys_at, dkeys. rewrite !map_length. unfold e. cbn [eobject e_data]. rewrite dset_more; [lia|]. apply dget_None_key. exact N.
Qed.
(** The length. *)
Theorem len_keys : forall us, let w := after us in u_len w = length (keys_at us) /\ NoDup (keys_at us) /\ (forall k, In k (keys_at us) <-> has (u_pool w) k = 1) /\ (forall k, In k (keys_at us) -> 0 < tally (puts_k k) (umoves us) (u_pool w)).
Proof.
  intros us w. assert (W : u_pool w = eafter (umoves us)) by apply walks_apart. split; [unfold u_len; rewrite W; symmetry; apply map_length|]. split; [apply data_nodup|].
  assert (X : forall k, In k (keys_at us) <-> has (u_pool w) k = 1).
  { intros k. unfold has. rewrite W. unfold SpecWalking.keys_at. destruct (dget (x_data (eafter (umoves us))) k) as [v|] eqn:E.
    - split; [reflexivity|]. intros _. destruct (in_dec bytes_eq_dec k (dkeys (x_data (eafter (umoves us))))) as [I|I]; [exact I|]. apply dget_None_key in I. congruence.
    - apply dget_None_key in E. split; [contradiction|discriminate]. }
  split; [exact X|]. intros k I. apply X in I. pose proof (proj1 (tallies secure (umoves us) k)) as T. rewrite <- W in T. lia.
Qed.
End S.
