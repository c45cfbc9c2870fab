(** Lemmas about bytes, big-endian numbers and dictionaries. *)
From Coq Require Import List Bool Arith NArith ZArith Lia ZifyBool ZifyNat ZifyN.
From Coq Require Import Strings.Byte.
From Verif Require Import Base.
Import ListNotations.
Ltac Zify.zify_post_hook ::= Z.div_mod_to_equations.

Lemma bN_lt : forall b, (bN b < 256)%N.
Proof. intros b. pose proof (Byte.to_N_bounded b). unfold bN. lia. Qed.

Lemma nB_bN : forall b, nB (bN b) = b.
Proof. intros b. unfold nB, bN. rewrite Byte.of_to_N. reflexivity. Qed.

Lemma bN_nB : forall n, (n < 256)%N -> bN (nB n) = n.
Proof.
  intros n Hn. unfold nB, bN. destruct (Byte.of_N n) eqn:E.
  - apply Byte.to_of_N. exact E.
  - apply Byte.of_N_None_iff in E. lia.
Qed.

Lemma bN_inj : forall a b, bN a = bN b -> a = b.
Proof. intros a b E. rewrite <- (nB_bN a), <- (nB_bN b), E. reflexivity. Qed.

Lemma byte_eqb_eq : forall a b, byte_eqb a b = true <-> a = b.
Proof.
  intros a b. unfold byte_eqb. rewrite N.eqb_eq. split; [apply bN_inj | congruence].
Qed.

Lemma bytes_eqb_eq : forall a b, bytes_eqb a b = true <-> a = b.
Proof.
  induction a as [|x a IH]; destruct b as [|y b]; cbn; try (split; congruence).
  rewrite andb_true_iff, byte_eqb_eq, IH. split.
  - intros [-> ->]. reflexivity.
  - intros E. injection E as -> ->. auto.
Qed.

Lemma bytes_eqb_refl : forall a, bytes_eqb a a = true.
Proof. intros. apply bytes_eqb_eq. reflexivity. Qed.

Lemma bytes_eqb_neq : forall a b, bytes_eqb a b = false <-> a <> b.
Proof.
  intros a b. split.
  - intros E F. apply bytes_eqb_eq in F. congruence.
  - intros F. destruct (bytes_eqb a b) eqn:E; auto. apply bytes_eqb_eq in E. contradiction.
Qed.

Lemma bytes_eqb_spec : forall a b, reflect (a = b) (bytes_eqb a b).
Proof.
  intros. destruct (bytes_eqb a b) eqn:E; constructor.
  - apply bytes_eqb_eq; auto.
  - apply bytes_eqb_neq; auto.
Qed.

Lemma bytes_eqb_sym : forall a b, bytes_eqb a b = bytes_eqb b a.
Proof.
  intros. destruct (bytes_eqb_spec a b), (bytes_eqb_spec b a); congruence.
Qed.

Lemma bytes_eq_dec : forall a b : bytes, {a = b} + {a <> b}.
Proof. intros. destruct (bytes_eqb_spec a b); auto. Qed.

(** ** Big-endian numbers *)
Lemma be_aux_app : forall f n acc, be_aux f n acc = be_aux f n [] ++ acc.
Proof.
  induction f as [|f IH]; intros n acc; cbn; auto.
  destruct (N.eqb n 0); auto.
  rewrite IH, (IH _ [_]), <- app_assoc. reflexivity.
Qed.

Lemma pow2_S : forall f, (2 ^ N.of_nat (S f) = 2 * 2 ^ N.of_nat f)%N.
Proof. intros. rewrite Nnat.Nat2N.inj_succ, N.pow_succ_r'. reflexivity. Qed.

Lemma be_aux_fuel : forall f g n acc,
  (n < 2 ^ N.of_nat f)%N -> (n < 2 ^ N.of_nat g)%N -> be_aux f n acc = be_aux g n acc.
Proof.
  induction f as [|f IH]; intros g n acc Hf Hg.
  - cbn in Hf. assert (n = 0)%N by lia. subst. destruct g; reflexivity.
  - destruct g as [|g].
    + cbn in Hg. assert (n = 0)%N by lia. subst. reflexivity.
    + cbn [be_aux]. destruct (N.eqb_spec n 0) as [|Hn]; auto.
      rewrite pow2_S in Hf, Hg. apply IH; lia.
Qed.

Lemma size_nat_gt : forall n, (n < 2 ^ N.of_nat (N.size_nat n))%N.
Proof.
  intros n. replace (N.of_nat (N.size_nat n)) with (N.size n); [apply N.size_gt|].
  destruct n as [|p]; auto. cbn [N.size N.size_nat].
  induction p as [p IH|p IH|]; cbn [Pos.size Pos.size_nat]; auto;
    rewrite Nnat.Nat2N.inj_succ, <- IH; reflexivity.
Qed.

Lemma be_step : forall n, (0 < n)%N -> be n = be (n / 256) ++ [nB (n mod 256)].
Proof.
  intros n Hn. unfold be.
  rewrite <- be_aux_app.
  pose proof (size_nat_gt n) as Hs. pose proof (size_nat_gt (n / 256)) as Hs'.
  destruct (N.size_nat n) as [|f] eqn:E.
  - cbn in Hs. lia.
  - cbn [be_aux]. destruct (N.eqb_spec n 0); [lia|].
    rewrite pow2_S in Hs. apply be_aux_fuel; auto. lia.
Qed.

Lemma be_0 : be 0 = [].
Proof. reflexivity. Qed.

Lemma unbe_app1 : forall l x, unbe (l ++ [x]) = (unbe l * 256 + bN x)%N.
Proof. intros. unfold unbe. rewrite fold_left_app. reflexivity. Qed.

Lemma N_ind256 : forall P : N -> Prop,
  P 0%N -> (forall n, (0 < n)%N -> P (n / 256)%N -> P n) -> forall n, P n.
Proof.
  intros P H0 HS n. induction n as [n IH] using (well_founded_ind N.lt_wf_0).
  destruct (N.eq_dec n 0) as [->|Hn]; auto.
  apply HS; [lia|]. apply IH. lia.
Qed.

Lemma unbe_be : forall n, unbe (be n) = n.
Proof.
  induction n as [|n Hn IH] using N_ind256; [reflexivity|].
  rewrite be_step by lia. rewrite unbe_app1, IH, bN_nB by lia. lia.
Qed.

Lemma be_inj : forall a b, be a = be b -> a = b.
Proof. intros a b E. rewrite <- (unbe_be a), <- (unbe_be b), E. reflexivity. Qed.

Lemma be_head : forall n, match be n with [] => n = 0%N | x :: _ => bN x <> 0%N end.
Proof.
  induction n as [|n Hn IH] using N_ind256; [reflexivity|].
  rewrite be_step by lia. destruct (be (n / 256)) as [|x l] eqn:E; cbn; auto.
  rewrite bN_nB by lia. lia.
Qed.

Lemma unbe_pos : forall l, match l with [] => True | x :: _ => bN x <> 0%N end -> l <> [] -> (0 < unbe l)%N.
Proof.
  intros l. induction l as [|y l IH] using rev_ind; [congruence|].
  intros Hh _. rewrite unbe_app1. destruct l as [|x l].
  - cbn in *. unfold unbe. cbn. pose proof (bN_lt y). lia.
  - cbn in Hh. assert (0 < unbe (x :: l))%N by (apply IH; congruence). lia.
Qed.

Lemma be_unbe : forall l, match l with [] => True | x :: _ => bN x <> 0%N end -> be (unbe l) = l.
Proof.
  induction l as [|y l IH] using rev_ind; [reflexivity|].
  intros Hh. pose proof (bN_lt y) as Hy.
  assert (Hp : (0 < unbe (l ++ [y]))%N).
  { apply unbe_pos; [exact Hh|]. destruct l; cbn; congruence. }
  rewrite be_step by exact Hp. rewrite unbe_app1 in *.
  replace ((unbe l * 256 + bN y) / 256)%N with (unbe l) by lia.
  replace ((unbe l * 256 + bN y) mod 256)%N with (bN y) by lia.
  rewrite nB_bN, IH; auto. destruct l; cbn in *; auto.
Qed.

Lemma pow256_S : forall k, (256 ^ N.of_nat (S k) = 256 * 256 ^ N.of_nat k)%N.
Proof. intros. rewrite Nnat.Nat2N.inj_succ, N.pow_succ_r'. reflexivity. Qed.

Lemma be_len : forall n k, (n < 256 ^ N.of_nat k)%N -> length (be n) <= k.
Proof.
  induction n as [|n Hn IH] using N_ind256; intros k Hk; [cbn; lia|].
  rewrite be_step by lia. rewrite app_length. cbn.
  destruct k as [|k].
  - cbn in Hk. lia.
  - rewrite pow256_S in Hk. specialize (IH k). lia.
Qed.

Lemma unbe_lt : forall l, (unbe l < 256 ^ blen l)%N.
Proof.
  unfold blen. induction l as [|y l IH] using rev_ind; [cbn; lia|].
  rewrite app_length, unbe_app1. cbn [length]. rewrite Nat.add_1_r, pow256_S.
  pose proof (bN_lt y). lia.
Qed.

(** ** Dictionaries *)
Section Dict.
Context {V : Type}.
Implicit Types (d : dict V) (k : bytes).

Lemma dget_dset_same : forall d k v, dget (dset d k v) k = Some v.
Proof.
  induction d as [|[k' v'] d IH]; intros; cbn.
  - rewrite bytes_eqb_refl. reflexivity.
  - destruct (bytes_eqb k k') eqn:E; cbn; rewrite E; auto.
Qed.

Lemma dget_dset_other : forall d k k2 v, k2 <> k -> dget (dset d k v) k2 = dget d k2.
Proof.
  induction d as [|[k' v'] d IH]; intros k k2 v Hn; cbn.
  - apply bytes_eqb_neq in Hn. rewrite Hn. reflexivity.
  - destruct (bytes_eqb_spec k k') as [->|Hk]; cbn.
    + apply bytes_eqb_neq in Hn. rewrite Hn. reflexivity.
    + destruct (bytes_eqb k2 k'); auto.
Qed.

Lemma dget_dset : forall d k k2 v, dget (dset d k v) k2 = if bytes_eqb k2 k then Some v else dget d k2.
Proof.
  intros. destruct (bytes_eqb_spec k2 k) as [->|Hn].
  - apply dget_dset_same.
  - apply dget_dset_other; auto.
Qed.

Lemma dget_In : forall d k v, dget d k = Some v -> In (k, v) d.
Proof.
  induction d as [|[k' v'] d IH]; cbn; intros k v E; [congruence|].
  destruct (bytes_eqb_spec k k') as [->|Hk].
  - left. congruence.
  - right. auto.
Qed.

Lemma dget_Some_key : forall d k v, dget d k = Some v -> In k (dkeys d).
Proof. intros d k v E. apply dget_In in E. apply (in_map fst) in E. exact E. Qed.

Lemma dget_None_key : forall d k, dget d k = None <-> ~ In k (dkeys d).
Proof.
  induction d as [|[k' v'] d IH]; cbn; intros k; [tauto|].
  destruct (bytes_eqb_spec k k') as [->|Hk].
  - split; [congruence | intros Hf; exfalso; apply Hf; auto].
  - rewrite IH. split; [intros Hf [|]; auto | tauto].
Qed.

Lemma dkeys_dset : forall d k v,
  dkeys (dset d k v) = if existsb (bytes_eqb k) (dkeys d) then dkeys d else dkeys d ++ [k].
Proof.
  induction d as [|[k' v'] d IH]; intros; cbn; auto.
  destruct (bytes_eqb k k') eqn:E; cbn; auto.
  unfold dkeys in *. rewrite IH. destruct (existsb _ _); reflexivity.
Qed.

Lemma NoDup_dset : forall d k v, NoDup (dkeys d) -> NoDup (dkeys (dset d k v)).
Proof.
  intros d k v Hd. rewrite dkeys_dset. destruct (existsb _ _) eqn:E; auto.
  assert (Hn : ~ In k (dkeys d)).
  { intros Hi. assert (existsb (bytes_eqb k) (dkeys d) = true).
    { apply existsb_exists. exists k. split; auto. apply bytes_eqb_refl. }
    congruence. }
  clear E. induction (dkeys d) as [|x l IH]; cbn.
  - constructor; [intros []|constructor].
  - inversion Hd; subst. constructor.
    + rewrite in_app_iff. cbn in *. intuition.
    + apply IH; auto. cbn in Hn. tauto.
Qed.

Lemma dkeys_ddel : forall d k, NoDup (dkeys d) ->
  forall x, In x (dkeys (ddel d k)) <-> In x (dkeys d) /\ x <> k.
Proof.
  induction d as [|[k' v'] d IH]; cbn; intros k Hd x; [tauto|].
  inversion Hd; subst. destruct (bytes_eqb_spec k k') as [->|Hk].
  - split; [intros Hi; split; auto; intros ->; contradiction|].
    intros [[<-|Hi] Hx]; [contradiction|auto].
  - cbn. pose proof (IH k H2 x) as IHx. unfold dkeys in IHx. rewrite IHx. split.
    + intros [<-|[Hi Hx]]; auto.
    + intros [[<-|Hi] Hx]; auto.
Qed.

Lemma NoDup_ddel : forall d k, NoDup (dkeys d) -> NoDup (dkeys (ddel d k)).
Proof.
  induction d as [|[k' v'] d IH]; cbn; intros k Hd; auto.
  inversion Hd; subst. destruct (bytes_eqb k k'); auto.
  cbn. constructor; [|apply IH; auto]. intros Hi. apply (dkeys_ddel d k H2) in Hi. tauto.
Qed.

Lemma dget_ddel : forall d k k2, NoDup (dkeys d) ->
  dget (ddel d k) k2 = if bytes_eqb k2 k then None else dget d k2.
Proof.
  induction d as [|[k' v'] d IH]; cbn; intros k kk Hd.
  - destruct (bytes_eqb kk k); auto.
  - inversion Hd; subst. destruct (bytes_eqb_spec k k') as [Ek|Hk].
    + subst k'. destruct (bytes_eqb_spec kk k) as [Ek|Hk2]; auto.
      subst kk. apply dget_None_key. auto.
    + cbn. rewrite IH by auto.
      destruct (bytes_eqb_spec kk k') as [E1|], (bytes_eqb_spec kk k) as [E2|]; auto.
      congruence.
Qed.

End Dict.
