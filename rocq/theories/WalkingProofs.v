(** Proofs about Walking.v. *)
From Coq Require Import List Bool Arith NArith ZArith Lia.
From Verif Require Import Base BaseProofs Rlp NibblePath Node ProofObj Mpt StoreProofs Spec SpecEmpt Empt MptProofs EmptProofs SpecEvery MptPy SpecMptEvery Threads SpecThreads ThreadsSeq ThreadsPool
  ThreadsAlone ThreadsSerial ThreadsRace EThreads SpecEThreads EThreadsRun EThreadsSerial EThreadsAlone EThreadsTrace EThreadsRead SpecETally ETallyProofs Walking SpecWalking.
Import ListNotations.

Section S.
Context {H : Hash}.
Variable secure : bool.
Notation start := (tour_new secure).
Notation after us := (urun secure start us).
Notation under_way := (under_way secure).
Notation keys_at := (keys_at secure).

Lemma urun_snoc : forall us m, after (us ++ [m]) = ugo secure (after us) m.
Proof. intros us m. unfold urun. rewrite fold_left_app. reflexivity. Qed.
Lemma umoves_snoc : forall us m, umoves (us ++ [m]) = umoves us ++ match m with UMove m => [m] | _ => [] end.
Proof. intros us m. unfold umoves. rewrite flat_map_app. cbn. now rewrite app_nil_r. Qed.
Theorem walks_apart : forall us, u_pool (after us) = erun secure (epool_new secure) (umoves us).
Proof.
  intros us. induction us as [|m us IH] using rev_ind; [reflexivity|]. rewrite urun_snoc, umoves_snoc. destruct m as [m| |j pick]; cbn [ugo].
  - rewrite erun_snoc, <- IH. reflexivity.
  - rewrite app_nil_r. exact IH.
  - rewrite app_nil_r. destruct (nth_error _ j); exact IH.
Qed.
Lemma keys_now : forall us, ukeys (u_pool (after us)) = keys_at us.
Proof. intros us. unfold ukeys. rewrite walks_apart. reflexivity. Qed.
Lemma same_keys_ok : forall a b, same_keys a b = true <-> a = b.
Proof.
  induction a as [|x a IH]; intros [|y b]; cbn; split; intros E; try discriminate; auto.
  - apply andb_true_iff in E as [E1 E2]. destruct (bytes_eqb_spec x y) as [->|]; [|discriminate]. f_equal. now apply IH.
  - injection E as -> ->. destruct (bytes_eqb_spec y y); [|congruence]. now apply IH.
Qed.
Lemma firstn_snoc_nth : forall A (l : list A) i x, nth_error l i = Some x -> firstn (S i) l = firstn i l ++ [x].
Proof. intros A l. induction l as [|y l IH]; intros [|i] x E; try discriminate; cbn in *; [injection E as ->; reflexivity|]. f_equal. apply IH, E. Qed.
Lemma walks_len : forall us, length (u_walks (after us)) = uiters us.
Proof.
  intros us. induction us as [|m us IH] using rev_ind; [reflexivity|]. rewrite urun_snoc. unfold uiters. rewrite filter_app, app_length. fold (uiters us). destruct m as [m| |j pick]; cbn [ugo].
  - cbn. rewrite map_length. lia.
  - cbn. rewrite app_length. cbn. lia.
  - cbn [filter length]. destruct (nth_error (u_walks (after us)) j) as [p|] eqn:E; [|lia]. cbn [u_walks]. rewrite (upd_length _ _ _ _ _ E). lia.
Qed.

Definition told_keys (us : list umove) (j : nat) (g : list bytes) : Prop := forall k, In k g -> exists u, under_way us j u /\ In k (keys_at u).
Definition differ (us : list umove) (j : nat) : Prop := exists u u', under_way us j u /\ under_way us j u' /\ keys_at u <> keys_at u'.
Definition walks_so (us : list umove) (j : nat) (p : walk) : Prop :=
  told_keys us j (given_of p) /\ exists u0, under_way us j u0 /\ length (given_of p) <= length (keys_at u0) /\
  match p with
  | WAt n calm g => n = length (keys_at u0) /\ if calm then keys_at us = keys_at u0 /\ g = firstn (length g) (keys_at u0) else differ us j
  | WEnd g => g = keys_at u0 \/ differ us j
  | WFail g => differ us j
  end.
Lemma under_more : forall us x j u, under_way us j u -> under_way (us ++ [x]) j u.
Proof. intros us x j u (u2 & n & c & g & -> & E). exists (u2 ++ [x]), n, c, g. rewrite app_assoc. auto. Qed.
Lemma under_now : forall us j n c g, nth_error (u_walks (after us)) j = Some (WAt n c g) -> under_way us j us.
Proof. intros us j n c g E. exists [], n, c, g. rewrite app_nil_r. auto. Qed.
Lemma told_more : forall us x j g, told_keys us j g -> told_keys (us ++ [x]) j g.
Proof. intros us x j g T k I. destruct (T k I) as (u & U & K). exists u. split; [apply under_more, U|exact K]. Qed.
Lemma differ_more : forall us x j, differ us j -> differ (us ++ [x]) j.
Proof. intros us x j (u & u' & A & B & N). exists u, u'. auto using under_more. Qed.

Lemma walks_run : forall us j p, nth_error (u_walks (after us)) j = Some p -> walks_so us j p.
Proof.
  intros us. induction us as [|x us IH] using rev_ind; intros j p E; [destruct j; discriminate|]. pose proof E as E0. rewrite urun_snoc in E.
  assert (Same : keys_at (us ++ [x]) = keys_at us -> nth_error (u_walks (after us)) j = Some p -> walks_so (us ++ [x]) j p).
  { intros K Ep. destruct (IH _ _ Ep) as (T & u0 & U & L & M). split; [apply told_more, T|]. exists u0. split; [apply under_more, U|]. split; [exact L|].
    destruct p as [n c g|g|g]; [|destruct M; auto using differ_more|auto using differ_more]. destruct M as [-> M]. split; [reflexivity|]. destruct c; [rewrite K; exact M|auto using differ_more]. }
  destruct x as [m| |j' pick]; cbn [ugo] in E.
  - cbn [u_walks] in E. rewrite nth_error_map in E. destruct (nth_error (u_walks (after us)) j) as [q|] eqn:Eq; [|discriminate]. cbn [option_map] in E. injection E as <-.
    assert (K1 : ukeys (u_pool (after us)) = keys_at us) by apply keys_now.
    assert (K2 : ukeys (ego secure (u_pool (after us)) m) = keys_at (us ++ [UMove m])) by (rewrite <- keys_now, urun_snoc; reflexivity).
    rewrite K1, K2 in *. destruct (IH _ _ Eq) as (T & u0 & U & L & M). split; [destruct q; apply told_more, T|]. exists u0. split; [apply under_more, U|].
    split; [destruct q; exact L|]. destruct q as [n c g|g|g]; cbn [mark]; [|destruct M; auto using differ_more|auto using differ_more]. destruct M as [-> M]. split; [reflexivity|].
    destruct c; cbn [andb]; [|auto using differ_more]. destruct (same_keys (keys_at us) (keys_at (us ++ [UMove m]))) eqn:Sk.
    + apply same_keys_ok in Sk. rewrite <- Sk. exact M.
    + exists us, (us ++ [UMove m]). split; [apply under_more; eapply under_now, Eq|]. split; [eapply under_now, E0|]. intros F. apply same_keys_ok in F. congruence.
  - assert (K : keys_at (us ++ [UIter]) = keys_at us) by (unfold SpecWalking.keys_at; rewrite umoves_snoc, app_nil_r; reflexivity).
    cbn [u_walks] in E. apply nth_error_snoc in E as [E|[-> ->]]; [auto|]. split; [intros k []|]. exists (us ++ [UIter]). split; [eapply under_now, E0|]. split; [cbn; lia|].
    rewrite keys_now, K. auto.
  - assert (K : keys_at (us ++ [UNext j' pick]) = keys_at us) by (unfold SpecWalking.keys_at; rewrite umoves_snoc, app_nil_r; reflexivity).
    destruct (nth_error (u_walks (after us)) j') as [q|] eqn:Eq; [|auto]. cbn [u_walks] in E. destruct (Nat.eq_dec j j') as [<-|N]; [|rewrite (upd_other _ _ _ _ _ _ Eq N) in E; auto].
    rewrite (upd_same _ _ _ _ _ Eq) in E. injection E as <-. destruct q as [n c g|g|g]; [|apply Same; auto|apply Same; auto].
    destruct (IH _ _ Eq) as (T & u0 & U & L & -> & M). pose proof (under_now _ _ _ _ _ Eq) as Now. rewrite keys_now. cbn [given_of wnext] in *.
    destruct (Nat.eqb_spec (length (keys_at us)) (length (keys_at u0))) as [Ln|Ln].
    2:{ split; [apply told_more, T|]. exists u0. split; [apply under_more, U|]. split; [exact L|]. exists us, u0. split; [apply under_more, Now|]. split; [apply under_more, U|]. intros F. rewrite F in Ln. auto. }
    set (i := if c then length g else pick). destruct (nth_error (keys_at us) i) as [k|] eqn:Ek.
    + destruct (Nat.ltb_spec (length g) (length (keys_at u0))) as [Lg|Lg].
      * split.
        { intros k' I. apply in_app_or in I as [I|[<-|[]]]; [apply (told_more _ _ _ _ T), I|]. exists us. split; [apply under_more, Now|]. eapply nth_error_In, Ek. }
        exists u0. split; [apply under_more, U|]. cbn [given_of]. split; [rewrite app_length; cbn; lia|]. split; [reflexivity|]. destruct c; [|apply differ_more, M].
        destruct M as [M1 M2]. split; [congruence|]. rewrite app_length. cbn [length]. unfold i in Ek. rewrite M1 in Ek. rewrite Nat.add_1_r.
        rewrite (firstn_snoc_nth _ _ _ _ Ek). congruence.
      * split; [apply told_more, T|]. exists u0. split; [apply under_more, U|]. split; [exact L|]. destruct c; [|apply differ_more, M].
        exfalso. apply nth_lt in Ek. unfold i in Ek. lia.
    + split; [apply told_more, T|]. exists u0. split; [apply under_more, U|]. split; [exact L|]. destruct c; [|right; apply differ_more, M]. left. destruct M as [M1 M2].
      apply nth_error_None in Ek. unfold i in Ek. rewrite M2. rewrite M1 in Ek. apply firstn_all2. exact Ek.
Qed.
End S.
