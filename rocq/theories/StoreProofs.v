(** Storage invariant and reasoning rules for storage-writing computations. *)
From Coq Require Import List Bool Arith NArith ZArith Lia.
From Verif Require Import Base BaseProofs Rlp RlpProofs NibblePath NibbleProofs Node Mpt Tree TreeEnc.
Import ListNotations.

Section Store.
Context {H : Hash}.

(** No two different byte strings of [l] have the same hash. *)
Definition nocoll (l : list bytes) : Prop :=
  forall a b, In a l -> In b l -> keccak a = keccak b -> a = b.

Lemma nocoll_incl : forall l l', (forall x, In x l -> In x l') -> nocoll l' -> nocoll l.
Proof. unfold nocoll. auto. Qed.

(** Every entry is filed under its hash, and was logged. *)
Definition dinv (m : dict bytes) (log : list bytes) : Prop :=
  In [x80] log /\ NoDup (dkeys m) /\
  forall k e, dget m k = Some e -> k = keccak e /\ In e log /\ 32 <= length e.
Definition sinv (s : store) : Prop := dinv (s_map s) (s_log s).

(** Monotone growth of the storage. *)
Definition dext (m : dict bytes) (log : list bytes) (m' : dict bytes) (log' : list bytes) : Prop :=
  (exists l, log' = l ++ log) /\ (exists l, dkeys m' = dkeys m ++ l).
Definition sext (s s' : store) : Prop :=
  dext (s_map s) (s_log s) (s_map s') (s_log s') /\ (s_faults s = [] -> s_faults s' = []).

Definition step (s s' : store) : Prop := sinv s /\ sinv s' /\ sext s s' /\ nocoll (s_log s').

Definition keeps {A} (m : M A) : Prop :=
  forall s, sinv s -> sinv (snd (m s)) /\ sext s (snd (m s)).

Definition spec {A} (m : M A) (s : store) (F : exn -> Prop) (Q : A -> store -> Prop) : Prop :=
  nocoll (s_log (snd (m s))) ->
  match m s with (Ok a, s') => Q a s' | (Err e, _) => F e end.

Lemma dext_refl : forall m l, dext m l m l.
Proof. split; exists []; cbn; auto using app_nil_r. Qed.
Lemma dext_trans : forall a la b lb c lc, dext a la b lb -> dext b lb c lc -> dext a la c lc.
Proof.
  intros a la b lb c lc [[l1 E1] [k1 F1]] [[l2 E2] [k2 F2]]. split.
  - exists (l2 ++ l1). rewrite E2, E1, app_assoc. reflexivity.
  - exists (k1 ++ k2). rewrite F2, F1, app_assoc. reflexivity.
Qed.

Lemma dext_log : forall a la b lb x, dext a la b lb -> In x la -> In x lb.
Proof. intros a la b lb x [[l ->] _] Hx. apply in_or_app. auto. Qed.

Lemma dext_dget : forall a la b lb, dinv a la -> dinv b lb -> dext a la b lb -> nocoll lb ->
  forall k e, dget a k = Some e -> dget b k = Some e.
Proof.
  intros a la b lb Ia Ib He Hn k e E.
  assert (Hk : In k (dkeys b)).
  { destruct He as [_ [l El]]. rewrite El. apply in_or_app. left. eapply dget_Some_key; eauto. }
  destruct (dget b k) as [e'|] eqn:E'; [|apply dget_None_key in E'; contradiction].
  f_equal. destruct Ia as (_ & _ & Ia), Ib as (_ & _ & Ib).
  destruct (Ia _ _ E) as (-> & Hi & _). destruct (Ib _ _ E') as (Ek & Hi' & _).
  apply Hn; auto. eapply dext_log; eauto.
Qed.

Lemma sext_refl : forall s, sext s s.
Proof. intros. split; auto using dext_refl. Qed.
Lemma sext_trans : forall a b c, sext a b -> sext b c -> sext a c.
Proof. intros a b c [H1 H2] [H3 H4]. split; eauto using dext_trans. Qed.

Lemma step_refl : forall s, sinv s -> nocoll (s_log s) -> step s s.
Proof. unfold step. auto using sext_refl. Qed.
Lemma step_trans : forall a b c, step a b -> step b c -> step a c.
Proof. intros a b c (H1 & H2 & H3 & H4) (H5 & H6 & H7 & H8). unfold step. eauto using sext_trans. Qed.

Lemma step_inv : forall s s', step s s' -> sinv s'.
Proof. unfold step. tauto. Qed.
Lemma step_nocoll : forall s s', step s s' -> nocoll (s_log s').
Proof. unfold step. tauto. Qed.
Lemma step_faults : forall s s', step s s' -> s_faults s' <> [] -> s_faults s <> [].
Proof. intros s s' (_ & _ & [_ Hf] & _) Hn E. auto. Qed.

Lemma step_dget : forall s s', step s s' -> forall k e, dget (s_map s) k = Some e -> dget (s_map s') k = Some e.
Proof. intros s s' (H1 & H2 & [H3 _] & H4). eapply dext_dget; eauto. Qed.

Lemma step_stored : forall s s' t, step s s' -> stored (s_map s) t -> stored (s_map s') t.
Proof. intros s s' t Hs. apply stored_mono. apply step_dget. exact Hs. Qed.
Lemma step_Forall : forall s s' cs, step s s' -> Forall (stored (s_map s)) cs -> Forall (stored (s_map s')) cs.
Proof. intros s s' cs Hs. apply Forall_impl. intros t. apply step_stored. exact Hs. Qed.

(** ** Rules *)
Lemma keeps_ret : forall A (a : A), keeps (ret a).
Proof. intros A a s Hs. cbn. auto using sext_refl. Qed.
Lemma keeps_raise : forall A e, keeps (@raise A e).
Proof. intros A e s Hs. cbn. auto using sext_refl. Qed.
Lemma keeps_lift : forall A (r : result A), keeps (lift r).
Proof. intros A r s Hs. cbn. auto using sext_refl. Qed.

Lemma keeps_bind : forall A B (m : M A) (f : A -> M B), keeps m -> (forall a, keeps (f a)) -> keeps (mbind m f).
Proof.
  intros A B m f Hm Hf s Hs. unfold mbind. destruct (Hm s Hs) as [H1 H2].
  destruct (m s) as [[a|e] s1]; cbn [snd] in *; auto.
  destruct (Hf a s1 H1) as [H3 H4]. eauto using sext_trans.
Qed.

Lemma keeps_tick : keeps tick.
Proof.
  intros s Hs. unfold tick. destruct (s_faults s) as [|f fs] eqn:E; cbn [snd]; [auto using sext_refl|].
  split; [exact Hs|]. split; cbn; [apply dext_refl|congruence].
Qed.

Lemma keeps_write : forall e, 32 <= length e -> keeps (write (keccak e) e).
Proof.
  intros e He. apply keeps_bind; [apply keeps_tick|]. intros _ s (H1 & H2 & H3). cbn [snd].
  split; [split; [|split]|split; [split|]]; cbn [s_map s_log s_faults]; auto.
  - right. auto.
  - apply NoDup_dset. auto.
  - intros k x. rewrite dget_dset. destruct (bytes_eqb_spec k (keccak e)) as [->|Hk].
    + intros E. injection E as <-. cbn. auto.
    + intros E. destruct (H3 _ _ E) as (-> & Hi & Hl). cbn. auto.
  - exists [e]. reflexivity.
  - rewrite dkeys_dset. destruct (existsb _ _); [exists []; symmetry; apply app_nil_r|eexists; reflexivity].
Qed.

Lemma keeps_rd : forall r, keeps (rd_node r).
Proof.
  intros r. apply keeps_bind; [destruct (length r =? 32); [apply keeps_tick|apply keeps_ret]|].
  intros _ s Hs. cbn. auto using sext_refl.
Qed.

Lemma spec_ret : forall A (a : A) s F (Q : A -> store -> Prop), Q a s -> spec (ret a) s F Q.
Proof. intros. intro. cbn. auto. Qed.
Lemma spec_raise : forall A e s (F : exn -> Prop) (Q : A -> store -> Prop), F e -> spec (raise e) s F Q.
Proof. intros. intro. cbn. auto. Qed.

Lemma spec_bind : forall A B (m : M A) (f : A -> M B) s F Q1 Q2,
  sinv s -> keeps m -> (forall a, keeps (f a)) -> spec m s F Q1 ->
  (forall a s1, step s s1 -> Q1 a s1 -> spec (f a) s1 F Q2) ->
  spec (mbind m f) s F Q2.
Proof.
  intros A B m f s F Q1 Q2 Hs Hm Hf S1 S2 Hn. unfold mbind in *. unfold spec in S1.
  destruct (Hm s Hs) as [K1 K2]. destruct (m s) as [[a|e] s1] eqn:E; cbn [snd] in *; auto.
  destruct (Hf a s1 K1) as [K3 K4].
  assert (N1 : nocoll (s_log s1)).
  { eapply nocoll_incl; [|exact Hn]. intros x. destruct K4 as [K4 _]. eapply dext_log; eauto. }
  apply S2; auto. unfold step. auto.
Qed.

Lemma spec_conseq : forall A (m : M A) s (F F' : exn -> Prop) (Q Q' : A -> store -> Prop),
  spec m s F Q -> (forall e, F e -> F' e) -> (forall a s', Q a s' -> Q' a s') -> spec m s F' Q'.
Proof.
  intros A m s F F' Q Q' S HF HQ Hn. specialize (S Hn). destruct (m s) as [[a|e] s1]; auto.
Qed.

Hypothesis keccak_len : forall b, length (keccak b) = 32.

Lemma keeps_store_node : forall n, keeps (store_node n).
Proof.
  intros n s Hs. unfold store_node, mbind, lift, into_reference.
  destruct (node_encode n) as [e|x] eqn:E; cbn [bind]; [|cbn; auto using sext_refl].
  destruct (Nat.ltb_spec (length e) 32) as [Hl|Hl].
  - replace (length e =? 32) with false by (symmetry; apply Nat.eqb_neq; lia). cbn. auto using sext_refl.
  - rewrite keccak_len. cbn [Nat.eqb].
    destruct (keeps_write e Hl s Hs) as [K1 K2].
    destruct (write (keccak e) e s) as [[a|x] s1]; cbn [snd] in *; auto.
Qed.

Lemma spec_store_node : forall n t s (F : exn -> Prop),
  sinv s -> (s_faults s <> [] -> F StorageFault) -> nmatch n t -> wf t -> small t ->
  spec (store_node n) s F (fun r s' => r = tref t /\ here (s_map s') t).
Proof.
  intros n t s F Hs HF Hm Hw Hsm Hn. unfold store_node, mbind, lift in *.
  assert (Hne : t <> TEmpty) by (intros ->; destruct n; contradiction).
  rewrite (into_reference_match keccak_len n t) in * by auto.
  rewrite (tref_32 keccak_len) in * by auto.
  rewrite (node_encode_match keccak_len n t) in * by auto.
  unfold here. rewrite tref_eq in * by auto.
  destruct (Nat.ltb_spec (length (tenc t)) 32) as [Hl|Hl]; cbn [negb] in *.
  - cbn. split; [reflexivity|]. intros _ Hc. lia.
  - unfold write, mbind, tick in *. destruct (s_faults s) as [|[|] fs] eqn:Ef; cbn in *.
    + split; auto. intros _ _. apply dget_dset_same.
    + apply HF. discriminate.
    + split; auto. intros _ _. apply dget_dset_same.
Qed.

Lemma spec_rd_node : forall t s (F : exn -> Prop),
  (s_faults s <> [] -> F StorageFault) -> t <> TEmpty -> wf t -> small t -> stored (s_map s) t ->
  spec (rd_node (tref t)) s F (fun n s' => nmatch n t).
Proof.
  intros t s F HF Hne Hw Hsm Hst Hn. unfold rd_node, mbind in *.
  destruct (get_node_stored keccak_len (s_map s) t Hne Hw Hsm (here_of_stored _ _ Hst)) as (n & E & Hm).
  destruct (length (tref t) =? 32) eqn:El; cbn in *.
  - unfold tick in *. destruct (s_faults s) as [|[|] fs] eqn:Ef; cbn in *.
    + rewrite E. exact Hm.
    + apply HF. discriminate.
    + rewrite E. exact Hm.
  - rewrite E. exact Hm.
Qed.

End Store.
