(** Calls alone, and how long calls take: proofs about SpecThreads.v, continued. *)
From Coq Require Import List Bool Arith NArith ZArith Lia.
From Verif Require Import Base BaseProofs Rlp NibblePath Node ProofObj Mpt StoreProofs SpecEvery MptPy SpecMptEvery Threads SpecThreads ThreadsSeq ThreadsPool.
Import ListNotations.

Section S.
Context {H : Hash}.
Variable secure : bool.

(** ** A call alone *)
Fixpoint solo {A} (p : prog A) (s : shared) : result A * shared :=
  match p with
  | PRet r => (r, s)
  | PGet h k => solo (k (dget (h_map s) h)) s
  | PSet h e k => solo k (mkShared (dset (h_map s) h e) (e :: h_log s) (h_root s))
  | PRoot k => solo (k (h_root s)) s
  | PAssign r k => solo k (mkShared (h_map s) (h_log s) r)
  end.
Lemma solo_bind : forall A B (p : prog A) (f : A -> prog B) s,
  solo (pbind p f) s = match solo p s with (Ok a, s') => solo (f a) s' | (Err e, s') => (Err e, s') end.
Proof. intros A B p f. induction p as [[a|e]|h k IH|h e k IH|k IH|r k IH]; intros s; cbn [pbind solo]; auto. Qed.
Lemma solo_told : forall A (g : result A -> tout) (p : prog A) s, solo (told g p) s = (Ok (g (fst (solo p s))), snd (solo p s)).
Proof. intros A g p. induction p as [r|h k IH|h e k IH|k IH|r k IH]; intros s; cbn [told solo]; auto. Qed.
Lemma solo_tame : forall A (p : prog A), tame p -> forall s, solo p s =
  (fst (seq p (mkStore (h_map s) (h_log s) [])), mkShared (s_map (snd (seq p (mkStore (h_map s) (h_log s) [])))) (s_log (snd (seq p (mkStore (h_map s) (h_log s) [])))) (h_root s)).
Proof.
  intros A p T. induction T as [r|h k Ek T IH|e k L T IH]; intros s; cbn [solo seq s_map s_log s_faults].
  - destruct s. reflexivity.
  - apply IH.
  - rewrite IH. reflexivity.
Qed.
Lemma solo_get : forall f r p s, solo (p_get f (Some r) p) s = (get_ f (h_map s) r p, s).
Proof. intros f r p s. rewrite solo_tame by apply tame_pget. rewrite seq_get. destruct s. reflexivity. Qed.
Lemma solo_poi : forall f r p acc s, solo (p_poi f (Some r) p acc) s = (get_poi_ f (h_map s) r p acc, s).
Proof. intros f r p acc s. rewrite solo_tame by apply tame_poi. rewrite seq_poi. destruct s. reflexivity. Qed.
Lemma solo_contains : forall f r p s x, h_root s = Some x -> bytes_eqb x EMPTY_HASH = false ->
  solo (p_contains f (Some r) p) s = (match contains_ f (h_map s) r p with Ok y => Ok (Some y) | Err e => Err e end, s).
Proof.
  induction f as [|f IH]; intros r p s x Er Ex; cbn [p_contains contains_]; [reflexivity|].
  rewrite solo_bind. cbn [proot solo]. rewrite Er, solo_bind. cbn [proot solo]. rewrite Er, Ex, solo_bind, solo_tame by apply tame_node. rewrite seq_node. cbn [fst snd s_map s_log].
  replace (mkShared (h_map s) (h_log s) (h_root s)) with s by (destruct s; reflexivity).
  destruct (get_node (h_map s) r) as [n|e]; cbn [bind]; [|reflexivity]. destruct (np_len p =? 0); [reflexivity|]. destruct n as [lp d|ep nr|bs d].
  - reflexivity.
  - destruct (np_starts_with p ep); [apply (IH _ _ _ x); auto|reflexivity].
  - cbv zeta. destruct (0 <? _); [apply (IH _ _ _ x); auto|reflexivity].
Qed.

Hypothesis keccak_len : forall b, length (keccak b) = 32.
Definition of_mpt (t : mpt) : shared := mkShared (m_map t) (m_log t) (m_root t).
Lemma solo_call : forall s lim c, 0 < lim -> let t := mkMpt (h_map s) (h_log s) (h_root s) secure in
  solo (call_prog secure lim c) s = (Ok (fst (single lim t c)), of_mpt (snd (single lim t c))).
Proof.
  intros s lim c Hl t. assert (Es : of_mpt t = s) by (destruct s; reflexivity). assert (Ek : forall k, eff_key t k = t_key secure k) by reflexivity.
  destruct c as [k|k|k v|k|tm k| |]; cbn [call_prog single fst snd]; rewrite solo_told.
  - assert (X : solo (call_get secure lim k) s = (mpt_get lim t k, s)); [|rewrite X, Es; reflexivity].
    unfold call_get, mpt_get, root_falsy, root_ref. rewrite solo_bind. cbn [proot solo]. subst t. cbn [m_root m_map] in *. destruct (h_root s) as [[|b r]|] eqn:Er; cbn [is_falsy].
    + reflexivity.
    + rewrite solo_bind. cbn [proot solo]. rewrite Er, solo_bind, solo_get, Ek. destruct (get_ _ _ _ _); reflexivity.
    + reflexivity.
  - assert (X : solo (call_contains secure lim k) s = (mpt_contains lim t k, s)); [|rewrite X, Es; reflexivity].
    unfold call_contains, mpt_contains, root_falsy, root_is_empty, root_ref. rewrite solo_bind. cbn [proot solo]. subst t. cbn [m_root m_map] in *. destruct (h_root s) as [[|b r]|] eqn:Er; cbn [is_falsy].
    + reflexivity.
    + rewrite solo_bind. cbn [proot solo]. rewrite Er, solo_bind. destruct (bytes_eqb (b :: r) EMPTY_HASH) eqn:Ee.
      * destruct lim as [|f]; [lia|]. cbn [p_contains]. rewrite solo_bind. cbn [proot solo]. rewrite Er, solo_bind. cbn [proot solo]. rewrite Er, Ee. reflexivity.
      * rewrite (solo_contains _ _ _ _ (b :: r) Er Ee), Ek. destruct (contains_ _ _ _ _) as [[[] ?]|]; reflexivity.
    + reflexivity.
  - assert (X : solo (call_update secure lim k v) s = (fst (mpt_update lim [] t k v), of_mpt (snd (mpt_update lim [] t k v))));
      [|rewrite X; destruct (mpt_update lim [] t k v); reflexivity].
    unfold call_update, mpt_update, run_op. rewrite Ek, solo_bind. cbn [proot solo]. rewrite solo_bind, solo_tame by (apply tame_update; exact keccak_len).
    destruct (same_update lim (root_ref t) (np_of (t_key secure k)) v (mkStore (h_map s) (h_log s) []) eq_refl) as [E _].
    unfold root_ref in *. subst t. cbn [m_root m_map m_log m_secure] in *. rewrite E. destruct (update_ _ _ _ _ _) as [[r|e] sv]; reflexivity.
  - assert (X : solo (call_delete secure lim k) s = (fst (mpt_delete lim [] t k), of_mpt (snd (mpt_delete lim [] t k))));
      [|rewrite X; destruct (mpt_delete lim [] t k); reflexivity].
    unfold call_delete, unless_empty, mpt_delete, run_op, root_is_empty, root_ref. rewrite Ek, solo_bind. cbn [proot solo]. subst t. cbn [m_root m_map m_log m_secure] in *.
    destruct (h_root s) as [r|] eqn:Er; [|destruct s; cbn in *; subst; reflexivity].
    rewrite solo_bind. cbn [proot solo]. rewrite Er. cbn [is_empty_hash]. destruct (bytes_eqb r EMPTY_HASH); [destruct s; cbn in *; subst; reflexivity|].
    rewrite solo_bind. cbn [proot solo]. rewrite Er, solo_bind, solo_tame by (apply tame_delete; exact keccak_len).
    destruct (same_delete lim r (np_of (t_key secure k)) (mkStore (h_map s) (h_log s) []) eq_refl) as [E _]. rewrite E. destruct (delete_ _ _ _ _) as [[a|e] sv].
    + reflexivity.
    + cbn [fst snd of_mpt m_map m_log m_root]. rewrite Er. reflexivity.
  - assert (X : solo (call_poi secure lim tm k) s = (mpt_get_poi lim tm t k, s)); [|rewrite X, Es; reflexivity].
    unfold call_poi, unless_empty, mpt_get_poi, root_is_empty, root_ref. rewrite solo_bind. cbn [proot solo]. rewrite Ek. subst t. cbn [m_root m_map] in *. destruct (h_root s) as [r|] eqn:Er; [|reflexivity].
    rewrite solo_bind. cbn [proot solo]. rewrite Er. cbn [is_empty_hash]. destruct (bytes_eqb r EMPTY_HASH); [reflexivity|].
    rewrite solo_bind. cbn [proot solo]. rewrite Er, solo_bind, solo_poi. destruct (get_poi_ _ _ _ _ _) as [l|e]; [|reflexivity].
    rewrite solo_bind. cbn [proot solo bind]. rewrite Er. reflexivity.
  - cbn [proot solo fst snd]. rewrite Es. reflexivity.
  - assert (X : solo call_hash s = (Ok (Some (root_hash t)), s)); [|rewrite X, Es; reflexivity].
    unfold call_hash, root_hash, root_falsy, root_ref. rewrite solo_bind. cbn [proot solo]. subst t. cbn [m_root]. destruct (h_root s) as [[|b r]|] eqn:Er; cbn [is_falsy]; try reflexivity.
    rewrite solo_bind. cbn [proot solo]. rewrite Er. destruct (length (b :: r) =? 32).
    + cbn [proot solo]. rewrite Er. reflexivity.
    + rewrite solo_bind. cbn [proot solo]. rewrite Er. reflexivity.
Qed.

(** Turn after turn. *)
Lemma go_at : forall s cs ds p, go secure (mkPool s (cs ++ p :: ds)) (MGo (length cs)) = mkPool (fst (access s p)) (cs ++ snd (access s p) :: ds).
Proof.
  intros s cs ds p. cbn [go p_calls p_obj]. rewrite nth_mid'. destruct (access s p) as [s' p']. cbn [fst snd].
  rewrite firstn_app, Nat.sub_diag, firstn_all, app_nil_r. rewrite skipn_app, (skipn_all2 cs) by lia.
  replace (S (length cs) - length cs) with 1 by lia. reflexivity.
Qed.
Lemma go_ret : forall s cs ds r n, run_moves secure (mkPool s (cs ++ PRet r :: ds)) (repeat (MGo (length cs)) n) = mkPool s (cs ++ PRet r :: ds).
Proof.
  intros s cs ds r n. induction n as [|n IH]; [reflexivity|]. cbn [repeat]. unfold run_moves in *. cbn [fold_left]. rewrite go_at. exact IH.
Qed.
Lemma go_solo : forall (p : prog tout) s cs ds, exists n, forall m, n <= m ->
  run_moves secure (mkPool s (cs ++ p :: ds)) (repeat (MGo (length cs)) m) = mkPool (snd (solo p s)) (cs ++ PRet (fst (solo p s)) :: ds).
Proof.
  assert (Step : forall p s cs ds s' p', access s p = (s', p') -> solo p s = solo p' s' ->
    (exists n, forall m, n <= m -> run_moves secure (mkPool s' (cs ++ p' :: ds)) (repeat (MGo (length cs)) m) = mkPool (snd (solo p' s')) (cs ++ PRet (fst (solo p' s')) :: ds)) ->
    exists n, forall m, n <= m -> run_moves secure (mkPool s (cs ++ p :: ds)) (repeat (MGo (length cs)) m) = mkPool (snd (solo p s)) (cs ++ PRet (fst (solo p s)) :: ds)).
  { intros p s cs ds s' p' Ea Es [n IH]. exists (S n). intros m Lm. destruct m as [|m]; [lia|]. cbn [repeat]. unfold run_moves in *. cbn [fold_left]. rewrite go_at, Ea, Es.
    cbn [fst snd]. apply IH. lia. }
  induction p as [r|h k IH|h e k IH|k IH|r k IH]; intros s cs ds.
  - exists 0. intros m _. apply go_ret.
  - eapply Step; [reflexivity|reflexivity|apply IH].
  - eapply Step; [reflexivity|reflexivity|apply IH].
  - eapply Step; [reflexivity|reflexivity|apply IH].
  - eapply Step; [reflexivity|reflexivity|apply IH].
Qed.
(** Up to where the first part of a call has ended. *)
Lemma go_until : forall A B (g : result B -> tout) (f : A -> prog B) (q : prog A) s cs ds, exists n,
  run_moves secure (mkPool s (cs ++ told g (pbind q f) :: ds)) (repeat (MGo (length cs)) n) =
  match solo q s with (Ok a, s') => mkPool s' (cs ++ told g (f a) :: ds) | (Err e, s') => mkPool s' (cs ++ PRet (Ok (g (Err e))) :: ds) end.
Proof.
  intros A B g f. induction q as [[a|e]|h k IH|h e k IH|k IH|r k IH]; intros s cs ds.
  - exists 0. reflexivity.
  - exists 0. reflexivity.
  - destruct (IH (dget (h_map s) h) s cs ds) as [n E]. exists (S n). cbn [repeat]. unfold run_moves in *. cbn [fold_left]. rewrite go_at. exact E.
  - destruct (IH (mkShared (dset (h_map s) h e) (e :: h_log s) (h_root s)) cs ds) as [n E]. exists (S n). cbn [repeat]. unfold run_moves in *. cbn [fold_left]. rewrite go_at. exact E.
  - destruct (IH (h_root s) s cs ds) as [n E]. exists (S n). cbn [repeat]. unfold run_moves in *. cbn [fold_left]. rewrite go_at. exact E.
  - destruct (IH (mkShared (h_map s) (h_log s) r) cs ds) as [n E]. exists (S n). cbn [repeat]. unfold run_moves in *. cbn [fold_left]. rewrite go_at. exact E.
Qed.
Theorem alone : forall w lim c, 0 < lim -> exists n, forall m, n <= m ->
  let w' := run_moves secure w (MCall lim c :: repeat (MGo (length (p_calls w))) m) in
  answer_of w' (length (p_calls w)) = Some (fst (single lim (object secure w) c)) /\ object secure w' = snd (single lim (object secure w) c) /\
  firstn (length (p_calls w)) (p_calls w') = p_calls w.
Proof.
  intros [s cs] lim c Hl. cbn [p_calls]. destruct (go_solo (call_prog secure lim c) s cs []) as [n Hn]. exists n. intros m Lm. specialize (Hn m Lm).
  rewrite (solo_call s lim c Hl) in Hn. cbn [fst snd] in Hn. unfold run_moves in *. cbn [fold_left go p_obj p_calls]. rewrite Hn.
  unfold answer_of, object. cbn [p_obj p_calls]. rewrite nth_mid'. split; [reflexivity|]. split.
  - cbn [p_obj]. unfold of_mpt. cbn [h_map h_log h_root].
    assert (Sec : m_secure (snd (single lim (mkMpt (h_map s) (h_log s) (h_root s) secure) c)) = secure).
    { destruct c as [k|k|k v|k|tm k| |]; cbn [single snd]; try reflexivity.
      - unfold mpt_update, run_op. destruct (update_ _ _ _ _ _) as [[]]; reflexivity.
      - unfold mpt_delete, run_op. destruct (root_is_empty _); [reflexivity|]. destruct (delete_ _ _ _ _) as [[]]; reflexivity. }
    destruct (snd (single lim (mkMpt (h_map s) (h_log s) (h_root s) secure) c)) as [m0 l0 r0 s0]. cbn [m_secure] in Sec. subst s0. reflexivity.
  - rewrite firstn_app, Nat.sub_diag, firstn_all, app_nil_r. reflexivity.
Qed.

(** ** How many accesses a call makes *)
Fixpoint within {A} (n : nat) (p : prog A) {struct p} : Prop :=
  match p with
  | PRet _ => True
  | PGet _ k => match n with 0 => False | S n => forall o, within n (k o) end
  | PSet _ _ k => match n with 0 => False | S n => within n k end
  | PRoot k => match n with 0 => False | S n => forall o, within n (k o) end
  | PAssign _ k => match n with 0 => False | S n => within n k end
  end.
Lemma within_more : forall A (p : prog A) n m, within n p -> n <= m -> within m p.
Proof.
  intros A p. induction p as [r|h k IH|h e k IH|k IH|r k IH]; intros [|n] [|m] W L; cbn [within] in *; auto; try lia; try contradiction.
  - intros o. apply (IH o n); [apply W|lia].
  - apply (IH n); [exact W|lia].
  - intros o. apply (IH o n); [apply W|lia].
  - apply (IH n); [exact W|lia].
Qed.
Lemma within_bind : forall A B (p : prog A) (f : A -> prog B) n m, within n p -> (forall a, within m (f a)) -> within (n + m) (pbind p f).
Proof.
  intros A B p f. induction p as [[a|e]|h k IH|h e k IH|k IH|r k IH]; intros n m W Hf; cbn [pbind].
  - apply (within_more _ _ m); [apply Hf|lia].
  - exact I.
  - destruct n as [|n]; [destruct W|]. cbn [within Nat.add] in *. intros o. apply IH; auto.
  - destruct n as [|n]; [destruct W|]. cbn [within Nat.add] in *. apply IH; auto.
  - destruct n as [|n]; [destruct W|]. cbn [within Nat.add] in *. intros o. apply IH; auto.
  - destruct n as [|n]; [destruct W|]. cbn [within Nat.add] in *. apply IH; auto.
Qed.
Lemma within_told : forall A (g : result A -> tout) (p : prog A) n, within n p -> within n (told g p).
Proof.
  intros A g p. induction p as [r|h k IH|h e k IH|k IH|r k IH]; intros [|n] W; cbn [told within] in *; auto.
Qed.
Lemma within_root : within 1 proot.
Proof. intros o. exact I. Qed.
Lemma within_node : forall r, within 1 (p_node r).
Proof. intros [r|]; cbn [p_node]; [destruct (length r =? 32)|]; cbn; auto. Qed.
Lemma within_store : forall n, within 1 (p_store n).
Proof.
  intros n. unfold p_store. destruct (into_reference n) as [r|e]; cbn [pbind]; [|exact I]. destruct (length r =? 32); [|exact I].
  destruct (node_encode n); cbn; exact I.
Qed.
Ltac wb a b := match goal with |- within ?n (pbind _ _) => apply (within_more _ _ (a + b)); [apply within_bind; [|intros]|lia] end.
Ltac wd := first [exact I | apply within_store | apply within_node | apply within_root].
Lemma within_get : forall f r p, within f (p_get f r p).
Proof.
  induction f as [|f IH]; intros r p; cbn [p_get]; [exact I|]. wb 1 f; [wd|]. destruct (np_len p =? 0); [exact I|]. destruct a as [lp d|ep nr|bs d].
  - destruct (np_eq lp p); exact I.
  - destruct (np_starts_with p ep); [apply IH|exact I].
  - cbv zeta. destruct (0 <? _); [apply IH|exact I].
Qed.
Lemma within_contains : forall f r p, within (3 * f) (p_contains f r p).
Proof.
  induction f as [|f IH]; intros r p; cbn [p_contains]; [exact I|]. wb 1 (2 + 3 * f); [wd|]. destruct a as [x|]; [|exact I].
  wb 1 (1 + 3 * f); [wd|]. destruct (match a with Some x0 => bytes_eqb x0 EMPTY_HASH | None => false end); [exact I|].
  wb 1 (3 * f); [wd|]. destruct (np_len p =? 0); [exact I|]. destruct a0 as [lp d|ep nr|bs d].
  - exact I.
  - destruct (np_starts_with p ep); [apply IH|exact I].
  - cbv zeta. destruct (0 <? _); [apply IH|exact I].
Qed.
Lemma within_poi : forall f r p acc, within f (p_poi f r p acc).
Proof.
  induction f as [|f IH]; intros r p acc; cbn [p_poi]; [exact I|]. wb 1 f; [wd|]. destruct (np_len p =? 0); [destruct (node_encode a); exact I|].
  destruct a as [lp d|ep nr|bs d].
  - destruct (np_eq lp p); [destruct (node_encode (Leaf lp d))|]; exact I.
  - destruct (np_starts_with p ep); [|exact I]. destruct (node_encode (Extension ep nr)); [apply IH|exact I].
  - cbv zeta. destruct (0 <? _); [|exact I]. destruct (node_encode (Branch bs d)); [apply IH|exact I].
Qed.
Lemma within_branch_leaf : forall p v bs, within 1 (p_branch_leaf p v bs).
Proof. intros p v bs. unfold p_branch_leaf. destruct (0 <? np_len p); [|exact I]. wb 1 0; wd. Qed.
Lemma within_branch_node : forall a va b vb, within 3 (p_branch_node a va b vb).
Proof.
  intros a va b vb. unfold p_branch_node. destruct (_ && _); [exact I|]. wb 1 2; [apply within_branch_leaf|]. wb 1 1; [apply within_branch_leaf|]. wd.
Qed.
Lemma within_branch_extension : forall p nr bs, within 1 (p_branch_extension p nr bs).
Proof. intros p nr bs. unfold p_branch_extension. destruct (np_len p <? 1); [exact I|]. destruct (np_len p =? 1); [exact I|]. wb 1 0; wd. Qed.
Lemma within_update : forall f r p v, within (2 * f + 3) (p_update f r p v).
Proof.
  induction f as [|f IH]; intros r p v; cbn [p_update]; [exact I|]. destruct (ref_is_empty r); [apply (within_more _ _ 1); [wd|lia]|].
  wb 1 (2 * f + 4); [wd|]. destruct a as [lp d|ep nr|bs d].
  - destruct (np_eq lp p); [apply (within_more _ _ 1); [wd|lia]|]. cbv zeta. wb 3 1; [apply within_branch_node|]. destruct (_ =? 0); wd.
  - destruct (np_starts_with p ep).
    + wb (2 * f + 3) 1; [apply IH|wd].
    + cbv zeta. wb 1 3; [apply within_branch_leaf|]. wb 1 2; [apply within_branch_extension|]. wb 1 1; [wd|]. destruct (_ =? 0); wd.
  - destruct (np_len p =? 0); [apply (within_more _ _ 1); [wd|lia]|]. cbv zeta. wb (2 * f + 3) 1; [apply IH|wd].
Qed.
Lemma within_branch_deleted : forall bs d, within 2 (p_branch_deleted bs d).
Proof.
  intros bs d. unfold p_branch_deleted. cbv zeta. destruct (_ && _); [exact I|]. destruct (_ && _); [wb 1 0; wd|]. destruct (_ && _); [|wb 1 0; wd].
  unfold p_build. cbv zeta. wb 1 1; [wd|]. destruct a; (wb 1 0; wd).
Qed.
Lemma within_delete : forall f r p, within (3 * f) (p_delete f r p).
Proof.
  induction f as [|f IH]; intros r p; cbn [p_delete]; [exact I|]. wb 1 (3 * f + 2); [wd|]. destruct a as [lp d|ep nr|bs d].
  - destruct (np_eq p lp); exact I.
  - destruct (np_starts_with p ep); [|exact I]. wb (3 * f) 2; [apply IH|]. destruct a as [|cr|sp sr].
    + exact I.
    + wb 1 0; wd.
    + wb 1 1; [wd|]. wb 1 0; wd.
  - destruct (_ && _); [exact I|]. destruct (np_len p =? 0); [apply (within_more _ _ 2); [apply within_branch_deleted|lia]|]. cbv zeta.
    destruct (length _ =? 0); [exact I|]. wb (3 * f) 2; [apply IH|]. destruct a as [|nr|sp nr].
    + apply within_branch_deleted.
    + wb 1 0; wd.
    + wb 1 0; wd.
Qed.
Lemma within_call : forall lim c, within (3 * lim + 5) (call_prog secure lim c).
Proof.
  intros lim c. destruct c as [k|k|k v|k|tm k| |]; cbn [call_prog]; apply within_told.
  - unfold call_get. wb 1 (lim + 1); [wd|]. destruct (is_falsy a); [exact I|]. wb 1 lim; [wd|]. wb lim 0; [apply within_get|wd].
  - unfold call_contains. wb 1 (1 + 3 * lim); [wd|]. destruct (is_falsy a); [exact I|]. wb 1 (3 * lim); [wd|]. wb (3 * lim) 0; [apply within_contains|wd].
  - unfold call_update. wb 1 (2 * lim + 4); [wd|]. wb (2 * lim + 3) 1; [apply within_update|exact I].
  - unfold call_delete, unless_empty. wb 1 (3 * lim + 3); [wd|]. destruct a; [|exact I]. wb 1 (3 * lim + 2); [wd|]. destruct (is_empty_hash a); [exact I|].
    wb 1 (3 * lim + 1); [wd|]. wb (3 * lim) 1; [apply within_delete|exact I].
  - unfold call_poi, unless_empty. wb 1 (3 + lim); [wd|]. destruct a; [|exact I]. wb 1 (2 + lim); [wd|]. destruct (is_empty_hash a); [exact I|].
    wb 1 (lim + 1); [wd|]. wb lim 1; [apply within_poi|]. wb 1 0; [wd|]. match goal with |- within 0 (match ?x with _ => _ end) => destruct x; exact I end.
  - apply (within_more _ _ 1); [wd|lia].
  - unfold call_hash. wb 1 2; [wd|]. destruct (is_falsy a); [exact I|]. wb 1 1; [wd|]. destruct a0 as [b|]; [|exact I].
    destruct (length b =? 32); [wd|]. wb 1 0; [wd|]. match goal with |- within 0 (match ?x with _ => _ end) => destruct x; exact I end.
Qed.
Fixpoint tells {A} (p : prog A) : Prop :=
  match p with
  | PRet (Ok _) => True | PRet (Err _) => False
  | PGet _ k => forall o, tells (k o) | PSet _ _ k => tells k | PRoot k => forall o, tells (k o) | PAssign _ k => tells k
  end.
Lemma told_tells : forall A (g : result A -> tout) (p : prog A), tells (told g p).
Proof. intros A g p. induction p as [r|h k IH|h e k IH|k IH|r k IH]; cbn [told tells]; auto. Qed.
Lemma access_within : forall s p n, within n p -> tells p -> within (pred n) (snd (access s p)) /\ tells (snd (access s p)).
Proof.
  intros s p n W T. destruct p as [r|h k|h e k|k|r k]; cbn [access snd]; [split; [exact I|exact T]|destruct n; [destruct W|]; cbn [within pred tells] in *; auto..].
Qed.
Lemma runs_within : forall ms w i p n, nth_error (p_calls w) i = Some p -> within n p -> tells p -> n <= turns_of i ms ->
  answer_of (run_moves secure w ms) i <> None.
Proof.
  induction ms as [|m ms IH]; intros w i p n Ep W T L.
  - cbn in L. assert (n = 0) by lia. subst n. unfold run_moves. cbn [fold_left]. unfold answer_of. rewrite Ep.
    destruct p as [[o|e]|h k|h e k|k|r k]; cbn in W, T; try contradiction. discriminate.
  - unfold run_moves. cbn [fold_left]. destruct m as [lim c|j].
    + apply (IH _ i p n); auto. cbn [go p_calls]. rewrite nth_error_app1; [exact Ep|]. apply nth_error_Some. congruence.
    + cbn [go]. destruct (nth_error (p_calls w) j) as [q|] eqn:Eq.
      2: { apply (IH _ i p n); auto. unfold turns_of in *. cbn [filter] in L. destruct (j =? i) eqn:Ej; [|exact L]. apply Nat.eqb_eq in Ej. congruence. }
      destruct (access (p_obj w) q) as [s' q'] eqn:Ea. destruct (split_at _ _ _ _ Eq) as [El Elen]. unfold turns_of in L. cbn [filter] in L. destruct (j =? i) eqn:Ej.
      * apply Nat.eqb_eq in Ej. subst j. rewrite Ep in Eq. injection Eq as <-. destruct (access_within (p_obj w) p n W T) as [W' T']. rewrite Ea in W', T'. cbn [snd] in W', T'.
        apply (IH _ i q' (pred n)); auto; [|cbn [length] in L; unfold turns_of; lia]. cbn [p_calls]. pose proof (nth_mid' _ (firstn i (p_calls w)) (skipn (S i) (p_calls w)) q') as X. rewrite Elen in X. exact X.
      * apply Nat.eqb_neq in Ej. apply (IH _ i p n); auto. cbn [p_calls]. rewrite El in Ep. destruct (nth_put _ _ _ _ q' _ _ Ep) as [[Ex _]|[_ E3]]; [congruence|exact E3].
Qed.
Theorem answers : forall w lim c ms, 3 * lim + 5 <= turns_of (length (p_calls w)) ms ->
  answer_of (run_moves secure w (MCall lim c :: ms)) (length (p_calls w)) <> None.
Proof.
  intros w lim c ms L. unfold run_moves. cbn [fold_left go]. eapply runs_within; [cbn [p_calls]; apply nth_mid'|apply within_call| |exact L].
  destruct c; apply told_tells.
Qed.
End S.
