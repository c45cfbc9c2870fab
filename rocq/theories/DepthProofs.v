(** The recursion limit: more room never changes an answer, and a call that hits the limit changes nothing. *)
From Coq Require Import List Bool Arith NArith ZArith Lia.
From Verif Require Import Base BaseProofs Rlp NibblePath Node ProofObj Mpt SpecVerdict VerdictProofs SpecDepth.
Import ListNotations.
Section WithHash.
Context {H : Hash}.

(** ** Reading *)
Lemma get_more : forall f f' m r p, f <= f' -> get_ f m r p = Err RecursionError \/ get_ f' m r p = get_ f m r p.
Proof.
  induction f as [|f IH]; intros f' m r p Hf; cbn [get_]; [auto|]. destruct f' as [|f']; [lia|]. cbn [get_].
  destruct (get_node m r) as [n|e]; [|auto]. destruct (np_len p =? 0); [auto|]. destruct n as [lp d|ep nr|bs d]; [auto|..].
  - destruct (np_starts_with p ep); [|auto]. apply IH. lia.
  - cbv zeta. destruct (0 <? _); [|auto]. apply IH. lia.
Qed.
Lemma contains_more : forall f f' m r p, f <= f' -> contains_ f m r p = Err RecursionError \/ contains_ f' m r p = contains_ f m r p.
Proof.
  induction f as [|f IH]; intros f' m r p Hf; cbn [contains_]; [auto|]. destruct f' as [|f']; [lia|]. cbn [contains_].
  destruct (get_node m r) as [n|e]; [|auto]. destruct (np_len p =? 0); [auto|]. destruct n as [lp d|ep nr|bs d]; [auto|..].
  - destruct (np_starts_with p ep); [|auto]. apply IH. lia.
  - cbv zeta. destruct (0 <? _); [|auto]. apply IH. lia.
Qed.
Lemma poi_more : forall f f' m r p acc, f <= f' -> get_poi_ f m r p acc = Err RecursionError \/ get_poi_ f' m r p acc = get_poi_ f m r p acc.
Proof.
  induction f as [|f IH]; intros f' m r p acc Hf; cbn [get_poi_]; [auto|]. destruct f' as [|f']; [lia|]. cbn [get_poi_].
  destruct (get_node m r) as [n|e]; cbn [bind]; [|auto]. destruct (np_len p =? 0); [auto|]. destruct n as [lp d|ep nr|bs d]; [auto|..].
  - destruct (np_starts_with p ep); [|auto]. destruct (node_encode _); cbn [bind]; [|auto]. apply IH. lia.
  - cbv zeta. destruct (0 <? _); [|auto]. destruct (node_encode _); cbn [bind]; [|auto]. apply IH. lia.
Qed.
Lemma poe_more : forall f f' m r p acc, f <= f' -> get_poe_ f m r p acc = Err RecursionError \/ get_poe_ f' m r p acc = get_poe_ f m r p acc.
Proof.
  induction f as [|f IH]; intros f' m r p acc Hf; cbn [get_poe_]; [auto|]. destruct f' as [|f']; [lia|]. cbn [get_poe_].
  destruct (get_node m r) as [n|e]; cbn [bind]; [|auto]. destruct (np_len p =? 0); [auto|]. destruct n as [lp d|ep nr|bs d]; [auto|..].
  - destruct (np_starts_with p ep); [|auto]. destruct (node_encode _); cbn [bind]; [|auto]. apply IH. lia.
  - cbv zeta. destruct (node_encode _); cbn [bind]; [|auto]. destruct (0 <? _); [|auto]. apply IH. lia.
Qed.
Lemma vpoi_more : forall f f' ps r p, f <= f' -> verify_poi_ f ps r p = Err RecursionError \/ verify_poi_ f' ps r p = verify_poi_ f ps r p.
Proof.
  induction f as [|f IH]; intros f' ps r p Hf; cbn [verify_poi_]; [auto|]. destruct f' as [|f']; [lia|]. cbn [verify_poi_]. cbv zeta.
  destruct (if length r =? 32 then dget ps r else Some r) as [raw|]; [|auto]. destruct (node_decode raw) as [n|]; cbn [bind]; [|auto].
  destruct (np_len p =? 0); [auto|]. destruct n as [lp d|ep nr|bs d]; [auto|..].
  - destruct (np_starts_with p ep); [|auto]. apply IH. lia.
  - destruct (0 <? _); [|auto]. apply IH. lia.
Qed.
Lemma vpoe_more : forall f f' ps r p, f <= f' -> verify_poe_ f ps r p = Err RecursionError \/ verify_poe_ f' ps r p = verify_poe_ f ps r p.
Proof.
  induction f as [|f IH]; intros f' ps r p Hf; cbn [verify_poe_]; [auto|]. destruct f' as [|f']; [lia|]. cbn [verify_poe_]. cbv zeta.
  destruct (if length r =? 32 then dget ps r else Some r) as [raw|]; [|auto]. destruct (node_decode raw) as [n|]; cbn [bind]; [|auto].
  destruct (dget ps r); [|auto]. destruct (np_len p =? 0); [auto|]. destruct n as [lp d|ep nr|bs d]; [auto|..].
  - destruct (np_starts_with p ep); [|auto]. apply IH. lia.
  - destruct (0 <? _); [|auto]. apply IH. lia.
Qed.

Lemma mpt_get_more : forall lim lim' t k, lim <= lim' -> mpt_get lim t k = Err RecursionError \/ mpt_get lim' t k = mpt_get lim t k.
Proof.
  intros lim lim' t k Hl. unfold mpt_get. destruct (root_falsy t); [auto|].
  destruct (get_more _ _ (m_map t) (root_ref t) (np_of (eff_key t k)) Hl) as [->| ->]; auto.
Qed.
Lemma mpt_contains_more : forall lim lim' t k, lim <= lim' -> mpt_contains lim t k = Err RecursionError \/ mpt_contains lim' t k = mpt_contains lim t k.
Proof.
  intros lim lim' t k Hl. unfold mpt_contains. destruct (root_falsy t); [auto|]. destruct (root_is_empty t); [auto|].
  destruct (contains_more _ _ (m_map t) (root_ref t) (np_of (eff_key t k)) Hl) as [->| ->]; auto.
Qed.
Lemma mpt_poi_more : forall lim lim' tm t k, lim <= lim' -> mpt_get_poi lim tm t k = Err RecursionError \/ mpt_get_poi lim' tm t k = mpt_get_poi lim tm t k.
Proof.
  intros lim lim' tm t k Hl. unfold mpt_get_poi. destruct (root_is_empty t); [auto|].
  destruct (poi_more _ _ (m_map t) (root_ref t) (np_of (eff_key t k)) [] Hl) as [->| ->]; auto.
Qed.
Lemma mpt_poe_more : forall lim lim' tm t k, lim <= lim' -> mpt_get_poe lim tm t k = Err RecursionError \/ mpt_get_poe lim' tm t k = mpt_get_poe lim tm t k.
Proof.
  intros lim lim' tm t k Hl. unfold mpt_get_poe. destruct (root_is_empty t); [auto|].
  destruct (mpt_contains_more _ _ t k Hl) as [->| ->]; [auto|]. destruct (mpt_contains lim t k) as [[|]|]; cbn [bind]; auto.
  destruct (poe_more _ _ (m_map t) (root_ref t) (np_of (eff_key t k)) [] Hl) as [->| ->]; auto.
Qed.
Lemma mpt_vpoi_more : forall lim lim' t p, lim <= lim' -> mpt_verify_poi lim t p = Err RecursionError \/ mpt_verify_poi lim' t p = mpt_verify_poi lim t p.
Proof.
  intros lim lim' t p Hl. unfold mpt_verify_poi. destruct (negb _); [auto|]. destruct (root_is_empty t); [auto|]. destruct (hash_first p) as [h|]; cbn [bind]; [|auto].
  destruct (negb _); [auto|]. destruct (poi_storage _ _) as [[ps|]|]; cbn [bind]; auto.
  destruct (vpoi_more _ _ ps (root_ref t) (np_of (pf_key p)) Hl) as [->| ->]; auto.
Qed.
Lemma mpt_vpoe_more : forall lim lim' t p, lim <= lim' -> mpt_verify_poe lim t p = Err RecursionError \/ mpt_verify_poe lim' t p = mpt_verify_poe lim t p.
Proof.
  intros lim lim' t p Hl. unfold mpt_verify_poe. destruct (negb _); [auto|]. destruct (root_is_empty t); [auto|]. destruct (hash_first p) as [h|]; cbn [bind]; [|auto].
  destruct (negb _); [auto|]. destruct (decode_last _) as [n|]; cbn [bind]; [|auto]. destruct (node_data n) as [d|]; cbn [bind]; [|auto]. destruct (negb _); [auto|].
  destruct (poe_storage _ _) as [ps|]; cbn [bind]; [|auto].
  destruct (vpoe_more _ _ ps (root_ref t) (np_of (pf_key p)) Hl) as [->| ->]; auto.
Qed.

(** ** Writing *)
Definition deep {A} (s : store) (x : result A * store) : Prop := exists fl, x = (Err RecursionError, mkStore (s_map s) (s_log s) fl).
Lemma deep_bind : forall A B (m : M A) (k : A -> M B) s, deep s (m s) -> deep s (mbind m k s).
Proof. intros A B m k s [fl E]. exists fl. unfold mbind. now rewrite E. Qed.
Lemma rd_state : forall r s, exists fl, snd (rd_node r s) = mkStore (s_map s) (s_log s) fl.
Proof.
  intros r [m l fs]. unfold rd_node, mbind, tick, ret. cbn [s_map s_log s_faults]. destruct (length r =? 32); [destruct fs as [|[|] fs]|]; eexists; reflexivity.
Qed.
Lemma rd_then : forall A r (k k' : node -> M A) s, (forall n s', s_map s' = s_map s -> s_log s' = s_log s -> deep s' (k n s') \/ k' n s' = k n s') ->
  deep s (mbind (rd_node r) k s) \/ mbind (rd_node r) k' s = mbind (rd_node r) k s.
Proof.
  intros A r k k' s Hk. unfold mbind at 1 2 3. destruct (rd_state r s) as [fl E]. destruct (rd_node r s) as [[n|e] s'] eqn:R; cbn [snd] in E; subst s'; [|auto].
  destruct (Hk n (mkStore (s_map s) (s_log s) fl) eq_refl eq_refl) as [[fl' D]|D]; [left; exists fl'; exact D|right; exact D].
Qed.
Lemma then_more : forall A B (m m' : M A) (k : A -> M B) s, deep s (m s) \/ m' s = m s -> deep s (mbind m k s) \/ mbind m' k s = mbind m k s.
Proof. intros A B m m' k s [D|E]; [left; now apply deep_bind|right]. unfold mbind. now rewrite E. Qed.

Lemma update_more : forall f f' r p v s, f <= f' -> deep s (update_ f r p v s) \/ update_ f' r p v s = update_ f r p v s.
Proof.
  induction f as [|f IH]; intros f' r p v s Hf; cbn [update_].
  { left. exists (s_faults s). destruct s. reflexivity. }
  destruct f' as [|f']; [lia|]. cbn [update_]. destruct (ref_is_empty r); [auto|].
  apply rd_then. intros n s' _ _. destruct n as [lp d|ep nr|bs d]; [auto|..].
  - destruct (np_starts_with p ep); [|auto]. apply then_more. apply IH. lia.
  - destruct (np_len p =? 0); [auto|]. cbv zeta. apply then_more. apply IH. lia.
Qed.
Lemma delete_more : forall f f' r p s, f <= f' -> deep s (delete_ f r p s) \/ delete_ f' r p s = delete_ f r p s.
Proof.
  induction f as [|f IH]; intros f' r p s Hf; cbn [delete_].
  { left. exists (s_faults s). destruct s. reflexivity. }
  destruct f' as [|f']; [lia|]. cbn [delete_].
  apply rd_then. intros n s' _ _. destruct n as [lp d|ep nr|bs d]; [auto|..].
  - destruct (np_starts_with p ep); [|auto]. apply then_more. apply IH. lia.
  - destruct (_ && _); [auto|]. destruct (np_len p =? 0); [auto|]. cbv zeta. destruct (length _ =? 0); [auto|]. apply then_more. apply IH. lia.
Qed.

Lemma run_more : forall A (m m' : M A) t fl nr, (forall s, deep s (m s) \/ m' s = m s) ->
  run_op t fl m nr = (Err RecursionError, t) \/ run_op t fl m' nr = run_op t fl m nr.
Proof.
  intros A m m' t fl nr Hm. unfold run_op. destruct (Hm (mkStore (m_map t) (m_log t) fl)) as [[fl' E]|E]; rewrite E; [left|auto].
  cbn [s_map s_log]. now destruct t.
Qed.
Lemma mpt_update_more : forall lim lim' fl t k v, lim <= lim' ->
  mpt_update lim fl t k v = (Err RecursionError, t) \/ mpt_update lim' fl t k v = mpt_update lim fl t k v.
Proof. intros lim lim' fl t k v Hl. apply run_more. intros s. now apply update_more. Qed.
Lemma mpt_delete_more : forall lim lim' fl t k, lim <= lim' ->
  mpt_delete lim fl t k = (Err RecursionError, t) \/ mpt_delete lim' fl t k = mpt_delete lim fl t k.
Proof. intros lim lim' fl t k Hl. unfold mpt_delete. destruct (root_is_empty t); [auto|]. apply run_more. intros s. now apply delete_more. Qed.

(** ** Only the walk raises RecursionError *)
Definition quiet {A} (m : M A) : Prop := forall s s', m s <> (Err RecursionError, s').
Lemma quiet_ret : forall A (a : A), quiet (ret a).
Proof. intros A a s s'. discriminate. Qed.
Lemma quiet_bind : forall A B (m : M A) (k : A -> M B), quiet m -> (forall a, quiet (k a)) -> quiet (mbind m k).
Proof.
  intros A B m k Qm Qk s s'. unfold mbind. destruct (m s) as [[a|e] s1] eqn:E; [apply Qk|]. intros X. injection X as -> ->. now apply (Qm s s').
Qed.
Lemma quiet_raise : forall A e, e <> RecursionError -> quiet (@raise A e).
Proof. intros A e N s s' X. injection X as -> _. now apply N. Qed.
Lemma encode_quiet : forall n, node_encode n <> Err RecursionError.
Proof. intros n E. apply encode_raises in E as [[_ E]|(_ & _ & E)]; discriminate. Qed.
Lemma node_quiet : forall b, node_decode b <> Err RecursionError.
Proof. intros b E. apply decode_raises in E. inversion E. Qed.
Lemma get_node_quiet : forall m r, get_node m r <> Err RecursionError.
Proof. intros m r. unfold get_node. destruct (length r =? 32); [destruct (dget m r); [apply node_quiet|discriminate]|apply node_quiet]. Qed.
Lemma tick_quiet : quiet tick.
Proof. intros s s'. unfold tick. destruct (s_faults s) as [|[|] fs]; discriminate. Qed.
Lemma store_quiet : forall n, quiet (store_node n).
Proof.
  intros n. unfold store_node. apply quiet_bind.
  - intros s s' X. unfold lift in X. injection X as X _. unfold into_reference in X. destruct (node_encode n) as [e|e] eqn:E; cbn [bind] in X; [discriminate|].
    injection X as ->. now apply encode_quiet in E.
  - intros r. destruct (length r =? 32); [|apply quiet_ret]. apply quiet_bind.
    + intros s s' X. unfold lift in X. injection X as X _. now apply encode_quiet in X.
    + intros e. apply quiet_bind; [|intros _; apply quiet_ret]. unfold write. apply quiet_bind; [apply tick_quiet|]. intros _ s s'. discriminate.
Qed.
Lemma leaf_quiet : forall p v bs, quiet (create_branch_leaf p v bs).
Proof. intros p v bs. unfold create_branch_leaf. destruct (0 <? _); [|apply quiet_ret]. cbv zeta. apply quiet_bind; [apply store_quiet|]. intros r. apply quiet_ret. Qed.
Lemma node_branch_quiet : forall pa va pb vb, quiet (create_branch_node pa va pb vb).
Proof.
  intros. unfold create_branch_node. destruct (_ && _); [now apply quiet_raise|]. cbv zeta. apply quiet_bind; [apply leaf_quiet|]. intros bs.
  apply quiet_bind; [apply leaf_quiet|]. intros bs'. apply store_quiet.
Qed.
Lemma ext_quiet : forall p nr bs, quiet (create_branch_extension p nr bs).
Proof.
  intros. unfold create_branch_extension. destruct (_ <? _); [now apply quiet_raise|]. destruct (_ =? _); [apply quiet_ret|]. cbv zeta.
  apply quiet_bind; [apply store_quiet|]. intros r. apply quiet_ret.
Qed.
Lemma rd_quiet : forall r, quiet (rd_node r).
Proof.
  intros r. unfold rd_node. apply quiet_bind; [destruct (length r =? 32); [apply tick_quiet|apply quiet_ret]|]. intros _ s s' X. injection X as X _. now apply get_node_quiet in X.
Qed.

(** Raising RecursionError means nothing was written. *)
Definition clean {A} (m : M A) : Prop := forall s s', m s = (Err RecursionError, s') -> deep s (m s).
Lemma quiet_clean : forall A (m : M A), quiet m -> clean m.
Proof. intros A m Q s s' X. now apply Q in X. Qed.
Lemma clean_rd : forall A r (k : node -> M A), (forall n, clean (k n)) -> clean (mbind (rd_node r) k).
Proof.
  intros A r k C s s' X. unfold mbind in X |- *. destruct (rd_state r s) as [fl E]. destruct (rd_node r s) as [[n|e] s1] eqn:R; cbn [snd] in E; subst s1.
  - destruct (C n _ _ X) as [fl' D]. exists fl'. exact D.
  - injection X as -> _. now apply rd_quiet in R.
Qed.
Lemma clean_then : forall A B (m : M A) (k : A -> M B), clean m -> (forall a, quiet (k a)) -> clean (mbind m k).
Proof.
  intros A B m k C Q s s' X. unfold mbind in X |- *. destruct (m s) as [[a|e] s1] eqn:E.
  - now apply Q in X.
  - injection X as -> ->. destruct (C s s' E) as [fl D]. exists fl. congruence.
Qed.
Lemma update_clean : forall f r p v, clean (update_ f r p v).
Proof.
  induction f as [|f IH]; intros r p v; cbn [update_].
  { intros s s' _. exists (s_faults s). destruct s. reflexivity. }
  destruct (ref_is_empty r); [apply quiet_clean, store_quiet|]. apply clean_rd. intros [lp d|ep nr|bs d].
  - apply quiet_clean. destruct (np_eq lp p); [apply store_quiet|]. cbv zeta. apply quiet_bind; [apply node_branch_quiet|]. intros br.
    destruct (_ =? 0); [apply quiet_ret|apply store_quiet].
  - destruct (np_starts_with p ep).
    + apply clean_then; [apply IH|]. intros nr'. apply store_quiet.
    + apply quiet_clean. cbv zeta. apply quiet_bind; [apply leaf_quiet|]. intros bs. apply quiet_bind; [apply ext_quiet|]. intros bs'.
      apply quiet_bind; [apply store_quiet|]. intros br. destruct (_ =? 0); [apply quiet_ret|apply store_quiet].
  - destruct (np_len p =? 0); [apply quiet_clean, store_quiet|]. cbv zeta. apply clean_then; [apply IH|]. intros nr. apply store_quiet.
Qed.
Lemma built_quiet : forall n a, quiet (mbind (store_node n) (fun r => ret (a r : daction))).
Proof. intros n a. apply quiet_bind; [apply store_quiet|]. intros r. apply quiet_ret. Qed.
Lemma new_node_quiet : forall bs, quiet (build_new_node bs).
Proof.
  intros bs. unfold build_new_node. cbv zeta. apply quiet_bind; [apply rd_quiet|]. intros [cp d|cp nr|bs' d]; cbv zeta; apply built_quiet.
Qed.
Lemma branch_deleted_quiet : forall bs d, quiet (branch_deleted bs d).
Proof.
  intros bs d. unfold branch_deleted. cbv zeta. destruct (_ && _); [apply quiet_ret|]. destruct (_ && _); [apply built_quiet|].
  destruct (_ && _); [apply new_node_quiet|apply built_quiet].
Qed.
Lemma delete_clean : forall f r p, clean (delete_ f r p).
Proof.
  induction f as [|f IH]; intros r p; cbn [delete_].
  { intros s s' _. exists (s_faults s). destruct s. reflexivity. }
  apply clean_rd. intros [lp d|ep nr|bs d].
  - apply quiet_clean. destruct (np_eq p lp); [apply quiet_ret|now apply quiet_raise].
  - destruct (np_starts_with p ep); [|apply quiet_clean; now apply quiet_raise]. apply clean_then; [apply IH|]. intros [|cr|sp sr].
    + apply quiet_ret.
    + apply built_quiet.
    + apply quiet_bind; [apply rd_quiet|]. intros n. apply built_quiet.
  - destruct (_ && _); [apply quiet_clean; now apply quiet_raise|]. destruct (np_len p =? 0); [apply quiet_clean, branch_deleted_quiet|]. cbv zeta.
    destruct (length _ =? 0); [apply quiet_clean; now apply quiet_raise|]. apply clean_then; [apply IH|]. intros [|cr|sp sr]; [apply branch_deleted_quiet|apply built_quiet..].
Qed.
Lemma run_clean : forall A (m : M A) t fl nr t', clean m -> run_op t fl m nr = (Err RecursionError, t') -> t' = t.
Proof.
  intros A m t fl nr t' C X. unfold run_op in X. destruct (m (mkStore (m_map t) (m_log t) fl)) as [[a|e] s'] eqn:E; [discriminate|]. injection X as -> <-.
  destruct (C _ _ E) as [fl' D]. rewrite E in D. injection D as ->. cbn [s_map s_log]. now destruct t.
Qed.
Lemma update_deep : forall lim fl t k v t', mpt_update lim fl t k v = (Err RecursionError, t') -> t' = t.
Proof. intros lim fl t k v t'. apply run_clean, update_clean. Qed.
Lemma delete_deep : forall lim fl t k t', mpt_delete lim fl t k = (Err RecursionError, t') -> t' = t.
Proof. intros lim fl t k t'. unfold mpt_delete. destruct (root_is_empty t); [discriminate|]. apply run_clean, delete_clean. Qed.

(** ** How much room is needed *)
Lemma walk_room : forall f m r p acc l, get_poi_ f m r p acc = Ok l -> exists new n c, l = acc ++ new /\ 0 < length new /\
  exactly (length new) (fun g => get_poi_ g m r p acc) (Ok l) /\ exactly (length new) (fun g => get_ g m r p) (Ok n) /\
  exactly (length new) (fun g => contains_ g m r p) (Ok c).
Proof.
  induction f as [|f IH]; intros m r p acc l E; [discriminate|]. cbn [get_poi_] in E.
  destruct (get_node m r) as [n|] eqn:En; cbn [bind] in E; [|discriminate].
  assert (One : forall e c, node_encode n = Ok e -> Ok (acc ++ [e]) = Ok l ->
    (forall g, get_poi_ (S g) m r p acc = Ok (acc ++ [e])) -> (forall g, get_ (S g) m r p = Ok n) -> (forall g, contains_ (S g) m r p = Ok c) ->
    exists new n c, l = acc ++ new /\ 0 < length new /\
    exactly (length new) (fun g => get_poi_ g m r p acc) (Ok l) /\ exactly (length new) (fun g => get_ g m r p) (Ok n) /\
    exactly (length new) (fun g => contains_ g m r p) (Ok c)).
  { intros e c Ee El G1 G2 G3. exists [e], n, c. injection El as <-. split; [reflexivity|]. split; [cbn; lia|].
    split; [|split]; intros [|g]; cbn [length Nat.ltb Nat.leb]; try reflexivity; auto. }
  assert (More : forall e nr p', node_encode n = Ok e -> get_poi_ f m nr p' (acc ++ [e]) = Ok l ->
    (forall g, get_poi_ (S g) m r p acc = get_poi_ g m nr p' (acc ++ [e])) -> (forall g, get_ (S g) m r p = get_ g m nr p') ->
    (forall g, contains_ (S g) m r p = contains_ g m nr p') ->
    exists new n c, l = acc ++ new /\ 0 < length new /\
    exactly (length new) (fun g => get_poi_ g m r p acc) (Ok l) /\ exactly (length new) (fun g => get_ g m r p) (Ok n) /\
    exactly (length new) (fun g => contains_ g m r p) (Ok c)).
  { intros e nr p' Ee El G1 G2 G3. destruct (IH _ _ _ _ _ El) as (new & n' & c & -> & L & X1 & X2 & X3). exists (e :: new), n', c.
    split; [now rewrite <- app_assoc|]. split; [cbn; lia|].
    split; [|split]; intros [|g]; cbn [length]; try reflexivity; change (S g <? S (length new)) with (g <? length new); [rewrite G1; apply X1|rewrite G2; apply X2|rewrite G3; apply X3]. }
  destruct (np_len p =? 0) eqn:Lp.
  - destruct (node_encode n) as [e|] eqn:Ee; cbn [bind] in E; [|discriminate].
    eapply One; [reflexivity|exact E|..]; intros g; cbn [get_poi_ get_ contains_]; rewrite En, Lp; cbn [bind]; rewrite ?Ee; reflexivity.
  - destruct n as [lp d|ep nr|bs d].
    + destruct (np_eq lp p) eqn:Q; [|discriminate]. destruct (node_encode _) as [e|] eqn:Ee in E; cbn [bind] in E; [|discriminate].
      eapply One; [exact Ee|exact E|..]; intros g; cbn [get_poi_ get_ contains_]; rewrite En, Lp; cbn [bind]; rewrite ?Q, ?Ee; reflexivity.
    + destruct (np_starts_with p ep) eqn:Q; [|discriminate]. destruct (node_encode _) as [e|] eqn:Ee in E; cbn [bind] in E; [|discriminate].
      eapply More; [exact Ee|exact E|..]; intros g; cbn [get_poi_ get_ contains_]; rewrite En, Lp; cbn [bind]; rewrite ?Q, ?Ee; reflexivity.
    + cbv zeta in E. destruct (0 <? _) eqn:Q in E; [|discriminate]. destruct (node_encode _) as [e|] eqn:Ee in E; cbn [bind] in E; [|discriminate].
      eapply More; [exact Ee|exact E|..]; intros g; cbn [get_poi_ get_ contains_]; rewrite En, Lp; cbn [bind]; rewrite ?Q, ?Ee; reflexivity.
Qed.
Lemma falsy_walk : forall f t p acc l, get_poi_ f (m_map t) (root_ref t) p acc = Ok l -> root_falsy t = false.
Proof.
  intros [|f] t p acc l; [discriminate|]. unfold root_falsy, root_ref. destruct (m_root t) as [[|]|]; try reflexivity; cbn [get_poi_]; discriminate.
Qed.
Lemma inclusion_room : forall lim tm t k p, mpt_get_poi lim tm t k = Ok p -> exists a c, pf_proof p <> [] /\
  exactly (length (pf_proof p)) (fun n => mpt_get_poi n tm t k) (Ok p) /\
  exactly (length (pf_proof p)) (fun n => mpt_get n t k) a /\ exactly (length (pf_proof p)) (fun n => mpt_contains n t k) (Ok c).
Proof.
  intros lim tm t k p E. unfold mpt_get_poi in E. destruct (root_is_empty t) eqn:Re; [discriminate|].
  destruct (get_poi_ lim (m_map t) (root_ref t) (np_of (eff_key t k)) []) as [l|] eqn:El; cbn [bind] in E; [|discriminate].
  destruct (walk_room _ _ _ _ _ _ El) as (new & n & c & -> & L & X1 & X2 & X3). cbn [app] in *.
  unfold new_proof in E. destruct (existsb _ _) eqn:Q; [|discriminate]. injection E as <-. cbn [pf_proof]. rewrite map_length.
  pose proof (falsy_walk _ _ _ _ _ El) as Rf.
  exists (node_data n), (match c with (Branch _ v, _) => negb (bytes_eqb v []) | (Extension _ _, _) => false | (Leaf lp _, path) => np_eq lp path end).
  split; [destruct new; [cbn in L; lia|discriminate]|]. split; [|split]; intros g.
  - unfold mpt_get_poi. rewrite Re, (X1 g). destruct (g <? _); cbn [bind]; [reflexivity|]. unfold new_proof. now rewrite Q.
  - unfold mpt_get. rewrite Rf, (X2 g). destruct (g <? _); reflexivity.
  - unfold mpt_contains. rewrite Rf, Re, (X3 g). destruct (g <? _); [reflexivity|]. destruct c as [[?|?|?] ?]; reflexivity.
Qed.

Lemma out_room : forall f m r p acc x, get_poe_ f m r p acc = Ok x -> exists new d c, snd (fst x) = acc ++ new /\ (length new = d \/ S (length new) = d) /\ 0 < d /\
  exactly d (fun g => get_poe_ g m r p acc) (Ok x) /\ exactly d (fun g => contains_ g m r p) (Ok c).
Proof.
  induction f as [|f IH]; intros m r p acc x E; [discriminate|]. cbn [get_poe_] in E.
  destruct (get_node m r) as [n|] eqn:En; cbn [bind] in E; [|discriminate].
  assert (One : forall new, (new = [] \/ exists e, new = [e]) -> snd (fst x) = acc ++ new ->
    (forall g, get_poe_ (S g) m r p acc = Ok x) -> (forall g, contains_ (S g) m r p = Ok (n, p)) ->
    exists new d c, snd (fst x) = acc ++ new /\ (length new = d \/ S (length new) = d) /\ 0 < d /\
    exactly d (fun g => get_poe_ g m r p acc) (Ok x) /\ exactly d (fun g => contains_ g m r p) (Ok c)).
  { intros new Ne El G1 G2. exists new, 1, (n, p). split; [exact El|]. split; [destruct Ne as [-> | [e ->]]; cbn; auto|]. split; [lia|].
    split; intros [|g]; cbn [Nat.ltb Nat.leb]; try reflexivity; auto. }
  assert (More : forall e nr p', get_poe_ f m nr p' (acc ++ [e]) = Ok x ->
    (forall g, get_poe_ (S g) m r p acc = get_poe_ g m nr p' (acc ++ [e])) -> (forall g, contains_ (S g) m r p = contains_ g m nr p') ->
    exists new d c, snd (fst x) = acc ++ new /\ (length new = d \/ S (length new) = d) /\ 0 < d /\
    exactly d (fun g => get_poe_ g m r p acc) (Ok x) /\ exactly d (fun g => contains_ g m r p) (Ok c)).
  { intros e nr p' El G1 G2. destruct (IH _ _ _ _ _ El) as (new & d & c & Ex & L & P & X1 & X2). exists (e :: new), (S d), c.
    split; [now rewrite Ex, <- app_assoc|]. split; [cbn; lia|]. split; [lia|].
    split; intros [|g]; try reflexivity; change (S g <? S d) with (g <? d); [rewrite G1; apply X1|rewrite G2; apply X2]. }
  destruct (np_len p =? 0) eqn:Lp.
  - destruct (node_encode n) as [e|] eqn:Ee; cbn [bind] in E; [|discriminate].
    apply (One [e]); [eauto|injection E as <-; reflexivity|..]; intros g; cbn [get_poe_ contains_]; rewrite En, Lp; cbn [bind]; rewrite ?Ee; cbn [bind]; auto.
  - destruct n as [lp d|ep nr|bs d].
    + destruct (node_encode _) as [e|] eqn:Ee in E; cbn [bind] in E; [|discriminate].
      apply (One [e]); [eauto|injection E as <-; reflexivity|..]; intros g; cbn [get_poe_ contains_]; rewrite En, Lp; cbn [bind]; rewrite ?Ee; cbn [bind]; auto.
    + destruct (np_starts_with p ep) eqn:Q.
      * destruct (node_encode _) as [e|] eqn:Ee in E; cbn [bind] in E; [|discriminate].
        eapply More; [exact E|..]; intros g; cbn [get_poe_ contains_]; rewrite En, Lp; cbn [bind]; rewrite ?Q, ?Ee; reflexivity.
      * apply (One []); [eauto|injection E as <-; now rewrite app_nil_r|..]; intros g; cbn [get_poe_ contains_]; rewrite En, Lp; cbn [bind]; rewrite ?Q; auto.
    + cbv zeta in E. destruct (node_encode _) as [e|] eqn:Ee in E; cbn [bind] in E; [|discriminate]. destruct (0 <? _) eqn:Q in E.
      * eapply More; [exact E|..]; intros g; cbn [get_poe_ contains_]; rewrite En, Lp; cbn [bind]; rewrite ?Q, ?Ee; cbn [bind]; rewrite ?Q; reflexivity.
      * apply (One [e]); [eauto|injection E as <-; reflexivity|..]; intros g; cbn [get_poe_ contains_]; rewrite En, Lp; cbn [bind]; rewrite ?Ee; cbn [bind]; rewrite ?Q; auto.
Qed.
Lemma falsy_out : forall f t p acc x, get_poe_ f (m_map t) (root_ref t) p acc = Ok x -> root_falsy t = false.
Proof.
  intros [|f] t p acc l; [discriminate|]. unfold root_falsy, root_ref. destruct (m_root t) as [[|]|]; try reflexivity; cbn [get_poe_]; discriminate.
Qed.
Lemma exclusion_room : forall lim tm t k p, mpt_get_poe lim tm t k = Ok p -> exists d, (d = length (pf_proof p) \/ S d = length (pf_proof p)) /\ 0 < d /\
  exactly d (fun n => mpt_get_poe n tm t k) (Ok p) /\ exactly d (fun n => mpt_contains n t k) (Ok false).
Proof.
  intros lim tm t k p E. unfold mpt_get_poe in E. destruct (root_is_empty t) eqn:Re; [discriminate|].
  destruct (mpt_contains lim t k) as [[|]|] eqn:Ec; cbn [bind] in E; try discriminate.
  destruct (get_poe_ lim (m_map t) (root_ref t) (np_of (eff_key t k)) []) as [x|] eqn:Ex; cbn [bind] in E; [|discriminate].
  destruct (out_room _ _ _ _ _ _ Ex) as (new & d & c & Es & L & P & X1 & X2). cbn [app] in Es. destruct x as [[n l] path]. cbn [fst snd] in Es. subst l.
  destruct (node_encode (Leaf path null_bytes)) as [e|] eqn:Ee; cbn [bind] in E; [|discriminate].
  pose proof (falsy_out _ _ _ _ _ Ex) as Rf.
  assert (Lp : length (pf_proof p) = S (length new)).
  { cbv zeta in E. unfold new_proof in E. destruct (existsb _ _) in E; destruct n as [lp v|ep nr|bs v];
      repeat match type of E with context [if ?b then _ else _] => destruct b end; try discriminate E; injection E as <-; cbn [pf_proof];
      rewrite map_length, app_length; cbn [length]; lia. }
  assert (Xc : exactly d (fun g => mpt_contains g t k) (Ok false)).
  { assert (Ed : lim <? d = false).
    { unfold mpt_contains in Ec. rewrite Rf, Re, (X2 lim) in Ec. destruct (lim <? d); [discriminate|reflexivity]. }
    unfold mpt_contains in Ec. rewrite Rf, Re, (X2 lim), Ed in Ec. intros g. unfold mpt_contains. rewrite Rf, Re, (X2 g). destruct (g <? d); [reflexivity|exact Ec]. }
  exists d. split; [lia|]. split; [exact P|]. split; [|exact Xc]. intros g. unfold mpt_get_poe. rewrite Re, (Xc g). destruct (g <? d) eqn:G; cbn [bind]; [reflexivity|].
  rewrite (X1 g), G. cbn [bind]. rewrite Ee. cbn [bind]. exact E.
Qed.

Lemma all_stable : forall fl tm t k v p,
  stable (fun n => mpt_get n t k) (Err RecursionError) /\ stable (fun n => mpt_contains n t k) (Err RecursionError) /\
  stable (fun n => mpt_get_poi n tm t k) (Err RecursionError) /\ stable (fun n => mpt_get_poe n tm t k) (Err RecursionError) /\
  stable (fun n => mpt_verify_poi n t p) (Err RecursionError) /\ stable (fun n => mpt_verify_poe n t p) (Err RecursionError) /\
  stable (fun n => mpt_update n fl t k v) (Err RecursionError, t) /\ stable (fun n => mpt_delete n fl t k) (Err RecursionError, t).
Proof.
  intros fl tm t k v p. split; [|split; [|split; [|split; [|split; [|split; [|split]]]]]]; intros n m L.
  - now apply mpt_get_more.
  - now apply mpt_contains_more.
  - now apply mpt_poi_more.
  - now apply mpt_poe_more.
  - now apply mpt_vpoi_more.
  - now apply mpt_vpoe_more.
  - now apply mpt_update_more.
  - now apply mpt_delete_more.
Qed.
(** No room at all. *)
Lemma no_room : forall t tm k, root_falsy t = false -> root_is_empty t = false -> mpt_get 0 t k = Err RecursionError /\ mpt_contains 0 t k = Err RecursionError /\
  mpt_get_poi 0 tm t k = Err RecursionError /\ mpt_get_poe 0 tm t k = Err RecursionError.
Proof.
  intros t tm k Rf E.
  unfold mpt_get, mpt_get_poi, mpt_get_poe, mpt_contains. rewrite E, Rf. repeat split; reflexivity.
Qed.
End WithHash.
