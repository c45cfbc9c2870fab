(** Proofs about SpecCopying.v. *)
From Coq Require Import List Bool Arith NArith ZArith Lia.
From Verif Require Import Base BaseProofs Rlp RlpProofs NibblePath NibbleProofs Node ProofObj Mpt Empt Tree TreeEnc StoreProofs ReadProofs Spec SpecCodec SpecProof
  MptRefine MptProofs SpecShared SimProofs SharedProofs SpecEmpt EmptProofs2 EmptFaultProofs SpecWalk SpecGet SpecEvery MptPy SpecMptEvery MptEveryProofs
  Threads SpecThreads ThreadsSeq ThreadsProofs ThreadsPool ThreadsAlone Watch SpecWatch WatchProofs WatchScene Copying SpecCopying.
Import ListNotations.

(** ** Dicts *)
Lemma dset_known : forall (d : dict bytes) k v, dget d k = Some v -> dset d k v = d.
Proof.
  induction d as [|[k' v'] d IH]; intros k v E; [discriminate|]. cbn [dget dset] in *. destruct (bytes_eqb k k'); [congruence|]. rewrite IH; auto.
Qed.
Lemma dset_new : forall (d : dict bytes) k v, dget d k = None -> length (dset d k v) = S (length d).
Proof. induction d as [|[k' v'] d IH]; intros k v E; [reflexivity|]. cbn [dget dset] in *. destruct (bytes_eqb k k'); [discriminate|]. cbn [length]. rewrite IH; auto. Qed.
Lemma dset_longer : forall (d : dict bytes) k v, length d <= length (dset d k v).
Proof. induction d as [|[k' v'] d IH]; intros k v; cbn [dset length]; [lia|]. destruct (bytes_eqb k k'); cbn [length]; [lia|]. specialize (IH k v). lia. Qed.
Lemma dset_part : forall d k v, part_of d (dset d k v) -> dset d k v = d \/ length (dset d k v) = S (length d).
Proof.
  intros d k v P. destruct (dget d k) as [v'|] eqn:E; [|right; apply dset_new; exact E]. left. apply dset_known. specialize (P _ _ E). rewrite dget_dset_same in P. congruence.
Qed.
Lemma nodup_get : forall (d : dict bytes) i k v, NoDup (dkeys d) -> nth_error d i = Some (k, v) -> dget d k = Some v.
Proof.
  induction d as [|[k' v'] d IH]; intros i k v N E; [destruct i; discriminate|]. cbn [dkeys map fst] in N. inversion N as [|? ? Nk Nd]; subst.
  destruct i as [|i]; cbn [nth_error dget] in *.
  - injection E as -> ->. rewrite bytes_eqb_refl. reflexivity.
  - destruct (bytes_eqb_spec k k') as [->|]; [|apply (IH i); auto]. exfalso. apply Nk. apply (in_map fst) with (x := (k', v)). eapply nth_error_In. exact E.
Qed.
Lemma firstn_snoc : forall A (l : list A) i x, nth_error l i = Some x -> firstn (S i) l = firstn i l ++ [x].
Proof. induction l as [|y l IH]; intros [|i] x E; try discriminate; cbn [nth_error firstn app] in *; [congruence|]. f_equal. apply IH. exact E. Qed.
Lemma dset_end : forall (c : dict bytes) k v, ~ In k (dkeys c) -> dset c k v = c ++ [(k, v)].
Proof.
  induction c as [|[k0 v0] c IH]; intros k v N; [reflexivity|]. cbn [dset app dkeys map fst] in *. destruct (bytes_eqb_spec k k0) as [->|]; [exfalso; apply N; left; reflexivity|].
  rewrite IH; [reflexivity|]. intros X. apply N. right. exact X.
Qed.
Lemma copy_one : forall (m : dict bytes) i k v, NoDup (dkeys m) -> nth_error m i = Some (k, v) -> dset (firstn i m) k v = firstn (S i) m.
Proof.
  intros m i k v N E. rewrite (firstn_snoc _ _ _ _ E). apply dset_end. intros X.
  assert (Em : m = firstn i m ++ (k, v) :: skipn (S i) m) by apply (split_at _ _ _ _ E).
  rewrite Em in N. unfold dkeys in *. rewrite map_app in N. cbn [map fst] in N. apply NoDup_remove_2 in N. apply N. apply in_or_app. left. exact X.
Qed.

Section C.
Context {H : Hash}.
Variable secure : bool.
Notation after ds := (run_desk secure (desk_new secure) ds).
Notation now ds := (p_obj (d_pool (after ds))).
Notation play ms := (run_moves secure (pool_new secure) ms).
Lemma desk_snoc : forall ds m, after (ds ++ [m]) = dgo secure (after ds) m.
Proof. intros. unfold run_desk. rewrite fold_left_app. reflexivity. Qed.
Lemma dmoves_app : forall a b, dmoves (a ++ b) = dmoves a ++ dmoves b.
Proof. intros. apply flat_map_app. Qed.
Lemma dcalls_app : forall a b, dcalls (a ++ b) = dcalls a ++ dcalls b.
Proof. intros. apply flat_map_app. Qed.
Theorem desk_apart : forall ds, d_pool (after ds) = play (dmoves ds).
Proof.
  induction ds as [|m ds IH] using rev_ind; [reflexivity|]. rewrite desk_snoc, dmoves_app. destruct m as [m|c|i]; cbn [dgo dmoves flat_map app].
  - cbn [d_pool]. rewrite IH. unfold run_moves. rewrite fold_left_app. reflexivity.
  - rewrite app_nil_r. exact IH.
  - rewrite app_nil_r. destruct (nth_error _ _); exact IH.
Qed.
Lemma dnth_go : forall w i j, nth_error (d_calls (dgo secure w (DGo i))) j =
  if i =? j then option_map (cstep secure (p_obj (d_pool w))) (nth_error (d_calls w) j) else nth_error (d_calls w) j.
Proof.
  intros w i j. cbn [dgo]. destruct (nth_error (d_calls w) i) as [p|] eqn:E.
  - destruct (split_at _ _ _ _ E) as [El Len]. cbn [d_calls]. destruct (Nat.eqb_spec i j) as [<-|Nj].
    + rewrite nth_error_app2 by lia. rewrite Len, Nat.sub_diag. cbn. rewrite E. reflexivity.
    + rewrite El at 3. destruct (Nat.lt_ge_cases j i) as [L|L].
      * rewrite !nth_error_app1 by lia. reflexivity.
      * rewrite !nth_error_app2 by lia. rewrite Len. destruct (j - i) as [|n] eqn:Ej; [lia|]. reflexivity.
  - destruct (Nat.eqb_spec i j) as [<-|]; [rewrite E|]; reflexivity.
Qed.
Lemma dlen_calls : forall ds, length (d_calls (after ds)) = length (dcalls ds).
Proof.
  induction ds as [|m ds IH] using rev_ind; [reflexivity|]. rewrite desk_snoc, dcalls_app, app_length, <- IH. destruct m as [m|c|i]; cbn [dgo dcalls flat_map app length d_calls].
  - lia.
  - rewrite app_length. reflexivity.
  - destruct (nth_error (d_calls (after ds)) i) as [p|] eqn:E; [|lia]. destruct (split_at _ _ _ _ E) as [El Len]. cbn [d_calls]. rewrite El at 3. rewrite !app_length. cbn [length]. lia.
Qed.
Lemma go_nodup : forall w m, NoDup (dkeys (h_map (p_obj w))) -> NoDup (dkeys (h_map (p_obj (go secure w m)))).
Proof.
  intros w [lim c|i] N; cbn [go]; [exact N|]. destruct (nth_error (p_calls w) i) as [p|]; [|exact N]. destruct p as [r|h k|h e k|k|r k]; cbn [access p_obj h_map]; try exact N. apply NoDup_dset. exact N.
Qed.
Lemma desk_nodup : forall ds, NoDup (dkeys (h_map (now ds))).
Proof.
  intros ds. rewrite desk_apart. induction (dmoves ds) as [|m ms IH] using rev_ind; [constructor|]. unfold run_moves in *. rewrite fold_left_app. cbn [fold_left]. apply go_nodup. exact IH.
Qed.
Lemma go_shape : forall w m, h_map (p_obj (go secure w m)) = h_map (p_obj w) \/ exists k e, h_map (p_obj (go secure w m)) = dset (h_map (p_obj w)) k e.
Proof.
  intros w [lim c|i]; cbn [go]; [auto|]. destruct (nth_error (p_calls w) i) as [p|]; [|auto]. destruct p as [r|h k|h e k|k|r k]; cbn [access p_obj h_map]; eauto.
Qed.
Lemma moment_more : forall ds m i d, moment secure ds i d -> moment secure (ds ++ [m]) i d.
Proof. intros ds m i d ((d' & ->) & Q). split; [exists (d' ++ [m]); symmetry; apply app_assoc|exact Q]. Qed.

(** ** How many turns a copy takes *)
Definition left_to_do (p : copy) (size : nat) : nat :=
  match p with CStart => 2 * size + 3 | CNext n i _ => 2 * (n - i) + 2 | CTake n i _ _ => 2 * (n - i) + 1 | CLast _ | COnly => 1 | CDone _ => 0 end.
Definition rightly (p : copy) (size : nat) : Prop := match p with CNext n i _ => i <= n <= size | CTake n i _ _ => i < n <= size | _ => True end.
Lemma step_left : forall s p, rightly p (length (h_map s)) ->
  rightly (cstep secure s p) (length (h_map s)) /\ left_to_do (cstep secure s p) (length (h_map s)) <= left_to_do p (length (h_map s)) - 1.
Proof.
  intros s [|n i acc|n i k acc|acc| |r] R; cbn [cstep rightly left_to_do] in *; try (split; [exact I|lia]).
  - split; lia.
  - destruct (Nat.eqb_spec (length (h_map s)) n) as [E|]; [|split; [exact I|cbn; lia]]. destruct (nth_error (h_map s) i) as [[k v]|] eqn:En; cbn [rightly left_to_do].
    + assert (i < length (h_map s)) by (apply nth_error_Some; congruence). split; lia.
    + split; [exact I|lia].
  - destruct (dget (h_map s) k); cbn [rightly left_to_do]; [split; lia|split; [exact I|lia]].
Qed.
Lemma rightly_more : forall p a b, rightly p a -> a <= b -> rightly p b.
Proof. intros [] a b R L; cbn [rightly] in *; lia. Qed.
Lemma left_more : forall p a b, a <= b -> left_to_do p a <= left_to_do p b.
Proof. intros [] a b L; cbn [left_to_do]; lia. Qed.
Lemma size_more : forall ds m, length (h_map (now ds)) <= length (h_map (now (ds ++ [m]))).
Proof.
  intros ds m. rewrite desk_snoc. destruct m as [m|c|i]; cbn [dgo d_pool]; [|lia|destruct (nth_error _ _); cbn [d_pool]; lia].
  destruct (go_shape (d_pool (after ds)) m) as [->|(k & e & ->)]; [lia|apply dset_longer].
Qed.
Lemma size_app : forall d2 d1, length (h_map (now d1)) <= length (h_map (now (d1 ++ d2))).
Proof.
  induction d2 as [|m d2 IH] using rev_ind; intros d1; [rewrite app_nil_r; lia|]. rewrite app_assoc. etransitivity; [apply IH|apply size_more].
Qed.
Lemma call_left : forall d1 c d2 N, length (h_map (now (d1 ++ DCall c :: d2))) <= N ->
  exists p, nth_error (d_calls (after (d1 ++ DCall c :: d2))) (length (dcalls d1)) = Some p /\
    rightly p (length (h_map (now (d1 ++ DCall c :: d2)))) /\ left_to_do p N <= left_to_do (cstart c) N - dturns (length (dcalls d1)) d2.
Proof.
  intros d1 c d2 N. induction d2 as [|m d2 IH] using rev_ind; intros L.
  - exists (cstart c). rewrite desk_snoc. cbn [dgo d_calls]. rewrite nth_error_app2, dlen_calls, Nat.sub_diag by (rewrite dlen_calls; lia).
    split; [reflexivity|]. split; [destruct c; exact I|]. cbn. lia.
  - change (d1 ++ DCall c :: d2 ++ [m]) with (d1 ++ (DCall c :: d2) ++ [m]) in *. rewrite app_assoc in *. pose proof (size_more (d1 ++ DCall c :: d2) m) as M.
    destruct IH as (p & E & R & B); [lia|]. unfold dturns in *. rewrite filter_app, app_length.
    set (d := d1 ++ DCall c :: d2) in *. destruct m as [m|c'|j]; cbn [filter length].
    + exists p. rewrite desk_snoc. cbn [dgo d_calls]. split; [exact E|]. split; [eapply rightly_more; [exact R|rewrite desk_snoc in M; exact M]|lia].
    + exists p. rewrite desk_snoc in *. cbn [dgo d_calls d_pool] in *. rewrite nth_error_app1 by (apply nth_error_Some; congruence). split; [exact E|]. split; [exact R|lia].
    + assert (Ep : d_pool (after (d ++ [DGo j])) = d_pool (after d)) by (rewrite desk_snoc; cbn [dgo]; destruct (nth_error (d_calls (after d)) j); reflexivity).
      rewrite Ep in *. rewrite desk_snoc, dnth_go. destruct (j =? length (dcalls d1)) eqn:Ej; cbn [filter length].
      * rewrite E. cbn [option_map]. exists (cstep secure (now d) p). split; [reflexivity|]. destruct (step_left (now d) p R) as [R' B']. split; [exact R'|].
        assert (Hd : left_to_do (cstep secure (now d) p) N <= left_to_do p N - 1).
        { destruct p as [|n i acc|n i k acc|acc| |r]; cbn [cstep left_to_do rightly] in *; try lia.
          - destruct (_ =? n); [|cbn; lia]. destruct (nth_error (h_map (now d)) i) as [[]|]; cbn [left_to_do] in *; lia.
          - destruct (dget _ _); cbn [left_to_do] in *; lia. }
        lia.
      * exists p. split; [exact E|]. split; [exact R|lia].
Qed.
Theorem copy_bounded : forall d1 c d2, cbound c (trie_at secure (d1 ++ DCall c :: d2)) <= dturns (length (dcalls d1)) d2 ->
  danswer_of (after (d1 ++ DCall c :: d2)) (length (dcalls d1)) <> None.
Proof.
  intros d1 c d2 L. destruct (call_left d1 c d2 _ (Nat.le_refl _)) as (p & E & R & B). unfold danswer_of. rewrite E.
  assert (Z0 : left_to_do p (length (h_map (now (d1 ++ DCall c :: d2)))) = 0).
  { unfold cbound, trie_at, object in L. cbn [m_map] in L. destruct c; cbn [cstart left_to_do] in *; lia. }
  destruct p; cbn [left_to_do] in Z0; try lia. discriminate.
Qed.

(** ** A copy alone *)
Fixpoint steps (s : shared) (n : nat) (p : copy) : copy := match n with 0 => p | S n => steps s n (cstep secure s p) end.
Lemma steps_loop : forall s n i, NoDup (dkeys (h_map s)) -> n = length (h_map s) - i -> i <= length (h_map s) ->
  steps s (2 * n + 1) (CNext (length (h_map s)) i (firstn i (h_map s))) = CLast (h_map s).
Proof.
  intros s n. induction n as [|n IH]; intros i N En L.
  - cbn [Nat.mul Nat.add steps cstep]. rewrite Nat.eqb_refl. rewrite (proj2 (nth_error_None (h_map s) i)) by lia. rewrite firstn_all2 by lia. reflexivity.
  - replace (2 * S n + 1) with (S (S (2 * n + 1))) by lia. cbn [steps cstep]. rewrite Nat.eqb_refl. destruct (nth_error (h_map s) i) as [[k v]|] eqn:Ek; [|apply nth_error_None in Ek; lia].
    cbn [cstep]. rewrite (nodup_get _ _ _ _ N Ek), (copy_one _ _ _ _ N Ek). apply IH; auto; lia.
Qed.
Lemma steps_all : forall s, NoDup (dkeys (h_map s)) -> steps s (2 * length (h_map s) + 2) CStart = CLast (h_map s).
Proof. intros s N. replace (2 * length (h_map s) + 2) with (S (2 * length (h_map s) + 1)) by lia. cbn [steps cstep]. apply (steps_loop s (length (h_map s)) 0); auto; lia. Qed.
Lemma steps_more : forall s n m p, steps s (n + m) p = steps s m (steps s n p).
Proof. intros s n. induction n as [|n IH]; intros m p; [reflexivity|]. cbn [Nat.add steps]. apply IH. Qed.
Lemma steps_done : forall s n r, steps s n (CDone r) = CDone r.
Proof. intros s n r. induction n as [|n IH]; [reflexivity|exact IH]. Qed.
Lemma go_steps : forall n w cs p ds, run_desk secure (mkDesk w (cs ++ p :: ds)) (repeat (DGo (length cs)) n) = mkDesk w (cs ++ steps (p_obj w) n p :: ds).
Proof.
  induction n as [|n IH]; intros w cs p ds; [reflexivity|]. cbn [repeat run_desk fold_left dgo d_calls steps d_pool].
  rewrite nth_error_app2, Nat.sub_diag by lia. cbn [nth_error]. change (fold_left (dgo secure)) with (fun ds w => run_desk secure w ds). cbn beta.
  rewrite firstn_app, Nat.sub_diag, firstn_all, app_nil_r. rewrite skipn_app, skipn_all2 by lia. replace (S (length cs) - length cs) with 1 by lia. cbn [skipn app]. apply IH.
Qed.
Lemma sparse_is : forall s x, NoDup (dkeys (h_map s)) -> empt_get_sparse_trie (mkEmpt x (mkMpt (h_map s) (h_log s) (h_root s) secure)) = sparse_new (h_map s) (h_root s) secure.
Proof. intros s x N. unfold empt_get_sparse_trie. cbn [e_trie m_map m_root m_secure]. rewrite copy_dict_id by exact N. reflexivity. Qed.
Theorem copy_alone : forall ds c m, let w := after ds in cbound c (trie_at secure ds) <= m ->
  let w' := run_desk secure w (DCall c :: repeat (DGo (length (dcalls ds))) m) in
  danswer_of w' (length (dcalls ds)) = Some (Ok (copy_now c (trie_at secure ds))) /\ d_pool w' = d_pool w /\ firstn (length (dcalls ds)) (d_calls w') = d_calls w.
Proof.
  intros ds c m w L w'. unfold w'. cbn [run_desk fold_left dgo]. change (fold_left (dgo secure)) with (fun ds w => run_desk secure w ds). cbn beta. rewrite <- dlen_calls. fold w.
  rewrite (go_steps m (d_pool w) (d_calls w) (cstart c) []). unfold danswer_of. cbn [d_calls d_pool]. rewrite nth_error_app2, Nat.sub_diag by lia. cbn [nth_error].
  split; [|split; [reflexivity|rewrite firstn_app, Nat.sub_diag, firstn_all, app_nil_r; reflexivity]].
  pose proof (desk_nodup ds) as N. fold w in N. destruct c; cbn [cbound cstart copy_now] in *; unfold trie_at, object in *; cbn [m_map] in *.
  - fold w. fold w in L. replace m with (2 * length (h_map (p_obj (d_pool w))) + 2 + (1 + (m - (2 * length (h_map (p_obj (d_pool w))) + 3)))) by lia.
    rewrite steps_more, (steps_all _ N), steps_more. cbn [steps cstep]. rewrite steps_done. rewrite <- (sparse_is _ [] N). reflexivity.
  - destruct m as [|m]; [lia|]. cbn [steps cstep]. rewrite steps_done. reflexivity.
Qed.

(** ** What is copied *)
Section Kept.
Hypothesis keccak_len : forall b, length (keccak b) = 32.
Variable K : list bytes.
Hypothesis K_ok : keys_ok secure K.
Hypothesis K_small : forall k, In k K -> (blen k < 2 ^ 59)%N.
Notation fine ds := (forall lim c, In (lim, c) (calls_of (dmoves ds)) -> okc secure K c).
Lemma map_step : forall ds m, fine (ds ++ [m]) -> no_collision (h_log (now (ds ++ [m]))) ->
  part_of (h_map (now ds)) (h_map (now (ds ++ [m]))) /\ (h_map (now (ds ++ [m])) = h_map (now ds) \/ length (h_map (now (ds ++ [m]))) = S (length (h_map (now ds)))) /\
  no_collision (h_log (now ds)).
Proof.
  intros ds m Ho N. destruct m as [m|c|i].
  2: { rewrite desk_snoc in *. cbn [dgo d_pool] in *. split; [apply part_refl|]. split; [left; reflexivity|exact N]. }
  2: { rewrite desk_snoc in *. cbn [dgo] in *. destruct (nth_error (d_calls (after ds)) i); cbn [d_pool] in *; (split; [apply part_refl|]; split; [left; reflexivity|exact N]). }
  assert (P : part_of (h_map (now ds)) (h_map (now (ds ++ [DMove m]))) /\ no_collision (h_log (now ds))).
  { rewrite !desk_apart, dmoves_app in *. cbn [dmoves flat_map app] in *. change (flat_map _ ds) with (dmoves ds) in *.
    destruct (pool_grows secure keccak_len K K_ok K_small (dmoves ds) m Ho N) as (_ & _ & [G _]). split; [exact G|].
    eapply nocoll_incl; [|exact N]. rewrite after_snoc. apply go_log. }
  destruct P as [P N0]. split; [exact P|]. split; [|exact N0]. rewrite desk_snoc in *. cbn [dgo d_pool] in *.
  destruct (go_shape (d_pool (after ds)) m) as [E|(k & e & E)]; rewrite E in *; [left; reflexivity|apply dset_part; exact P].
Qed.
Definition begun (ds : list dmove) (i : nat) (n : nat) (d1 : list dmove) : Prop :=
  moment secure ds i d1 /\ n = length (h_map (now d1)) /\ part_of (h_map (now d1)) (h_map (now ds)) /\ n <= length (h_map (now ds)) /\
  (length (h_map (now ds)) = n -> h_map (now ds) = h_map (now d1)).
Definition told_so (ds : list dmove) (i : nat) (c : ccmd) (p : copy) : Prop :=
  match p with
  | CStart => c = CSparse
  | CNext n j acc => c = CSparse /\ exists d1, begun ds i n d1 /\ acc = firstn j (h_map (now d1)) /\ j <= n
  | CTake n j k acc => c = CSparse /\ exists d1 v, begun ds i n d1 /\ acc = firstn j (h_map (now d1)) /\ nth_error (h_map (now d1)) j = Some (k, v)
  | CLast acc => c = CSparse /\ exists d1, begun ds i (length acc) d1 /\ acc = h_map (now d1)
  | COnly => c = CRootTrie
  | CDone (Ok t) => match c with
                    | CSparse => exists d1 d2, moment secure ds i d1 /\ moment secure ds i (d1 ++ d2) /\ part_of (h_map (now d1)) (h_map (now (d1 ++ d2))) /\
                                   t = sparse_new (h_map (now d1)) (h_root (now (d1 ++ d2))) secure
                    | CRootTrie => exists d, moment secure ds i d /\ t = root_new (h_root (now d)) secure
                    end
  | CDone (Err x) => c = CSparse /\ x = RuntimeError /\ exists d1 d2, moment secure ds i d1 /\ moment secure ds i (d1 ++ d2) /\ length (h_map (now d1)) < length (h_map (now (d1 ++ d2)))
  end.
Lemma begun_more : forall ds m i n d1, part_of (h_map (now ds)) (h_map (now (ds ++ [m]))) ->
  h_map (now (ds ++ [m])) = h_map (now ds) \/ length (h_map (now (ds ++ [m]))) = S (length (h_map (now ds))) -> begun ds i n d1 -> begun (ds ++ [m]) i n d1.
Proof.
  intros ds m i n d1 P G (M & En & Pd & Ln & Hn). split; [apply moment_more; exact M|]. split; [exact En|]. split; [eapply part_trans; eauto|].
  destruct G as [->|G]; [auto|]. split; [lia|]. intros; lia.
Qed.
Lemma told_more : forall ds m i c p, part_of (h_map (now ds)) (h_map (now (ds ++ [m]))) ->
  h_map (now (ds ++ [m])) = h_map (now ds) \/ length (h_map (now (ds ++ [m]))) = S (length (h_map (now ds))) -> told_so ds i c p -> told_so (ds ++ [m]) i c p.
Proof.
  intros ds m i c p P G T. assert (Bg : forall n d1, begun ds i n d1 -> begun (ds ++ [m]) i n d1).
  { intros n d1. apply begun_more; auto. }
  destruct p as [|n j acc|n j k acc|acc| |[t|x]]; cbn [told_so] in *; auto.
  - destruct T as [-> (d1 & B & T)]. split; [reflexivity|]. exists d1. split; auto.
  - destruct T as [-> (d1 & v & B & T)]. split; [reflexivity|]. exists d1, v. split; auto.
  - destruct T as [-> (d1 & B & T)]. split; [reflexivity|]. exists d1. split; auto.
  - destruct c; [destruct T as (d1 & d2 & M1 & M2 & T); exists d1, d2|destruct T as (d & M & T); exists d]; repeat (split; [apply moment_more; assumption|]); assumption.
  - destruct T as (-> & -> & d1 & d2 & M1 & M2 & T). split; [reflexivity|]. split; [reflexivity|]. exists d1, d2. repeat (split; [apply moment_more; assumption|]); assumption.
Qed.
Lemma all_told : forall ds, fine ds -> no_collision (h_log (now ds)) -> forall i c p, nth_error (dcalls ds) i = Some c -> nth_error (d_calls (after ds)) i = Some p -> told_so ds i c p.
Proof.
  induction ds as [|m ds IH] using rev_ind; intros Ho N i c p Ec Ep; [destruct i; discriminate|].
  destruct (map_step ds m Ho N) as (P & G & N0).
  assert (Ho' : fine ds). { intros lim0 c0 Hi. apply (Ho lim0 c0). rewrite dmoves_app, calls_app. apply in_or_app. auto. }
  specialize (IH Ho' N0). rewrite dcalls_app in Ec. destruct m as [m|c'|j].
  - rewrite app_nil_r in Ec. apply told_more; auto. apply IH; auto. rewrite desk_snoc in Ep. exact Ep.
  - rewrite desk_snoc in Ep. cbn [dgo d_calls] in Ep. cbn in Ec. destruct (nth_error_snoc _ _ _ _ _ Ec) as [Ec'|[Ei Ec']].
    + assert (L : i < length (dcalls ds)) by (apply nth_error_Some; congruence). rewrite nth_error_app1 in Ep by (rewrite dlen_calls; exact L). apply told_more; auto.
    + subst c'. rewrite nth_error_app2, dlen_calls, Ei, Nat.sub_diag in Ep by (rewrite dlen_calls; lia). injection Ep as <-. destruct c; reflexivity.
  - rewrite app_nil_r in Ec. rewrite desk_snoc, dnth_go in Ep. destruct (Nat.eqb_spec j i) as [->|]; [|apply told_more; auto].
    destruct (nth_error (d_calls (after ds)) i) as [p0|] eqn:E0; [|discriminate]. cbn [option_map] in Ep. injection Ep as <-.
    assert (T : told_so (ds ++ [DGo i]) i c p0) by (apply told_more; auto). specialize (IH i c p0 Ec E0).
    assert (Es : d_pool (after (ds ++ [DGo i])) = d_pool (after ds)) by (rewrite desk_snoc; cbn [dgo]; rewrite E0; reflexivity).
    assert (M : (forall r, p0 <> CDone r) -> moment secure (ds ++ [DGo i]) i ds).
    { intros Nd. split; [exists [DGo i]; reflexivity|]. split; [apply nth_error_Some; congruence|]. unfold danswer_of. rewrite E0. destruct p0; try reflexivity. destruct (Nd r eq_refl). }
    assert (B'_of : forall n d1, begun ds i n d1 -> begun (ds ++ [DGo i]) i n d1) by (intros; apply begun_more; auto).
    destruct p0 as [|n q acc|n q k acc|acc| |r]; cbn [cstep]; [| | | | |exact T]; (specialize (M ltac:(discriminate))).
    + cbn [told_so] in *. split; [exact T|]. exists ds. split; [|split; [reflexivity|lia]]. split; [exact M|]. split; [reflexivity|]. rewrite Es. split; [apply part_refl|]. split; [lia|reflexivity].
    + cbn [told_so] in IH. destruct IH as [-> (d1 & B & Ea & Lq)]. assert (B' := B'_of _ _ B). pose proof B as (M1 & En & Pd & Ln & Hn). destruct (Nat.eqb_spec (length (h_map (now ds))) n) as [El|Nl].
      * specialize (Hn El). destruct (nth_error (h_map (now ds)) q) as [[k v]|] eqn:Ek; cbn [told_so]; (split; [reflexivity|]).
        -- exists d1, v. rewrite Hn in Ek. auto.
        -- rewrite Hn in Ek. apply nth_error_None in Ek. exists d1. assert (Ef : acc = h_map (now d1)) by (rewrite Ea; apply firstn_all2; exact Ek). split; [|exact Ef].
           rewrite Ef, <- En. exact B'.
      * cbn [told_so]. split; [reflexivity|]. split; [reflexivity|]. pose proof M1 as ((d' & E') & _). exists d1, d'. rewrite <- E'. split; [apply B'|]. split; [exact M|]. lia.
    + cbn [told_so] in IH. destruct IH as [-> (d1 & v & B & Ea & Ek)]. assert (B' := B'_of _ _ B). pose proof B as (M1 & En & Pd & Ln & Hn).
      rewrite (Pd _ _ (nodup_get _ _ _ _ (desk_nodup d1) Ek)). cbn [told_so]. split; [reflexivity|]. exists d1. split; [exact B'|].
      split; [rewrite Ea; apply copy_one; [apply desk_nodup|exact Ek]|]. assert (q < length (h_map (now d1))) by (apply nth_error_Some; congruence). lia.
    + cbn [told_so] in IH. destruct IH as [-> (d1 & B & Ea)]. assert (B' := B'_of _ _ B). pose proof B as (M1 & En & Pd & Ln & Hn). cbn [told_so].
      pose proof M1 as ((d' & E') & _). exists d1, d'. rewrite <- E'. split; [apply B'|]. split; [exact M|]. split; [exact Pd|]. rewrite Ea. reflexivity.
    + cbn [told_so] in *. subst c. exists ds. auto.
Qed.
End Kept.
End C.
