(** Proofs about SpecCopying.v, continued: what the copies are. *)
From Coq Require Import List Bool Arith NArith ZArith Lia.
From Verif Require Import Base BaseProofs Rlp RlpProofs NibblePath NibbleProofs Node ProofObj Mpt Empt Tree TreeEnc StoreProofs ReadProofs Spec SpecCodec SpecProof
  MptRefine MptProofs SpecShared SimProofs SharedProofs SpecEmpt EmptProofs2 EmptFaultProofs SpecWalk SpecGet SpecEvery MptPy SpecMptEvery MptEveryProofs
  Threads SpecThreads ThreadsSeq ThreadsProofs ThreadsPool ThreadsAlone ThreadsRace Watch SpecWatch WatchProofs WatchScene Copying SpecCopying CopyingProofs.
Import ListNotations.

Section M.
Context {H : Hash}.

(** ** Reads of a storage that lacks nodes *)
Lemma node_part : forall m m' r, part_of m m' -> get_node m r = get_node m' r \/ get_node m r = Err KeyError.
Proof.
  intros m m' r P. unfold get_node. destruct (length r =? 32); [|auto]. destruct (dget m r) as [e|] eqn:E; [rewrite (P _ _ E); auto|auto].
Qed.
Lemma get_part : forall f m m' r p, part_of m m' -> get_ f m r p = get_ f m' r p \/ get_ f m r p = Err KeyError.
Proof.
  induction f as [|f IH]; intros m m' r p P; [left; reflexivity|]. cbn [get_]. destruct (node_part m m' r P) as [->| ->]; [|auto].
  destruct (get_node m' r) as [n|]; [|auto]. destruct (np_len p =? 0); [auto|]. destruct n as [lp v|ep nr|bs v]; [auto|destruct (np_starts_with p ep); auto|]. cbv zeta. destruct (0 <? _); auto.
Qed.
Lemma contains_part : forall f m m' r p, part_of m m' -> contains_ f m r p = contains_ f m' r p \/ contains_ f m r p = Err KeyError.
Proof.
  induction f as [|f IH]; intros m m' r p P; [left; reflexivity|]. cbn [contains_]. destruct (node_part m m' r P) as [->| ->]; [|auto].
  destruct (get_node m' r) as [n|]; [|auto]. destruct (np_len p =? 0); [auto|]. destruct n as [lp v|ep nr|bs v]; [auto|destruct (np_starts_with p ep); auto|]. cbv zeta. destruct (0 <? _); auto.
Qed.
Lemma poi_part : forall f m m' r p acc, part_of m m' -> get_poi_ f m r p acc = get_poi_ f m' r p acc \/ get_poi_ f m r p acc = Err KeyError.
Proof.
  induction f as [|f IH]; intros m m' r p acc P; [left; reflexivity|]. cbn [get_poi_]. destruct (node_part m m' r P) as [->| ->]; [|auto].
  destruct (get_node m' r) as [n|]; cbn [bind]; [|auto]. destruct (np_len p =? 0); [auto|]. destruct n as [lp v|ep nr|bs v]; [auto|destruct (np_starts_with p ep); auto|].
  - destruct (node_encode _); cbn [bind]; auto.
  - cbv zeta. destruct (0 <? _); [|auto]. destruct (node_encode _); cbn [bind]; auto.
Qed.
Lemma part_answers : forall m m' r b, part_of m m' -> answers_or_lacks (sparse_new m r b) (sparse_new m' r b).
Proof.
  intros m m' r b P lim tm k. unfold sparse_new, mpt_init. set (r0 := match r with Some r => r | None => EMPTY_HASH end).
  split; [|split; [|split; [|reflexivity]]].
  - unfold mpt_get, root_falsy, root_ref, eff_key. cbn [m_root m_map m_secure]. destruct r0 as [|c r1]; [auto|].
    destruct (get_part lim m m' (c :: r1) (np_of (if b then keccak k else k)) P) as [->| ->]; auto.
  - unfold mpt_contains, root_falsy, root_is_empty, root_ref, eff_key. cbn [m_root m_map m_secure]. destruct r0 as [|c r1]; [auto|]. destruct (bytes_eqb (c :: r1) EMPTY_HASH); [auto|].
    destruct (contains_part lim m m' (c :: r1) (np_of (if b then keccak k else k)) P) as [->| ->]; auto.
  - unfold mpt_get_poi, root_is_empty, root_ref, eff_key. cbn [m_root m_map m_secure]. destruct (bytes_eqb r0 EMPTY_HASH); [auto|].
    destruct (poi_part lim m m' r0 (np_of (if b then keccak k else k)) [] P) as [->| ->]; auto.
Qed.
Lemma lacks_root : forall m r b lim k, length r = 32 -> dget m r = None -> 0 < lim -> mpt_get lim (sparse_new m (Some r) b) k = Err KeyError.
Proof.
  intros m r b lim k L E Hl. destruct lim as [|lim]; [lia|]. unfold mpt_get, root_falsy, root_ref. cbn [sparse_new mpt_init m_root m_map]. destruct r as [|c r]; [discriminate|].
  cbn [get_]. unfold get_node. rewrite L, Nat.eqb_refl, E. reflexivity.
Qed.

Variable secure : bool.
Notation after ds := (run_desk secure (desk_new secure) ds).
Notation now ds := (p_obj (d_pool (after ds))).

(** ** The copies *)
Section Kept.
Hypothesis keccak_len : forall b, length (keccak b) = 32.
Variable ds : list dmove.
Hypothesis keys : keys_ok secure (tkeys (dmoves ds)).
Hypothesis fit : tfits secure (dmoves ds).
Hypothesis N : no_collision (h_log (now ds)).
Lemma fit_okc : forall lim c, In (lim, c) (calls_of (dmoves ds)) -> okc secure (tkeys (dmoves ds)) c.
Proof.
  intros lim c Hi. split.
  - intros k Hk. unfold tkeys. apply in_flat_map. exists (lim, c). auto.
  - destruct c as [k|k|k v|k|tm k| |]; try exact I. destruct fit as [_ Fv]. exact (Fv lim k v Hi).
Qed.
Lemma told_here : forall i c r, nth_error (dcalls ds) i = Some c -> danswer_of (after ds) i = Some r -> told_so secure ds i c (CDone r).
Proof.
  intros i c r Ec Ea. unfold danswer_of in Ea. destruct (nth_error (d_calls (after ds)) i) as [p|] eqn:Ep; [|discriminate].
  pose proof (all_told secure keccak_len (tkeys (dmoves ds)) keys (proj1 fit) ds fit_okc N i c p Ec Ep) as T. destruct p; try discriminate. injection Ea as ->. exact T.
Qed.
Lemma sparse_at : forall d, copy_now CSparse (trie_at secure d) = sparse_new (h_map (now d)) (h_root (now d)) secure.
Proof. intros d. apply (sparse_is secure). apply desk_nodup. Qed.
Theorem copy_beside : forall i c r, nth_error (dcalls ds) i = Some c -> danswer_of (after ds) i = Some r ->
  match r, c with
  | Ok t, CSparse => exists d1 d2, moment secure ds i d1 /\ moment secure ds i (d1 ++ d2) /\
      t = sparse_new (m_map (trie_at secure d1)) (m_root (trie_at secure (d1 ++ d2))) secure /\ answers_or_lacks t (copy_now CSparse (trie_at secure (d1 ++ d2)))
  | Ok t, CRootTrie => exists d, moment secure ds i d /\ t = copy_now CRootTrie (trie_at secure d)
  | Err x, _ => c = CSparse /\ x = RuntimeError /\ exists d1 d2, moment secure ds i d1 /\ moment secure ds i (d1 ++ d2) /\
      length (m_map (trie_at secure d1)) < length (m_map (trie_at secure (d1 ++ d2)))
  end.
Proof.
  intros i c r Ec Ea. pose proof (told_here i c r Ec Ea) as T. destruct r as [t|x]; cbn [told_so] in T; [|exact T]. destruct c; [|exact T].
  destruct T as (d1 & d2 & M1 & M2 & P & ->). exists d1, d2. split; [exact M1|]. split; [exact M2|]. split; [reflexivity|]. rewrite sparse_at. apply part_answers. exact P.
Qed.
Theorem copy_steady : forall i c r, nth_error (dcalls ds) i = Some c -> danswer_of (after ds) i = Some r ->
  ((forall d d', moment secure ds i d -> moment secure ds i d' -> m_root (trie_at secure d) = m_root (trie_at secure d')) ->
     r = Err RuntimeError \/ exists d, moment secure ds i d /\ r = Ok (copy_now c (trie_at secure d))) /\
  ((forall d d', moment secure ds i d -> moment secure ds i d' -> length (m_map (trie_at secure d)) = length (m_map (trie_at secure d'))) -> exists t, r = Ok t).
Proof.
  intros i c r Ec Ea. pose proof (copy_beside i c r Ec Ea) as T. split; intros St.
  - destruct r as [t|x]; [right|left; f_equal; apply T]. destruct c; [|destruct T as (d & M & ->); exists d; auto].
    destruct T as (d1 & d2 & M1 & M2 & -> & _). exists d1. split; [exact M1|]. f_equal. rewrite sparse_at. rewrite <- (St d1 (d1 ++ d2) M1 M2). reflexivity.
  - destruct r as [t|x]; [exists t; reflexivity|]. destruct T as (_ & _ & d1 & d2 & M1 & M2 & L). rewrite (St d1 (d1 ++ d2) M1 M2) in L. lia.
Qed.
End Kept.

(** ** A write in the middle of a copy *)
Hypothesis keccak_len : forall b, length (keccak b) = 32.
Lemma run_more : forall w a b, run_desk secure w (a ++ b) = run_desk secure (run_desk secure w a) b.
Proof. intros. apply fold_left_app. Qed.
Lemma run_pool : forall ms w cs, run_desk secure (mkDesk w cs) (map DMove ms) = mkDesk (run_moves secure w ms) cs.
Proof. induction ms as [|m ms IH]; intros w cs; [reflexivity|]. cbn [map run_desk fold_left dgo d_pool d_calls]. apply IH. Qed.
Lemma between_run : forall ds n lim c, 0 < lim -> exists k, forall m, k <= m ->
  exists w', object secure w' = snd (single lim (trie_at secure ds) c) /\
  run_desk secure (desk_new secure) (between ds n lim c m) = mkDesk w' (d_calls (after ds) ++ [cstep secure (p_obj w') (steps secure (now ds) n CStart)]).
Proof.
  intros ds n lim c Hl. destruct (alone secure keccak_len (d_pool (after ds)) lim c Hl) as [k Hk]. exists k. intros m Lm. destruct (Hk m Lm) as (_ & Eo & _).
  exists (run_moves secure (d_pool (after ds)) (MCall lim c :: repeat (MGo (length (p_calls (d_pool (after ds))))) m)). split; [exact Eo|].
  unfold between. rewrite run_more. cbn [run_desk fold_left dgo cstart]. change (fold_left (dgo secure)) with (fun ds w => run_desk secure w ds). cbn beta.
  rewrite run_more, <- dlen_calls with (secure := secure). rewrite (go_steps secure n (d_pool (after ds)) (d_calls (after ds)) CStart []), run_more, run_pool.
  assert (Ep : length (calls_of (dmoves ds)) = length (p_calls (d_pool (after ds)))) by (rewrite desk_apart; symmetry; apply calls_len).
  rewrite Ep. set (w' := run_moves secure _ _). exact (go_steps secure 1 w' (d_calls (after ds)) (steps secure (now ds) n CStart) []).
Qed.
Theorem torn_copy : forall ds lim c, 0 < lim -> let t := trie_at secure ds in let t' := snd (single lim t c) in
  exists k, forall m, k <= m -> 
  danswer_of (after (between ds (2 * length (m_map t) + 2) lim c m)) (length (dcalls ds)) = Some (Ok (sparse_new (m_map t) (m_root t') secure)) /\
  (forall r, m_root t' = Some r -> length r = 32 -> dget (m_map t) r = None ->
     forall lim' k, 0 < lim' -> mpt_get lim' (sparse_new (m_map t) (m_root t') secure) k = Err KeyError).
Proof.
  intros ds lim c Hl t t'. destruct (between_run ds (2 * length (m_map t) + 2) lim c Hl) as [k Hk]. exists k. intros m Lm. destruct (Hk m Lm) as (w' & Eo & ->). split.
  - unfold danswer_of. cbn [d_calls]. rewrite nth_error_app2, dlen_calls, Nat.sub_diag by (rewrite dlen_calls; lia). cbn [nth_error]. unfold t. cbn [trie_at object m_map].
    rewrite (steps_all secure (now ds) (desk_nodup secure ds)). cbn [cstep]. unfold t', t. rewrite <- Eo. reflexivity.
  - intros r -> L E lim' k' Hl'. apply lacks_root; auto.
Qed.
Theorem broken_copy : forall ds lim c, 0 < lim -> let t := trie_at secure ds in let t' := snd (single lim t c) in length (m_map t') <> length (m_map t) ->
  exists k, forall m, k <= m -> danswer_of (after (between ds 1 lim c m)) (length (dcalls ds)) = Some (Err RuntimeError).
Proof.
  intros ds lim c Hl t t' Nl. destruct (between_run ds 1 lim c Hl) as [k Hk]. exists k. intros m Lm. destruct (Hk m Lm) as (w' & Eo & ->).
  unfold danswer_of. cbn [d_calls]. rewrite nth_error_app2, dlen_calls, Nat.sub_diag by (rewrite dlen_calls; lia). cbn [nth_error steps cstep].
  assert (El : length (h_map (p_obj w')) = length (m_map t')) by (unfold t', t; rewrite <- Eo; reflexivity).
  destruct (Nat.eqb_spec (length (h_map (p_obj w'))) (length (h_map (now ds)))) as [X|]; [|reflexivity]. exfalso. apply Nl. rewrite <- El. exact X.
Qed.
End M.
