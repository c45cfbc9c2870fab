(** Proofs about SpecThreads.v. *)
From Coq Require Import List Bool Arith NArith ZArith Lia.
From Verif Require Import Base BaseProofs Rlp RlpProofs NibblePath NibbleProofs Node ProofObj Mpt Tree TreeEnc StoreProofs ReadProofs Spec SpecCodec
  MptRefine MptProofs SpecShared SimProofs SharedProofs SpecEmpt EmptFaultProofs SpecWalk SpecEvery MptPy SpecMptEvery MptEveryProofs Threads SpecThreads ThreadsSeq.
Import ListNotations.

Section T.
Context {H : Hash}.
Hypothesis keccak_len : forall b, length (keccak b) = 32.
Variables (secure : bool) (K : list bytes).
Hypothesis K_ok : keys_ok secure K.
Hypothesis K_small : forall k, In k K -> (blen k < 2 ^ 59)%N.

(** ** A trie whose storage has further nodes *)
Definition binv (t : mpt) (d : kvmap) (u : bool) : Prop := exists l t0, inv secure K l t0 d u /\ trel t0 t.
Definition tfine (t : mpt) : Prop := dinv (m_map t) (m_log t) /\ no_collision (m_log t).

Lemma b_secure : forall t d u, binv t d u -> m_secure t = secure.
Proof.
  intros t d u (l & t0 & (R & _) & (_ & _ & _ & E)). destruct (reachable_repr keccak_len _ _ _ R) as (Es & _). congruence.
Qed.
Lemma b_rooted : forall t d u r, binv t d u -> (rooted secure d u r <-> m_root t = r).
Proof. intros t d u r (l & t0 & I & (_ & _ & <- & _)). exact (root_sound keccak_len secure K K_ok _ _ _ _ _ I). Qed.
Lemma b_cases : forall t d u, binv t d u ->
  (gone d u /\ m_root t = None) \/ (fresh d u /\ m_root t = Some EMPTY_HASH) \/
  (~ hollow d /\ u = true /\ exists r, m_root t = Some r /\ r <> [] /\ bytes_eqb r EMPTY_HASH = false).
Proof.
  intros t d u (l & t0 & I & (_ & _ & <- & _)). assert (I0 := I). destruct I as (R & Ed & U & Hi). destruct (hollow_dec l) as [Hd|Hd]; rewrite <- Ed in Hd.
  - pose proof (empty_root keccak_len secure K K_ok _ _ _ _ I0 Hd) as E. destruct u; [left|right; left]; unfold gone, fresh; auto.
  - right. right. destruct (full_root keccak_len secure K K_ok _ _ _ _ I0 Hd) as (b & _ & E & E1 & E2).
    destruct Hd as (k0 & v0 & Hd). split; [intros F; rewrite F in Hd; discriminate|]. split.
    + apply U. intros ->. subst d. discriminate.
    + unfold root_is_empty, root_falsy in *. rewrite E in E1, E2. eexists. split; [exact E|]. split; [|exact E1].
      intros F. rewrite F in E2. discriminate.
Qed.
Lemma b_alike : forall t d u, binv t d u -> tfine t -> exists l t0, inv secure K l t0 d u /\ trel t0 t /\ reads_alike t0 t.
Proof.
  intros t d u (l & t0 & I & T) [D N]. exists l, t0. split; [exact I|]. split; [exact T|].
  destruct I as (R & _). destruct (reachable_repr keccak_len _ _ _ R) as (Es & tr & Rt & _).
  pose proof (trel_repr _ _ _ T Rt D N) as Rt'. destruct T as (_ & _ & Er & Em). apply (reads_alike_repr keccak_len t0 t tr); auto.
Qed.
Lemma b_get : forall t d u k lim, binv t d u -> tfine t -> In k K -> gets secure lim d u k (mpt_get lim t k).
Proof.
  intros t d u k lim B F Hk. destruct (b_alike _ _ _ B F) as (l & t0 & I & T & A). destruct (A lim k []) as (-> & _).
  exact (get_sound keccak_len secure K K_ok K_small _ _ _ _ _ _ _ I Hk eq_refl).
Qed.
Lemma b_in : forall t d u k lim, binv t d u -> tfine t -> In k K -> asks secure lim d k (mpt_contains lim t k).
Proof.
  intros t d u k lim B F Hk. destruct (b_alike _ _ _ B F) as (l & t0 & I & T & A). destruct (A lim k []) as (_ & -> & _).
  exact (in_sound' keccak_len secure K K_ok _ _ _ _ _ _ _ I Hk eq_refl).
Qed.
Lemma b_poi : forall t d u k lim tm, binv t d u -> tfine t -> In k K -> includes secure lim tm d u k (mpt_get_poi lim tm t k).
Proof.
  intros t d u k lim tm B F Hk. destruct (b_alike _ _ _ B F) as (l & t0 & I & T & A). destruct (A lim k tm) as (_ & _ & -> & _).
  exact (MptEveryProofs.poi_sound keccak_len secure K K_ok K_small _ _ _ _ _ _ _ _ I Hk eq_refl).
Qed.
Lemma b_more : forall t t' d u, binv t d u -> m_root t' = m_root t -> m_secure t' = m_secure t -> part_of (m_map t) (m_map t') -> incl (m_log t) (m_log t') ->
  binv t' d u.
Proof. intros t t' d u (l & t0 & I & T) Er Es P L. exists l, t0. split; [exact I|]. exact (trel_more t0 t t' T Er Es P L). Qed.
Lemma b_call : forall t d u l t0 c res t', inv secure K l t0 d u -> trel t0 t -> ok_op secure (c_op c) -> mpt_call t c = (res, t') ->
  no_collision (m_log t') -> exists t0', mpt_call t0 c = (res, t0') /\ trel t0' t' /\ no_collision (m_log t0').
Proof.
  intros t d u l t0 c res t' I T Ho E N. destruct I as (R & _). destruct (reachable_repr keccak_len _ _ _ R) as (Es & tr & Rt & _).
  pose proof (call_sim t0 t c T) as S.
  destruct (mpt_call t0 c) as [r0 t0'] eqn:E0. rewrite E in S. cbn [fst snd] in S.
  assert (N0 : nocoll (m_log t0')) by (destruct S as [[_ S]|[_ (_ & S & _)]]; (eapply nocoll_incl; [|exact N]; exact S)).
  destruct S as [[-> S]|[-> S]].
  - exfalso. apply (call_no_key keccak_len t0 tr c Rt); rewrite ?Es, ?E0; cbn [fst snd]; auto.
  - exists t0'. auto.
Qed.
Definition fits_value (v : bytes) : Prop := (secure = false -> v <> []) /\ (blen v < 2 ^ 59)%N.
Lemma b_put : forall t d u k v lim res t', binv t d u -> In k K -> fits_value v -> mpt_update lim [] t k v = (res, t') -> no_collision (m_log t') ->
  match res with Ok _ => binv t' (set_ref d k v) true | Err x => gives_up secure lim [] k x end.
Proof.
  intros t d u k v lim res t' (l & t0 & I & T) Hk [Hv Hz] E N.
  assert (Ho : ok_op secure (Put k v)) by (split; cbn [op_key]; [apply K_small; auto|split; auto]).
  destruct (b_call _ _ _ _ _ (Call (Put k v) lim []) res t' I T Ho E N) as (t0' & E0 & T' & N0).
  pose proof (put_sound keccak_len secure K K_small _ _ _ _ _ _ _ _ _ _ I Hk Hv Hz E0 N0) as Q. destruct res as [a|x].
  - destruct Q as [l' Q]. exists l', t0'. auto.
  - apply Q.
Qed.
Lemma b_del : forall t d u k lim res t', binv t d u -> In k K -> mpt_delete lim [] t k = (res, t') -> no_collision (m_log t') ->
  exists d', drops secure lim [] d k res d' /\ binv t' d' u.
Proof.
  intros t d u k lim res t' (l & t0 & I & T) Hk E N.
  assert (Ho : ok_op secure (Del k)) by (split; cbn [op_key]; [apply K_small; auto|exact Logic.I]).
  destruct (b_call _ _ _ _ _ (Call (Del k) lim []) res t' I T Ho E N) as (t0' & E0 & T' & N0).
  destruct (del_sound keccak_len secure K K_ok K_small _ _ _ _ _ _ _ _ _ I Hk E0 N0) as (d' & l' & D & I'). exists d'. split; [exact D|]. exists l', t0'. auto.
Qed.

(** ** Following a call through the accesses of others *)
Definition track {A} (q0 : prog A) (t : mpt) (m : dict bytes) (log : list bytes) (q : prog A) : Prop :=
  tame q /\ exists sv, seq q sv = seq q0 (mkStore (m_map t) (m_log t) []) /\ part_of (s_map sv) m /\ incl (s_log sv) log.
Lemma track_start : forall A (q0 : prog A) t, tame q0 -> track q0 t (m_map t) (m_log t) q0.
Proof.
  intros A q0 t T. split; [exact T|]. eexists. split; [reflexivity|]. split; [intros h e E; exact E|intros x Hx; exact Hx].
Qed.
Lemma track_more : forall A (q0 : prog A) t m log m' log' q, track q0 t m log q -> part_of m m' -> incl log log' -> track q0 t m' log' q.
Proof.
  intros A q0 t m log m' log' q (T & sv & E & P & L) P' L'. split; [exact T|]. exists sv. split; [exact E|].
  split; [eapply part_trans; eauto|eapply incl_tran; eauto].
Qed.
Lemma track_get : forall A (q0 : prog A) t m log h k, track q0 t m log (PGet h k) ->
  (forall sv, seq q0 (mkStore (m_map t) (m_log t) []) = (Err KeyError, sv) -> incl (s_log sv) log -> False) ->
  track q0 t m log (k (dget m h)).
Proof.
  intros A q0 t m log h k (T & sv & E & P & L) N. inversion T as [|h' k' Ek Tk|]; subst h' k'. cbn [seq] in E.
  destruct (dget (s_map sv) h) as [x|] eqn:Ex.
  - rewrite (P _ _ Ex). split; [apply Tk|]. exists sv. auto.
  - exfalso. rewrite Ek in E. cbn [seq] in E. exact (N sv (eq_sym E) L).
Qed.
Lemma track_set : forall A (q0 : prog A) t m log h e k, track q0 t m log (PSet h e k) ->
  h = keccak e /\ 32 <= length e /\ track q0 t (dset m h e) (e :: log) k.
Proof.
  intros A q0 t m log h e k (T & sv & E & P & L). inversion T as [| |e' k' Le Tk Eh]; subst e' k' h. split; [reflexivity|]. split; [exact Le|].
  split; [exact Tk|]. cbn [seq] in E. eexists. split; [exact E|]. cbn [s_map s_log]. split; [apply part_dset; exact P|].
  intros x [<-|Hx]; [left; reflexivity|right; apply L; exact Hx].
Qed.
Lemma track_end : forall A (q0 : prog A) t m log r, track q0 t m log (PRet r) ->
  exists sv, seq q0 (mkStore (m_map t) (m_log t) []) = (r, sv) /\ part_of (s_map sv) m /\ incl (s_log sv) log.
Proof. intros A q0 t m log r (_ & sv & E & P & L). exists sv. auto. Qed.
Lemma track_no : forall A (q0 : prog A) t m log q, track q0 t m log q ->
  match q with PRoot _ => False | PAssign _ _ => False | _ => True end.
Proof. intros A q0 t m log q (T & _). destruct T; exact Logic.I. Qed.

(** A call which answers [o] whatever happens. *)
Inductive will (o : tout) : prog tout -> Prop :=
| will_now : will o (PRet (Ok o))
| will_root : forall k, (forall r, will o (k r)) -> will o (PRoot k)
| will_miss : forall k, will o (k None) -> will o (PGet EMPTY_HASH k).
(** The walk of [contains]. *)
Inductive seeks (m : dict bytes) (r : result bool) : prog tout -> Prop :=
| seeks_end : seeks m r (PRet (Ok (ABool r)))
| seeks_get : forall h x k, dget m h = Some x -> seeks m r (k (Some x)) -> seeks m r (PGet h k)
| seeks_root : forall k, k None = PRet (Ok (ABool (Ok false))) \/ seeks m r (k None) ->
    (forall x, bytes_eqb x EMPTY_HASH = false -> seeks m r (k (Some x))) -> seeks m r (PRoot k).
Definition verdict (x : option (node * np)) : bool :=
  match x with
  | None => false
  | Some (Branch _ v, _) => negb (bytes_eqb v [])
  | Some (Extension _ _, _) => false
  | Some (Leaf lp _, path) => np_eq lp path
  end.
Definition in_rest (lim : nat) (r : option bytes) (k : bytes) : prog tout :=
  told ABool (pbind (p_contains lim r (np_of (t_key secure k))) (fun x => pret (verdict x))).
Lemma seeks_node : forall m res r (F : node -> prog (option (node * np))),
  match get_node m r with Ok n => seeks m res (told ABool (pbind (F n) (fun x => pret (verdict x)))) | Err e => e <> KeyError /\ res = Err e end ->
  seeks m res (told ABool (pbind (pbind (p_node (Some r)) F) (fun x => pret (verdict x)))).
Proof.
  intros m res r F E. unfold get_node in E. unfold p_node. destruct (length r =? 32).
  - destruct (dget m r) as [raw|] eqn:Er; [|destruct E as [E _]; congruence]. cbn [pbind told]. apply (seeks_get _ _ _ raw); [exact Er|].
    cbn [pbind]. destruct (node_decode raw) as [n|e]; [exact E|]. destruct E as [_ ->]. constructor.
  - destruct (node_decode r) as [n|e]; [exact E|]. destruct E as [_ ->]. constructor.
Qed.
Lemma seeks_walk : forall f m r p, contains_ f m r p <> Err KeyError ->
  seeks m (match contains_ f m r p with Ok x => Ok (verdict (Some x)) | Err e => Err e end)
    (told ABool (pbind (p_contains f (Some r) p) (fun x => pret (verdict x)))).
Proof.
  induction f as [|f IH]; intros m r p N; cbn [contains_ p_contains] in *; [constructor|].
  apply seeks_root; [left; reflexivity|]. intros x _.
  match goal with |- context [PRoot ?k] => idtac | |- _ => idtac end.
  cbn [pbind proot told]. 
  assert (Q : seeks m (match match get_node m r with
      | Ok n => if np_len p =? 0 then Ok (n, p) else match n with
          | Leaf _ _ => Ok (n, p)
          | Extension ep nr => if np_starts_with p ep then contains_ f m nr (np_consume p (np_len ep)) else Ok (n, p)
          | Branch bs _ => let b := nth (np_at p 0) bs [] in if 0 <? length b then contains_ f m b (np_consume p 1) else Ok (n, p) end
      | Err e => Err e end with Ok x0 => Ok (verdict (Some x0)) | Err e => Err e end)
    (told ABool (pbind (pbind (p_node (Some r)) (fun n => if np_len p =? 0 then pret (Some (n, p)) else match n with
          | Leaf _ _ => pret (Some (n, p))
          | Extension ep nr => if np_starts_with p ep then p_contains f (Some nr) (np_consume p (np_len ep)) else pret (Some (n, p))
          | Branch bs _ => let b := nth (np_at p 0) bs [] in if 0 <? length b then p_contains f (Some b) (np_consume p 1) else pret (Some (n, p)) end))
       (fun x => pret (verdict x))))).
  { apply seeks_node. destruct (get_node m r) as [n|e]; [|split; [congruence|reflexivity]].
    destruct (np_len p =? 0); [constructor|]. destruct n as [lp d|ep nr|bs d].
    - constructor.
    - destruct (np_starts_with p ep); [apply IH; exact N|constructor].
    - cbv zeta in *. destruct (0 <? _); [apply IH; exact N|constructor]. }
  apply seeks_root.
  - right. exact Q.
  - intros y Ey. cbn beta. rewrite Ey. exact Q.
Qed.

(** ** How the writing calls end *)
Notation way k := (np_of (t_key secure k)).
Lemma eff_t : forall t k, m_secure t = secure -> eff_key t k = t_key secure k.
Proof. intros t k E. unfold eff_key, t_key. rewrite E. reflexivity. Qed.
Lemma put_end : forall t d u k v lim r sv, binv t d u -> In k K -> fits_value v ->
  seq (p_update lim (root_ref t) (way k) v) (mkStore (m_map t) (m_log t) []) = (r, sv) -> no_collision (s_log sv) ->
  match r with Ok r' => binv (mkMpt (s_map sv) (s_log sv) (Some r') secure) (set_ref d k v) true | Err x => gives_up secure lim [] k x end.
Proof.
  intros t d u k v lim r sv B Hk Hv E N. pose proof (b_secure _ _ _ B) as Es.
  destruct (same_update lim (root_ref t) (way k) v (mkStore (m_map t) (m_log t) []) eq_refl) as [E' _]. rewrite E in E'.
  pose proof (b_put t d u k v lim) as Q. unfold mpt_update, run_op in Q. rewrite (eff_t _ _ Es), <- E' in Q. destruct r as [r'|x].
  - exact (eq_rect (m_secure t) (fun s => binv (mkMpt (s_map sv) (s_log sv) (Some r') s) (set_ref d k v) true) (Q _ _ B Hk Hv eq_refl N) secure Es).
  - exact (Q _ _ B Hk Hv eq_refl N).
Qed.
Lemma drops_err : forall lim fl d k x d', drops secure lim fl d k (Err x) d' -> d' = d.
Proof. intros lim fl d k x d' D. inversion D; reflexivity. Qed.
Lemma del_end : forall t d u k lim r0 r sv, binv t d u -> In k K -> ~ hollow d -> m_root t = Some r0 ->
  seq (p_delete lim (Some r0) (way k)) (mkStore (m_map t) (m_log t) []) = (r, sv) -> no_collision (s_log sv) ->
  match r with
  | Ok a => exists d1, drops secure lim [] d k (Ok tt) d1 /\
      binv (mkMpt (s_map sv) (s_log sv) (match a with DDeleted => None | DUpdated r => Some r | DUseless _ r => Some r end) secure) d1 u
  | Err x => drops secure lim [] d k (Err x) d
  end.
Proof.
  intros t d u k lim r0 r sv B Hk Hh Er E N. pose proof (b_secure _ _ _ B) as Es.
  destruct (b_cases _ _ _ B) as [[[Hg _] _]|[[[Hg _] _]|(_ & _ & r1 & Er1 & _ & Ee)]]; [contradiction|contradiction|]. assert (r1 = r0) by congruence. subst r1.
  destruct (same_delete lim r0 (way k) (mkStore (m_map t) (m_log t) []) eq_refl) as [E' _]. rewrite E in E'.
  pose proof (b_del t d u k lim) as Q. unfold mpt_delete, run_op, root_is_empty, root_ref in Q. rewrite Er, Ee, (eff_t _ _ Es), <- E', Es in Q. destruct r as [a|x].
  - exact (Q _ _ B Hk eq_refl N).
  - destruct (Q _ _ B Hk eq_refl N) as (d' & D & _). rewrite (drops_err _ _ _ _ _ _ D) in D. exact D.
Qed.
Lemma no_key_up : forall lim k, ~ gives_up secure lim [] k KeyError.
Proof. intros lim k [[F _]|[F _]]; discriminate. Qed.
Lemma no_key_drop : forall lim d k d', ~ drops secure lim [] d k (Err KeyError) d'.
Proof.
  intros lim d k d' D. inversion D as [|Hd|x Hn R|x Hn R]; try discriminate; subst.
  - destruct R as (p & q & _ & [[F _]|[[F _]|[[F _]|[F _]]]]); discriminate.
  - exact (no_key_up _ _ R).
Qed.
Lemma no_key_get : forall lim d u k, ~ hollow d -> ~ gets secure lim d u k (Err KeyError).
Proof.
  intros lim d u k Hh G. inversion G as [| |Hd _ E|x Hn R|]; subst; try contradiction.
  destruct R as (p & q & _ & [[F _]|[[F _]|[[F _]|[F _]]]]); discriminate.
Qed.
Lemma no_key_poi : forall lim tm d u k, ~ includes secure lim tm d u k (Err KeyError).
Proof.
  intros lim tm d u k G. inversion G as [| | |x Hn R|]; subst.
  destruct R as (p & q & _ & [[F _]|[[F _]|[F _]]]); discriminate.
Qed.
Lemma no_key_in : forall lim d k, ~ asks secure lim d k (Err KeyError).
Proof. intros lim d k A. inversion A. Qed.

(** A node more in the storage. *)
Lemma grow : forall m log e, dinv m log -> 32 <= length e -> nocoll (e :: log) ->
  dinv (dset m (keccak e) e) (e :: log) /\ part_of m (dset m (keccak e) e) /\ incl log (e :: log).
Proof.
  intros m log e D L N. destruct (keeps_write e L (mkStore m log []) D) as [D' [X _]]. cbn in D', X.
  split; [exact D'|]. split; [intros h x; exact (dext_dget _ _ _ _ D D' X N h x)|apply incl_tl, incl_refl].
Qed.
Lemma no_empty : forall m log, dinv m log -> nocoll log -> dget m EMPTY_HASH = None.
Proof.
  intros m log (D0 & _ & D) N. destruct (dget m EMPTY_HASH) as [e|] eqn:E; [|reflexivity]. exfalso. destruct (D _ _ E) as (Ek & Hi & L).
  assert (X : [x80] = e) by (apply N; auto). subst e. cbn in L. lia.
Qed.

(** ** Where a call is *)
Definition get_rest (lim : nat) (r : option bytes) (k : bytes) : prog tout := told AVal (pbind (p_get lim r (way k)) (fun n => PRet (node_data n))).
Definition new_root (a : daction) : option bytes := match a with DDeleted => None | DUpdated r => Some r | DUseless _ r => Some r end.
Definition del_tail (a : daction) : prog unit := PAssign (new_root a) (pret tt).
Definition poi_tail (tm k : bytes) (l : list bytes) : prog proof :=
  PRoot (fun r => match r with None => praise TypeError | Some r => PRet (new_proof tm (t_key secure k) r (map PB l) MPT_POI) end).
Definition hash_tail (long : bool) : prog (option bytes) :=
  if long then proot else PRoot (fun c => match c with None => praise TypeError | Some c => pret (Some (keccak c)) end).
Definition unborn_rest (f : nat) (k : bytes) : prog tout :=
  told ABool (pbind (pbind proot (fun b => if match b with Some x => bytes_eqb x EMPTY_HASH | None => false end then pret None
          else pbind (p_node (Some EMPTY_HASH)) (fun n => if np_len (way k) =? 0 then pret (Some (n, way k)) else match n with
          | Leaf _ _ => pret (Some (n, way k))
          | Extension ep nr => if np_starts_with (way k) ep then p_contains f (Some nr) (np_consume (way k) (np_len ep)) else pret (Some (n, way k))
          | Branch bs _ => let b := nth (np_at (way k) 0) bs [] in if 0 <? length b then p_contains f (Some b) (np_consume (way k) 1) else pret (Some (n, way k)) end)))
       (fun x => pret (verdict x))).

Lemma emptied_more : forall (P P' : mpt -> Prop), (forall t, P t -> P' t) -> emptied P -> emptied P'.
Proof. intros P P' HP (t & t' & A & B & C & D). exists t, t'. auto. Qed.
Definition standing (P : mpt -> Prop) : Prop := exists t, P t /\ m_root t <> None.
Lemma standing_more : forall (P P' : mpt -> Prop), (forall t, P t -> P' t) -> standing P -> standing P'.
Proof. intros P P' HP (t & A & B). exists t. auto. Qed.
Lemma emptied_now : forall (P : mpt -> Prop) t, standing P -> P t -> m_root t = None -> emptied P.
Proof. intros P t (t' & A & B) Pt E. exists t, t'. auto. Qed.
Lemma stems_more : forall (P P' : mpt -> Prop) lim c o, (forall t, P t -> P' t) -> stems P lim c o -> stems P' lim c o.
Proof.
  intros P P' lim c o HP W. destruct c as [k|k|k v|k|tm k| |], o as [r|r|r|[p|x]|r]; cbn [stems] in *; auto.
  - destruct W as [(t & W)|(x & W)]; [left; exists t; intuition|right; exists x; intuition eauto using emptied_more].
  - destruct W as [(t & W)|[W|[W|(W & t & t' & W')]]]; [left; exists t; intuition|auto|right; right; left; intuition eauto using emptied_more|
      right; right; right; split; [auto|]; exists t, t'; intuition].
  - destruct W as (t & t' & p' & r' & W). exists t, t', p', r'. intuition.
  - destruct W as [(t & W)|W]; [left; exists t; intuition|right; intuition eauto using emptied_more].
  - destruct W as (t & W). exists t. intuition.
  - destruct W as [(t & W)|[W|(t & t' & r' & W1 & W2 & W)]]; [left; exists t; intuition|right; left; intuition eauto using emptied_more|
      right; right; exists t, t', r'; intuition].
Qed.

Definition okc (c : tcmd) : Prop := incl (tkeys1 c) K /\ match c with TPut _ v => fits_value v | _ => True end.
Inductive ainv (P : mpt -> Prop) (m : dict bytes) (log : list bytes) (u : bool) (lim : nat) : tcmd -> prog tout -> stage -> Prop :=
| a_begun : forall c, ainv P m log u lim c (call_prog secure lim c) (Begun 0 lim c)
| a_settled : forall c o p, (is_write c = true -> answer p = Some o) -> will o p -> stems P lim c o -> ainv P m log u lim c p (Settled o)
| a_get1 : forall k, standing P -> ainv P m log u lim (TGet k) (PRoot (fun r => get_rest lim r k)) (Begun 1 lim (TGet k))
| a_get : forall k t q d0 u0 r0, P t -> binv t d0 u0 -> tfine t -> ~ hollow d0 -> m_root t = Some r0 ->
    track (p_get lim (Some r0) (way k)) t m log q -> (forall r, q <> PRet r) ->
    ainv P m log u lim (TGet k) (told AVal (pbind q (fun n => PRet (node_data n)))) (Took lim (TGet k) d0 u0)
| a_in1 : forall k, standing P -> ainv P m log u lim (TIn k) (PRoot (fun r => in_rest lim r k)) (Begun 1 lim (TIn k))
| a_in : forall k t d0 u0 p, P t -> binv t d0 u0 -> tfine t -> u = true -> part_of (m_map t) m -> seeks (m_map t) (mpt_contains lim t k) p ->
    answer p = None -> ainv P m log u lim (TIn k) p (Took lim (TIn k) d0 u0)
| a_blank : forall k f t, P t -> m_root t = None -> lim = S f -> u = true -> standing P -> ainv P m log u lim (TIn k) (in_rest lim None k) Blank
| a_blank2 : forall k, emptied P -> u = true ->
    ainv P m log u lim (TIn k) (PRoot (fun b => told ABool (pbind (if match b with Some x => bytes_eqb x EMPTY_HASH | None => false end then pret None else praise TypeError)
      (fun x => pret (verdict x))))) (Settled (ABool (Err TypeError)))
| a_unborn : forall k f t, P t -> m_root t = Some EMPTY_HASH -> lim = S f -> ainv P m log u lim (TIn k) (in_rest lim (Some EMPTY_HASH) k) Unborn
| a_unborn2 : forall k f t, P t -> m_root t = Some EMPTY_HASH -> lim = S f -> ainv P m log u lim (TIn k) (unborn_rest f k) Unborn
| a_put : forall k v t q d0 u0, P t -> binv t d0 u0 -> track (p_update lim (root_ref t) (way k) v) t m log q -> (forall x, q <> PRet (Err x)) ->
    ainv P m log u lim (TPut k v) (told ANone (pbind q (fun r' => PAssign (Some r') (pret tt)))) (Took lim (TPut k v) d0 u0)
| a_del1 : forall k, ainv P m log u lim (TDel k)
    (told ANone (PRoot (fun b => if is_empty_hash b then praise ValueError else PRoot (fun r => pbind (p_delete lim r (way k)) del_tail)))) (Begun 1 lim (TDel k))
| a_del2 : forall k, u = true -> ainv P m log u lim (TDel k) (told ANone (PRoot (fun r => pbind (p_delete lim r (way k)) del_tail))) (Begun 2 lim (TDel k))
| a_del : forall k t q d0 u0 r0, P t -> binv t d0 u0 -> ~ hollow d0 -> u0 = true -> m_root t = Some r0 ->
    track (p_delete lim (Some r0) (way k)) t m log q -> (forall x, q <> PRet (Err x)) ->
    ainv P m log u lim (TDel k) (told ANone (pbind q del_tail)) (Took lim (TDel k) d0 u0)
| a_poi1 : forall tm k, standing P -> ainv P m log u lim (TPoi tm k)
    (told AProof (PRoot (fun b => if is_empty_hash b then praise ValueError else PRoot (fun r => pbind (p_poi lim r (way k) []) (poi_tail tm k))))) (Begun 1 lim (TPoi tm k))
| a_poi2 : forall tm k, u = true -> standing P -> ainv P m log u lim (TPoi tm k) (told AProof (PRoot (fun r => pbind (p_poi lim r (way k) []) (poi_tail tm k)))) (Begun 2 lim (TPoi tm k))
| a_poi : forall tm k t q d0 u0 r0, P t -> binv t d0 u0 -> tfine t -> ~ hollow d0 -> m_root t = Some r0 ->
    track (p_poi lim (Some r0) (way k) []) t m log q -> (forall x, q <> PRet (Err x)) ->
    ainv P m log u lim (TPoi tm k) (told AProof (pbind q (poi_tail tm k))) (Took lim (TPoi tm k) d0 u0)
| a_hash1 : standing P -> ainv P m log u lim THash
    (told AOpt (PRoot (fun b => match b with None => praise TypeError | Some b => hash_tail (length b =? 32) end))) (Begun 1 lim THash)
| a_sized : forall long t r', P t -> m_root t = Some r' -> r' <> [] -> long = (length r' =? 32) -> ainv P m log u lim THash (told AOpt (hash_tail long)) (Sized long).

Lemma ainv_more : forall (P P' : mpt -> Prop) m m' log log' (u u' : bool) lim c p a, ainv P m log u lim c p a -> (forall t, P t -> P' t) ->
  part_of m m' -> incl log log' -> (u = true -> u' = true) -> ainv P' m' log' u' lim c p a.
Proof.
  intros P P' m m' log log' u u' lim c p a A HP Hm Hl Hu. destruct A; try (econstructor; eauto using track_more, stems_more, part_trans, standing_more, emptied_more; fail).
Qed.

(** ** One access *)
Definition obj (s : shared) : mpt := mkMpt (h_map s) (h_log s) (h_root s) secure.
Inductive star : kvmap -> bool -> stage -> kvmap -> bool -> stage -> Prop :=
| star_refl : forall d u a, star d u a d u a
| star_step : forall d u a d1 u1 a1 d2 u2 a2, acts secure d u a d1 u1 a1 -> star d1 u1 a1 d2 u2 a2 -> star d u a d2 u2 a2.
Lemma star_one : forall d u a d1 u1 a1, acts secure d u a d1 u1 a1 -> star d u a d1 u1 a1.
Proof. intros. eapply star_step; [eassumption|constructor]. Qed.

Definition next (P : mpt -> Prop) (s : shared) (d : kvmap) (u : bool) (lim : nat) (c : tcmd) (a : stage) (s' : shared) (p' : prog tout) : Prop :=
  exists d' u' a', star d u a d' u' a' /\ ainv P (h_map s') (h_log s') u' lim c p' a' /\ binv (obj s') d' u' /\ tfine (obj s') /\
    (u = true -> u' = true) /\ part_of (h_map s) (h_map s') /\ incl (h_log s) (h_log s').
Lemma next_stay : forall P s d u lim c a p' a', binv (obj s) d u -> tfine (obj s) -> star d u a d u a' ->
  ainv P (h_map s) (h_log s) u lim c p' a' -> next P s d u lim c a s p'.
Proof.
  intros P s d u lim c a p' a' B F S A. exists d, u, a'. split; [exact S|]. split; [exact A|]. split; [exact B|]. split; [exact F|].
  split; [auto|]. split; [apply part_refl|apply incl_refl].
Qed.
Lemma not_gone : forall d u, ~ hollow d -> ~ gone d u.
Proof. intros d u Hd [F _]. contradiction. Qed.
Lemma fresh_not_gone : forall d u, fresh d u -> ~ gone d u.
Proof. intros d u [_ E] [_ F]. congruence. Qed.
Lemma gone_not_fresh : forall d u, gone d u -> ~ fresh d u.
Proof. intros d u [_ E] [_ F]. congruence. Qed.
Lemma empty_nonnil : is_falsy (Some EMPTY_HASH) = false.
Proof. unfold is_falsy. pose proof (keccak_len [x80]) as L. unfold EMPTY_HASH. destruct (keccak [x80]); [discriminate|reflexivity]. Qed.
Lemma nonnil : forall r : bytes, r <> [] -> is_falsy (Some r) = false.
Proof. intros [|b r] N; [congruence|reflexivity]. Qed.
Lemma is_empty_self : is_empty_hash (Some EMPTY_HASH) = true.
Proof. apply bytes_eqb_refl. Qed.
Lemma key_in : forall c k, okc c -> In k (tkeys1 c) -> In k K.
Proof. intros c k [Hi _] Hk. auto. Qed.
Lemma empty_32 : length EMPTY_HASH =? 32 = true.
Proof. apply Nat.eqb_eq, keccak_len. Qed.

(** Reading the root where nothing was stored: KeyError. *)
Lemma will_key : forall f k, will (AVal (Err KeyError)) (get_rest (S f) (Some EMPTY_HASH) k).
Proof. intros f k. unfold get_rest. cbn [p_get p_node]. rewrite empty_32. cbn [pbind told]. apply will_miss. constructor. Qed.


Definition grown (s s' : shared) (d : kvmap) (u : bool) : Prop :=
  binv (obj s') d u /\ tfine (obj s') /\ part_of (h_map s) (h_map s') /\ incl (h_log s) (h_log s').
Lemma grown_refl : forall s d u, binv (obj s) d u -> tfine (obj s) -> grown s s d u.
Proof. intros s d u B F. split; [exact B|]. split; [exact F|]. split; [apply part_refl|apply incl_refl]. Qed.
Lemma next_to : forall P s s' d u lim c a p' a', grown s s' d u -> star d u a d u a' ->
  ainv P (h_map s') (h_log s') u lim c p' a' -> next P s d u lim c a s' p'.
Proof.
  intros P s s' d u lim c a p' a' (B & F & Hm & Hl) S A. exists d, u, a'. split; [exact S|]. split; [exact A|]. split; [exact B|]. split; [exact F|].
  split; [auto|]. split; [exact Hm|exact Hl].
Qed.
Lemma next_pre : forall P s d u lim c a a1 s' p', acts secure d u a d u a1 -> next P s d u lim c a1 s' p' -> next P s d u lim c a s' p'.
Proof. intros P s d u lim c a a1 s' p' A (d' & u' & a' & S & Q). exists d', u', a'. split; [eapply star_step; eauto|exact Q]. Qed.

(** An access of a call that is followed. *)
Lemma tracked : forall A B (q0 q : prog A) (f : A -> prog B) g t s d u s' p', binv (obj s) d u -> tfine (obj s) ->
  track q0 t (h_map s) (h_log s) q -> (forall r, q <> PRet r) ->
  (forall sv, seq q0 (mkStore (m_map t) (m_log t) []) = (Err KeyError, sv) -> incl (s_log sv) (h_log s) -> False) ->
  access s (told g (pbind q f)) = (s', p') -> no_collision (h_log s') ->
  exists q', p' = told g (pbind q' f) /\ track q0 t (h_map s') (h_log s') q' /\ grown s s' d u.
Proof.
  intros A B q0 q f g t s d u s' p' Bs [D N] T Nq NK E N'.
  destruct q as [r|h kk|h e kk|kk|r kk]; [exfalso; eapply Nq; reflexivity| | |destruct (track_no _ _ _ _ _ _ T)|destruct (track_no _ _ _ _ _ _ T)].
  - cbn [pbind told access] in E. injection E as <- <-. exists (kk (dget (h_map s) h)). split; [reflexivity|].
    split; [apply track_get; auto|]. apply grown_refl; [exact Bs|split; auto].
  - cbn [pbind told access] in E. injection E as <- <-. destruct (track_set _ _ _ _ _ _ _ _ T) as (-> & L & T').
    exists kk. split; [reflexivity|]. split; [exact T'|]. cbn [h_log] in N'. destruct (grow (h_map s) (h_log s) e D L N') as (D' & Pm & Li).
    split; [|split; [split; [exact D'|exact N']|split; [exact Pm|exact Li]]].
    apply (b_more (obj s)); auto.
Qed.

Section Step.
Variables (P : mpt -> Prop) (s : shared) (d : kvmap) (u : bool) (lim : nat).
Hypothesis B : binv (obj s) d u.
Hypothesis F : tfine (obj s).
Ltac here a := eapply next_stay; [exact B|exact F|apply star_one; a|].

Lemma get_result : forall t d0 u0 k r0, binv t d0 u0 -> ~ hollow d0 -> m_root t = Some r0 ->
  mpt_get lim t k = match get_ lim (m_map t) r0 (way k) with Ok n => node_data n | Err e => Err e end.
Proof.
  intros t d0 u0 k r0 Bt Hh Er. pose proof (b_secure _ _ _ Bt) as Es.
  destruct (b_cases _ _ _ Bt) as [[[Hg _] _]|[[[Hg _] _]|(_ & _ & r1 & Er1 & Hn & Ee)]]; [contradiction|contradiction|]. assert (r1 = r0) by congruence. subst r1.
  unfold mpt_get, root_falsy, root_ref. rewrite Er, (eff_t _ _ Es). destruct r0; [congruence|]. destruct (get_ _ _ _ _); reflexivity.
Qed.
(** After an access: the walk goes on or has ended. *)
Lemma get_go : forall s' k t d0 u0 r0 q, In k K -> P t -> binv t d0 u0 -> tfine t -> ~ hollow d0 -> m_root t = Some r0 ->
  track (p_get lim (Some r0) (way k)) t (h_map s') (h_log s') q -> grown s s' d u ->
  next P s d u lim (TGet k) (Took lim (TGet k) d0 u0) s' (told AVal (pbind q (fun n => PRet (node_data n)))).
Proof.
  intros s' k t d0 u0 r0 q Hk Pt Bt Ft Hh Er T G'. destruct q as [r|h kk|h e kk|kk|r kk].
  - destruct (track_end _ _ _ _ _ _ T) as (sv & E & _). rewrite seq_get in E. injection E as E _. cbn [s_map] in E.
    pose proof (get_result _ _ _ k _ Bt Hh Er) as G. rewrite E in G. pose proof (b_get _ _ _ k lim Bt Ft Hk) as X. rewrite G in X.
    eapply next_to; [exact G'|apply star_one, get_answers; exact X|]. apply a_settled; [intros Hw; discriminate Hw| |].
    + destruct r as [n|x]; cbn [pbind told]; constructor.
    + left. exists t. auto.
  - eapply next_to; [exact G'|constructor|]. eapply a_get; eauto. discriminate.
  - eapply next_to; [exact G'|constructor|]. eapply a_get; eauto. discriminate.
  - destruct (track_no _ _ _ _ _ _ T).
  - destruct (track_no _ _ _ _ _ _ T).
Qed.
Lemma get_step : forall k p a s' p', In k K -> ainv P (h_map s) (h_log s) u lim (TGet k) p a -> (answer p = None -> P (obj s)) ->
  (forall o, a <> Settled o) -> access s p = (s', p') -> no_collision (h_log s') -> next P s d u lim (TGet k) a s' p'.
Proof.
  intros k p a s' p' Hk A HP Hns E N. inversion A as [c|c o p0 Wa W|k0 Sg|k0 t q d0 u0 r0 Pt Bt Ft Hh Er T Nq| | | | | | | | | | | | | | |]; subst; try (exfalso; eapply Hns; reflexivity).
  - cbn [call_prog call_get proot pbind told access] in E. injection E as <- <-. specialize (HP eq_refl).
    destruct (b_cases _ _ _ B) as [[Hg Er]|[[Hg Er]|(Hh & Hu & r & Er & Hn & Ee)]]; cbn [obj m_root] in Er; rewrite Er.
    + here ltac:(apply get_gone; exact Hg). apply a_settled; [intros Hw; first [discriminate Hw|reflexivity]|constructor|]. left. exists (obj s).
      split; [exact HP|]. unfold mpt_get, root_falsy. cbn [obj m_root]. rewrite Er. reflexivity.
    + rewrite empty_nonnil. here ltac:(apply get_looks, fresh_not_gone; exact Hg). apply a_get1. exists (obj s). cbn [obj m_root]. rewrite Er. split; [exact HP|discriminate].
    + rewrite (nonnil _ Hn). here ltac:(apply get_looks, not_gone; exact Hh). apply a_get1. exists (obj s). cbn [obj m_root]. rewrite Er. split; [exact HP|discriminate].
  - cbn [access] in E. injection E as <- <-. specialize (HP eq_refl).
    destruct (b_cases _ _ _ B) as [[Hg Er]|[[Hg Er]|(Hh & Hu & r & Er & Hn & Ee)]]; assert (Er' := Er); cbn [obj m_root] in Er; rewrite Er.
    + destruct lim as [|f].
      * here ltac:(apply get_blank; [exact Hg|right; auto]). apply a_settled; [intros Hw; first [discriminate Hw|reflexivity]|constructor|].
        right. exists RecursionError. split; [reflexivity|]. split; [right; auto|]. apply (emptied_now _ (obj s)); auto.
      * here ltac:(apply get_blank; [exact Hg|left; split; [lia|reflexivity]]). apply a_settled; [intros Hw; first [discriminate Hw|reflexivity]|constructor|].
        right. exists TypeError. split; [reflexivity|]. split; [left; split; [lia|reflexivity]|]. apply (emptied_now _ (obj s)); auto.
    + eapply next_pre; [apply get_takes, fresh_not_gone; exact Hg|]. pose proof (b_get _ _ _ k lim B F Hk) as G.
      assert (X : mpt_get lim (obj s) k = match lim with 0 => Err RecursionError | S f => Err KeyError end).
      { unfold mpt_get, root_falsy, root_ref. cbn [obj m_root m_map]. rewrite Er. pose proof empty_nonnil as Z0. unfold is_falsy in Z0. rewrite Z0.
        destruct lim as [|f]; [reflexivity|]. cbn [get_]. unfold get_node. rewrite empty_32.
        rewrite (no_empty (h_map s) (h_log s)); [reflexivity|apply F|apply F]. }
      rewrite X in G. here ltac:(apply get_answers; exact G). apply a_settled; [intros Hw; discriminate Hw| |].
      * destruct lim as [|f]; [constructor|apply will_key].
      * left. exists (obj s). auto.
    + eapply next_pre; [apply get_takes, not_gone; exact Hh|]. apply (get_go s k (obj s) d u r); auto.
      * apply (track_start _ _ (obj s)). apply tame_pget.
      * apply grown_refl; auto.
  - edestruct tracked as (q' & -> & T' & G'); [exact B|exact F|exact T|exact Nq| |exact E|exact N|].
    + intros sv Es Hi. rewrite seq_get in Es. injection Es as Es _. cbn [s_map] in Es. pose proof (get_result _ _ _ k _ Bt Hh Er) as G. rewrite Es in G.
      pose proof (b_get _ _ _ k lim Bt Ft Hk) as X. rewrite G in X. exact (no_key_get _ _ _ _ Hh X).
    + apply (get_go s' k t d0 u0 r0); auto.
Qed.

(** *** contains *)
Lemma none_no : forall k, m_root (obj s) = None -> mpt_contains lim (obj s) k = Ok false.
Proof. intros k E. unfold mpt_contains, root_falsy. rewrite E. reflexivity. Qed.
Lemma fresh_no : forall k, m_root (obj s) = Some EMPTY_HASH -> mpt_contains lim (obj s) k = Ok false.
Proof.
  intros k E. unfold mpt_contains, root_is_empty. rewrite E. destruct (root_falsy (obj s)); [reflexivity|]. rewrite bytes_eqb_refl. reflexivity.
Qed.
Lemma in_result : forall t d0 u0 k r0, binv t d0 u0 -> ~ hollow d0 -> m_root t = Some r0 ->
  mpt_contains lim t k = match contains_ lim (m_map t) r0 (way k) with Ok x => Ok (verdict (Some x)) | Err e => Err e end.
Proof.
  intros t d0 u0 k r0 Bt Hh Er. pose proof (b_secure _ _ _ Bt) as Es.
  destruct (b_cases _ _ _ Bt) as [[[Hg _] _]|[[[Hg _] _]|(_ & _ & r1 & Er1 & Hn & Ee)]]; [contradiction|contradiction|]. assert (r1 = r0) by congruence. subst r1.
  unfold mpt_contains, root_falsy, root_is_empty, root_ref. rewrite Er, Ee, (eff_t _ _ Es). destruct r0; [congruence|].
  destruct (contains_ _ _ _ _) as [[[] ?]|]; reflexivity.
Qed.
Lemma in_go : forall k t d0 u0 p', In k K -> P t -> binv t d0 u0 -> tfine t -> u = true -> part_of (m_map t) (h_map s) -> seeks (m_map t) (mpt_contains lim t k) p' ->
  next P s d u lim (TIn k) (Took lim (TIn k) d0 u0) s p'.
Proof.
  intros k t d0 u0 p' Hk Pt Bt Ft Hu Hm S. destruct (answer p') as [o|] eqn:Ea.
  - destruct S as [|h x kk Ex S|kk S1 S2]; try discriminate. here ltac:(apply in_answers; exact (b_in _ _ _ k lim Bt Ft Hk)).
    apply a_settled; [intros Hw; first [discriminate Hw|reflexivity]|constructor|]. left. exists t. auto.
  - eapply next_stay; [exact B|exact F|constructor|]. eapply a_in; eauto.
Qed.
Lemma in_step : forall k p a s' p', In k K -> ainv P (h_map s) (h_log s) u lim (TIn k) p a -> (answer p = None -> P (obj s)) ->
  (forall o, a <> Settled o) -> access s p = (s', p') -> no_collision (h_log s') -> next P s d u lim (TIn k) a s' p'.
Proof.
  intros k p a s' p' Hk A HP Hns E N.
  inversion A as [c|c o p0 Wa W| | |k0 Sg|k0 t d0 u0 p0 Pt Bt Ft Hu Hm S Ea|k0 f t Pt Er0 El Hu Sg|k0 Sg Hu|k0 f t Pt Er0 El|k0 f t Pt Er0 El| | | | | | | | |];
    subst p a; try (exfalso; eapply Hns; reflexivity).
  - cbn [call_prog call_contains proot pbind told access] in E. injection E as <- <-. specialize (HP eq_refl).
    destruct (b_cases _ _ _ B) as [[Hg Er]|[[Hg Er]|(Hh & Hu & r & Er & Hn & Ee)]]; assert (Er' := Er); cbn [obj m_root] in Er; rewrite Er.
    + here ltac:(apply in_gone; exact Hg). apply a_settled; [intros Hw; first [discriminate Hw|reflexivity]|constructor|]. left. exists (obj s). split; [exact HP|apply none_no; exact Er'].
    + rewrite empty_nonnil. here ltac:(apply in_looks, fresh_not_gone; exact Hg). apply a_in1. exists (obj s). rewrite Er'. split; [exact HP|discriminate].
    + rewrite (nonnil _ Hn). here ltac:(apply in_looks, not_gone; exact Hh). apply a_in1. exists (obj s). rewrite Er'. split; [exact HP|discriminate].
  - cbn [access] in E. injection E as <- <-. specialize (HP eq_refl). destruct (Nat.eq_dec lim 0) as [El|El].
    { rewrite El. eapply next_stay; [exact B|exact F|apply star_one; rewrite <- El at 1; rewrite El; apply in_deep|]. apply a_settled; [intros Hw; first [discriminate Hw|reflexivity]|constructor|]. right. left. auto. }
    destruct (Nat.neq_0_r lim) as [Ef _]. destruct (Ef El) as [f Ef']. clear Ef.
    destruct (b_cases _ _ _ B) as [[Hg Er]|[[Hg Er]|(Hh & Hu & r & Er & Hn & Ee)]]; assert (Er' := Er); cbn [obj m_root] in Er; rewrite Er.
    + here ltac:(apply in_blank; exact Hg). apply (a_blank _ _ _ _ _ _ f (obj s)); auto. apply Hg.
    + here ltac:(apply in_unborn; exact Hg). apply (a_unborn _ _ _ _ _ _ f (obj s)); auto.
    + eapply next_pre; [apply in_takes; exact Hh|]. apply (in_go k (obj s) d u); auto; [apply part_refl|].
      pose proof (in_result _ _ _ k _ B Hh Er') as G. pose proof (b_in _ _ _ k lim B F Hk) as X. rewrite G in *. apply seeks_walk.
      cbn [obj m_map] in X |- *. intros Ec. rewrite Ec in X. exact (no_key_in _ _ _ X).
  - specialize (HP Ea). destruct S as [|h x kk Ex S|kk S1 S2]; [discriminate| |].
    + cbn [access] in E. injection E as <- <-. rewrite (Hm _ _ Ex). apply (in_go k t d0 u0); auto.
    + cbn [access] in E. injection E as <- <-.
      destruct (b_cases _ _ _ B) as [[Hg Er]|[[[_ Hg] Er]|(Hh & _ & r & Er & Hn & Ee)]]; assert (Er' := Er); cbn [obj m_root] in Er; rewrite Er.
      * destruct S1 as [S1|S1]; [|apply (in_go k t d0 u0); auto]. rewrite S1. here ltac:(apply in_lost; exact Hg).
        apply a_settled; [intros Hw; first [discriminate Hw|reflexivity]|constructor|]. left. exists (obj s). split; [exact HP|apply none_no; exact Er'].
      * congruence.
      * apply (in_go k t d0 u0); auto.
  - unfold in_rest in E. rewrite El in E, HP. cbn [p_contains pbind proot told access] in E. injection E as <- <-. specialize (HP eq_refl).
    destruct (b_cases _ _ _ B) as [[Hg Er]|[[[_ Hg] Er]|(Hh & _ & r & Er & Hn & Ee)]]; assert (Er' := Er); cbn [obj m_root] in Er; rewrite Er.
    + here ltac:(apply blank_no; exact Hg). apply a_settled; [intros Hw; first [discriminate Hw|reflexivity]|constructor|]. left. exists (obj s). split; [exact HP|apply none_no; exact Er'].
    + congruence.
    + here ltac:(apply blank_error, not_gone; exact Hh). cbn [pbind told]. apply a_blank2; [exact (emptied_now _ t Sg Pt Er0)|exact Hu].
  - unfold in_rest in E. rewrite El in E, HP. cbn [p_contains pbind proot told access] in E. injection E as <- <-. specialize (HP eq_refl).
    destruct (b_cases _ _ _ B) as [[Hg Er]|[[Hg Er]|(Hh & _ & r & Er & Hn & Ee)]]; assert (Er' := Er); cbn [obj m_root] in Er; rewrite Er.
    + here ltac:(apply unborn_no; apply Hg). apply a_settled; [intros Hw; first [discriminate Hw|reflexivity]|constructor|]. left. exists (obj s). split; [exact HP|apply none_no; exact Er'].
    + eapply next_stay; [exact B|exact F|constructor|]. apply (a_unborn2 _ _ _ _ _ _ f t); auto.
    + eapply next_stay; [exact B|exact F|constructor|]. apply (a_unborn2 _ _ _ _ _ _ f t); auto.
  - unfold unborn_rest in E. cbn [pbind proot told access] in E. injection E as <- <-. specialize (HP eq_refl). unfold p_node. rewrite empty_32.
    destruct (b_cases _ _ _ B) as [[Hg Er]|[[Hg Er]|(Hh & Hu & r & Er & Hn & Ee)]]; assert (Er' := Er); cbn [obj m_root] in Er; rewrite Er.
    + here ltac:(apply unborn_error; apply Hg). apply a_settled; [intros Hw; first [discriminate Hw|reflexivity]|apply will_miss; constructor|]. right. right. right. split; [reflexivity|]. exists t, (obj s). rewrite Er'. split; [exact Pt|]. split; [exact Er0|]. split; [exact HP|discriminate].
    + rewrite bytes_eqb_refl. here ltac:(apply unborn_no; apply Hg). apply a_settled; [intros Hw; first [discriminate Hw|reflexivity]|constructor|]. left. exists (obj s). split; [exact HP|apply fresh_no; exact Er'].
    + rewrite Ee. here ltac:(apply unborn_error; exact Hu). apply a_settled; [intros Hw; first [discriminate Hw|reflexivity]|apply will_miss; constructor|]. right. right. right. split; [reflexivity|]. exists t, (obj s). rewrite Er'. split; [exact Pt|]. split; [exact Er0|]. split; [exact HP|].
      intros X. injection X as ->. fold EMPTY_HASH in Ee. rewrite bytes_eqb_refl in Ee. discriminate.
Qed.

(** *** update *)
Lemma put_go : forall s' k v t d0 u0 q, okc (TPut k v) -> P t -> binv t d0 u0 ->
  track (p_update lim (root_ref t) (way k) v) t (h_map s') (h_log s') q -> grown s s' d u ->
  next P s d u lim (TPut k v) (Took lim (TPut k v) d0 u0) s' (told ANone (pbind q (fun r' => PAssign (Some r') (pret tt)))).
Proof.
  intros s' k v t d0 u0 q [Hk Hv] Pt Bt T G'. assert (Hk' : In k K) by (apply Hk; left; reflexivity).
  assert (St : (forall x, q <> PRet (Err x)) -> next P s d u lim (TPut k v) (Took lim (TPut k v) d0 u0) s' (told ANone (pbind q (fun r' => PAssign (Some r') (pret tt))))).
  { intros Nq. eapply next_to; [exact G'|constructor|]. eapply a_put; eauto. }
  destruct q as [[r|x]|h kk|h e kk|kk|r kk]; try (apply St; discriminate).
  destruct (track_end _ _ _ _ _ _ T) as (sv & E & _ & Hl). destruct (proj1 (proj2 G')) as [_ N].
  pose proof (put_end _ _ _ k v lim _ _ Bt Hk' Hv E (nocoll_incl _ _ Hl N)) as Q. cbn beta iota in Q.
  eapply next_to; [exact G'|apply star_one, put_not; exact Q|]. apply a_settled; [intros Hw; first [discriminate Hw|reflexivity]|constructor|exact Logic.I].
Qed.
Lemma put_step : forall k v p a s' p', okc (TPut k v) -> ainv P (h_map s) (h_log s) u lim (TPut k v) p a -> (answer p = None -> P (obj s)) ->
  (forall o, a <> Settled o) -> access s p = (s', p') -> no_collision (h_log s') -> next P s d u lim (TPut k v) a s' p'.
Proof.
  intros k v p a s' p' Ho A HP Hns E N. destruct Ho as [Hk Hv]. assert (Hk' : In k K) by (apply Hk; left; reflexivity).
  inversion A as [c|c o p0 Wa W| | | | | | | | |k0 v0 t q d0 u0 Pt Bt T Nq| | | | | | | |]; subst; try (exfalso; eapply Hns; reflexivity).
  - cbn [call_prog call_update proot pbind told access] in E. injection E as <- <-. specialize (HP eq_refl).
    eapply next_pre; [apply put_takes|]. apply (put_go s k v (obj s) d u); auto; [split; auto| |apply grown_refl; auto].
    apply (track_start _ _ (obj s)). apply tame_update. exact keccak_len.
  - assert (NK : forall r sv, seq (p_update lim (root_ref t) (way k) v) (mkStore (m_map t) (m_log t) []) = (r, sv) -> incl (s_log sv) (h_log s) ->
      match r with Ok r' => binv (mkMpt (s_map sv) (s_log sv) (Some r') secure) (set_ref d0 k v) true | Err x => gives_up secure lim [] k x end).
    { intros r sv Es Hl. apply (put_end t d0 u0); auto. apply (nocoll_incl _ _ Hl). apply F. }
    destruct q as [[r|x]|h kk|h e kk|kk|r kk];
      [|destruct (Nq _ eq_refl)|(edestruct tracked as (q' & -> & T' & G'); [exact B|exact F|exact T|discriminate| |exact E|exact N|];
        [intros sv Es Hi; exact (no_key_up _ _ (NK _ _ Es Hi))|apply (put_go s' k v t d0 u0); auto; split; auto])..].
    cbn [pbind told access pret] in E. injection E as <- <-. destruct (track_end _ _ _ _ _ _ T) as (sv & E & Hm & Hl).
    pose proof (NK _ _ E Hl) as Q. cbn beta iota in Q. exists (set_ref d0 k v), true, (Settled (ANone (Ok tt))).
    split; [apply star_one, put_done|]. split; [apply a_settled; [intros Hw; first [discriminate Hw|reflexivity]|constructor|exact Logic.I]|].
    split; [|split; [exact F|split; [auto|split; [apply part_refl|apply incl_refl]]]].
    apply (b_more _ _ _ _ Q); auto.
Qed.

(** *** delete *)
Lemma del_go : forall s' k t d0 u0 r0 q, In k K -> P t -> binv t d0 u0 -> ~ hollow d0 -> u0 = true -> m_root t = Some r0 ->
  track (p_delete lim (Some r0) (way k)) t (h_map s') (h_log s') q -> grown s s' d u ->
  next P s d u lim (TDel k) (Took lim (TDel k) d0 u0) s' (told ANone (pbind q del_tail)).
Proof.
  intros s' k t d0 u0 r0 q Hk Pt Bt Hh Hu Er T G'.
  assert (St : (forall x, q <> PRet (Err x)) -> next P s d u lim (TDel k) (Took lim (TDel k) d0 u0) s' (told ANone (pbind q del_tail))).
  { intros Nq. eapply next_to; [exact G'|constructor|]. eapply a_del; eauto. }
  destruct q as [[r|x]|h kk|h e kk|kk|r kk]; try (apply St; discriminate).
  destruct (track_end _ _ _ _ _ _ T) as (sv & E & _ & Hl). destruct (proj1 (proj2 G')) as [_ N].
  pose proof (del_end _ _ _ k lim _ _ _ Bt Hk Hh Er E (nocoll_incl _ _ Hl N)) as Q. cbn beta iota in Q.
  eapply next_to; [exact G'|apply star_one, del_not; exact Q|]. apply a_settled; [intros Hw; first [discriminate Hw|reflexivity]|constructor|exact Logic.I].
Qed.
Lemma del_step : forall k p a s' p', In k K -> ainv P (h_map s) (h_log s) u lim (TDel k) p a -> (answer p = None -> P (obj s)) ->
  (forall o, a <> Settled o) -> access s p = (s', p') -> no_collision (h_log s') -> next P s d u lim (TDel k) a s' p'.
Proof.
  intros k p a s' p' Hk A HP Hns E N.
  inversion A as [c|c o p0 Wa W| | | | | | | | | |k0|k0 Hu|k0 t q d0 u0 r0 Pt Bt Hh Hu Er T Nq| | | | |]; subst p a; try (exfalso; eapply Hns; reflexivity).
  - cbn [call_prog call_delete unless_empty proot pbind told access] in E. injection E as <- <-. specialize (HP eq_refl).
    destruct (b_cases _ _ _ B) as [[Hg Er]|[[Hg Er]|(Hh & Hu & r & Er & Hn & Ee)]]; cbn [obj m_root] in Er; rewrite Er.
    + here ltac:(apply del_gone; exact Hg). apply a_settled; [intros Hw; first [discriminate Hw|reflexivity]|constructor|exact Logic.I].
    + here ltac:(apply del_looks, fresh_not_gone; exact Hg). apply a_del1.
    + here ltac:(apply del_looks, not_gone; exact Hh). apply a_del1.
  - cbn [told access] in E. injection E as <- <-. specialize (HP eq_refl).
    destruct (b_cases _ _ _ B) as [[Hg Er]|[[Hg Er]|(Hh & Hu & r & Er & Hn & Ee)]]; cbn [obj m_root] in Er; rewrite Er.
    + cbn [is_empty_hash]. here ltac:(apply del_again, gone_not_fresh; exact Hg). apply a_del2. apply Hg.
    + rewrite is_empty_self. here ltac:(apply del_fresh; exact Hg). apply a_settled; [intros Hw; first [discriminate Hw|reflexivity]|constructor|exact Logic.I].
    + cbn [is_empty_hash]. rewrite Ee. here ltac:(apply del_again; intros [Hx _]; contradiction). apply a_del2. exact Hu.
  - cbn [told access] in E. injection E as <- <-. specialize (HP eq_refl).
    destruct (b_cases _ _ _ B) as [[Hg Er]|[[[_ Hg] Er]|(Hh & _ & r & Er & Hn & Ee)]]; assert (Er' := Er); cbn [obj m_root] in Er; rewrite Er.
    + destruct (Nat.eq_dec lim 0) as [El|El].
      * here ltac:(apply (del_blank _ _ _ _ _ RecursionError); [exact Hg|right; auto]). rewrite El. apply a_settled; [intros Hw; first [discriminate Hw|reflexivity]|constructor|exact Logic.I].
      * here ltac:(apply (del_blank _ _ _ _ _ TypeError); [exact Hg|left; split; [lia|reflexivity]]). destruct (proj1 (Nat.neq_0_r lim) El) as [f Ef]. rewrite Ef. apply a_settled; [intros Hw; first [discriminate Hw|reflexivity]|constructor|exact Logic.I].
    + congruence.
    + eapply next_pre; [apply del_takes; exact Hh|]. apply (del_go s k (obj s) d u r); auto; [|apply grown_refl; auto].
      apply (track_start _ _ (obj s)). apply tame_delete. exact keccak_len.
  - assert (NK : forall r sv, seq (p_delete lim (Some r0) (way k)) (mkStore (m_map t) (m_log t) []) = (r, sv) -> incl (s_log sv) (h_log s) ->
      match r with
      | Ok a => exists d1, drops secure lim [] d0 k (Ok tt) d1 /\ binv (mkMpt (s_map sv) (s_log sv) (new_root a) secure) d1 u0
      | Err x => drops secure lim [] d0 k (Err x) d0 end).
    { intros r sv Es Hl. apply (del_end t d0 u0 k lim r0); auto. apply (nocoll_incl _ _ Hl). apply F. }
    destruct q as [[r|x]|h kk|h e kk|kk|r kk];
      [|destruct (Nq _ eq_refl)|(edestruct tracked as (q' & -> & T' & G'); [exact B|exact F|exact T|discriminate| |exact E|exact N|];
        [intros sv Es Hi; exact (no_key_drop _ _ _ _ (NK _ _ Es Hi))|apply (del_go s' k t d0 u0 r0); auto])..].
    cbn [pbind told access pret del_tail] in E. injection E as <- <-. destruct (track_end _ _ _ _ _ _ T) as (sv & E & Hm & Hl).
    destruct (NK _ _ E Hl) as (d1 & D & Q). exists d1, true, (Settled (ANone (Ok tt))).
    split; [apply star_one, del_done; exact D|]. split; [apply a_settled; [intros Hw; first [discriminate Hw|reflexivity]|constructor|exact Logic.I]|].
    split; [|split; [exact F|split; [auto|split; [apply part_refl|apply incl_refl]]]].
    rewrite Hu in Q. apply (b_more _ _ _ _ Q); auto.
Qed.

(** *** get_proof_of_inclusion *)
Lemma proof_made : forall tm key r l, new_proof tm key r l MPT_POI = Ok (mkProof MPT_POI tm key r l).
Proof. reflexivity. Qed.
Lemma poi_result : forall t d0 u0 tm k r0, binv t d0 u0 -> ~ hollow d0 -> m_root t = Some r0 ->
  mpt_get_poi lim tm t k = match get_poi_ lim (m_map t) r0 (way k) [] with Ok l => Ok (mkProof MPT_POI tm (t_key secure k) r0 (map PB l)) | Err e => Err e end.
Proof.
  intros t d0 u0 tm k r0 Bt Hh Er. pose proof (b_secure _ _ _ Bt) as Es.
  destruct (b_cases _ _ _ Bt) as [[[Hg _] _]|[[[Hg _] _]|(_ & _ & r1 & Er1 & Hn & Ee)]]; [contradiction|contradiction|]. assert (r1 = r0) by congruence. subst r1.
  unfold mpt_get_poi, root_is_empty, root_ref. rewrite Er, Ee, (eff_t _ _ Es). destruct (get_poi_ _ _ _ _ _); cbn [bind]; [apply proof_made|reflexivity].
Qed.
Lemma poi_go : forall s' tm k t d0 u0 r0 q, In k K -> P t -> binv t d0 u0 -> tfine t -> ~ hollow d0 -> m_root t = Some r0 ->
  track (p_poi lim (Some r0) (way k) []) t (h_map s') (h_log s') q -> grown s s' d u ->
  next P s d u lim (TPoi tm k) (Took lim (TPoi tm k) d0 u0) s' (told AProof (pbind q (poi_tail tm k))).
Proof.
  intros s' tm k t d0 u0 r0 q Hk Pt Bt Ft Hh Er T G'.
  assert (St : (forall x, q <> PRet (Err x)) -> next P s d u lim (TPoi tm k) (Took lim (TPoi tm k) d0 u0) s' (told AProof (pbind q (poi_tail tm k)))).
  { intros Nq. eapply next_to; [exact G'|constructor|]. eapply a_poi; eauto. }
  destruct q as [[r|x]|h kk|h e kk|kk|r kk]; try (apply St; discriminate).
  destruct (track_end _ _ _ _ _ _ T) as (sv & E & _ & Hl). rewrite seq_poi in E. injection E as E _. cbn [s_map] in E.
  pose proof (poi_result _ _ _ tm k _ Bt Hh Er) as G. rewrite E in G. pose proof (b_poi _ _ _ k lim tm Bt Ft Hk) as X. rewrite G in X.
  eapply next_to; [exact G'|apply star_one, poi_not; exact X|]. apply a_settled; [intros Hw; first [discriminate Hw|reflexivity]|constructor|]. left. exists t. auto.
Qed.
Lemma poi_step : forall tm k p a s' p', In k K -> ainv P (h_map s) (h_log s) u lim (TPoi tm k) p a -> (answer p = None -> P (obj s)) ->
  (forall o, a <> Settled o) -> access s p = (s', p') -> no_collision (h_log s') -> next P s d u lim (TPoi tm k) a s' p'.
Proof.
  intros tm k p a s' p' Hk A HP Hns E N.
  inversion A as [c|c o p0 Wa W| | | | | | | | | | | | |tm0 k0 Sg|tm0 k0 Hu Sg|tm0 k0 t q d0 u0 r0 Pt Bt Ft Hh Er T Nq| |]; subst p a; try (exfalso; eapply Hns; reflexivity).
  - cbn [call_prog call_poi unless_empty proot pbind told access] in E. injection E as <- <-. specialize (HP eq_refl).
    destruct (b_cases _ _ _ B) as [[Hg Er]|[[Hg Er]|(Hh & Hu & r & Er & Hn & Ee)]]; cbn [obj m_root] in Er; rewrite Er.
    + here ltac:(apply poi_gone; exact Hg). apply a_settled; [intros Hw; first [discriminate Hw|reflexivity]|constructor|]. left. exists (obj s). split; [exact HP|]. unfold mpt_get_poi, root_is_empty. cbn [obj m_root]. rewrite Er. reflexivity.
    + here ltac:(apply poi_looks, fresh_not_gone; exact Hg). apply a_poi1. exists (obj s). cbn [obj m_root]. rewrite Er. split; [exact HP|discriminate].
    + here ltac:(apply poi_looks, not_gone; exact Hh). apply a_poi1. exists (obj s). cbn [obj m_root]. rewrite Er. split; [exact HP|discriminate].
  - cbn [told access] in E. injection E as <- <-. specialize (HP eq_refl).
    destruct (b_cases _ _ _ B) as [[Hg Er]|[[Hg Er]|(Hh & Hu & r & Er & Hn & Ee)]]; cbn [obj m_root] in Er; rewrite Er.
    + cbn [is_empty_hash]. here ltac:(apply poi_again, gone_not_fresh; exact Hg). apply a_poi2; [apply Hg|exact Sg].
    + rewrite is_empty_self. here ltac:(apply poi_fresh; exact Hg). apply a_settled; [intros Hw; first [discriminate Hw|reflexivity]|constructor|]. left. exists (obj s). split; [exact HP|]. unfold mpt_get_poi, root_is_empty. cbn [obj m_root]. rewrite Er, bytes_eqb_refl. reflexivity.
    + cbn [is_empty_hash]. rewrite Ee. here ltac:(apply poi_again; intros [Hx _]; contradiction). apply a_poi2; [exact Hu|exact Sg].
  - cbn [told access] in E. injection E as <- <-. specialize (HP eq_refl).
    destruct (b_cases _ _ _ B) as [[Hg Er]|[[[_ Hg] Er]|(Hh & _ & r & Er & Hn & Ee)]]; assert (Er' := Er); cbn [obj m_root] in Er; rewrite Er.
    + destruct (Nat.eq_dec lim 0) as [El|El].
      * here ltac:(apply (poi_blank _ _ _ _ _ _ RecursionError); [exact Hg|right; auto]). rewrite El. apply a_settled; [intros Hw; first [discriminate Hw|reflexivity]|constructor|]. right. split; [right; auto|]. apply (emptied_now _ (obj s)); auto.
      * here ltac:(apply (poi_blank _ _ _ _ _ _ TypeError); [exact Hg|left; split; [lia|reflexivity]]). destruct (proj1 (Nat.neq_0_r lim) El) as [f Ef]. rewrite Ef. apply a_settled; [intros Hw; first [discriminate Hw|reflexivity]|constructor|]. right. split; [left; reflexivity|]. apply (emptied_now _ (obj s)); auto.
    + congruence.
    + eapply next_pre; [apply poi_takes; exact Hh|]. apply (poi_go s tm k (obj s) d u r); auto; [|apply grown_refl; auto].
      apply (track_start _ _ (obj s)). apply tame_poi.
  - assert (NK : forall r sv, seq (p_poi lim (Some r0) (way k) []) (mkStore (m_map t) (m_log t) []) = (r, sv) ->
      includes secure lim tm d0 u0 k match r with Ok l => Ok (mkProof MPT_POI tm (t_key secure k) r0 (map PB l)) | Err x => Err x end /\
      mpt_get_poi lim tm t k = match r with Ok l => Ok (mkProof MPT_POI tm (t_key secure k) r0 (map PB l)) | Err x => Err x end).
    { intros r sv Es. rewrite seq_poi in Es. injection Es as Es _. cbn [s_map] in Es.
      pose proof (poi_result _ _ _ tm k _ Bt Hh Er) as G. rewrite Es in G. pose proof (b_poi _ _ _ k lim tm Bt Ft Hk) as X. rewrite G in X. split; [exact X|exact G]. }
    destruct q as [[l|x]|h kk|h e kk|kk|r kk];
      [|destruct (Nq _ eq_refl)|(edestruct tracked as (q' & -> & T' & G'); [exact B|exact F|exact T|discriminate| |exact E|exact N|];
        [intros sv Es Hi; exact (no_key_poi _ _ _ _ _ (proj1 (NK _ _ Es)))|apply (poi_go s' tm k t d0 u0 r0); auto])..].
    cbn [pbind told access poi_tail] in E. injection E as <- <-. specialize (HP eq_refl). destruct (track_end _ _ _ _ _ _ T) as (sv & E & _ & _).
    destruct (NK _ _ E) as [X G]. cbn beta iota in X, G.
    destruct (h_root s) as [r|] eqn:Es.
    + assert (Er2 : m_root (obj s) = Some r) by exact Es. here ltac:(apply (poi_done _ _ _ _ _ _ _ _ _ r X); apply (b_rooted _ _ _ _ B); exact Er2).
      cbn [told]. rewrite proof_made. cbn [told]. apply a_settled; [intros Hw; first [discriminate Hw|reflexivity]|constructor|]. exists t, (obj s), (mkProof MPT_POI tm (t_key secure k) r0 (map PB l)), r. auto.
    + here ltac:(apply (poi_rootless _ _ _ _ _ _ _ _ _ X)). 2: { apply a_settled; [intros Hw; first [discriminate Hw|reflexivity]|constructor|]. right. split; [left; reflexivity|]. exists (obj s), t. cbn [obj m_root]. rewrite Er. split; [exact HP|]. split; [exact Es|]. split; [exact Pt|discriminate]. }
      destruct (b_cases _ _ _ B) as [[Hg _]|[[_ Er2]|(_ & _ & r & Er2 & _)]]; [exact Hg|cbn [obj m_root] in Er2; congruence..].
Qed.

(** *** root and root_hash *)
Lemma root_step : forall p a s' p', ainv P (h_map s) (h_log s) u lim TRoot p a -> (answer p = None -> P (obj s)) ->
  (forall o, a <> Settled o) -> access s p = (s', p') -> next P s d u lim TRoot a s' p'.
Proof.
  intros p a s' p' A HP Hns E.
  inversion A; subst p a; try (exfalso; eapply Hns; reflexivity).
  cbn [call_prog proot told access] in E. injection E as <- <-. specialize (HP eq_refl).
  here ltac:(apply (root_answers _ _ _ _ (h_root s)); apply (b_rooted _ _ _ _ B); reflexivity).
  apply a_settled; [intros Hw; first [discriminate Hw|reflexivity]|constructor|]. exists (obj s). auto.
Qed.
Lemma hash_step : forall p a s' p', ainv P (h_map s) (h_log s) u lim THash p a -> (answer p = None -> P (obj s)) ->
  (forall o, a <> Settled o) -> access s p = (s', p') -> next P s d u lim THash a s' p'.
Proof.
  intros p a s' p' A HP Hns E.
  inversion A as [c|c o p0 Wa W| | | | | | | | | | | | | | | |Sg|long t r' Pt Et Hnn El]; subst p a; try (exfalso; eapply Hns; reflexivity).
  - cbn [call_prog call_hash proot pbind told access] in E. injection E as <- <-. specialize (HP eq_refl).
    destruct (b_cases _ _ _ B) as [[Hg Er]|[[Hg Er]|(Hh & Hu & r & Er & Hn & Ee)]]; cbn [obj m_root] in Er; rewrite Er.
    + here ltac:(apply hash_gone; exact Hg). apply a_settled; [intros Hw; first [discriminate Hw|reflexivity]|constructor|]. left. exists (obj s). split; [exact HP|]. unfold root_hash, root_falsy. cbn [obj m_root]. rewrite Er. reflexivity.
    + rewrite empty_nonnil. here ltac:(apply hash_looks, fresh_not_gone; exact Hg). apply a_hash1. exists (obj s). cbn [obj m_root]. rewrite Er. split; [exact HP|discriminate].
    + rewrite (nonnil _ Hn). here ltac:(apply hash_looks, not_gone; exact Hh). apply a_hash1. exists (obj s). cbn [obj m_root]. rewrite Er. split; [exact HP|discriminate].
  - cbn [told access] in E. injection E as <- <-. specialize (HP eq_refl). destruct (h_root s) as [r|] eqn:Es.
    + here ltac:(apply (hash_sizes _ _ _ _ r); apply (b_rooted _ _ _ _ B); exact Es). apply (a_sized _ _ _ _ _ _ (obj s) r); auto.
      destruct (b_cases _ _ _ B) as [[_ Er2]|[[_ Er2]|(_ & _ & r2 & Er2 & Hn & _)]]; cbn [obj m_root] in Er2; [congruence| |congruence].
      rewrite Es in Er2. injection Er2 as ->. pose proof empty_nonnil as X. intros Y. rewrite Y in X. discriminate.
    + here ltac:(apply hash_blank). 2: { apply a_settled; [intros Hw; first [discriminate Hw|reflexivity]|constructor|]. right. left. split; [reflexivity|]. apply (emptied_now _ (obj s)); auto. }
      destruct (b_cases _ _ _ B) as [[Hg _]|[[_ Er2]|(_ & _ & r & Er2 & _)]]; [exact Hg|cbn [obj m_root] in Er2; congruence..].
  - assert (HP' : P (obj s)) by (apply HP; destruct long; reflexivity). destruct long; cbn [hash_tail proot told access] in E; injection E as <- <-.
    + here ltac:(apply (hash_long _ _ _ (h_root s)); apply (b_rooted _ _ _ _ B); reflexivity). apply a_settled; [intros Hw; first [discriminate Hw|reflexivity]|constructor|]. symmetry in El. apply Nat.eqb_eq in El. right. right. exists t, (obj s), r'. auto 8.
    + destruct (h_root s) as [r|] eqn:Es.
      * here ltac:(apply (hash_short _ _ _ r); apply (b_rooted _ _ _ _ B); exact Es). apply a_settled; [intros Hw; first [discriminate Hw|reflexivity]|constructor|]. symmetry in El. apply Nat.eqb_neq in El. right. right. exists t, (obj s), r'.
        split; [exact Pt|]. split; [exact HP'|]. split; [exact Et|]. split; [exact Hnn|]. right. split; [exact El|]. exists r. auto.
      * here ltac:(apply hash_rootless). 2: { apply a_settled; [intros Hw; first [discriminate Hw|reflexivity]|constructor|]. right. left. split; [reflexivity|].
          exists (obj s), t. rewrite Et. split; [exact HP'|]. split; [exact Es|]. split; [exact Pt|discriminate]. }
        destruct (b_cases _ _ _ B) as [[Hg _]|[[_ Er2]|(_ & _ & r & Er2 & _)]]; [exact Hg|cbn [obj m_root] in Er2; congruence..].
Qed.

(** *** A call that has answered, or is bound to *)
Lemma settled_step : forall c p o s' p', ainv P (h_map s) (h_log s) u lim c p (Settled o) -> access s p = (s', p') ->
  next P s d u lim c (Settled o) s' p'.
Proof.
  intros c p o s' p' A E.
  inversion A as [c0|c0 o0 p0 Wa W Wt| | | | | |k0 Sg Hu| | | | | | | | | | |]; subst.
  - destruct W as [|kk W|kk W]; cbn [access] in E; injection E as <- <-; (eapply next_stay; [exact B|exact F|constructor|]).
    + apply a_settled; [reflexivity|constructor|exact Wt].
    + apply a_settled; [intros Hw; discriminate (Wa Hw)|apply W|exact Wt].
    + rewrite (no_empty (h_map s) (h_log s)); [|apply F|apply F]. apply a_settled; [intros Hw; discriminate (Wa Hw)|exact W|exact Wt].
  - cbn [access] in E. injection E as <- <-. eapply next_stay; [exact B|exact F|constructor|].
    replace (match h_root s with Some x => bytes_eqb x EMPTY_HASH | None => false end) with false.
    + apply a_settled; [intros Hw; first [discriminate Hw|reflexivity]|constructor|]. right. right. left. split; [reflexivity|exact Sg].
    + destruct (b_cases _ _ _ B) as [[Hg Er]|[[[_ Hg] Er]|(Hh & _ & r & Er & Hn & Ee)]]; cbn [obj m_root] in Er; rewrite ?Er; auto. congruence.
Qed.
Lemma call_step : forall c p a s' p', okc c -> ainv P (h_map s) (h_log s) u lim c p a -> (answer p = None -> P (obj s)) ->
  access s p = (s', p') -> no_collision (h_log s') -> next P s d u lim c a s' p'.
Proof.
  intros c p a s' p' Ho A HP E N.
  assert (D : (exists o, a = Settled o) \/ (forall o, a <> Settled o)) by (destruct a; [right; discriminate..|left; eexists; reflexivity]).
  destruct D as [[o ->]|Hns]; [apply (settled_step c p o s' p' A E)|].
  assert (Hk : forall k, In k (tkeys1 c) -> In k K) by (intros k; apply key_in; exact Ho).
  destruct c as [k|k|k v|k|tm k| |]; cbn [tkeys1] in Hk; try specialize (Hk k (or_introl eq_refl)).
  - apply (get_step k p); auto.
  - apply (in_step k p); auto.
  - apply (put_step k v p); auto.
  - apply (del_step k p); auto.
  - apply (poi_step tm k p); auto.
  - apply (root_step p); auto.
  - apply (hash_step p); auto.
Qed.
End Step.
End T.
