(** What calls on EMPT objects over the same two storages do, whoever else changes the data storage. *)
From Coq Require Import List Bool Arith NArith.
From Verif Require Import Base ProofObj Mpt Empt Spec SpecCodec SpecProof SpecGet SpecWalk SpecEmpt EmptPy SpecEvery SpecData SpecYp Fleet.
Import ListNotations.

Section WithHash.
Context {H : Hash}.
Section Mode.
Variable secure : bool.

(** Getting the value of a key: SpecData.v. *)
Definition fetches (lim : nat) (g : eview) (k : bytes) (a : result value) : Prop :=
  reads_data secure lim (ev_refs g) (ev_used g) (ev_vals g) k a.

(** Removing a key.  The data goes first; what the trie then says about a key without a reference comes too late. *)
Inductive drops (lim : nat) (cf df : bool) (fl : list bool) (g : eview) (k : bytes) : result unit -> eview -> Prop :=
| drops_ask : cf = true -> drops lim cf df fl g k (Err StorageFault) g
| drops_deep : cf = false -> lim <= frames secure k -> drops lim cf df fl g k (Err RecursionError) g
| drops_none : cf = false -> ~ held secure (ev_refs g) k -> drops lim cf df fl g k (Err KeyNotFoundError) g
| drops_fault : cf = false -> held secure (ev_refs g) k -> df = true -> drops lim cf df fl g k (Err StorageFault) g
| drops_missing : cf = false -> held secure (ev_refs g) k -> df = false -> ~ In k (map fst (ev_vals g)) ->
    drops lim cf df fl g k (Err KeyError) g
| drops_both : forall v l, cf = false -> df = false -> ev_refs g k <> None -> removed (ev_vals g) k v l ->
    drops lim cf df fl g k (Ok tt) (EView l (drop_ref (ev_refs g) k) (ev_used g))
| drops_half : forall v l x, cf = false -> df = false -> held secure (ev_refs g) k -> removed (ev_vals g) k v l -> gives_up secure lim fl k x ->
    drops lim cf df fl g k (Err x) (EView l (ev_refs g) (ev_used g))
| drops_lost : forall v l x, cf = false -> df = false -> held secure (ev_refs g) k -> ev_refs g k = None -> removed (ev_vals g) k v l ->
    delete_raises (present_keys secure (ev_refs g)) (nibbles (trie_key secure k)) x ->
    drops lim cf df fl g k (Err x) (EView l (ev_refs g) (ev_used g)).

(** Getting the value of a key, then removing the key. *)
Inductive pulls (lim : nat) (g : eview) (k : bytes) : result value -> eview -> Prop :=
| pulls_not : forall x, fetches lim g k (Err x) -> pulls lim g k (Err x) g
| pulls_ok : forall v g', fetches lim g k (Ok v) -> drops lim false false [] g k (Ok tt) g' -> pulls lim g k (Ok v) g'
| pulls_fail : forall v x g', fetches lim g k (Ok v) -> drops lim false false [] g k (Err x) g' -> pulls lim g k (Err x) g'.

(** Taking out everything: a KeyError ends it, wherever it comes from. *)
Inductive wipes (lim : nat) : eview -> result unit -> eview -> Prop :=
| wipes_end : forall g, ev_vals g = [] -> wipes lim g (Ok tt) g
| wipes_next : forall g k v w l g1 r g2, ev_vals g = (k, v) :: l -> pulls lim g k (Ok w) g1 -> wipes lim g1 r g2 -> wipes lim g r g2
| wipes_key : forall g k v l g1, ev_vals g = (k, v) :: l -> pulls lim g k (Err KeyError) g1 -> wipes lim g (Ok tt) g1
| wipes_stop : forall g k v l x g1, ev_vals g = (k, v) :: l -> x <> KeyError -> pulls lim g k (Err x) g1 -> wipes lim g (Err x) g1.

(** Reading all keys in order. *)
Inductive scans (lim : nat) (g : eview) : result (list (bytes * value)) -> Prop :=
| scans_all : Forall (fun kv => fetches lim g (fst kv) (Ok (snd kv))) (ev_vals g) -> scans lim g (Ok (ev_vals g))
| scans_stop : forall l1 k v l2 x, ev_vals g = l1 ++ (k, v) :: l2 ->
    Forall (fun kv => fetches lim g (fst kv) (Ok (snd kv))) l1 -> fetches lim g k (Err x) -> scans lim g (Err x).

Inductive xdoes (lim : nat) (g : eview) : ecmd -> eout -> eview -> Prop :=
| xdoes_get : forall k r, fetches lim g k r -> xdoes lim g (QGet (KBytes k)) (AVal r) g
| xdoes_ref : forall k r, refers secure lim (ev_refs g) (ev_used g) k r -> xdoes lim g (QRef (KBytes k)) (ARef r) g
| xdoes_in : forall k r, asks secure lim (ev_refs g) k r -> xdoes lim g (QIn (KBytes k)) (ABool r) g
| xdoes_put : forall k v fl df r g', stores secure lim fl df g k v r g' -> xdoes lim g (QPut (KBytes k) v fl df) (ANone r) g'
| xdoes_del : forall k cf df fl r g', drops lim cf df fl g k r g' -> xdoes lim g (QDel (KBytes k) cf df fl) (ANone r) g'
| xdoes_pop : forall k d v g', fetches lim g k (Ok v) -> drops lim false false [] g k (Ok tt) g' -> xdoes lim g (QPop (KBytes k) d) (AVal (Ok v)) g'
| xdoes_pop_none : forall k d, fetches lim g k (Err KeyError) ->
    xdoes lim g (QPop (KBytes k) d) (AVal (match d with Some v => Ok v | None => Err KeyError end)) g
| xdoes_pop_fail : forall k d x, fetches lim g k (Err x) -> x <> KeyError -> xdoes lim g (QPop (KBytes k) d) (AVal (Err x)) g
| xdoes_pop_stuck : forall k d v x g', fetches lim g k (Ok v) -> drops lim false false [] g k (Err x) g' ->
    xdoes lim g (QPop (KBytes k) d) (AVal (Err x)) g'
| xdoes_popitem_none : ev_vals g = [] -> xdoes lim g QPopItem (AItem (Err KeyError)) g
| xdoes_popitem : forall k v w l g', ev_vals g = (k, v) :: l -> pulls lim g k (Ok w) g' -> xdoes lim g QPopItem (AItem (Ok (k, w))) g'
| xdoes_popitem_fail : forall k v l x g', ev_vals g = (k, v) :: l -> pulls lim g k (Err x) g' -> xdoes lim g QPopItem (AItem (Err x)) g'
| xdoes_clear : forall r g', wipes lim g r g' -> xdoes lim g QClear (ANone r) g'
| xdoes_default_old : forall k v r, fetches lim g k r -> r <> Err KeyError -> xdoes lim g (QSetDefault (KBytes k) v) (AVal r) g
| xdoes_default_new : forall k v g', fetches lim g k (Err KeyError) -> stores secure lim [] false g k v (Ok tt) g' ->
    xdoes lim g (QSetDefault (KBytes k) v) (AVal (Ok v)) g'
| xdoes_default_fail : forall k v x g', fetches lim g k (Err KeyError) -> stores secure lim [] false g k v (Err x) g' ->
    xdoes lim g (QSetDefault (KBytes k) v) (AVal (Err x)) g'
| xdoes_items : forall r, scans lim g r -> xdoes lim g QItems (AItems r) g
| xdoes_values : forall r, scans lim g r -> xdoes lim g QValues (AVals (seconds r)) g
| xdoes_keys : xdoes lim g QKeys (AKeys (map fst (ev_vals g))) g
| xdoes_len : xdoes lim g QLen (ALen (length (ev_vals g))) g
| xdoes_get_other : xdoes lim g (QGet KOther) (AVal (Err TypeError)) g
| xdoes_ref_other : xdoes lim g (QRef KOther) (ARef (Err TypeError)) g
| xdoes_in_other : xdoes lim g (QIn KOther) (ABool (Err TypeError)) g
| xdoes_put_unfit : forall v fl df x, unfit v x -> xdoes lim g (QPut KOther v fl df) (ANone (Err x)) g
| xdoes_put_other : forall v fl df, storable v = true -> xdoes lim g (QPut KOther v fl df) (ANone (Err TypeError)) g
| xdoes_del_other : forall cf df fl, xdoes lim g (QDel KOther cf df fl) (ANone (Err TypeError)) g
| xdoes_pop_other : forall d, xdoes lim g (QPop KOther d) (AVal (Err TypeError)) g
| xdoes_default_other : forall v, xdoes lim g (QSetDefault KOther v) (AVal (Err TypeError)) g.
End Mode.

(** The objects: the mode of each, the bytes its references are of, and whether it ever stored one.  The data is common. *)
Record member := Member { mb_secure : bool; mb_refs : kvmap; mb_used : bool }.
Record fview := FView { fv_vals : list (bytes * value); fv_objs : list member }.
Definition fleet_start (modes : list bool) : fview := FView [] (map (fun m => Member m no_refs false) modes).
Inductive replaced {A} : list A -> nat -> A -> list A -> Prop :=
| replaced_at : forall l1 x y l2, replaced (l1 ++ x :: l2) (length l1) y (l1 ++ y :: l2).

(** [faint]: some reference that was stored may be so short that no node was ever put into the trie storage. *)
Inductive fdoes (faint : Prop) (g : fview) : fcmd -> fout -> fview -> Prop :=
| fdoes_call : forall i lim c o m vals r used objs, nth_error (fv_objs g) i = Some m ->
    xdoes (mb_secure m) lim (EView (fv_vals g) (mb_refs m) (mb_used m)) c o (EView vals r used) ->
    replaced (fv_objs g) i (Member (mb_secure m) r used) objs ->
    fdoes faint g (FCall i lim c) (FAns o) (FView vals objs)
| fdoes_open : forall i m, nth_error (fv_objs g) i = Some m -> (mb_used m = false \/ exists k, mb_refs m k <> None) ->
    fdoes faint g (FOpen i) (FOpened (Ok tt)) (FView (fv_vals g) (fv_objs g ++ [m]))
| fdoes_open_empty : forall i m, nth_error (fv_objs g) i = Some m -> mb_used m = true -> (forall k, mb_refs m k = None) ->
    fdoes faint g (FOpen i) (FOpened (Err ValueError)) g
| fdoes_open_void : forall i m, nth_error (fv_objs g) i = Some m -> mb_used m = true -> (forall k, mb_refs m k = None) -> faint ->
    fdoes faint g (FOpen i) (FOpened (Ok tt)) (FView (fv_vals g) (fv_objs g ++ [Member (mb_secure m) no_refs false]))
| fdoes_outside : forall l, fdoes faint g (FOutside l) FDone (FView l (fv_objs g))
| fdoes_call_nobody : forall i lim c, length (fv_objs g) <= i -> fdoes faint g (FCall i lim c) FNobody g
| fdoes_open_nobody : forall i, length (fv_objs g) <= i -> fdoes faint g (FOpen i) FNobody g.
Inductive ffollows (faint : Prop) : fview -> list fcmd -> list fout -> fview -> Prop :=
| ffollows_nil : forall g, ffollows faint g [] [] g
| ffollows_cons : forall g c o g1 h outs g2, fdoes faint g c o g1 -> ffollows faint g1 h outs g2 -> ffollows faint g (c :: h) (o :: outs) g2.

Definition fkeys1 (c : fcmd) : list bytes := match c with FCall _ _ q => ekeys1 q | FOutside l => map fst l | FOpen _ => [] end.
Definition ftexts1 (c : fcmd) : list (bytes * bytes) := match c with FCall _ _ q => etexts1 q | _ => [] end.
Definition fkeys (h : list fcmd) : list bytes := flat_map fkeys1 h.
Definition ftexts (h : list fcmd) : list (bytes * bytes) := flat_map ftexts1 h.
(** Calls that only read. *)
Inductive looks : ecmd -> Prop :=
| looks_get : forall k, looks (QGet k)
| looks_ref : forall k, looks (QRef k)
| looks_in : forall k, looks (QIn k)
| looks_items : looks QItems
| looks_values : looks QValues
| looks_keys : looks QKeys
| looks_len : looks QLen.
(** Sizes, and a dict has every key once. *)
Definition ffits (h : list fcmd) : Prop :=
  (forall k, In k (fkeys h) -> (blen k < 2 ^ 57)%N) /\ (forall k b, In (k, b) (ftexts h) -> (blen b < 2 ^ 57)%N) /\
  (forall l, In (FOutside l) h -> NoDup (map fst l)).
Definition fkeys_ok (modes : list bool) (h : list fcmd) : Prop := forall m, In m modes -> keys_ok m (fkeys h).
(** A digest of a key and a value that begins with six zero bytes. *)
Definition ffaint (h : list fcmd) : Prop := exists k b, In (k, b) (ftexts h) /\ (unbe (keccak (k ++ b)) < 2 ^ 208)%N.
Definition fquiet (modes : list bool) (h : list fcmd) : Prop :=
  forall i lim c, In (FCall i lim c) h -> equiet1 c /\ forall m k, In m modes -> In k (fkeys h) -> frames m k < lim.
(** Every object has the root hash of the references it holds. *)
Definition same_roots (w : fleet) (g : fview) : Prop := length (fl_objs w) = length (fv_objs g) /\
  forall i h m, nth_error (fl_objs w) i = Some h -> nth_error (fv_objs g) i = Some m ->
  forall x, yp_root (refs_of (mb_secure m) (mb_refs m)) x <-> empt_root_hash (obj_of w h) = x.
(** What a call would answer. *)
Definition answer (w : fleet) (i lim : nat) (c : ecmd) : fout := fst (fleet_do w (FCall i lim c)).
(** What the proofs that the objects make say: [t'] is any trie with the root of the object, e.g. its RootEMPT. *)
Definition proofs_say (w : fleet) (g : fview) (ks : list bytes) : Prop :=
  forall i h m k lim lim' time t', nth_error (fl_objs w) i = Some h -> nth_error (fv_objs g) i = Some m -> In k ks ->
  frames (mb_secure m) k < lim -> frames (mb_secure m) k < lim' -> m_root t' = fst h ->
  let t := e_trie (obj_of w h) in let K := present_keys (mb_secure m) (mb_refs m) in let q := nibbles (trie_key (mb_secure m) k) in
  (mb_refs m k <> None -> exists p, mpt_get_poi lim time t k = Ok p /\ mpt_verify_poi lim' t' p = Ok true) /\
  (mb_refs m k = None -> (exists x, mb_refs m x <> None) -> forall e, mpt_get_poi lim time t k = Err e <-> poi_raises K q e) /\
  ((forall x, mb_refs m x = None) -> mpt_get_poe lim time t k = Err ValueError) /\
  (held (mb_secure m) (mb_refs m) k -> mpt_get_poe lim time t k = Err PoeError) /\
  ((exists x, mb_refs m x <> None) -> ~ held (mb_secure m) (mb_refs m) k -> exists p, mpt_get_poe lim time t k = Ok p /\
     (get_raises K q ExtensionPathError -> outside K q -> no_collision (proof_hashed (pf_proof p) ++ root_ref t :: fl_log w) -> mpt_verify_poe lim' t' p = Ok false) /\
     (get_raises K q ExtensionPathError -> ~ outside K q -> mpt_verify_poe lim' t' p = Ok true) /\
     (~ get_raises K q ExtensionPathError -> own_tail K q -> mpt_verify_poe lim' t' p = Ok false) /\
     (~ get_raises K q ExtensionPathError -> ~ own_tail K q -> mpt_verify_poe lim' t' p = Ok true)).
End WithHash.
