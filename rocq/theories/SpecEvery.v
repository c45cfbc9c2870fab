(** What every call on an EMPT or a SparseEMPT object does, after any calls before it, whether or not they raised. *)
From Coq Require Import List Bool Arith NArith.
From Verif Require Import Base ProofObj Mpt Empt Spec SpecCodec SpecProof SpecGet SpecWalk SpecEmpt EmptPy.
Import ListNotations.

(** What an EMPT holds: the data, in order of insertion, and for every key the bytes that its reference is of.
    [ev_used]: some reference was stored once. *)
Record eview := EView { ev_vals : list (bytes * value); ev_refs : kvmap; ev_used : bool }.
Definition no_refs : kvmap := fun _ => None.
Definition set_ref (r : kvmap) (k b : bytes) : kvmap := fun x => if bytes_eqb x k then Some b else r x.
Definition drop_ref (r : kvmap) (k : bytes) : kvmap := fun x => if bytes_eqb x k then None else r x.

(** Setting a key keeps its place; removing one. *)
Inductive entered : list (bytes * value) -> bytes -> value -> list (bytes * value) -> Prop :=
| entered_new : forall l k v, ~ In k (map fst l) -> entered l k v (l ++ [(k, v)])
| entered_old : forall l1 l2 k v w, entered (l1 ++ (k, w) :: l2) k v (l1 ++ (k, v) :: l2).
Inductive removed : list (bytes * value) -> bytes -> value -> list (bytes * value) -> Prop :=
| removed_at : forall l1 l2 k v, removed (l1 ++ (k, v) :: l2) k v (l1 ++ l2).

(** A value that cannot be stored, and what storing it raises. *)
Inductive unfit : value -> exn -> Prop :=
| unfit_object : forall e d b, e && d = false -> unfit (VObj e d b) NotImplementedError
| unfit_array : forall b, unfit (VBytearray b) TypeError.

Section WithHash.
Context {H : Hash}.
Section Mode.
Variable secure : bool.

(** The ways to fail that are not about the content: an access to the trie storage raised, or the stack was used up. *)
Definition gives_up (lim : nat) (fl : list bool) (k : bytes) (x : exn) : Prop :=
  (x = StorageFault /\ fl <> []) \/ (x = RecursionError /\ lim <= frames secure k).
(** [contains] finds the key. *)
Definition held (r : kvmap) (k : bytes) : Prop := r k <> None \/ (secure = false /\ false_positive r k).

(** Getting the value of a key. *)
Inductive reads (lim : nat) (g : eview) (k : bytes) : result value -> Prop :=
| reads_none : ~ In k (map fst (ev_vals g)) -> reads lim g k (Err KeyError)
| reads_same : forall v, In (k, v) (ev_vals g) -> ev_refs g k = Some (val_bytes v) -> reads lim g k (Ok v)
| reads_other : forall v b, In (k, v) (ev_vals g) -> ev_refs g k = Some b -> b <> val_bytes v ->
    reads lim g k (Err InvalidReferenceError)
| reads_deep : In k (map fst (ev_vals g)) -> lim <= frames secure k -> reads lim g k (Err RecursionError).

(** Getting the reference of a key. *)
Inductive refers (lim : nat) (r : kvmap) (used : bool) (k : bytes) : result dref -> Prop :=
| refers_own : forall b, r k = Some b -> refers lim r used k (Ok (mkRef k b))
| refers_empty : (forall x, r x = None) -> refers lim r used k (Err (if used then ValueError else KeyError))
| refers_lost : forall x, r k = None -> get_raises (present_keys secure r) (nibbles (trie_key secure k)) x ->
    refers lim r used k (Err x)
| refers_fork : secure = false -> r k = None -> forks_at r k -> refers lim r used k (Err DecodingError)
| refers_other : forall y b, secure = false -> r k = None -> sole_extension r k b -> r (k ++ y) = Some b ->
    refers lim r used k (Ok (mkRef (k ++ y) b))
| refers_deep : lim <= frames secure k -> refers lim r used k (Err RecursionError).

(** Asking for a key. *)
Inductive asks (lim : nat) (r : kvmap) (k : bytes) : result bool -> Prop :=
| asks_yes : held r k -> asks lim r k (Ok true)
| asks_no : ~ held r k -> asks lim r k (Ok false)
| asks_deep : lim <= frames secure k -> asks lim r k (Err RecursionError).

(** Storing a value under a key. *)
Inductive stores (lim : nat) (fl : list bool) (df : bool) (g : eview) (k : bytes) (v : value) : result unit -> eview -> Prop :=
| stores_unfit : forall x, unfit v x -> stores lim fl df g k v (Err x) g
| stores_both : forall l, storable v = true -> df = false -> entered (ev_vals g) k v l ->
    stores lim fl df g k v (Ok tt) (EView l (set_ref (ev_refs g) k (val_bytes v)) true)
| stores_half : storable v = true -> df = true ->
    stores lim fl df g k v (Err StorageFault) (EView (ev_vals g) (set_ref (ev_refs g) k (val_bytes v)) true)
| stores_not : forall x, storable v = true -> gives_up lim fl k x -> stores lim fl df g k v (Err x) g.

(** Removing a key. *)
Inductive removes (lim : nat) (cf df : bool) (fl : list bool) (g : eview) (k : bytes) : result unit -> eview -> Prop :=
| removes_ask : cf = true -> removes lim cf df fl g k (Err StorageFault) g
| removes_deep : cf = false -> lim <= frames secure k -> removes lim cf df fl g k (Err RecursionError) g
| removes_none : cf = false -> ~ held (ev_refs g) k -> removes lim cf df fl g k (Err KeyNotFoundError) g
| removes_fault : cf = false -> held (ev_refs g) k -> df = true -> removes lim cf df fl g k (Err StorageFault) g
| removes_missing : cf = false -> held (ev_refs g) k -> df = false -> ~ In k (map fst (ev_vals g)) ->
    removes lim cf df fl g k (Err KeyError) g
| removes_both : forall v l, cf = false -> df = false -> removed (ev_vals g) k v l ->
    removes lim cf df fl g k (Ok tt) (EView l (drop_ref (ev_refs g) k) (ev_used g))
| removes_half : forall v l x, cf = false -> df = false -> removed (ev_vals g) k v l -> gives_up lim fl k x ->
    removes lim cf df fl g k (Err x) (EView l (ev_refs g) (ev_used g)).

(** Taking out the value of a key: getting it, then removing the key. *)
Inductive takes (lim : nat) (g : eview) (k : bytes) : result value -> eview -> Prop :=
| takes_not : forall x, reads lim g k (Err x) -> takes lim g k (Err x) g
| takes_ok : forall v g', reads lim g k (Ok v) -> removes lim false false [] g k (Ok tt) g' -> takes lim g k (Ok v) g'
| takes_fail : forall v x g', reads lim g k (Ok v) -> removes lim false false [] g k (Err x) g' -> takes lim g k (Err x) g'.

(** Taking out everything, in the order of insertion. *)
Inductive clears (lim : nat) : eview -> result unit -> eview -> Prop :=
| clears_end : forall g, ev_vals g = [] -> clears lim g (Ok tt) g
| clears_next : forall g k v w l g1 r g2, ev_vals g = (k, v) :: l -> takes lim g k (Ok w) g1 -> clears lim g1 r g2 -> clears lim g r g2
| clears_stop : forall g k v l x g1, ev_vals g = (k, v) :: l -> takes lim g k (Err x) g1 -> clears lim g (Err x) g1.

(** Reading all keys in order. *)
Inductive lists (lim : nat) (g : eview) : result (list (bytes * value)) -> Prop :=
| lists_all : Forall (fun kv => reads lim g (fst kv) (Ok (snd kv))) (ev_vals g) -> lists lim g (Ok (ev_vals g))
| lists_stop : forall l1 k v l2 x, ev_vals g = l1 ++ (k, v) :: l2 ->
    Forall (fun kv => reads lim g (fst kv) (Ok (snd kv))) l1 -> reads lim g k (Err x) -> lists lim g (Err x).

Definition seconds (r : result (list (bytes * value))) : result (list value) :=
  match r with Ok l => Ok (map snd l) | Err x => Err x end.

Inductive edoes (lim : nat) (g : eview) : ecmd -> eout -> eview -> Prop :=
| edoes_get : forall k r, reads lim g k r -> edoes lim g (QGet (KBytes k)) (AVal r) g
| edoes_get_other : edoes lim g (QGet KOther) (AVal (Err TypeError)) g
| edoes_ref : forall k r, refers lim (ev_refs g) (ev_used g) k r -> edoes lim g (QRef (KBytes k)) (ARef r) g
| edoes_ref_other : edoes lim g (QRef KOther) (ARef (Err TypeError)) g
| edoes_in : forall k r, asks lim (ev_refs g) k r -> edoes lim g (QIn (KBytes k)) (ABool r) g
| edoes_in_other : edoes lim g (QIn KOther) (ABool (Err TypeError)) g
| edoes_put : forall k v fl df r g', stores lim fl df g k v r g' -> edoes lim g (QPut (KBytes k) v fl df) (ANone r) g'
| edoes_put_unfit : forall v fl df x, unfit v x -> edoes lim g (QPut KOther v fl df) (ANone (Err x)) g
| edoes_put_other : forall v fl df, storable v = true -> edoes lim g (QPut KOther v fl df) (ANone (Err TypeError)) g
| edoes_del : forall k cf df fl r g', removes lim cf df fl g k r g' -> edoes lim g (QDel (KBytes k) cf df fl) (ANone r) g'
| edoes_del_other : forall cf df fl, edoes lim g (QDel KOther cf df fl) (ANone (Err TypeError)) g
| edoes_pop : forall k d r g', takes lim g k r g' -> r <> Err KeyError -> edoes lim g (QPop (KBytes k) d) (AVal r) g'
| edoes_pop_none : forall k d, ~ In k (map fst (ev_vals g)) ->
    edoes lim g (QPop (KBytes k) d) (AVal (match d with Some v => Ok v | None => Err KeyError end)) g
| edoes_pop_other : forall d, edoes lim g (QPop KOther d) (AVal (Err TypeError)) g
| edoes_popitem_none : ev_vals g = [] -> edoes lim g QPopItem (AItem (Err KeyError)) g
| edoes_popitem : forall k v w l g', ev_vals g = (k, v) :: l -> takes lim g k (Ok w) g' -> edoes lim g QPopItem (AItem (Ok (k, w))) g'
| edoes_popitem_fail : forall k v l x g', ev_vals g = (k, v) :: l -> takes lim g k (Err x) g' -> edoes lim g QPopItem (AItem (Err x)) g'
| edoes_clear : forall r g', clears lim g r g' -> edoes lim g QClear (ANone r) g'
| edoes_default_old : forall k v r, In k (map fst (ev_vals g)) -> reads lim g k r -> edoes lim g (QSetDefault (KBytes k) v) (AVal r) g
| edoes_default_new : forall k v g', ~ In k (map fst (ev_vals g)) -> stores lim [] false g k v (Ok tt) g' ->
    edoes lim g (QSetDefault (KBytes k) v) (AVal (Ok v)) g'
| edoes_default_fail : forall k v x g', ~ In k (map fst (ev_vals g)) -> stores lim [] false g k v (Err x) g' ->
    edoes lim g (QSetDefault (KBytes k) v) (AVal (Err x)) g'
| edoes_default_other : forall v, edoes lim g (QSetDefault KOther v) (AVal (Err TypeError)) g
| edoes_items : forall r, lists lim g r -> edoes lim g QItems (AItems r) g
| edoes_values : forall r, lists lim g r -> edoes lim g QValues (AVals (seconds r)) g
| edoes_keys : edoes lim g QKeys (AKeys (map fst (ev_vals g))) g
| edoes_len : edoes lim g QLen (ALen (length (ev_vals g))) g.

Inductive efollows : eview -> list (nat * ecmd) -> list eout -> eview -> Prop :=
| efollows_nil : forall g, efollows g [] [] g
| efollows_cons : forall g lim c o g1 h outs g2, edoes lim g c o g1 -> efollows g1 h outs g2 ->
    efollows g ((lim, c) :: h) (o :: outs) g2.

(** The keys of the calls, the texts that references are made of, and the bound on their sizes. *)
Definition ekeys1 (c : ecmd) : list bytes :=
  match c with
  | QGet (KBytes k) | QRef (KBytes k) | QIn (KBytes k) | QPut (KBytes k) _ _ _ | QDel (KBytes k) _ _ _ | QPop (KBytes k) _
  | QSetDefault (KBytes k) _ => [k]
  | _ => []
  end.
Definition etexts1 (c : ecmd) : list (bytes * bytes) :=
  match c with
  | QPut (KBytes k) v _ _ | QSetDefault (KBytes k) v => [(k, val_bytes v)]
  | _ => []
  end.
Definition ekeys (h : list (nat * ecmd)) : list bytes := flat_map (fun c => ekeys1 (snd c)) h.
Definition etexts (h : list (nat * ecmd)) : list (bytes * bytes) := flat_map (fun c => etexts1 (snd c)) h.
Definition efits (h : list (nat * ecmd)) : Prop :=
  (forall k, In k (ekeys h) -> (blen k < 2 ^ 57)%N) /\ (forall k b, In (k, b) (etexts h) -> (blen b < 2 ^ 57)%N).
Definition ekeccak_ok (h : list (nat * ecmd)) : Prop := no_collision (map (fun kb => fst kb ++ snd kb) (etexts h)).
(** Nothing raises in the storages, and the stack suffices. *)
Definition equiet1 (c : ecmd) : Prop :=
  match c with QPut _ _ fl df => fl = [] /\ df = false | QDel _ cf df fl => cf = false /\ df = false /\ fl = [] | _ => True end.
Definition equiet (h : list (nat * ecmd)) : Prop :=
  forall lim c, In (lim, c) h -> equiet1 c /\ forall k, In k (ekeys h) -> frames secure k < lim.

(** ** SparseEMPT *)
Inductive sdoes (lim : nat) (r : kvmap) (used : bool) : scmd -> sout -> kvmap -> bool -> Prop :=
| sdoes_item : forall k, sdoes lim r used (TItem k) (BVal (Err TypeError)) r used
| sdoes_root : sdoes lim r used TRoot (BTrie (Err TypeError)) r used
| sdoes_ref : forall k a, refers lim r used k a -> sdoes lim r used (TRef (KBytes k)) (BRef a) r used
| sdoes_ref_other : sdoes lim r used (TRef KOther) (BRef (Err TypeError)) r used
| sdoes_in : forall k a, asks lim r k a -> sdoes lim r used (TIn (KBytes k)) (BBool a) r used
| sdoes_in_other : sdoes lim r used (TIn KOther) (BBool (Err TypeError)) r used
| sdoes_put : forall k b fl, sdoes lim r used (TPut (KBytes k) (VBytes b) fl) (BNone (Ok tt)) (set_ref r k b) true
| sdoes_put_not : forall k b fl x, gives_up lim fl k x -> sdoes lim r used (TPut (KBytes k) (VBytes b) fl) (BNone (Err x)) r used
| sdoes_put_key : forall b fl, sdoes lim r used (TPut KOther (VBytes b) fl) (BNone (Err TypeError)) r used
| sdoes_put_array : forall k b fl, sdoes lim r used (TPut k (VBytearray b) fl) (BNone (Err TypeError)) r used
| sdoes_put_object : forall k d b fl, sdoes lim r used (TPut k (VObj true d b) fl) (BNone (Err TypeError)) r used
| sdoes_put_thing : forall k d b fl, sdoes lim r used (TPut k (VObj false d b) fl) (BNone (Err AttributeError)) r used
| sdoes_del : forall k fl, r k <> None -> sdoes lim r used (TDel (KBytes k) false fl) (BNone (Ok tt)) (drop_ref r k) used
| sdoes_del_not : forall k fl x, r k <> None -> gives_up lim fl k x -> sdoes lim r used (TDel (KBytes k) false fl) (BNone (Err x)) r used
| sdoes_del_fault : forall k fl, sdoes lim r used (TDel (KBytes k) true fl) (BNone (Err StorageFault)) r used
| sdoes_del_deep : forall k fl, lim <= frames secure k -> sdoes lim r used (TDel (KBytes k) false fl) (BNone (Err RecursionError)) r used
| sdoes_del_none : forall k fl, ~ held r k -> sdoes lim r used (TDel (KBytes k) false fl) (BNone (Err KeyNotFoundError)) r used
| sdoes_del_lost : forall k fl x, r k = None -> held r k ->
    gives_up lim fl k x \/ delete_raises (present_keys secure r) (nibbles (trie_key secure k)) x ->
    sdoes lim r used (TDel (KBytes k) false fl) (BNone (Err x)) r used
| sdoes_del_other : forall cf fl, sdoes lim r used (TDel KOther cf fl) (BNone (Err TypeError)) r used.
Inductive sfollows : kvmap -> bool -> list (nat * scmd) -> list sout -> kvmap -> bool -> Prop :=
| sfollows_nil : forall r used, sfollows r used [] [] r used
| sfollows_cons : forall r used lim c o r1 u1 h outs r2 u2, sdoes lim r used c o r1 u1 -> sfollows r1 u1 h outs r2 u2 ->
    sfollows r used ((lim, c) :: h) (o :: outs) r2 u2.
Definition skeys1 (c : scmd) : list bytes :=
  match c with TRef (KBytes k) | TIn (KBytes k) | TPut (KBytes k) _ _ | TDel (KBytes k) _ _ => [k] | _ => [] end.
Definition skeys (h : list (nat * scmd)) : list bytes := flat_map (fun c => skeys1 (snd c)) h.
Definition sfits1 (c : scmd) : Prop := match c with TPut _ v _ => (blen (val_bytes v) < 2 ^ 57)%N | _ => True end.
Definition sfits (h : list (nat * scmd)) : Prop :=
  (forall k, In k (skeys h) -> (blen k < 2 ^ 57)%N) /\ (forall lim c, In (lim, c) h -> sfits1 c).
Definition squiet1 (c : scmd) : Prop := match c with TPut _ _ fl => fl = [] | TDel _ cf fl => cf = false /\ fl = [] | _ => True end.
Definition squiet (h : list (nat * scmd)) : Prop :=
  forall lim c, In (lim, c) h -> squiet1 c /\ forall k, In k (skeys h) -> frames secure k < lim.
End Mode.

(** Comparing two EMPTs with [==]: the values are read, first those of the left one.  [veq]: comparing two values. *)
Definition same_items (veq : value -> value -> bool) (a b : list (bytes * value)) : Prop :=
  (forall k, In k (map fst a) <-> In k (map fst b)) /\ forall k v w, In (k, v) a -> In (k, w) b -> veq v w = true.
Inductive compares (s1 s2 : bool) (veq : value -> value -> bool) (lim : nat) (g1 g2 : eview) : result bool -> Prop :=
| compares_left : forall x, lists s1 lim g1 (Err x) -> compares s1 s2 veq lim g1 g2 (Err x)
| compares_right : forall l x, lists s1 lim g1 (Ok l) -> lists s2 lim g2 (Err x) -> compares s1 s2 veq lim g1 g2 (Err x)
| compares_yes : forall a b, lists s1 lim g1 (Ok a) -> lists s2 lim g2 (Ok b) -> same_items veq a b -> compares s1 s2 veq lim g1 g2 (Ok true)
| compares_no : forall a b, lists s1 lim g1 (Ok a) -> lists s2 lim g2 (Ok b) -> ~ same_items veq a b -> compares s1 s2 veq lim g1 g2 (Ok false).
End WithHash.
