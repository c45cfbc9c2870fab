(** What membership in the views of an EMPT answers, and what an EMPT without nodes does. *)
From Coq Require Import List Bool Arith NArith.
From Verif Require Import Base Rlp Node ProofObj Mpt Empt EmptPy Spec SpecEmpt SpecEvery.
Import ListNotations.

Section WithHash.
Context {H : Hash}.
Section Mode.
Variable secure : bool.

(** Whether a pair is in items(). *)
Inductive in_items (veq : value -> value -> bool) (lim : nat) (g : eview) (k : bytes) (v : value) : result bool -> Prop :=
| in_items_read : forall w, reads secure lim g k (Ok w) -> in_items veq lim g k v (Ok (veq w v))
| in_items_none : ~ In k (map fst (ev_vals g)) -> in_items veq lim g k v (Ok false)
| in_items_raise : forall x, In k (map fst (ev_vals g)) -> reads secure lim g k (Err x) -> in_items veq lim g k v (Err x).
(** Whether a value is in values(): the first equal value is found unless one before it cannot be read. *)
Definition differs (veq : value -> value -> bool) (lim : nat) (g : eview) (v : value) (kw : bytes * value) : Prop :=
  reads secure lim g (fst kw) (Ok (snd kw)) /\ veq (snd kw) v = false.
Inductive in_values (veq : value -> value -> bool) (lim : nat) (g : eview) (v : value) : result bool -> Prop :=
| in_values_yes : forall l1 k w l2, ev_vals g = l1 ++ (k, w) :: l2 -> Forall (differs veq lim g v) l1 -> reads secure lim g k (Ok w) ->
    veq w v = true -> in_values veq lim g v (Ok true)
| in_values_no : Forall (differs veq lim g v) (ev_vals g) -> in_values veq lim g v (Ok false)
| in_values_raise : forall l1 k w l2 x, ev_vals g = l1 ++ (k, w) :: l2 -> Forall (differs veq lim g v) l1 -> reads secure lim g k (Err x) ->
    in_values veq lim g v (Err x).
End Mode.

(** The trie has a root that is a hash, and no nodes. *)
Definition nodeless (e : empt) : Prop :=
  m_map (e_trie e) = [] /\ exists r, m_root (e_trie e) = Some r /\ length r = 32 /\ r <> EMPTY_HASH.
(** What such an object with the data [ds] answers. *)
Inductive barren (ds : dict value) : ecmd -> eout -> Prop :=
| barren_get : forall k, barren ds (QGet (KBytes k)) (AVal (Err KeyError))
| barren_get_other : barren ds (QGet KOther) (AVal (Err TypeError))
| barren_ref : forall k, barren ds (QRef (KBytes k)) (ARef (Err KeyError))
| barren_ref_other : barren ds (QRef KOther) (ARef (Err TypeError))
| barren_in : forall k, barren ds (QIn (KBytes k)) (ABool (Err KeyError))
| barren_in_other : barren ds (QIn KOther) (ABool (Err TypeError))
| barren_put : forall k v, storable v = true -> barren ds (QPut (KBytes k) v [] false) (ANone (Err KeyError))
| barren_put_unfit : forall k v x, unfit v x -> barren ds (QPut k v [] false) (ANone (Err x))
| barren_put_other : forall v, storable v = true -> barren ds (QPut KOther v [] false) (ANone (Err TypeError))
| barren_del : forall k, barren ds (QDel (KBytes k) false false []) (ANone (Err KeyError))
| barren_del_other : barren ds (QDel KOther false false []) (ANone (Err TypeError))
| barren_pop : forall k, barren ds (QPop (KBytes k) None) (AVal (Err KeyError))
| barren_pop_default : forall k d, barren ds (QPop (KBytes k) (Some d)) (AVal (Ok d))
| barren_pop_other : forall d, barren ds (QPop KOther d) (AVal (Err TypeError))
| barren_popitem : barren ds QPopItem (AItem (Err KeyError))
| barren_clear : barren ds QClear (ANone (Ok tt))
| barren_default : forall k v, storable v = true -> barren ds (QSetDefault (KBytes k) v) (AVal (Err KeyError))
| barren_default_unfit : forall k v x, unfit v x -> barren ds (QSetDefault (KBytes k) v) (AVal (Err x))
| barren_default_other : forall v, barren ds (QSetDefault KOther v) (AVal (Err TypeError))
| barren_items : barren ds QItems (AItems (match ds with [] => Ok [] | _ => Err KeyError end))
| barren_values : barren ds QValues (AVals (match ds with [] => Ok [] | _ => Err KeyError end))
| barren_keys : barren ds QKeys (AKeys (map fst ds))
| barren_len : barren ds QLen (ALen (length ds)).
(** Calls without faults in the storages, with sizes below 2^57 and room on the stack. *)
Definition modest (c : nat * ecmd) : Prop :=
  0 < fst c /\
  match snd c with
  | QPut (KBytes k) v _ _ | QSetDefault (KBytes k) v => (blen k < 2 ^ 57)%N /\ (blen (val_bytes v) < 2 ^ 57)%N
  | _ => True
  end /\ equiet1 (snd c).
(** What the rebuilding itself raises, by the first entry of the data. *)
Definition rebuilding (ds : dict value) : result unit :=
  match ds with [] => Ok tt | (_, VBytes _) :: _ => Err KeyError | _ => Err TypeError end.
End WithHash.
