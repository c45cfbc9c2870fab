(** What every call on an MPT object does, after any calls before it, whether or not they raised. *)
From Coq Require Import List Bool Arith NArith.
From Verif Require Import Base Rlp ProofObj Mpt Spec SpecCodec SpecRlp SpecProof SpecGet SpecWalk SpecYp SpecEmpt SpecVerdict SpecEvery MptPy.
Import ListNotations.

Section WithHash.
Context {H : Hash}.
Section Mode.
Variable secure : bool.
Definition hollow (d : kvmap) : Prop := forall x, d x = None.
Notation pairs d := (pairs_of secure d).
Notation way k := (nibbles (trie_key secure k)).

(** What the root attribute is: [used] tells that some update succeeded once. *)
Inductive rooted (d : kvmap) : bool -> option bytes -> Prop :=
| rooted_new : hollow d -> rooted d false (Some (keccak [x80]))
| rooted_gone : hollow d -> rooted d true None
| rooted_node : forall used b, yp_text (pairs d) b -> rooted d used (Some (if length b <? 32 then b else keccak b)).

Inductive gets (lim : nat) (d : kvmap) (used : bool) (k : bytes) : result bytes -> Prop :=
| gets_own : forall v, d k = Some v -> gets lim d used k (Ok v)
| gets_stray : forall v, secure = false -> stray_value d k v -> gets lim d used k (Ok v)
| gets_empty : hollow d -> used = true \/ 0 < lim -> gets lim d used k (Err (if used then ValueError else KeyError))
| gets_lost : forall x, d k = None -> get_raises (present_keys secure d) (way k) x -> gets lim d used k (Err x)
| gets_deep : ~ (hollow d /\ used = true) -> lim <= frames secure k -> gets lim d used k (Err RecursionError).

Inductive drops (lim : nat) (fl : list bool) (d : kvmap) (k : bytes) : result unit -> kvmap -> Prop :=
| drops_own : d k <> None -> drops lim fl d k (Ok tt) (drop_ref d k)
| drops_empty : hollow d -> drops lim fl d k (Err ValueError) d
| drops_lost : forall x, d k = None -> delete_raises (present_keys secure d) (way k) x -> drops lim fl d k (Err x) d
| drops_not : forall x, ~ hollow d -> gives_up secure lim fl k x -> drops lim fl d k (Err x) d.

(** Making a proof of inclusion: the texts of the nodes on the way to the key, together with the key as the trie sees it and the root. *)
Inductive includes (lim : nat) (tm : bytes) (d : kvmap) (used : bool) (k : bytes) : result proof -> Prop :=
| includes_own : forall r L, d k <> None -> rooted d used (Some r) -> yp_way (pairs d) (way k) L ->
    includes lim tm d used k (Ok (mkProof MPT_POI tm (trie_key secure k) r (map PB L)))
| includes_stray : forall r L, d k = None -> rooted d used (Some r) ->
    below (present_keys secure d) (way k) -> edge (present_keys secure d) (way k) \/ forked (present_keys secure d) (way k) ->
    yp_trail (pairs d) (way k) [] L ->
    includes lim tm d used k (Ok (mkProof MPT_POI tm (trie_key secure k) r (map PB L)))
| includes_empty : hollow d -> includes lim tm d used k (Err ValueError)
| includes_lost : forall x, d k = None -> poi_raises (present_keys secure d) (way k) x -> includes lim tm d used k (Err x)
| includes_deep : ~ hollow d -> lim <= frames secure k -> includes lim tm d used k (Err RecursionError).

(** Making a proof of exclusion: the texts of the nodes up to where the key leaves the trie, and a leaf with the rest of the key
    and the text "null"; the root is given by its digest. *)
Inductive excludes (lim : nat) (tm : bytes) (d : kvmap) (k : bytes) : result proof -> Prop :=
| excludes_absent : forall r L q h e, ~ hollow d -> ~ held secure d k -> yp_root (pairs d) r -> yp_trail (pairs d) (way k) q L ->
    hex_prefix h q true -> rlp_form e (IList [IBytes h; IBytes [x6e; x75; x6c; x6c]]) ->
    excludes lim tm d k (Ok (mkProof MPT_POE tm (trie_key secure k) r (map PB (L ++ [e]))))
| excludes_present : held secure d k -> excludes lim tm d k (Err PoeError)
| excludes_empty : hollow d -> excludes lim tm d k (Err ValueError)
| excludes_deep : ~ hollow d -> lim <= frames secure k -> excludes lim tm d k (Err RecursionError).

(** Verification looks at the root only, so at a trie with this root and no nodes. *)
Inductive gdoes (lim : nat) (d : kvmap) (used : bool) : gcmd -> gout -> kvmap -> bool -> Prop :=
| gdoes_get : forall k r, gets lim d used k r -> gdoes lim d used (GGet k) (OVal r) d used
| gdoes_in : forall k r, asks secure lim d k r -> gdoes lim d used (GIn k) (OBool r) d used
| gdoes_put : forall k v fl, gdoes lim d used (GPut k v fl) (ONone (Ok tt)) (set_ref d k v) true
| gdoes_put_not : forall k v fl x, gives_up secure lim fl k x -> gdoes lim d used (GPut k v fl) (ONone (Err x)) d used
| gdoes_del : forall k fl r d', drops lim fl d k r d' -> gdoes lim d used (GDel k fl) (ONone r) d' used
| gdoes_poi : forall tm k r, includes lim tm d used k r -> gdoes lim d used (GPoi tm k) (OProof r) d used
| gdoes_poe : forall tm k r, excludes lim tm d k r -> gdoes lim d used (GPoe tm k) (OProof r) d used
| gdoes_check_poi : forall p r v, rooted d used r -> inclusion_verdict lim (mkMpt [] [] r secure) p v -> gdoes lim d used (GCheckPoi p) (OBool v) d used
| gdoes_check_poe : forall p r v, rooted d used r -> exclusion_verdict lim (mkMpt [] [] r secure) p v -> gdoes lim d used (GCheckPoe p) (OBool v) d used
| gdoes_root : forall r, rooted d used r -> gdoes lim d used GRoot (ORoot r) d used
| gdoes_hash : forall r, yp_root (pairs d) r -> gdoes lim d used GRootHash (OHash r) d used.

Inductive gfollows : kvmap -> bool -> list (nat * gcmd) -> list gout -> kvmap -> bool -> Prop :=
| gfollows_nil : forall d used, gfollows d used [] [] d used
| gfollows_cons : forall d used lim c o d1 u1 h outs d2 u2, gdoes lim d used c o d1 u1 -> gfollows d1 u1 h outs d2 u2 ->
    gfollows d used ((lim, c) :: h) (o :: outs) d2 u2.

Definition gkeys1 (c : gcmd) : list bytes :=
  match c with GGet k | GIn k | GPut k _ _ | GDel k _ | GPoi _ k | GPoe _ k => [k] | _ => [] end.
Definition gkeys (h : list (nat * gcmd)) : list bytes := flat_map (fun c => gkeys1 (snd c)) h.
(** Sizes are bounded, and values are not empty unless the trie is in secure mode. *)
Definition gfits1 (c : gcmd) : Prop := match c with GPut _ v _ => (secure = false -> v <> []) /\ (blen v < 2 ^ 59)%N | _ => True end.
Definition gfits (h : list (nat * gcmd)) : Prop :=
  (forall k, In k (gkeys h) -> (blen k < 2 ^ 59)%N) /\ (forall lim c, In (lim, c) h -> gfits1 c).
Definition gquiet1 (c : gcmd) : Prop := match c with GPut _ _ fl | GDel _ fl => fl = [] | _ => True end.
Definition gquiet (h : list (nat * gcmd)) : Prop :=
  forall lim c, In (lim, c) h -> gquiet1 c /\ forall k, In k (gkeys h) -> frames secure k < lim.
End Mode.
End WithHash.
