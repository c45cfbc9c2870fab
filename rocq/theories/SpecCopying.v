(** What copies of the trie of an EMPT are while other threads use it. *)
From Coq Require Import List Bool Arith NArith.
From Verif Require Import Base Mpt Empt Spec MptPy SpecMptEvery Threads SpecThreads Copying.
Import ListNotations.

Definition dmoves (ds : list dmove) : list move := flat_map (fun m => match m with DMove m => [m] | _ => [] end) ds.
Definition dcalls (ds : list dmove) : list ccmd := flat_map (fun m => match m with DCall c => [c] | _ => [] end) ds.
Definition dturns (i : nat) (ds : list dmove) : nat := length (filter (fun m => match m with DGo j => j =? i | _ => false end) ds).

(** The copy has [n] turns, another call is made and has [m], the copy has one more. *)
Definition between (ds : list dmove) (n lim : nat) (c : tcmd) (m : nat) : list dmove :=
  ds ++ DCall CSparse :: repeat (DGo (length (dcalls ds))) n ++ map DMove (MCall lim c :: repeat (MGo (length (calls_of (dmoves ds)))) m) ++ [DGo (length (dcalls ds))].

Section WithHash.
Context {H : Hash}.
Variable secure : bool.
(** The trie after the moves [d]. *)
Definition trie_at (d : list dmove) : mpt := object secure (d_pool (run_desk secure (desk_new secure) d)).
(** After the moves [d] the call of number [i] has been made and has not answered. *)
Definition moment (ds : list dmove) (i : nat) (d : list dmove) : Prop :=
  (exists d', ds = d ++ d') /\ i < length (dcalls d) /\ danswer_of (run_desk secure (desk_new secure) d) i = None.
(** Every read on [t] answers as on [t'], or it raises KeyError. *)
Definition answers_or_lacks (t t' : mpt) : Prop := forall lim tm k,
  (mpt_get lim t k = mpt_get lim t' k \/ mpt_get lim t k = Err KeyError) /\
  (mpt_contains lim t k = mpt_contains lim t' k \/ mpt_contains lim t k = Err KeyError) /\
  (mpt_get_poi lim tm t k = mpt_get_poi lim tm t' k \/ mpt_get_poi lim tm t k = Err KeyError) /\
  root_hash t = root_hash t'.
(** [get_sparse_trie()] and [get_root_trie()] in a program with one thread. *)
Definition copy_now (c : ccmd) (t : mpt) : mpt := match c with CSparse => empt_get_sparse_trie (mkEmpt [] t) | CRootTrie => empt_get_root_trie (mkEmpt [] t) end.
(** Turns of its own that a copy needs. *)
Definition cbound (c : ccmd) (t : mpt) : nat := match c with CSparse => 2 * length (m_map t) + 3 | CRootTrie => 1 end.
End WithHash.
