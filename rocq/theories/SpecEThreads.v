(** What calls on one EMPT object answer when several threads make them at the same time. *)
From Coq Require Import List Bool Arith NArith.
From Verif Require Import Base Rlp ProofObj Mpt Empt Spec SpecEmpt SpecEvery Threads SpecThreads EThreads.
Import ListNotations.

(** The calls made, in order. *)
Definition ecalls_of (ms : list emove) : list (nat * ecmd) :=
  flat_map (fun m => match m with ECall lim c => [(lim, c)] | EGo _ => [] end) ms.
(** Updates and deletes. *)
Definition is_ewrite (c : ecmd) : bool := match c with XPut _ _ | XDel _ => true | _ => false end.
Definition ewrites (ms : list emove) : list (nat * ecmd) := filter (fun x => is_ewrite (snd x)) (ecalls_of ms).
Definition writes_key (k : bytes) (c : ecmd) : Prop := match c with XPut k' _ | XDel k' => k' = k | _ => False end.
Definition ekeys1 (c : ecmd) : list bytes := match c with XGet k | XRef k | XIn k | XPut k _ | XDel k | XPoi _ k => [k] | _ => [] end.
Definition ekeys (ms : list emove) : list bytes := flat_map (fun x => ekeys1 (snd x)) (ecalls_of ms).

(** Keys and values are not too long. *)
Definition xfits (ms : list emove) : Prop :=
  (forall k, In k (ekeys ms) -> (blen k < 2 ^ 57)%N) /\ (forall lim k v, In (lim, XPut k v) (ecalls_of ms) -> (blen (val_bytes v) < 2 ^ 57)%N).

Section WithHash.
Context {H : Hash}.

(** A call of a program with one thread: the call of Empt.v. *)
Definition esingle (lim : nat) (e : empt) (c : ecmd) : eout * empt :=
  match c with
  | XGet k => (RVal (empt_get lim e k), e)
  | XRef k => (RRef (empt_get_reference lim e k), e)
  | XIn k => (RBool (empt_contains lim e k), e)
  | XPut k v => let (r, e') := empt_update lim [] false e k v in (RNone r, e')
  | XDel k => let (r, e') := empt_delete lim false false [] e k in (RNone r, e')
  | XPoi tm k => (RProof (mpt_get_poi lim tm (e_trie e) k), e)
  | XRoot => (ROpt (Ok (empt_root e)), e)
  | XHash => (ROpt (Ok (Some (empt_root_hash e))), e)
  end.
(** Calls one after the other. *)
Fixpoint in_turn (e : empt) (l : list (nat * ecmd)) : list eout * empt :=
  match l with
  | [] => ([], e)
  | (lim, c) :: l' => let (o, e1) := esingle lim e c in let (os, e2) := in_turn e1 l' in (o :: os, e2)
  end.

Section Mode.
Variable secure : bool.
Notation start := (epool_new secure).

(** Every update and delete is made when all earlier ones have answered. *)
Definition one_ewriter (ms : list emove) : Prop :=
  forall m1 m2 lim c i l' c', ms = m1 ++ ECall lim c :: m2 -> is_ewrite c = true -> nth_error (ecalls_of m1) i = Some (l', c') -> is_ewrite c' = true ->
    eanswer_of (erun secure start m1) i <> None.
(** The answers of the updates and deletes, in the order they were made. *)
Definition wanswers (w : epool) (ms : list emove) : list (option eout) :=
  flat_map (fun i => match nth_error (ecalls_of ms) i with Some x => if is_ewrite (snd x) then [eanswer_of w i] else [] | None => [] end)
    (List.seq 0 (length (ecalls_of ms))).

(** The object at the moments of the call of number [i]: after it was made and before it answered. *)
Definition eduring (ms : list emove) (i : nat) (m : list emove) (e : empt) : Prop :=
  exists m2, ms = m ++ m2 /\ i < length (ecalls_of m) /\ eanswer_of (erun secure start m) i = None /\ eobject secure (erun secure start m) = e.
(** The tries seen at the moments of the call of number [i], from [m] on. *)
Definition seen (ms : list emove) (i : nat) (m : list emove) (t : mpt) : Prop :=
  exists m' e, length m <= length m' /\ eduring ms i m' e /\ e_trie e = t.
(** What the answer of a call that reads rests on. *)
Definition erests (ms : list emove) (i lim : nat) (c : ecmd) (o : eout) : Prop :=
  match c, o with
  | XGet k, RVal r => exists m e, eduring ms i m e /\
      match dget (e_data e) k with
      | None => r = Err KeyError
      | Some v => exists rb, stems (seen ms i m) lim (TGet k) (AVal rb) /\
                    r = bind rb (fun b => bind (ref_decode b) (fun x => bind (expected_ref k v) (fun y => if ref_eq x y then Ok v else Err InvalidReferenceError)))
      end
  | XRef k, RRef r => exists rb, stems (seen ms i []) lim (TGet k) (AVal rb) /\ r = bind rb ref_decode
  | XIn k, RBool r => stems (seen ms i []) lim (TIn k) (ABool r)
  | XPoi tm k, RProof r => stems (seen ms i []) lim (TPoi tm k) (AProof r)
  | XRoot, ROpt r => stems (seen ms i []) lim TRoot (AOpt r)
  | XHash, ROpt r => stems (seen ms i []) lim THash (AOpt r)
  | XPut _ _, RNone _ | XDel _, RNone _ => True
  | _, _ => False
  end.
(** What a call answers when the key [k] has the value [v]. *)
Definition served (lim : nat) (k : bytes) (v : value) (c : ecmd) (o : eout) : Prop :=
  match c with
  | XGet k' => k' = k -> o = RVal (Ok v) \/ (lim <= frames secure k /\ o = RVal (Err RecursionError))
  | XRef k' => k' = k -> o = RRef (Ok (mkRef k (val_bytes v))) \/ (lim <= frames secure k /\ o = RRef (Err RecursionError))
  | XIn k' => k' = k -> o = RBool (Ok true) \/ (lim <= frames secure k /\ o = RBool (Err RecursionError))
  | _ => True
  end.
(** How often the call of number [i] had its turn. *)
Definition eturns (i : nat) (ms : list emove) : nat :=
  length (filter (fun m => match m with EGo j => j =? i | ECall _ _ => false end) ms).
End Mode.
End WithHash.
