(** Calls on one MPT object made by several threads (/repo/src/pymt/mpt.py).
    A call is cut where it reads or assigns the attribute [_root] and where it reads or writes the storage; between
    two such accesses it works on local values only, and another thread may run there.  The storage is a dict: an access
    is one step and does not fail.  The text of the methods is that of Mpt.v. *)
From Coq Require Import List Bool Arith NArith.
From Verif Require Import Base Rlp NibblePath Node ProofObj Mpt.
Import ListNotations.

(** The rest of a call. *)
Inductive prog (A : Type) :=
| PRet (r : result A)                                   (* it returns or raises *)
| PGet (h : bytes) (k : option bytes -> prog A)         (* self._storage[h] *)
| PSet (h e : bytes) (k : prog A)                       (* self._storage[h] = e *)
| PRoot (k : option bytes -> prog A)                    (* self._root *)
| PAssign (r : option bytes) (k : prog A).              (* self._root = r *)
Arguments PRet {A}. Arguments PGet {A}. Arguments PSet {A}. Arguments PRoot {A}. Arguments PAssign {A}.

Fixpoint pbind {A B} (p : prog A) (f : A -> prog B) : prog B :=
  match p with
  | PRet (Ok a) => f a
  | PRet (Err e) => PRet (Err e)
  | PGet h k => PGet h (fun o => pbind (k o) f)
  | PSet h e k => PSet h e (pbind k f)
  | PRoot k => PRoot (fun o => pbind (k o) f)
  | PAssign r k => PAssign r (pbind k f)
  end.
Definition pret {A} (a : A) : prog A := PRet (Ok a).
Definition praise {A} (e : exn) : prog A := PRet (Err e).
Definition proot : prog (option bytes) := PRoot (fun r => PRet (Ok r)).

Declare Scope p_scope.
Delimit Scope p_scope with p.
Notation "x <- r ;; k" := (pbind r (fun x => k))
  (at level 61, r at next level, right associativity) : p_scope.
Local Open Scope p_scope.

Section WithHash.
Context {H : Hash}.

(** mpt.py:533-562 [_get_node]; [len(None)] raises TypeError. *)
Definition p_node (r : option bytes) : prog node :=
  match r with
  | None => praise TypeError
  | Some r =>
      if length r =? 32
      then PGet r (fun o => PRet (match o with None => Err KeyError | Some raw => node_decode raw end))
      else PRet (node_decode r)
  end.

(** mpt.py:564-629 [_get]. *)
Fixpoint p_get (fuel : nat) (r : option bytes) (path : np) : prog node :=
  match fuel with
  | O => praise RecursionError
  | S f =>
      n <- p_node r ;;
      if np_len path =? 0 then pret n
      else match n with
           | Leaf lp _ => if np_eq lp path then pret n else praise KeyNotFoundError
           | Extension ep nr =>
               if np_starts_with path ep then p_get f (Some nr) (np_consume path (np_len ep))
               else praise ExtensionPathError
           | Branch bs _ =>
               let b := nth (np_at path 0) bs [] in
               if 0 <? length b then p_get f (Some b) (np_consume path 1)
               else praise BranchPathError
           end
  end.

(** mpt.py:631-672 [_contains]: it looks at [_root] on every level; None stands for False. *)
Fixpoint p_contains (fuel : nat) (r : option bytes) (path : np) : prog (option (node * np)) :=
  match fuel with
  | O => praise RecursionError
  | S f =>
      a <- proot ;;
      match a with
      | None => pret None
      | Some _ =>
          b <- proot ;;
          if match b with Some x => bytes_eqb x EMPTY_HASH | None => false end then pret None
          else
            n <- p_node r ;;
            if np_len path =? 0 then pret (Some (n, path))
            else match n with
                 | Leaf _ _ => pret (Some (n, path))
                 | Extension ep nr =>
                     if np_starts_with path ep then p_contains f (Some nr) (np_consume path (np_len ep))
                     else pret (Some (n, path))
                 | Branch bs _ =>
                     let b := nth (np_at path 0) bs [] in
                     if 0 <? length b then p_contains f (Some b) (np_consume path 1)
                     else pret (Some (n, path))
                 end
      end
  end.

(** mpt.py:674-750 [_get_proof_of_inclusion]. *)
Fixpoint p_poi (fuel : nat) (r : option bytes) (path : np) (acc : list bytes) : prog (list bytes) :=
  match fuel with
  | O => praise RecursionError
  | S f =>
      n <- p_node r ;;
      if np_len path =? 0 then e <- PRet (node_encode n) ;; pret (acc ++ [e])
      else match n with
           | Leaf lp _ =>
               if np_eq lp path then e <- PRet (node_encode n) ;; pret (acc ++ [e]) else praise LeafPathError
           | Extension ep nr =>
               if np_starts_with path ep then
                 e <- PRet (node_encode n) ;;
                 p_poi f (Some nr) (np_consume path (np_len ep)) (acc ++ [e])
               else praise ExtensionPathError
           | Branch bs _ =>
               let b := nth (np_at path 0) bs [] in
               if 0 <? length b then
                 e <- PRet (node_encode n) ;; p_poi f (Some b) (np_consume path 1) (acc ++ [e])
               else praise BranchPathError
           end
  end.

(** mpt.py:1224-1241 [_store_node]. *)
Definition p_store (n : node) : prog bytes :=
  r <- PRet (into_reference n) ;;
  if length r =? 32 then e <- PRet (node_encode n) ;; PSet r e (pret r)
  else pret r.

(** mpt.py:1168-1191 [_create_branch_leaf]. *)
Definition p_branch_leaf (path : np) (v : bytes) (bs : list bytes) : prog (list bytes) :=
  if 0 <? np_len path then
    let idx := np_at path 0 in
    r <- p_store (Leaf (np_consume path 1) v) ;;
    pret (set_nth idx r bs)
  else pret bs.

(** mpt.py:1130-1166 [_create_branch_node]. *)
Definition p_branch_node (pa : np) (va : bytes) (pb : np) (vb : bytes) : prog bytes :=
  if (np_len pa =? 0) && (np_len pb =? 0) then praise AssertionError
  else
    let bv := if np_len pa =? 0 then va else if np_len pb =? 0 then vb else [] in
    bs <- p_branch_leaf pa va empty_slots ;;
    bs <- p_branch_leaf pb vb bs ;;
    p_store (Branch bs bv).

(** mpt.py:1193-1222 [_create_branch_extension]. *)
Definition p_branch_extension (path : np) (nr : bytes) (bs : list bytes) : prog (list bytes) :=
  if np_len path <? 1 then praise AssertionError
  else if np_len path =? 1 then pret (set_nth (np_at path 0) nr bs)
  else
    let idx := np_at path 0 in
    r <- p_store (Extension (np_consume path 1) nr) ;;
    pret (set_nth idx r bs).

(** mpt.py:1012-1128 [_update] (None and b"" are both falsy and are treated alike). *)
Fixpoint p_update (fuel : nat) (r : bytes) (path : np) (v : bytes) : prog bytes :=
  match fuel with
  | O => praise RecursionError
  | S f =>
      if ref_is_empty r then p_store (Leaf path v)
      else
        n <- p_node (Some r) ;;
        match n with
        | Leaf lp d =>
            if np_eq lp path then p_store (Leaf lp v)
            else
              let c := np_common_prefix path lp in
              br <- p_branch_node (np_consume path (np_len c)) v
                                  (np_consume lp (np_len c)) d ;;
              if np_len c =? 0 then pret br else p_store (Extension c br)
        | Extension ep nr =>
            if np_starts_with path ep then
              nr' <- p_update f nr (np_consume path (np_len ep)) v ;;
              p_store (Extension ep nr')
            else
              let c := np_common_prefix path ep in
              let path' := np_consume path (np_len c) in
              let ep' := np_consume ep (np_len c) in
              let bv := if np_len path' =? 0 then v else [] in
              bs <- p_branch_leaf path' v empty_slots ;;
              bs <- p_branch_extension ep' nr bs ;;
              br <- p_store (Branch bs bv) ;;
              if np_len c =? 0 then pret br else p_store (Extension c br)
        | Branch bs d =>
            if np_len path =? 0 then p_store (Branch bs v)
            else
              let idx := np_at path 0 in
              nr <- p_update f (nth idx bs []) (np_consume path 1) v ;;
              p_store (Branch (set_nth idx nr bs) d)
        end
  end.

(** mpt.py:1410-1463 [_build_new_node_from_last_branch]. *)
Definition p_build (bs : list bytes) : prog daction :=
  let idx := first_slot bs 0 in
  let pre := mkNp [mkb 0 idx] 1 in
  child <- p_node (Some (nth idx bs [])) ;;
  match child with
  | Leaf cp d =>
      let p := np_combine pre cp in
      r <- p_store (Leaf p d) ;; pret (DUseless p r)
  | Extension cp nr =>
      let p := np_combine pre cp in
      r <- p_store (Extension p nr) ;; pret (DUseless p r)
  | Branch _ _ =>
      r <- p_store (Extension pre (nth idx bs [])) ;; pret (DUseless pre r)
  end.

(** mpt.py:1372-1396: the DELETED case of a branch node. *)
Definition p_branch_deleted (bs : list bytes) (d : bytes) : prog daction :=
  let c := count_slots bs in
  if (c =? 0) && (length d =? 0) then pret DDeleted
  else if (c =? 0) && negb (length d =? 0) then
    let p := mkNp [] 0 in
    r <- p_store (Leaf p d) ;; pret (DUseless p r)
  else if (c =? 1) && (length d =? 0) then p_build bs
  else r <- p_store (Branch bs d) ;; pret (DUpdated r).

(** mpt.py:1256-1408 [_delete]. *)
Fixpoint p_delete (fuel : nat) (r : option bytes) (path : np) : prog daction :=
  match fuel with
  | O => praise RecursionError
  | S f =>
      n <- p_node r ;;
      match n with
      | Leaf lp _ => if np_eq path lp then pret DDeleted else praise LeafPathError
      | Extension ep nr =>
          if np_starts_with path ep then
            a <- p_delete f (Some nr) (np_consume path (np_len ep)) ;;
            match a with
            | DDeleted => pret DDeleted
            | DUpdated cr => r' <- p_store (Extension ep cr) ;; pret (DUpdated r')
            | DUseless sp sr =>
                child <- p_node (Some sr) ;;
                r' <- p_store (match child with
                               | Leaf cp d => Leaf (np_combine ep cp) d
                               | Extension cp cr => Extension (np_combine ep cp) cr
                               | Branch _ _ => Extension (np_combine ep sp) sr
                               end) ;;
                pret (DUpdated r')
            end
          else praise ExtensionPathError
      | Branch bs d =>
          if (np_len path =? 0) && (length d =? 0) then praise AssertionError
          else if np_len path =? 0 then p_branch_deleted bs []
          else
            let idx := np_at path 0 in
            if length (nth idx bs []) =? 0 then praise BranchPathError
            else
              a <- p_delete f (Some (nth idx bs [])) (np_consume path 1) ;;
              match a with
              | DDeleted => p_branch_deleted (set_nth idx [] bs) d
              | DUpdated nr => r' <- p_store (Branch (set_nth idx nr bs) d) ;; pret (DUpdated r')
              | DUseless _ nr => r' <- p_store (Branch (set_nth idx nr bs) d) ;; pret (DUpdated r')
              end
      end
  end.

(** A call, and what it returns or raises.  [time] is the clock reading. *)
Inductive tcmd :=
| TGet (k : bytes)
| TIn (k : bytes)
| TPut (k v : bytes)
| TDel (k : bytes)
| TPoi (time k : bytes)
| TRoot
| THash.
Inductive tout :=
| AVal (r : result bytes)
| ABool (r : result bool)
| ANone (r : result unit)
| AProof (r : result proof)
| AOpt (r : result (option bytes)).

Definition told {A} (f : result A -> tout) (p : prog A) : prog tout :=
  (fix go (p : prog A) : prog tout :=
     match p with
     | PRet r => PRet (Ok (f r))
     | PGet h k => PGet h (fun o => go (k o))
     | PSet h e k => PSet h e (go k)
     | PRoot k => PRoot (fun o => go (k o))
     | PAssign r k => PAssign r (go k)
     end) p.

Definition is_falsy (r : option bytes) : bool := match r with None => true | Some [] => true | _ => false end.
Definition is_empty_hash (r : option bytes) : bool := match r with None => false | Some r => bytes_eqb r EMPTY_HASH end.
Definition t_key (secure : bool) (k : bytes) : bytes := if secure then keccak k else k.

(** mpt.py:138-168 [get]. *)
Definition call_get (secure : bool) (lim : nat) (k : bytes) : prog bytes :=
  a <- proot ;;
  if is_falsy a then praise ValueError
  else
    r <- proot ;;
    n <- p_get lim r (np_of (t_key secure k)) ;;
    PRet (node_data n).

(** mpt.py:195-233 [contains]. *)
Definition call_contains (secure : bool) (lim : nat) (k : bytes) : prog bool :=
  a <- proot ;;
  if is_falsy a then pret false
  else
    r <- proot ;;
    x <- p_contains lim r (np_of (t_key secure k)) ;;
    pret (match x with
          | None => false
          | Some (Branch _ v, _) => negb (bytes_eqb v [])
          | Some (Extension _ _, _) => false
          | Some (Leaf lp _, path) => np_eq lp path
          end).

(** mpt.py:170-192 [update]. *)
Definition call_update (secure : bool) (lim : nat) (k v : bytes) : prog unit :=
  r <- proot ;;
  r' <- p_update lim (match r with None => [] | Some r => r end) (np_of (t_key secure k)) v ;;
  PAssign (Some r') (pret tt).

(** [self._root is None or self._root == Node.EMPTY_HASH] (mpt.py:255, 297), with the exception raised if it holds. *)
Definition unless_empty {A} (p : prog A) : prog A :=
  a <- proot ;;
  match a with
  | None => praise ValueError
  | Some _ => b <- proot ;; if is_empty_hash b then praise ValueError else p
  end.

(** mpt.py:235-270 [delete]. *)
Definition call_delete (secure : bool) (lim : nat) (k : bytes) : prog unit :=
  unless_empty (
    r <- proot ;;
    a <- p_delete lim r (np_of (t_key secure k)) ;;
    PAssign (match a with DDeleted => None | DUpdated r => Some r | DUseless _ r => Some r end) (pret tt)).

(** mpt.py:273-312 [get_proof_of_inclusion]; proof.py:44-51: a root that is not bytes raises TypeError. *)
Definition call_poi (secure : bool) (lim : nat) (time k : bytes) : prog proof :=
  unless_empty (
    r <- proot ;;
    l <- p_poi lim r (np_of (t_key secure k)) [] ;;
    r2 <- proot ;;
    match r2 with
    | None => praise TypeError
    | Some r2 => PRet (new_proof time (t_key secure k) r2 (map PB l) MPT_POI)
    end).

(** mpt.py:120-136 [root_hash]: three reads of [_root]; hashing None raises TypeError. *)
Definition call_hash : prog (option bytes) :=
  a <- proot ;;
  if is_falsy a then pret (Some EMPTY_HASH)
  else
    b <- proot ;;
    match b with
    | None => praise TypeError
    | Some b =>
        if length b =? 32 then proot
        else
          c <- proot ;;
          match c with None => praise TypeError | Some c => pret (Some (keccak c)) end
    end.

Definition call_prog (secure : bool) (lim : nat) (c : tcmd) : prog tout :=
  match c with
  | TGet k => told AVal (call_get secure lim k)
  | TIn k => told ABool (call_contains secure lim k)
  | TPut k v => told ANone (call_update secure lim k v)
  | TDel k => told ANone (call_delete secure lim k)
  | TPoi tm k => told AProof (call_poi secure lim tm k)
  | TRoot => told AOpt proot
  | THash => told AOpt call_hash
  end.

(** The object, and the calls made so far, each with what is left of it.  [h_log] is the ghost list of everything stored. *)
Record shared := mkShared { h_map : dict bytes; h_log : list bytes; h_root : option bytes }.
Record pool := mkPool { p_obj : shared; p_calls : list (prog tout) }.

(** One access. *)
Definition access (s : shared) (p : prog tout) : shared * prog tout :=
  match p with
  | PRet r => (s, PRet r)
  | PGet h k => (s, k (dget (h_map s) h))
  | PSet h e k => (mkShared (dset (h_map s) h e) (e :: h_log s) (h_root s), k)
  | PRoot k => (s, k (h_root s))
  | PAssign r k => (mkShared (h_map s) (h_log s) r, k)
  end.

(** What happens next: some thread makes a call, or the call of the given number goes on to its next access. *)
Inductive move := MCall (lim : nat) (c : tcmd) | MGo (i : nat).
Definition go (secure : bool) (w : pool) (m : move) : pool :=
  match m with
  | MCall lim c => mkPool (p_obj w) (p_calls w ++ [call_prog secure lim c])
  | MGo i =>
      match nth_error (p_calls w) i with
      | None => w
      | Some p => let (s, p') := access (p_obj w) p in
                  mkPool s (firstn i (p_calls w) ++ p' :: skipn (S i) (p_calls w))
      end
  end.
Definition run_moves (secure : bool) (w : pool) (ms : list move) : pool := fold_left (go secure) ms w.

(** The object [MPT({}, secure=secure)] before any call. *)
Definition pool_new (secure : bool) : pool :=
  let t := mpt_new secure in mkPool (mkShared (m_map t) (m_log t) (m_root t)) [].
(** What the call of number [i] has returned or raised, if it has. *)
Definition answer (p : prog tout) : option tout := match p with PRet (Ok o) => Some o | _ => None end.
Definition answer_of (w : pool) (i : nat) : option tout :=
  match nth_error (p_calls w) i with Some p => answer p | None => None end.
(** The object as it is between two steps. *)
Definition object (secure : bool) (w : pool) : mpt :=
  mkMpt (h_map (p_obj w)) (h_log (p_obj w)) (h_root (p_obj w)) secure.
End WithHash.
