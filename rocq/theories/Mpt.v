(** Model of /repo/src/pymt/mpt.py, method by method. *)
From Coq Require Import List Bool Arith NArith.
From Verif Require Import Base Rlp NibblePath Node ProofObj.
Import ListNotations.

(** mpt.py:54-75.  [m_map] is the storage object, [m_root] is [_root].
    [m_log] is the ghost list of everything hashed in order to be stored;
    it starts with 0x80, the input of [Node.EMPTY_HASH]. *)
Record mpt := mkMpt {
  m_map : dict bytes;
  m_log : list bytes;
  m_root : option bytes;
  m_secure : bool
}.

(** Python's [l[i] = x] on the list of branches (mpt.py:1126, 1191, 1218, 1222, 1370, 1400, 1406). *)
Definition set_nth {A} (i : nat) (x : A) (l : list A) : list A :=
  firstn i l ++ x :: skipn (S i) l.

(** mpt.py:1098, 1155: [[b""] * 16]. *)
Definition empty_slots : list bytes := repeat [] 16.

Section WithHash.
Context {H : Hash}.

(** mpt.py:54-75 [MPT(storage, root, secure)]: root None means EMPTY_HASH. *)
Definition mpt_init (storage : dict bytes) (root : option bytes) (secure : bool) : mpt :=
  mkMpt storage ([x80] :: dvals storage)
        (Some (match root with None => EMPTY_HASH | Some r => r end)) secure.

(** [MPT({}, secure=secure)]. *)
Definition mpt_new (secure : bool) : mpt := mpt_init [] None secure.

(** Python truth value of [_root]. *)
Definition root_falsy (t : mpt) : bool :=
  match m_root t with None => true | Some [] => true | _ => false end.

(** [self._root is None or self._root == Node.EMPTY_HASH]. *)
Definition root_is_empty (t : mpt) : bool :=
  match m_root t with None => true | Some r => bytes_eqb r EMPTY_HASH end.

(** The root as passed to the recursive methods (None and b"" are both falsy
    and are treated alike there). *)
Definition root_ref (t : mpt) : bytes := match m_root t with None => [] | Some r => r end.

(** mpt.py:120-136 [root_hash]. *)
Definition root_hash (t : mpt) : bytes :=
  if root_falsy t then EMPTY_HASH
  else let r := root_ref t in if length r =? 32 then r else keccak r.

(** Key as used for the path: mpt.py:163-164, 187-188, 205-206, 256-257. *)
Definition eff_key (t : mpt) (k : bytes) : bytes := if m_secure t then keccak k else k.

(** mpt.py:533-562 [_get_node] (references are always bytes here). *)
Definition get_node (m : dict bytes) (r : bytes) : result node :=
  if length r =? 32
  then match dget m r with None => Err KeyError | Some raw => node_decode raw end
  else node_decode r.

(** [result_node.data]: an Extension has no such attribute. *)
Definition node_data (n : node) : result bytes :=
  match n with Leaf _ v => Ok v | Branch _ v => Ok v | Extension _ _ => Err AttributeError end.

(** mpt.py:564-629 [_get]. *)
Fixpoint get_ (fuel : nat) (m : dict bytes) (r : bytes) (path : np) : result node :=
  match fuel with
  | O => Err RecursionError
  | S f =>
      match get_node m r with
      | Err e => Err e
      | Ok n =>
          if np_len path =? 0 then Ok n
          else match n with
               | Leaf lp _ => if np_eq lp path then Ok n else Err KeyNotFoundError
               | Extension ep nr =>
                   if np_starts_with path ep then get_ f m nr (np_consume path (np_len ep))
                   else Err ExtensionPathError
               | Branch bs _ =>
                   let b := nth (np_at path 0) bs [] in
                   if 0 <? length b then get_ f m b (np_consume path 1)
                   else Err BranchPathError
               end
      end
  end.

(** mpt.py:138-168 [get].  [lim] is the number of frames left. *)
Definition mpt_get (lim : nat) (t : mpt) (k : bytes) : result bytes :=
  if root_falsy t then Err ValueError
  else match get_ lim (m_map t) (root_ref t) (np_of (eff_key t k)) with
       | Err e => Err e
       | Ok n => node_data n
       end.

(** mpt.py:631-672 [_contains]; returns the node and the consumed path.  The
    test of [self._root] at the top of every call is made once, in
    [mpt_contains]; the attribute does not change during the walk. *)
Fixpoint contains_ (fuel : nat) (m : dict bytes) (r : bytes) (path : np) : result (node * np) :=
  match fuel with
  | O => Err RecursionError
  | S f =>
      match get_node m r with
      | Err e => Err e
      | Ok n =>
          if np_len path =? 0 then Ok (n, path)
          else match n with
               | Leaf _ _ => Ok (n, path)
               | Extension ep nr =>
                   if np_starts_with path ep then contains_ f m nr (np_consume path (np_len ep))
                   else Ok (n, path)
               | Branch bs _ =>
                   let b := nth (np_at path 0) bs [] in
                   if 0 <? length b then contains_ f m b (np_consume path 1)
                   else Ok (n, path)
               end
      end
  end.

(** mpt.py:195-233 [contains] with hash_key=True. *)
Definition mpt_contains (lim : nat) (t : mpt) (k : bytes) : result bool :=
  if root_falsy t then Ok false
  else if root_is_empty t then Ok false
  else match contains_ lim (m_map t) (root_ref t) (np_of (eff_key t k)) with
       | Err e => Err e
       | Ok (Branch _ v, _) => Ok (negb (bytes_eqb v []))
       | Ok (Extension _ _, _) => Ok false
       | Ok (Leaf lp _, path) => Ok (np_eq lp path)
       end.

(** ** Writing *)
Local Open Scope m_scope.

(** [self._storage[r] = e]. *)
Definition write (r e : bytes) : M unit :=
  _ <- tick ;;
  fun s => (Ok tt, mkStore (dset (s_map s) r e) (e :: s_log s) (s_faults s)).

(** [_get_node] inside an update or delete: the storage access may raise. *)
Definition rd_node (r : bytes) : M node :=
  _ <- (if length r =? 32 then tick else ret tt) ;;
  fun s => (get_node (s_map s) r, s).

(** mpt.py:1224-1241 [_store_node]. *)
Definition store_node (n : node) : M bytes :=
  r <- lift (into_reference n) ;;
  if length r =? 32 then
    e <- lift (node_encode n) ;;
    _ <- write r e ;;
    ret r
  else ret r.

(** mpt.py:1168-1191 [_create_branch_leaf]: returns the list it fills. *)
Definition create_branch_leaf (path : np) (v : bytes) (bs : list bytes) : M (list bytes) :=
  if 0 <? np_len path then
    let idx := np_at path 0 in
    r <- store_node (Leaf (np_consume path 1) v) ;;
    ret (set_nth idx r bs)
  else ret bs.

(** mpt.py:1130-1166 [_create_branch_node]. *)
Definition create_branch_node (pa : np) (va : bytes) (pb : np) (vb : bytes) : M bytes :=
  if (np_len pa =? 0) && (np_len pb =? 0) then raise AssertionError
  else
    let bv := if np_len pa =? 0 then va else if np_len pb =? 0 then vb else [] in
    bs <- create_branch_leaf pa va empty_slots ;;
    bs <- create_branch_leaf pb vb bs ;;
    store_node (Branch bs bv).

(** mpt.py:1193-1222 [_create_branch_extension]. *)
Definition create_branch_extension (path : np) (nr : bytes) (bs : list bytes) : M (list bytes) :=
  if np_len path <? 1 then raise AssertionError
  else if np_len path =? 1 then ret (set_nth (np_at path 0) nr bs)
  else
    let idx := np_at path 0 in
    r <- store_node (Extension (np_consume path 1) nr) ;;
    ret (set_nth idx r bs).

(** [not node_ref or node_ref == Node.EMPTY_HASH] (mpt.py:1037). *)
Definition ref_is_empty (r : bytes) : bool :=
  match r with [] => true | _ => bytes_eqb r EMPTY_HASH end.

(** mpt.py:1012-1128 [_update]. *)
Fixpoint update_ (fuel : nat) (r : bytes) (path : np) (v : bytes) : M bytes :=
  match fuel with
  | O => raise RecursionError
  | S f =>
      if ref_is_empty r then store_node (Leaf path v)
      else
        n <- rd_node r ;;
        match n with
        | Leaf lp d =>
            if np_eq lp path then store_node (Leaf lp v)
            else
              let c := np_common_prefix path lp in
              br <- create_branch_node (np_consume path (np_len c)) v
                                       (np_consume lp (np_len c)) d ;;
              if np_len c =? 0 then ret br else store_node (Extension c br)
        | Extension ep nr =>
            if np_starts_with path ep then
              nr' <- update_ f nr (np_consume path (np_len ep)) v ;;
              store_node (Extension ep nr')
            else
              let c := np_common_prefix path ep in
              let path' := np_consume path (np_len c) in
              let ep' := np_consume ep (np_len c) in
              let bv := if np_len path' =? 0 then v else [] in
              bs <- create_branch_leaf path' v empty_slots ;;
              bs <- create_branch_extension ep' nr bs ;;
              br <- store_node (Branch bs bv) ;;
              if np_len c =? 0 then ret br else store_node (Extension c br)
        | Branch bs d =>
            if np_len path =? 0 then store_node (Branch bs v)
            else
              let idx := np_at path 0 in
              nr <- update_ f (nth idx bs []) (np_consume path 1) v ;;
              store_node (Branch (set_nth idx nr bs) d)
        end
  end.

(** Run a storage-writing operation on a trie: the storage keeps what was
    written even if the operation raises; [_root] is assigned on success. *)
Definition run_op {A} (t : mpt) (fl : list bool) (m : M A) (newroot : A -> option bytes)
  : result unit * mpt :=
  match m (mkStore (m_map t) (m_log t) fl) with
  | (Ok a, s) => (Ok tt, mkMpt (s_map s) (s_log s) (newroot a) (m_secure t))
  | (Err e, s) => (Err e, mkMpt (s_map s) (s_log s) (m_root t) (m_secure t))
  end.

(** mpt.py:170-192 [update]. *)
Definition mpt_update (lim : nat) (fl : list bool) (t : mpt) (k v : bytes) : result unit * mpt :=
  run_op t fl (update_ lim (root_ref t) (np_of (eff_key t k)) v) (fun r => Some r).

(** mpt.py:1243-1254 [_DeleteAction] with its info. *)
Inductive daction := DDeleted | DUpdated (r : bytes) | DUseless (p : np) (r : bytes).

(** First index of a non-empty slot (0 if none), mpt.py:1434-1438. *)
Fixpoint first_slot (bs : list bytes) (i : nat) : nat :=
  match bs with
  | [] => 0
  | b :: r => if 0 <? length b then i else first_slot r (S i)
  end.

(** mpt.py:1410-1463 [_build_new_node_from_last_branch]. *)
Definition build_new_node (bs : list bytes) : M daction :=
  let idx := first_slot bs 0 in
  let pre := mkNp [mkb 0 idx] 1 in
  child <- rd_node (nth idx bs []) ;;
  match child with
  | Leaf cp d =>
      let p := np_combine pre cp in
      r <- store_node (Leaf p d) ;; ret (DUseless p r)
  | Extension cp nr =>
      let p := np_combine pre cp in
      r <- store_node (Extension p nr) ;; ret (DUseless p r)
  | Branch _ _ =>
      r <- store_node (Extension pre (nth idx bs [])) ;; ret (DUseless pre r)
  end.

(** mpt.py:1372-1396: how many branches are not empty. *)
Definition count_slots (bs : list bytes) : nat :=
  length (filter (fun b => 0 <? length b) bs).

(** mpt.py:1372-1396: the DELETED case of a branch node. *)
Definition branch_deleted (bs : list bytes) (d : bytes) : M daction :=
  let c := count_slots bs in
  if (c =? 0) && (length d =? 0) then ret DDeleted
  else if (c =? 0) && negb (length d =? 0) then
    let p := mkNp [] 0 in
    r <- store_node (Leaf p d) ;; ret (DUseless p r)
  else if (c =? 1) && (length d =? 0) then build_new_node bs
  else r <- store_node (Branch bs d) ;; ret (DUpdated r).

(** mpt.py:1256-1408 [_delete]. *)
Fixpoint delete_ (fuel : nat) (r : bytes) (path : np) : M daction :=
  match fuel with
  | O => raise RecursionError
  | S f =>
      n <- rd_node r ;;
      match n with
      | Leaf lp _ => if np_eq path lp then ret DDeleted else raise LeafPathError
      | Extension ep nr =>
          if np_starts_with path ep then
            a <- delete_ f nr (np_consume path (np_len ep)) ;;
            match a with
            | DDeleted => ret DDeleted
            | DUpdated cr => r' <- store_node (Extension ep cr) ;; ret (DUpdated r')
            | DUseless sp sr =>
                child <- rd_node sr ;;
                r' <- store_node (match child with
                                  | Leaf cp d => Leaf (np_combine ep cp) d
                                  | Extension cp cr => Extension (np_combine ep cp) cr
                                  | Branch _ _ => Extension (np_combine ep sp) sr
                                  end) ;;
                ret (DUpdated r')
            end
          else raise ExtensionPathError
      | Branch bs d =>
          if (np_len path =? 0) && (length d =? 0) then raise AssertionError
          else if np_len path =? 0 then branch_deleted bs []
          else
            let idx := np_at path 0 in
            if length (nth idx bs []) =? 0 then raise BranchPathError
            else
              a <- delete_ f (nth idx bs []) (np_consume path 1) ;;
              match a with
              | DDeleted => branch_deleted (set_nth idx [] bs) d
              | DUpdated nr => r' <- store_node (Branch (set_nth idx nr bs) d) ;; ret (DUpdated r')
              | DUseless _ nr => r' <- store_node (Branch (set_nth idx nr bs) d) ;; ret (DUpdated r')
              end
      end
  end.

(** mpt.py:235-270 [delete]. *)
Definition mpt_delete (lim : nat) (fl : list bool) (t : mpt) (k : bytes) : result unit * mpt :=
  if root_is_empty t then (Err ValueError, t)
  else run_op t fl (delete_ lim (root_ref t) (np_of (eff_key t k)))
         (fun a => match a with DDeleted => None | DUpdated r => Some r | DUseless _ r => Some r end).

(** ** Proofs *)
Local Close Scope m_scope.
Local Open Scope res_scope.

(** mpt.py:674-750 [_get_proof_of_inclusion]; [acc] is the list built so far. *)
Fixpoint get_poi_ (fuel : nat) (m : dict bytes) (r : bytes) (path : np) (acc : list bytes)
  : result (list bytes) :=
  match fuel with
  | O => Err RecursionError
  | S f =>
      n <- get_node m r ;;
      if np_len path =? 0 then e <- node_encode n ;; Ok (acc ++ [e])
      else match n with
           | Leaf lp _ =>
               if np_eq lp path then e <- node_encode n ;; Ok (acc ++ [e]) else Err LeafPathError
           | Extension ep nr =>
               if np_starts_with path ep then
                 e <- node_encode n ;;
                 get_poi_ f m nr (np_consume path (np_len ep)) (acc ++ [e])
               else Err ExtensionPathError
           | Branch bs _ =>
               let b := nth (np_at path 0) bs [] in
               if 0 <? length b then
                 e <- node_encode n ;; get_poi_ f m b (np_consume path 1) (acc ++ [e])
               else Err BranchPathError
           end
  end.

(** mpt.py:273-312 [get_proof_of_inclusion]; [time] is the clock reading. *)
Definition mpt_get_poi (lim : nat) (time : bytes) (t : mpt) (k : bytes) : result proof :=
  if root_is_empty t then Err ValueError
  else
    l <- get_poi_ lim (m_map t) (root_ref t) (np_of (eff_key t k)) [] ;;
    new_proof time (eff_key t k) (root_ref t) (map PB l) MPT_POI.

(** mpt.py:347-353: building the proof storage; None is "return False". *)
Definition store_proof_node (d : dict bytes) (e : pelem) : result (dict bytes) :=
  match e with
  | PPair _ _ => Err TypeError
  | PB b => n <- node_decode b ;; r <- into_reference n ;; Ok (dset d r b)
  end.

(** mpt.py:347-353, the loop: a node that rlp cannot decode makes the answer False. *)
Fixpoint poi_storage (l : list pelem) (d : dict bytes) : result (option (dict bytes)) :=
  match l with
  | [] => Ok (Some d)
  | e :: l' => match store_proof_node d e with
               | Ok d' => poi_storage l' d'
               | Err DecodingError => Ok None
               | Err x => Err x
               end
  end.

(** mpt.py:752-847 [_verify_proof_of_inclusion]. *)
Fixpoint verify_poi_ (fuel : nat) (ps : dict bytes) (r : bytes) (path : np) : result bool :=
  match fuel with
  | O => Err RecursionError
  | S f =>
      let raw := if length r =? 32 then dget ps r else Some r in
      match raw with
      | None => Ok false
      | Some raw =>
          n <- node_decode raw ;;
          if np_len path =? 0 then
            Ok (match n with Extension _ _ => false | _ => true end)
          else match n with
               | Leaf lp _ => Ok (np_eq lp path)
               | Extension ep nr =>
                   if np_starts_with path ep then
                     verify_poi_ f ps nr (np_consume path (np_len ep))
                   else Err ExtensionPathError
               | Branch bs _ =>
                   let b := nth (np_at path 0) bs [] in
                   if 0 <? length b then verify_poi_ f ps b (np_consume path 1)
                   else Err BranchPathError
               end
      end
  end.

(** [keccak_hash(proof.proof[0])]. *)
Definition hash_first (p : proof) : result bytes :=
  match pf_proof p with
  | [] => Err IndexError
  | PPair _ _ :: _ => Err TypeError
  | PB b :: _ => Ok (keccak b)
  end.

(** mpt.py:314-361 [verify_proof_of_inclusion]. *)
Definition mpt_verify_poi (lim : nat) (t : mpt) (p : proof) : result bool :=
  if negb (bytes_eqb (pf_type p) MPT_POI) then Err TypeError
  else if root_is_empty t then Err ValueError
  else
    h <- hash_first p ;;
    if negb (bytes_eqb (root_hash t) h) then Ok false
    else
      o <- poi_storage (pf_proof p) [] ;;
      match o with
      | None => Ok false
      | Some ps =>
          valid <- verify_poi_ lim ps (root_ref t) (np_of (pf_key p)) ;;
          Ok (valid && bytes_eqb (root_hash t) (pf_root p))
      end.

(** mpt.py:849-912 [_get_proof_of_exclusion]; returns node, list and the
    consumed path (which the caller uses again). *)
Fixpoint get_poe_ (fuel : nat) (m : dict bytes) (r : bytes) (path : np) (acc : list bytes)
  : result (node * list bytes * np) :=
  match fuel with
  | O => Err RecursionError
  | S f =>
      n <- get_node m r ;;
      if np_len path =? 0 then e <- node_encode n ;; Ok (n, acc ++ [e], path)
      else match n with
           | Leaf _ _ => e <- node_encode n ;; Ok (n, acc ++ [e], path)
           | Extension ep nr =>
               if np_starts_with path ep then
                 e <- node_encode n ;;
                 get_poe_ f m nr (np_consume path (np_len ep)) (acc ++ [e])
               else Ok (n, acc, path)
           | Branch bs _ =>
               let b := nth (np_at path 0) bs [] in
               e <- node_encode n ;;
               if 0 <? length b then get_poe_ f m b (np_consume path 1) (acc ++ [e])
               else Ok (n, acc ++ [e], path)
           end
  end.

(** b"null" *)
Definition null_bytes : bytes := [x6e; x75; x6c; x6c].

(** mpt.py:363-420 [get_proof_of_exclusion]. *)
Definition mpt_get_poe (lim : nat) (time : bytes) (t : mpt) (k : bytes) : result proof :=
  if root_is_empty t then Err ValueError
  else
    c <- mpt_contains lim t k ;;
    if (c : bool) then Err PoeError
    else
      '(n, l, path) <- get_poe_ lim (m_map t) (root_ref t) (np_of (eff_key t k)) [] ;;
      e <- node_encode (Leaf path null_bytes) ;;
      let pr := map PB (l ++ [e]) in
      let mk := new_proof time (eff_key t k) (root_hash t) pr MPT_POE in
      match n with
      | Branch _ v => if bytes_eqb v [] then mk else Err PoeError
      | Leaf lp _ => if np_eq lp path then Err PoeError else mk
      | Extension _ _ => mk
      end.

(** mpt.py:463-466. *)
Fixpoint poe_storage (l : list pelem) (d : dict bytes) : result (dict bytes) :=
  match l with
  | [] => Ok d
  | e :: l' => d' <- store_proof_node d e ;; poe_storage l' d'
  end.

(** mpt.py:914-1010 [_verify_proof_of_exclusion]; None is "True". *)
Fixpoint verify_poe_ (fuel : nat) (ps : dict bytes) (r : bytes) (path : np)
  : result (option node * dict bytes) :=
  match fuel with
  | O => Err RecursionError
  | S f =>
      let raw := if length r =? 32 then dget ps r else Some r in
      match raw with
      | None => Ok (None, ps)
      | Some raw =>
          n <- node_decode raw ;;
          match dget ps r with
          | None => Err PoeError
          | Some _ =>
              let ps := ddel ps r in
              if np_len path =? 0 then Ok (Some n, ps)
              else match n with
                   | Leaf _ _ => Ok (Some n, ps)
                   | Extension ep nr =>
                       if np_starts_with path ep then
                         verify_poe_ f ps nr (np_consume path (np_len ep))
                       else Ok (Some n, ps)
                   | Branch bs _ =>
                       let b := nth (np_at path 0) bs [] in
                       if 0 <? length b then verify_poe_ f ps b (np_consume path 1)
                       else Ok (Some n, ps)
                   end
          end
      end
  end.

(** [proof.proof[-1]] for a non-empty proof. *)
Definition decode_last (l : list pelem) : result node :=
  match last l (PB []) with PB b => node_decode b | PPair _ _ => Err TypeError end.

(** mpt.py:422-489 [verify_proof_of_exclusion]. *)
Definition mpt_verify_poe (lim : nat) (t : mpt) (p : proof) : result bool :=
  if negb (bytes_eqb (pf_type p) MPT_POE) then Err TypeError
  else if root_is_empty t then Err ValueError
  else
    h <- hash_first p ;;
    if negb (bytes_eqb (root_hash t) h) then Ok false
    else
      ln <- decode_last (pf_proof p) ;;
      d <- node_data ln ;;
      if negb (bytes_eqb d null_bytes) then Ok false
      else
        ps <- poe_storage (removelast (pf_proof p)) [] ;;
        '(n, rest) <- verify_poe_ lim ps (root_ref t) (np_of (pf_key p)) ;;
        if negb (length rest =? 0) then Ok false
        else match n with
             | Some (Leaf lp _) => Ok (negb (np_eq lp (np_of (pf_key p))))
             | _ => Ok true     (* node.data of a Branch is never None *)
             end.

(** ** Codec *)

(** mpt.py:492-498 [encode]; rlp cannot encode None (TypeError). *)
Definition mpt_encode (t : mpt) : result bytes :=
  l <- mapM prep_encoding (dvals (m_map t)) ;;
  match m_root t with
  | None => Err TypeError
  | Some r => rlp_encode (IList [IBytes r; IList l; e_bool (m_secure t)])
  end.

(** mpt.py:523-528: the storage is re-keyed by hash. *)
Fixpoint rekey (l : list bytes) (d : dict bytes) : dict bytes :=
  match l with
  | [] => d
  | e :: l' => rekey l' (dset d (keccak e) e)
  end.

(** mpt.py:500-530 [decode]. *)
Definition mpt_decode (b : bytes) : result mpt :=
  i <- rlp_decode b ;;
  match i with
  | IList [ri; li; si] =>
      r <- d_binary ri ;; l <- d_binlist li ;; s <- d_bool si ;;
      let t := mpt_init (rekey l []) (Some r) s in
      Ok (mkMpt (m_map t) ([x80] :: l) (m_root t) s)
  | _ => Err DeserializationError
  end.

End WithHash.
