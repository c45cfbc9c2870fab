(** Model of /repo/src/pymt/empt.py: DataReference, EMPT, SparseEMPT, RootEMPT.
    Keys are [bytes] objects (the isinstance tests on keys never fire). *)
From Coq Require Import List Bool Arith NArith.
From Verif Require Import Base Rlp NibblePath Node ProofObj Mpt.
Import ListNotations.

(** Values a user can hand in: a [bytes], a [bytearray], or any other object, of which the code looks at
    whether it has methods [encode_rlp] and [decode_rlp], and at the bytes [encode_rlp()] returns.
    Simplification: [encode_rlp()] returns the same bytes every time and does not raise. *)
Inductive value := VBytes (b : bytes) | VBytearray (b : bytes) | VObj (has_encode has_decode : bool) (b : bytes).
Definition val_bytes (v : value) : bytes := match v with VBytes b | VBytearray b | VObj _ _ b => b end.

(** b"FF", the flag of a reference. *)
Definition ref_flag : bytes := [x46; x46].

Section WithHash.
Context {H : Hash}.
Local Open Scope res_scope.

(** empt.py:10-35. *)
Record dref := mkRef { r_key : bytes; r_data : bytes }.

(** empt.py:29-35: data that is not [bytes] (a bytearray too) is refused. *)
Definition new_ref (k : bytes) (v : value) : result dref :=
  match v with VBytes b => Ok (mkRef k b) | _ => Err TypeError end.

(** empt.py:60-61 [__hash__] and 46-52 [hash]: the digest read as a number. *)
Definition ref_hash (r : dref) : N := unbe (keccak (r_key r ++ r_data r)).

(** empt.py:55-58 [__eq__]. *)
Definition ref_eq (a b : dref) : bool := N.eqb (ref_hash a) (ref_hash b).

(** empt.py:64-66 [encode]. *)
Definition ref_encode (r : dref) : result bytes :=
  rlp_encode (IList [IBytes ref_flag; IBytes (r_key r); IBytes (r_data r); e_int (ref_hash r)]).

(** empt.py:68-90 [decode]. *)
Definition ref_decode (b : bytes) : result dref :=
  i <- rlp_decode b ;;
  match i with
  | IList [fi; ki; di; hi] =>
      f <- d_binary fi ;; k <- d_binary ki ;; d <- d_binary di ;; h <- d_int hi ;;
      if bytes_eqb f ref_flag then
        r <- new_ref k (VBytes d) ;;
        if N.eqb (ref_hash r) h then Ok r else Err ValueError
      else Err ValueError
  | _ => Err DeserializationError
  end.

(** ** EMPT *)
Record empt := mkEmpt { e_data : dict value; e_trie : mpt }.

(** empt.py:118-178 [EMPT(trie_storage, data_storage, root, secure)] with storages given (the shared
    default arguments are in EmptShared.v). *)
Definition empt_init (ts : dict bytes) (ds : dict value) (root : option bytes) (secure : bool) : result empt :=
  match ts, root with
  | _ :: _, None => Err ValueError
  | _, _ => Ok (mkEmpt ds (mpt_init ts root secure))
  end.

(** [EMPT({}, {}, secure=secure)]. *)
Definition empt_new (secure : bool) : empt := mkEmpt [] (mpt_new secure).

(** empt.py:253-257: the reference the data storage calls for. *)
Definition expected_ref (k : bytes) (v : value) : result dref :=
  match v with
  | VObj true _ b => new_ref k (VBytes b)
  | VObj false _ _ => Err AttributeError
  | _ => new_ref k v
  end.

(** empt.py:240-262 [get]. *)
Definition empt_get (lim : nat) (e : empt) (k : bytes) : result value :=
  match dget (e_data e) k with
  | None => Err KeyError
  | Some data =>
      rb <- mpt_get lim (e_trie e) k ;;
      r <- ref_decode rb ;;
      x <- expected_ref k data ;;
      if ref_eq r x then Ok data else Err InvalidReferenceError
  end.

(** empt.py:264-268 [get_reference]; also 485-493 of SparseEMPT. *)
Definition trie_reference (lim : nat) (t : mpt) (k : bytes) : result dref :=
  rb <- mpt_get lim t k ;; ref_decode rb.
Definition empt_get_reference (lim : nat) (e : empt) (k : bytes) : result dref := trie_reference lim (e_trie e) k.

(** empt.py:285-302: the reference of a value to be stored. *)
Definition update_ref (k : bytes) (v : value) : result dref :=
  match v with
  | VObj false _ _ => Err NotImplementedError
  | VObj true false _ => Err NotImplementedError
  | VObj true true b => new_ref k (VBytes b)
  | _ => new_ref k v
  end.

(** empt.py:270-304 [update].  [fl] are the faults of the trie storage, [df] makes the write to the data
    storage raise (without writing). *)
Definition empt_update (lim : nat) (fl : list bool) (df : bool) (e : empt) (k : bytes) (v : value) : result unit * empt :=
  match (r <- update_ref k v ;; ref_encode r) with
  | Err x => (Err x, e)
  | Ok rb =>
      match mpt_update lim fl (e_trie e) k rb with
      | (Err x, t) => (Err x, mkEmpt (e_data e) t)
      | (Ok _, t) => if df then (Err StorageFault, mkEmpt (e_data e) t)
                     else (Ok tt, mkEmpt (dset (e_data e) k v) t)
      end
  end.

(** empt.py:306-318 [delete].  [cf] makes a storage access of [contains] raise, [df] the deletion from the
    data storage (without deleting), [fl] are the faults of the deletion from the trie. *)
Definition empt_delete (lim : nat) (cf : bool) (df : bool) (fl : list bool) (e : empt) (k : bytes) : result unit * empt :=
  if cf then (Err StorageFault, e) else
  match mpt_contains lim (e_trie e) k with
  | Err x => (Err x, e)
  | Ok false => (Err KeyNotFoundError, e)
  | Ok true =>
      if df then (Err StorageFault, e) else
      match dget (e_data e) k with
      | None => (Err KeyError, e)
      | Some _ =>
          let (r, t) := mpt_delete lim fl (e_trie e) k in
          (r, mkEmpt (ddel (e_data e) k) t)
      end
  end.

(** empt.py:320-328 [contains]. *)
Definition empt_contains (lim : nat) (e : empt) (k : bytes) : result bool := mpt_contains lim (e_trie e) k.

(** empt.py:187-193 [__len__], [__iter__]; 212-218 [root_hash], [root]. *)
Definition empt_len (e : empt) : nat := length (e_data e).
Definition empt_keys (e : empt) : list bytes := dkeys (e_data e).
Definition empt_root_hash (e : empt) : bytes := root_hash (e_trie e).
Definition empt_root (e : empt) : option bytes := m_root (e_trie e).

(** empt.py:235-238: the second loop of [build_trie] (no storage faults). *)
Fixpoint build_loop (lim : nat) (t : mpt) (l : dict value) : result unit * mpt :=
  match l with
  | [] => (Ok tt, t)
  | (k, v) :: l' =>
      match (r <- new_ref k v ;; ref_encode r) with
      | Err x => (Err x, t)
      | Ok rb => match mpt_update lim [] t k rb with
                 | (Ok _, t') => build_loop lim t' l'
                 | (Err x, t') => (Err x, t')
                 end
      end
  end.

(** empt.py:220-238 [build_trie], with dicts as storages: deleting an entry while iterating over [keys()]
    makes the next step of the iteration raise RuntimeError, whatever is left. *)
Definition empt_build (lim : nat) (e : empt) : result unit * empt :=
  match m_map (e_trie e) with
  | [] => let (r, t) := build_loop lim (e_trie e) (e_data e) in (r, mkEmpt (e_data e) t)
  | _ :: rest => (Err RuntimeError,
                  mkEmpt (e_data e) (mkMpt rest (m_log (e_trie e)) (m_root (e_trie e)) (m_secure (e_trie e))))
  end.

(** empt.py:355-358: copying a dict key by key. *)
Definition copy_dict (d : dict bytes) : dict bytes := fold_left (fun c kv => dset c (fst kv) (snd kv)) d [].

(** empt.py:331-342 [get_root_trie]; 622-633 [RootEMPT(root, secure)].  A RootEMPT is its MPT. *)
Definition root_new (root : option bytes) (secure : bool) : mpt := mpt_init [] root secure.
Definition empt_get_root_trie (e : empt) : mpt := root_new (m_root (e_trie e)) (m_secure (e_trie e)).

(** empt.py:344-364 [get_sparse_trie]; 424-445 [SparseEMPT(...)].  A SparseEMPT is its MPT. *)
Definition sparse_new (ts : dict bytes) (root : option bytes) (secure : bool) : mpt := mpt_init ts root secure.
Definition empt_get_sparse_trie (e : empt) : mpt :=
  sparse_new (copy_dict (m_map (e_trie e))) (m_root (e_trie e)) (m_secure (e_trie e)).

(** ** SparseEMPT *)
(** empt.py:513-530: [hasattr] is called with one argument, a TypeError, once the attribute itself was found. *)
Definition sparse_ref (k : bytes) (v : value) : result dref :=
  match v with
  | VObj true _ _ => Err TypeError
  | VObj false _ _ => Err AttributeError
  | _ => new_ref k v
  end.
(** empt.py:495-531 [update]. *)
Definition sparse_update (lim : nat) (fl : list bool) (t : mpt) (k : bytes) (v : value) : result unit * mpt :=
  match (r <- sparse_ref k v ;; ref_encode r) with
  | Err x => (Err x, t)
  | Ok rb => mpt_update lim fl t k rb
  end.
(** empt.py:533-543 [delete]. *)
Definition sparse_delete (lim : nat) (cf : bool) (fl : list bool) (t : mpt) (k : bytes) : result unit * mpt :=
  if cf then (Err StorageFault, t) else
  match mpt_contains lim t k with
  | Err x => (Err x, t)
  | Ok false => (Err KeyNotFoundError, t)
  | Ok true => mpt_delete lim fl t k
  end.
(** empt.py:448-452 [__getitem__]. *)
Definition sparse_getitem (t : mpt) (k : bytes) : result value := Err TypeError.
(** empt.py:476-482 [get_root_trie]: RootEMPT has no parameter [mode]. *)
Definition sparse_get_root_trie (t : mpt) : result mpt := Err TypeError.
(** empt.py:596-606 [encode_rlp], [decode_rlp]. *)
Definition sparse_encode (t : mpt) : result bytes := mpt_encode t.
Definition sparse_decode (b : bytes) : result mpt := mpt_decode b.
(** empt.py:666-676 RootEMPT [encode_rlp], [decode_rlp]. *)
Definition root_encode (t : mpt) : result bytes := mpt_encode t.
Definition root_decode (b : bytes) : result mpt := mpt_decode b.

(** ** Methods EMPT inherits from collections.abc.MutableMapping (no storage faults) *)
(** [pop(key, default)]: KeyError is the only exception caught. *)
Definition empt_pop (lim : nat) (e : empt) (k : bytes) (default : option value) : result value * empt :=
  match empt_get lim e k with
  | Err KeyError => (match default with Some d => Ok d | None => Err KeyError end, e)
  | Err x => (Err x, e)
  | Ok v => match empt_delete lim false false [] e k with
            | (Ok _, e') => (Ok v, e')
            | (Err x, e') => (Err x, e')
            end
  end.
(** [popitem()]: the first key of the iteration. *)
Definition empt_popitem (lim : nat) (e : empt) : result (bytes * value) * empt :=
  match empt_keys e with
  | [] => (Err KeyError, e)
  | k :: _ =>
      match empt_get lim e k with
      | Err x => (Err x, e)
      | Ok v => match empt_delete lim false false [] e k with
                | (Ok _, e') => (Ok (k, v), e')
                | (Err x, e') => (Err x, e')
                end
      end
  end.
(** [clear()]: popitem until it raises KeyError.  Fuel: every popitem that returns removes one entry of the
    data storage, so one more than their number suffices. *)
Fixpoint clear_loop (n : nat) (lim : nat) (e : empt) : result unit * empt :=
  match n with
  | O => (Err RecursionError, e)
  | S n' => match empt_popitem lim e with
            | (Ok _, e') => clear_loop n' lim e'
            | (Err KeyError, e') => (Ok tt, e')
            | (Err x, e') => (Err x, e')
            end
  end.
Definition empt_clear (lim : nat) (e : empt) : result unit * empt := clear_loop (S (empt_len e)) lim e.
(** [setdefault(key, default)]. *)
Definition empt_setdefault (lim : nat) (e : empt) (k : bytes) (d : value) : result value * empt :=
  match empt_get lim e k with
  | Ok v => (Ok v, e)
  | Err KeyError => match empt_update lim [] false e k d with
                    | (Ok _, e') => (Ok d, e')
                    | (Err x, e') => (Err x, e')
                    end
  | Err x => (Err x, e)
  end.
(** [items()] consumed to the end. *)
Definition empt_items (lim : nat) (e : empt) : result (list (bytes * value)) :=
  mapM (fun k => v <- empt_get lim e k ;; Ok (k, v)) (empt_keys e).
End WithHash.
