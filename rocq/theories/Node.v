(** Model of /repo/src/pymt/utils/node.py. *)
From Coq Require Import List Bool Arith NArith.
From Verif Require Import Base Rlp NibblePath.
Import ListNotations.

(** node.py:148-186, 208-246, 274-309.  The constructors' type checks are
    satisfied by construction except in [node_decode]; a Branch built with data
    None gets b"" (node.py:306-309). *)
Inductive node :=
  | Leaf (path : np) (data : bytes)
  | Extension (path : np) (next_ref : bytes)
  | Branch (branches : list bytes) (data : bytes).

(** node.py:7-27 [_prepare_reference_for_usage]. *)
Definition prep_usage (i : item) : result bytes :=
  match i with IBytes b => Ok b | IList l => rlp_encode (IList l) end.

(** node.py:30-51 [_prepare_reference_for_encoding] (on bytes). *)
Definition prep_encoding (r : bytes) : result item :=
  if (0 <? length r) && (length r <? 32) then rlp_decode r else Ok (IBytes r).

Local Open Scope res_scope.

(** node.py:188-205, 248-271, 311-328 [encode] with include_data=True. *)
Definition node_encode (n : node) : result bytes :=
  match n with
  | Leaf p v => rlp_encode (IList [IBytes (np_encode p true); IBytes v])
  | Extension p r => i <- prep_encoding r ;; rlp_encode (IList [IBytes (np_encode p false); i])
  | Branch bs v => is <- mapM prep_encoding bs ;; rlp_encode (IList (is ++ [IBytes v]))
  end.

(** node.py:61-118 [Node.decode] with include_data=True on a bytes argument.
    rlp.decode may return a byte string: of length 17 the elements are ints
    (TypeError in _prepare_reference_for_usage), of length 2 [int[0]] is a
    TypeError, otherwise the assertion fails.  A list as path: data[0] is a
    bytes or list, [&] with an int is a TypeError. *)
Definition node_decode (b : bytes) : result node :=
  i <- rlp_decode b ;;
  match i with
  | IBytes s => if (length s =? 17) || (length s =? 2) then Err TypeError else Err AssertionError
  | IList l =>
      if length l =? 17 then
        bs <- mapM prep_usage (firstn 16 l) ;;
        match nth 16 l (IBytes []) with
        | IBytes v => Ok (Branch bs v)
        | IList _ => Err TypeError
        end
      else
        match l with
        | [a; c] =>
            match a with
            | IList [] => Err IndexError
            | IList _ => Err TypeError
            | IBytes d =>
                '(p, is_leaf) <- np_decode_with_type d ;;
                if is_leaf then
                  match c with IBytes v => Ok (Leaf p v) | IList _ => Err TypeError end
                else
                  r <- prep_usage c ;; Ok (Extension p r)
            end
        | _ => Err AssertionError
        end
  end.

Section WithHash.
Context {H : Hash}.

(** node.py:59 [EMPTY_HASH = keccak_hash(rlp.encode(b""))]. *)
Definition EMPTY_HASH : bytes := keccak [x80].

(** node.py:120-145 [Node.into_reference]. *)
Definition into_reference (n : node) : result bytes :=
  e <- node_encode n ;;
  Ok (if length e <? 32 then e else keccak e).
End WithHash.
