(** Model of Node.encode and Node.decode with include_data=False (/repo/src/pymt/utils/node.py), which the rest of the library does not call. *)
From Coq Require Import List Bool Arith NArith.
From Verif Require Import Base Rlp NibblePath Node.
Import ListNotations.
Local Open Scope res_scope.

(** node.py:188-205, 248-271, 311-328 [encode(include_data=False)]: the references are prepared even where they are not written. *)
Definition node_encode_bare (n : node) : result bytes :=
  match n with
  | Leaf p _ => rlp_encode (IList [IBytes (np_encode p true)])
  | Extension p r => _ <- prep_encoding r ;; rlp_encode (IList [IBytes (np_encode p false)])
  | Branch bs _ => is <- mapM prep_encoding bs ;; rlp_encode (IList is)
  end.

(** b"1" *)
Definition marker : bytes := [x31].

(** node.py:61-118 [Node.decode(b, include_data=False)]: what rlp.decode returns is never None, so there is always a marker. *)
Definition node_decode_bare (b : bytes) : result node :=
  i <- rlp_decode b ;;
  match i with
  | IBytes s => if (length s =? 17) || (length s =? 2) then Err TypeError else Err AssertionError
  | IList l =>
      if length l =? 17 then bs <- mapM prep_usage (firstn 16 l) ;; Ok (Branch bs marker)
      else
        match l with
        | [a; c] =>
            match a with
            | IList [] => Err IndexError
            | IList _ => Err TypeError
            | IBytes d =>
                '(p, is_leaf) <- np_decode_with_type d ;;
                if is_leaf then Ok (Leaf p marker) else r <- prep_usage c ;; Ok (Extension p r)
            end
        | _ => Err AssertionError
        end
  end.
