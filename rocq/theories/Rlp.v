(** Model of the third-party package [rlp] (pyrlp), as used by /repo: encoding
    without sedes of nested lists of byte strings, strict decoding.
    Call sites: utils/node.py:25,49,59,89,203,269,326; mpt.py:498,522;
    empt.py:66,81; proof.py:219,260. *)
From Coq Require Import List Bool Arith NArith.
From Verif Require Import Base.
Import ListNotations.
Local Open Scope N_scope.

(** A decoded value: [bytes] or a (nested) list. *)
Inductive item := IBytes (b : bytes) | IList (l : list item).

(** pyrlp [length_prefix(length, offset)]: short form below 56 bytes. *)
Definition len_prefix (len off : N) : bytes :=
  if len <? 56 then [nB (off + len)]
  else let lb := be len in nB (off + 55 + blen lb) :: lb.

(** Header of a payload: nothing for a single byte below 0x80. *)
Definition hdr (is_list : bool) (pl : bytes) : bytes :=
  if is_list then len_prefix (blen pl) 192
  else match pl with
       | [b] => if bN b <? 128 then [] else len_prefix 1 128
       | _ => len_prefix (blen pl) 128
       end.

(** pyrlp [encode_raw]. *)
Fixpoint renc (i : item) : bytes :=
  match i with
  | IBytes b => hdr false b ++ b
  | IList l => let pl := flat_map renc l in hdr true pl ++ pl
  end.

(** What rlp writes after the prefix of an item. *)
Definition payload (i : item) : bytes :=
  match i with IBytes b => b | IList l => flat_map renc l end.

(** pyrlp [encode]: a payload of 256**8 bytes or more raises ValueError (the
    outermost payload contains all inner ones). *)
Definition rlp_encode (i : item) : result bytes :=
  if blen (payload i) <? 2 ^ 64 then Ok (renc i) else Err ValueError.

(** First [n] bytes and the rest, if there are that many. *)
Definition split_at (n : N) (b : bytes) : option (bytes * bytes) :=
  if blen b <? n then None else Some (firstn (N.to_nat n) b, skipn (N.to_nat n) b).

(** Long-form payload: [ll] length bytes (no leading zero, value at least 56). *)
Definition long_payload (ll : N) (b : bytes) : option (bytes * bytes) :=
  match split_at ll b with
  | None => None
  | Some (lb, r) =>
      match lb with
      | x :: _ => if bN x =? 0 then None
                  else let n := unbe lb in if n <? 56 then None else split_at n r
      | [] => None
      end
  end.

(** pyrlp [consume_length_prefix] (strict) + slicing of the payload: the first
    item of [b] as (is it a list, payload, remaining bytes). *)
Definition parse1 (b : bytes) : option (bool * bytes * bytes) :=
  match b with
  | [] => None
  | b0 :: r =>
      let c := bN b0 in
      if c <? 128 then Some (false, [b0], r)
      else if c <? 184 then
        match split_at (c - 128) r with
        | None => None
        | Some (pl, r') =>
            match pl with
            | [x] => if bN x <? 128 then None else Some (false, pl, r')
            | _ => Some (false, pl, r')
            end
        end
      else if c <? 192 then
        match long_payload (c - 183) r with
        | None => None | Some (pl, r') => Some (false, pl, r') end
      else if c <? 248 then
        match split_at (c - 192) r with
        | None => None | Some (pl, r') => Some (true, pl, r') end
      else
        match long_payload (c - 247) r with
        | None => None | Some (pl, r') => Some (true, pl, r') end
  end.

(** All items of a byte string.  [fuel] at least the length suffices. *)
Fixpoint dec (fuel : nat) (b : bytes) : option (list item) :=
  match b with
  | [] => Some []
  | _ =>
      match fuel with
      | O => None
      | S f =>
          match parse1 b with
          | None => None
          | Some (is_list, pl, r) =>
              match (if is_list then option_map IList (dec f pl) else Some (IBytes pl)) with
              | None => None
              | Some i => match dec f r with None => None | Some l => Some (i :: l) end
              end
          end
      end
  end.

(** pyrlp [decode(rlp)] with strict=True and no sedes: exactly one item. *)
Definition rlp_decode (b : bytes) : result item :=
  match dec (length b) b with
  | Some [i] => Ok i
  | _ => Err DecodingError
  end.

(** ** Sedes. *)
Definition d_binary (i : item) : result bytes :=
  match i with IBytes b => Ok b | IList _ => Err DeserializationError end.

(** rlp.sedes.CountableList(binary). *)
Definition d_binlist (i : item) : result (list bytes) :=
  match i with IList l => mapM d_binary l | IBytes _ => Err DeserializationError end.

(** rlp.sedes.boolean: b"" is False, b"\x01" is True. *)
Definition d_bool (i : item) : result bool :=
  match i with
  | IBytes [] => Ok false
  | IBytes [x01] => Ok true
  | _ => Err DeserializationError
  end.
Definition e_bool (b : bool) : item := IBytes (if b then [x01] else []).

(** rlp.sedes.big_endian_int: no leading zero byte. *)
Definition d_int (i : item) : result N :=
  match i with
  | IBytes (x :: r) => if bN x =? 0 then Err DeserializationError else Ok (unbe (x :: r))
  | IBytes [] => Ok 0
  | IList _ => Err DeserializationError
  end.
Definition e_int (n : N) : item := IBytes (be n).
