(** Model of MPT.__hash__ and MPT.__eq__ (/repo/src/pymt/mpt.py:100-106), which parse the raw digest
    with Python's [int(bytes, 16)]. *)
From Coq Require Import List Bool Arith NArith ZArith.
From Verif Require Import Base Rlp NibblePath Node ProofObj Mpt.
Import ListNotations.

(** CPython's [int(b, 16)] on a bytes object (longobject.c, PyLong_FromString): white space around, an
    optional sign, an optional 0x prefix, digits with single underscores between them. *)
Definition is_space (b : byte) : bool :=
  match b with x09 | x0a | x0b | x0c | x0d | x20 => true | _ => false end.
Definition hexval (b : byte) : option Z :=
  let n := Z.of_N (Byte.to_N b) in
  if (48 <=? n)%Z && (n <=? 57)%Z then Some (n - 48)%Z
  else if (97 <=? n)%Z && (n <=? 102)%Z then Some (n - 87)%Z
  else if (65 <=? n)%Z && (n <=? 70)%Z then Some (n - 55)%Z
  else None.
Fixpoint skip_space (b : bytes) : bytes :=
  match b with c :: r => if is_space c then skip_space r else b | [] => [] end.

(** [und]: the previous character is an underscore; [any]: a digit was seen. *)
Fixpoint digits (b : bytes) (acc : Z) (und any : bool) : option Z :=
  let stop := if any && negb und && forallb is_space b then Some acc else None in
  match b with
  | [] => stop
  | c :: r =>
      match hexval c with
      | Some d => digits r (16 * acc + d)%Z false true
      | None => match c with
                | x5f => if und then None else digits r acc true any
                | _ => stop
                end
      end
  end.
Definition py_int16 (b : bytes) : option Z :=
  let b := skip_space b in
  let '(sg, b) := match b with x2b :: r => (1%Z, r) | x2d :: r => ((-1)%Z, r) | _ => (1%Z, b) end in
  let b := match b with
           | x30 :: x78 :: r | x30 :: x58 :: r => match r with x5f :: r' => r' | _ => r end
           | _ => b end in
  option_map (fun z => (sg * z)%Z) (digits b 0%Z true false).

(** The bytes [int(b, 16)] tolerates anywhere: white space, signs, hexadecimal digits, x, X, underscore. *)
Definition hexish (b : byte) : bool :=
  is_space b || (match hexval b with Some _ => true | None => false end)
  || match b with x2b | x2d | x78 | x58 | x5f => true | _ => false end.

Section WithHash.
Context {H : Hash}.
Local Open Scope res_scope.

(** mpt.py:100-101 [__hash__], as called by [__eq__]: the hash of the root reference, parsed as hexadecimal text. *)
Definition mpt_hash (t : mpt) : result Z :=
  match m_root t with
  | None => Err TypeError
  | Some r => match py_int16 (keccak r) with Some z => Ok z | None => Err ValueError end
  end.

(** mpt.py:103-106 [__eq__] on another trie. *)
Definition mpt_eq (t t' : mpt) : result bool :=
  a <- mpt_hash t ;; b <- mpt_hash t' ;; Ok (Z.eqb a b).
End WithHash.
