(** Model of /repo/src/pymt/utils/nibble_path.py with Python's integers, index errors and the two types of [_data].
    NibblePath.v is the part of it that the tries use. *)
From Coq Require Import String DecimalString List Bool Arith NArith ZArith.
From Verif Require Import Base NibblePath Keccak ProofJson.
Import ListNotations.
Local Open Scope Z_scope.
Local Open Scope res_scope.

(** nibble_path.py:10-27.  [py_list]: [_data] is a list of ints, not [bytes] (nibble_path.py:197, 212). *)
Record pypath := mkPy { py_data : bytes; py_list : bool; py_off : Z }.

(** nibble_path.py:29-31; [len()] raises if [__len__] returns a negative number. *)
Definition py_len (p : pypath) : result Z :=
  let n := Z.of_nat (length (py_data p)) * 2 - py_off p in if n <? 0 then Err ValueError else Ok n.
(** nibble_path.py:139-162. *)
Definition py_at (p : pypath) (i : Z) : result nat :=
  let idx := i + py_off p in
  let bi := idx / 2 in
  let n := Z.of_nat (length (py_data p)) in
  let pos := if bi <? 0 then bi + n else bi in
  if (pos <? 0) || (n <=? pos) then Err IndexError
  else let b := nth (Z.to_nat pos) (py_data p) x00 in Ok (if idx mod 2 =? 0 then hi b else lo b).
(** The loop of [__eq__] and [starts_with] over [range(i, i + n)]. *)
Fixpoint py_agree (p q : pypath) (i : Z) (n : nat) : result bool :=
  match n with
  | O => Ok true
  | S n' => a <- py_at p i ;; b <- py_at q i ;; if Nat.eqb a b then py_agree p q (i + 1) n' else Ok false
  end.
(** nibble_path.py:51-72. *)
Definition py_eq (p q : pypath) : result bool :=
  a <- py_len p ;; b <- py_len q ;; if negb (a =? b) then Ok false else py_agree p q 0 (Z.to_nat a).
(** nibble_path.py:116-137. *)
Definition py_starts_with (p q : pypath) : result bool :=
  b <- py_len q ;; a <- py_len p ;; if a <? b then Ok false else py_agree p q 0 (Z.to_nat b).
(** nibble_path.py:164-179. *)
Definition py_consume (p : pypath) (k : Z) : pypath := mkPy (py_data p) (py_list p) (py_off p + k).
(** The loops of [_create_new] and [encode], [n] rounds from [pos]. *)
Fixpoint py_pairs (at_ : Z -> result nat) (pos : Z) (n : nat) : result bytes :=
  match n with
  | O => Ok []
  | S n' => a <- at_ pos ;; b <- at_ (pos + 1) ;; r <- py_pairs at_ (pos + 2) n' ;; Ok (mkb a b :: r)
  end.
(** nibble_path.py:181-212 [_create_new]. *)
Definition py_create (at_ : Z -> result nat) (len : Z) : result pypath :=
  if len mod 2 =? 1 then a <- at_ 0 ;; r <- py_pairs at_ 1 (Z.to_nat (len / 2)) ;; Ok (mkPy (mkb 0 a :: r) true 1)
  else r <- py_pairs at_ 0 (Z.to_nat (len / 2)) ;; Ok (mkPy r true 0).
(** nibble_path.py:214-235. *)
Fixpoint py_common (p q : pypath) (i : Z) (n : nat) : result Z :=
  match n with
  | O => Ok 0
  | S n' => a <- py_at p i ;; b <- py_at q i ;; if Nat.eqb a b then c <- py_common p q (i + 1) n' ;; Ok (1 + c) else Ok 0
  end.
Definition py_common_prefix (p q : pypath) : result pypath :=
  a <- py_len p ;; b <- py_len q ;; c <- py_common p q 0 (Z.to_nat (Z.min a b)) ;; py_create (py_at p) c.
(** nibble_path.py:237-272. *)
Definition py_encode (p : pypath) (leaf : bool) : result bytes :=
  n <- py_len p ;;
  f <- (if n mod 2 =? 1 then a <- py_at p 0 ;; Ok (16 + a)%nat else Ok 0%nat) ;;
  r <- py_pairs (py_at p) (n mod 2) (Z.to_nat (n / 2)) ;;
  Ok (nB (N.of_nat (f + (if leaf then 32 else 0))) :: r).
(** nibble_path.py:74-97. *)
Definition py_decode_with_type (d : bytes) : result (pypath * bool) :=
  match d with
  | [] => Err IndexError
  | b :: _ => Ok (mkPy d false (if (N.land (bN b) 16 =? 16)%N then 1 else 2), (N.land (bN b) 32 =? 32)%N)
  end.
(** nibble_path.py:274-334 [_Chained], [combine]. *)
Definition py_chained (p q : pypath) (i : Z) : result nat := a <- py_len p ;; if i <? a then py_at p i else py_at q (i - a).
Definition py_combine (p q : pypath) : result pypath :=
  a <- py_len p ;; b <- py_len q ;; py_create (py_chained p q) (a + b).
(** [bytes.hex()]; a list has no such method. *)
Definition py_hex (p : pypath) : result bytes :=
  if py_list p then Err AttributeError else Ok (flat_map (fun c => [hexdig (bN c / 16)%N; hexdig (bN c mod 16)%N]) (py_data p)).
(** [str] of an int. *)
Definition int_str (z : Z) : bytes := bs (NilZero.string_of_int (Z.to_int z)).
(** nibble_path.py:33-41 [__repr__], 43-49 [__str__]. *)
Definition py_repr (p : pypath) : result bytes :=
  h <- py_hex p ;; Ok (bs "<NibblePath: Data: 0x" ++ h ++ bs ", Offset: " ++ int_str (py_off p) ++ bs ">")%list.
Definition py_str (p : pypath) : result bytes :=
  h <- py_hex p ;; Ok (bs "<Hex 0x" ++ h ++ bs " | Raw " ++ bytes_repr (py_data p) ++ bs ">")%list.
