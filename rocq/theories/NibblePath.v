(** Model of /repo/src/pymt/utils/nibble_path.py. *)
From Coq Require Import List Bool Arith NArith ZArith.
From Verif Require Import Base.
Import ListNotations.

(** nibble_path.py:10-27.  [_data] may also be a list of ints below 256
    ([_create_new], mpt.py:1382,1441); both are byte lists here. *)
Record np := mkNp { np_data : bytes; np_off : nat }.

(** High and low nibble of a byte; byte from two nibbles. *)
Definition hi (b : byte) : nat := N.to_nat (bN b / 16).
Definition lo (b : byte) : nat := N.to_nat (bN b mod 16).
Definition mkb (h l : nat) : byte := nB (N.of_nat (h * 16 + l)).

(** nibble_path.py:29-31.  (Python raises if the offset exceeds the data; no
    caller consumes more than the path has, see NibbleProofs.v.) *)
Definition np_len (p : np) : nat := length (np_data p) * 2 - np_off p.

(** nibble_path.py:139-162, for an index within the path.  The version with
    Python's index errors and negative indices is [np_at_py]. *)
Definition np_at (p : np) (i : nat) : nat :=
  let idx := i + np_off p in
  let b := nth (idx / 2) (np_data p) x00 in
  if idx mod 2 =? 0 then hi b else lo b.

(** nibble_path.py:139-162 for any Python int [i]: list indices wrap once
    below zero, and are an IndexError outside [-n, n). *)
Definition np_at_py (p : np) (i : Z) : result nat :=
  let idx := (i + Z.of_nat (np_off p))%Z in
  let bi := (idx / 2)%Z in
  let n := Z.of_nat (length (np_data p)) in
  let pos := (if bi <? 0 then bi + n else bi)%Z in
  if ((pos <? 0) || (n <=? pos))%Z then Err IndexError
  else let b := nth (Z.to_nat pos) (np_data p) x00 in
       Ok (if (idx mod 2 =? 0)%Z then hi b else lo b).

(** Loop of __eq__ and starts_with: nibbles [i .. i+n) agree. *)
Fixpoint np_agree (p q : np) (i n : nat) : bool :=
  match n with
  | O => true
  | S n' => (np_at p i =? np_at q i) && np_agree p q (S i) n'
  end.

(** nibble_path.py:51-72. *)
Definition np_eq (p q : np) : bool :=
  (np_len p =? np_len q) && np_agree p q 0 (np_len p).

(** nibble_path.py:116-137: is [q] a prefix of [p]. *)
Definition np_starts_with (p q : np) : bool :=
  if np_len p <? np_len q then false else np_agree p q 0 (np_len q).

(** nibble_path.py:164-179.  The Python method mutates the path and returns it. *)
Definition np_consume (p : np) (n : nat) : np := mkNp (np_data p) (np_off p + n).

(** Loop of _create_new and encode: bytes of the nibbles [pos .. pos+2*n). *)
Fixpoint np_pairs (at_ : nat -> nat) (pos n : nat) : bytes :=
  match n with
  | O => []
  | S n' => mkb (at_ pos) (at_ (pos + 1)) :: np_pairs at_ (pos + 2) n'
  end.

(** nibble_path.py:181-212. *)
Definition np_create_new (at_ : nat -> nat) (len : nat) : np :=
  if len mod 2 =? 1
  then mkNp (mkb 0 (at_ 0) :: np_pairs at_ 1 (len / 2)) 1
  else mkNp (np_pairs at_ 0 (len / 2)) 0.

(** Loop of common_prefix: number of leading equal nibbles among [n]. *)
Fixpoint np_common (p q : np) (i n : nat) : nat :=
  match n with
  | O => O
  | S n' => if np_at p i =? np_at q i then S (np_common p q (S i) n') else O
  end.

(** nibble_path.py:214-235. *)
Definition np_common_prefix (p q : np) : np :=
  np_create_new (np_at p) (np_common p q 0 (Nat.min (np_len p) (np_len q))).

(** nibble_path.py:237-272 (hex-prefix encoding). *)
Definition np_encode (p : np) (is_leaf : bool) : bytes :=
  let n := np_len p in
  let odd := n mod 2 =? 1 in
  let prefix := (if odd then 16 + np_at p 0 else 0) + (if is_leaf then 32 else 0) in
  nB (N.of_nat prefix) :: np_pairs (np_at p) (n mod 2) (n / 2).

(** nibble_path.py:74-97.  The flags are tested with [&]; other bits of the
    first byte are ignored.  Empty data raises IndexError. *)
Definition np_decode_with_type (d : bytes) : result (np * bool) :=
  match d with
  | [] => Err IndexError
  | b :: _ =>
      let odd := (N.land (bN b) 16 =? 16)%N in
      let leaf := (N.land (bN b) 32 =? 32)%N in
      Ok (mkNp d (if odd then 1 else 2), leaf)
  end.

(** nibble_path.py:274-316 [_Chained] and 318-334 [combine]. *)
Definition chained_at (p q : np) (i : nat) : nat :=
  if i <? np_len p then np_at p i else np_at q (i - np_len p).
Definition np_combine (p q : np) : np :=
  np_create_new (chained_at p q) (np_len p + np_len q).

(** [NibblePath(key)]. *)
Definition np_of (k : bytes) : np := mkNp k 0.
