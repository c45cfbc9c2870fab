(** Common ground of the model: bytes, Python exceptions as values,
    dictionaries, the hash function and the fault-injecting storage. *)
From Coq Require Import List Bool Arith NArith Lia.
From Coq Require Export Init.Byte.
From Coq Require Import Strings.Byte.
Import ListNotations.
Local Open Scope list_scope.

(** ** Bytes: a Python [bytes] object is a list of bytes. *)
Definition bytes := list byte.

(** [bN b] is the Python int of a byte, [nB n] the byte of an int below 256
    (ints above 255 never reach it; they are mapped to 0). *)
Definition bN (b : byte) : N := Byte.to_N b.
Definition nB (n : N) : byte := match Byte.of_N n with Some b => b | None => x00 end.

(** [==] on [bytes]. *)
Definition byte_eqb (a b : byte) : bool := N.eqb (bN a) (bN b).

Fixpoint bytes_eqb (a b : bytes) : bool :=
  match a, b with
  | [], [] => true
  | x :: a', y :: b' => byte_eqb x y && bytes_eqb a' b'
  | _, _ => false
  end.

(** Length of a byte string as a binary number. *)
Definition blen (b : bytes) : N := N.of_nat (length b).

(** Big-endian unsigned integers.  [be n] is minimal, [be 0] is empty. *)
Fixpoint be_aux (fuel : nat) (n : N) (acc : bytes) : bytes :=
  match fuel with
  | O => acc
  | S f => if N.eqb n 0 then acc else be_aux f (n / 256) (nB (n mod 256) :: acc)
  end.
Definition be (n : N) : bytes := be_aux (N.size_nat n) n [].
Definition unbe (b : bytes) : N := fold_left (fun acc x => acc * 256 + bN x)%N b 0%N.

(** ** Exceptions: one constructor per Python exception class the library
    (or a library it calls) raises; messages are not modelled. *)
Inductive exn :=
  | KeyError | ValueError | TypeError | IndexError | AssertionError
  | AttributeError | NotImplementedError | RuntimeError | RecursionError
  | DecodingError           (* rlp.DecodingError, not a ValueError *)
  | DeserializationError    (* rlp sedes failure *)
  | UnicodeDecodeError      (* a subclass of ValueError *)
  | UnicodeEncodeError      (* a subclass of ValueError *)
  | JSONDecodeError         (* a subclass of ValueError *)
  | FileNotFoundError
  | KeyNotFoundError | InvalidReferenceError | ExtensionPathError
  | LeafPathError | BranchPathError | InvalidNodeError | PoeError | PoiError
  | StorageFault            (* whatever the user's storage raises *).

(** What a Python expression gives: a value or an exception; sequencing; a list comprehension. *)
Inductive result (A : Type) := Ok (a : A) | Err (e : exn).
Arguments Ok {A} a.
Arguments Err {A} e.

Definition bind {A B} (r : result A) (f : A -> result B) : result B :=
  match r with Ok a => f a | Err e => Err e end.

Declare Scope res_scope.
Delimit Scope res_scope with res.
Notation "x <- r ;; k" := (bind r (fun x => k))
  (at level 61, r at next level, right associativity) : res_scope.
Notation "' p <- r ;; k" := (bind r (fun p => k))
  (at level 61, p pattern, r at next level, right associativity) : res_scope.

Fixpoint mapM {A B} (f : A -> result B) (l : list A) : result (list B) :=
  match l with
  | [] => Ok []
  | a :: l' => match f a with
               | Err e => Err e
               | Ok b => match mapM f l' with Err e => Err e | Ok bs => Ok (b :: bs) end
               end
  end.

(** ** Dictionaries: a Python dict with [bytes] keys, in insertion order. *)
Definition dict (V : Type) := list (bytes * V).

(** [d[k]] or [d.get(k)], [d[k] = v] (the place is kept), [del d[k]]. *)
Fixpoint dget {V} (d : dict V) (k : bytes) : option V :=
  match d with
  | [] => None
  | (k', v) :: d' => if bytes_eqb k k' then Some v else dget d' k
  end.

Fixpoint dset {V} (d : dict V) (k : bytes) (v : V) : dict V :=
  match d with
  | [] => [(k, v)]
  | (k', v') :: d' => if bytes_eqb k k' then (k', v) :: d' else (k', v') :: dset d' k v
  end.

Fixpoint ddel {V} (d : dict V) (k : bytes) : dict V :=
  match d with
  | [] => []
  | (k', v') :: d' => if bytes_eqb k k' then d' else (k', v') :: ddel d' k
  end.

Definition dkeys {V} (d : dict V) : list bytes := map fst d.
Definition dvals {V} (d : dict V) : list V := map snd d.

(** ** The hash function.
    utils/hash.py:6-27 [keccak_hash(data)]; any function.  Theorems add what
    they need: 32-byte digests and no collision among the inputs of a run. *)
Class Hash := keccak : bytes -> bytes.

(** ** The node storage of a trie during one operation.
    [s_map] is the storage object itself.  [s_log] is a ghost: every byte string
    that was hashed in order to be stored; the model never reads it.
    [s_faults] says which of the following storage accesses raise. *)
Record store := mkStore { s_map : dict bytes; s_log : list bytes; s_faults : list bool }.

(** Statements that read or write the storage. *)
Definition M (A : Type) := store -> result A * store.

Definition ret {A} (a : A) : M A := fun s => (Ok a, s).
Definition raise {A} (e : exn) : M A := fun s => (Err e, s).
Definition mbind {A B} (m : M A) (f : A -> M B) : M B :=
  fun s => match m s with (Ok a, s') => f a s' | (Err e, s') => (Err e, s') end.
Definition lift {A} (r : result A) : M A := fun s => (r, s).

Declare Scope m_scope.
Delimit Scope m_scope with m.
Notation "x <- r ;; k" := (mbind r (fun x => k))
  (at level 61, r at next level, right associativity) : m_scope.

(** One storage access: consumes one entry of the fault list. *)
Definition tick : M unit := fun s =>
  match s_faults s with
  | [] => (Ok tt, s)
  | f :: fs => ((if f then Err StorageFault else Ok tt), mkStore (s_map s) (s_log s) fs)
  end.
