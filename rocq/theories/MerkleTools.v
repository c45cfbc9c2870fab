(** Model of /repo/src/pymt/merkletools.py as a class of its own ([from pymt import MerkleTools]): calls with any arguments, the
    classes of the entries of the levels, and the text of a tree.  MerkleTree.v has the parts that [MerkleTree] uses. *)
From Coq Require Import String List Bool Arith NArith ZArith.
From Verif Require Import Base ProofObj ProofJson Keccak MptEq MerkleTree.
Import ListNotations.

Local Notation hashf := keccak.

(** An argument: an object with a buffer of bytes ([bytes], [bytearray], [memoryview]), an int, an iterable without buffer ([None]
    stands for an element that is not an int), a str, anything else.
    Simplifications: ints fit a [Py_ssize_t] (others raise OverflowError) and there is memory enough. *)
Inductive anyval := YBuf (b : bytes) | YInt (z : Z) | YInts (l : list (option Z)) | YStr | YOther.

(** An entry of a level: a [bytearray] or a [bytes] object. *)
Inductive entry := EArray (b : bytes) | EBytes (b : bytes).
Definition entry_bytes (e : entry) : bytes := match e with EArray b | EBytes b => b end.

(** The object.  [o_upper] as [t_upper] in MerkleTree.v; the leaves are bytearrays. *)
Record tools := mkTools { o_leaves : list bytes; o_upper : option (list (list entry)); o_ready : bool; o_secure : bool }.
Definition plain (t : tools) : mt := mkMt (o_leaves t) (option_map (map (map entry_bytes)) (o_upper t)) (o_ready t) (o_secure t).

(** merkletools.py:17-45. *)
Definition tools_new (secure : bool) : tools := mkTools [] None false secure.
(** merkletools.py:95-99 [reset_tree]. *)
Definition tools_reset (t : tools) : tools := mkTools [] None false (o_secure t).

(** [bytearray(v)]. *)
Definition byte_of (z : option Z) : result byte :=
  match z with
  | None => Err TypeError
  | Some z => if ((0 <=? z) && (z <? 256))%Z then Ok (nB (Z.to_N z)) else Err ValueError
  end.
Definition bytearray_of (v : anyval) : result bytes :=
  match v with
  | YBuf b => Ok b
  | YInt z => if (z <? 0)%Z then Err ValueError else Ok (repeat x00 (Z.to_nat z))
  | YInts l => mapM byte_of l
  | YStr | YOther => Err TypeError
  end.

(** ** Text *)
(** CPython's [repr] of a [bytearray]: it escapes the single quote between double quotes, too. *)
Definition array_byte (c : byte) : bytes := if byte_eqb c x22 then [c] else repr_byte x27 c.
Definition array_repr (b : bytes) : bytes :=
  bs "bytearray(b" ++ [quote_of b] ++ flat_map array_byte b ++ [quote_of b] ++ bs ")".
Definition entry_repr (e : entry) : bytes := match e with EArray b => array_repr b | EBytes b => bytes_repr b end.
(** [repr] of a list. *)
Definition list_repr {A} (f : A -> bytes) (l : list A) : bytes :=
  bs "[" ++ match l with [] => [] | a :: r => f a ++ flat_map (fun x => bs ", " ++ f x) r end ++ bs "]".
(** merkletools.py:56-61 [__str__], 71-73 [__repr__]. *)
Definition tools_str (t : tools) : bytes :=
  if o_ready t then
    match o_upper t with
    | None => bs "None"
    | Some u => list_repr (list_repr entry_repr) (u ++ [map EArray (o_leaves t)])
    end
  else bs "Tree not ready".

(** An argument of [verify_proof_of_inclusion]: [bytes] or [bytearray], a str, None. *)
Inductive target := TBuf (b : bytes) | TStr (s : bytes) | TNone.
Definition target_eqb (a b : target) : bool :=
  match a, b with
  | TBuf x, TBuf y => bytes_eqb x y
  | TStr x, TStr y => bytes_eqb x y
  | TNone, TNone => true
  | _, _ => false
  end.

Section WithHash.
Context {H : Hash}.
Local Open Scope res_scope.

(** merkletools.py:110-114 and 193-197: hashlib functions take buffers only. *)
Definition stored_any (secure : bool) (v : anyval) : result bytes :=
  if secure then match v with YBuf b => Ok (hashf b) | _ => Err TypeError end else bytearray_of v.

(** merkletools.py:101-115 [add_leaf]. *)
Definition tools_add (t : tools) (v : anyval) : result unit * tools :=
  match stored_any (o_secure t) v with
  | Err x => (Err x, t)
  | Ok b => (Ok tt, mkTools (o_leaves t ++ [b]) (o_upper t) (o_ready t) (o_secure t))
  end.

(** merkletools.py:139-154 [_calculate_next_level]. *)
Definition next_entries (l : list entry) : list entry :=
  let n := length l in
  let solo := if Nat.odd n then [last l (EBytes [])] else [] in
  let n := if Nat.odd n then n - 1 else n in
  map (fun p => EBytes (hashf (entry_bytes (fst p) ++ entry_bytes (snd p))))
      (combine (every2 (firstn n l)) (every2 (skipn 1 (firstn n l)))) ++ solo.
(** merkletools.py:156-165 [make_tree]. *)
Fixpoint build_entries (fuel : nat) (top : list entry) (below : list (list entry)) : option (list (list entry)) :=
  if length top <=? 1 then Some (top :: below)
  else match fuel with O => None | S f => build_entries f (next_entries top) (top :: below) end.
Definition tools_make (t : tools) : result unit * tools :=
  if 0 <? length (o_leaves t) then
    match build_entries (length (o_leaves t)) (map EArray (o_leaves t)) [] with
    | Some lv => (Ok tt, mkTools (o_leaves t) (Some (removelast lv)) true (o_secure t))
    | None => (Err RuntimeError, t)   (* out of fuel *)
    end
  else (Ok tt, mkTools (o_leaves t) (o_upper t) true (o_secure t)).

(** merkletools.py:179-219 [get_proof_of_inclusion]. *)
Definition tools_prove (t : tools) (v : anyval) : result (list (bytes * bytes)) :=
  k <- stored_any (o_secure t) v ;;
  match index_of k (o_leaves t) with
  | None => Err ValueError
  | Some i =>
      match levels (plain t) with
      | Some lv => if o_ready t then poi_loop (rev (tl lv)) i else Err ValueError
      | None => Err ValueError
      end
  end.

(** merkletools.py:221-254 [verify_proof_of_inclusion].  An element of the proof is a dict; [None] stands for a value that is not a
    str.  Whatever goes wrong with the item "left" is caught. *)
Definition side (p : dict (option bytes)) (name : bytes) : result bytes :=
  match dget p name with
  | None => Err KeyError
  | Some None => Err TypeError
  | Some (Some s) => match from_hex s with None => Err ValueError | Some x => Ok x end
  end.
Fixpoint fold_proof (l : list (dict (option bytes))) (acc : bytes) : result bytes :=
  match l with
  | [] => Ok acc
  | p :: r =>
      match side p s_left with
      | Ok sib => fold_proof r (hashf (sib ++ acc))
      | Err _ => sib <- side p s_right ;; fold_proof r (hashf (acc ++ sib))
      end
  end.
Definition tools_check (l : list (dict (option bytes))) (t root : target) : result bool :=
  match l with
  | [] => Ok (target_eqb t root)
  | p :: _ =>
      match t with
      | TBuf b => acc <- fold_proof l b ;; Ok (target_eqb (TBuf acc) root)
      | _ => _ <- side p s_right ;; Err TypeError
      end
  end.

(** merkletools.py:63-65 [__hash__], called by [__eq__] (67-69): Python's [int(s, 16)]. *)
Definition tools_number (t : tools) : result Z :=
  r <- tools_root (plain t) ;; match py_int16 r with Some z => Ok z | None => Err ValueError end.
Definition tools_eq (t u : tools) : result bool :=
  a <- tools_number t ;; b <- tools_number u ;; Ok (Z.eqb a b).

(** ** Calls on one object *)
Inductive tcall :=
| JAdd (v : anyval) | JLeaf (i : Z) | JCount | JReady | JMake | JReset | JRoot
| JProve (v : anyval) | JVerify (l : list (dict (option bytes))) (t root : target) | JNumber.
Inductive tanswer :=
| WUnit (r : result unit) | WText (r : result bytes) | WCount (n : nat) | WBool (r : result bool)
| WPath (r : result (list (bytes * bytes))) | WInt (r : result Z).
Definition tools_call (t : tools) (c : tcall) : tanswer * tools :=
  match c with
  | JAdd v => let (r, t') := tools_add t v in (WUnit r, t')
  | JLeaf i => (WText (get_leaf (plain t) i), t)
  | JCount => (WCount (length (o_leaves t)), t)
  | JReady => (WBool (Ok (o_ready t)), t)
  | JMake => let (r, t') := tools_make t in (WUnit r, t')
  | JReset => (WUnit (Ok tt), tools_reset t)
  | JRoot => (WText (tools_root (plain t)), t)
  | JProve v => (WPath (tools_prove t v), t)
  | JVerify l x r => (WBool (tools_check l x r), t)
  | JNumber => (WInt (tools_number t), t)
  end.
Fixpoint tools_run (t : tools) (h : list tcall) : list tanswer * tools :=
  match h with
  | [] => ([], t)
  | c :: h' => let (a, t1) := tools_call t c in let (l, t2) := tools_run t1 h' in (a :: l, t2)
  end.

(** The dicts that [get_proof_of_inclusion] returns (merkletools.py:212), as [verify_proof_of_inclusion] sees them. *)
Definition dicts (l : list (bytes * bytes)) : list (dict (option bytes)) := map (fun p => [(fst p, Some (snd p))]) l.
(** src/pymt/examples/merkletools_create_and_proof.py:4-22. *)
Definition shipped_example : result bool :=
  let t := snd (tools_run (tools_new false)
    [JAdd (YBuf (bs "hello")); JAdd (YBuf (bs "world")); JAdd (YBuf (bs "here")); JAdd (YBuf (bs "i")); JAdd (YBuf (bs "am")); JMake]) in
  key <- get_leaf (plain t) 2 ;; root <- tools_root (plain t) ;; proof <- tools_prove t (YBuf (bs "world")) ;;
  tools_check (dicts proof) (TStr key) (TStr root).
End WithHash.
