(** Model of /repo/src/pymt/merkletools.py and /repo/src/pymt/mt.py.
    The hash function ([hashlib] function chosen by [hash_type]) is the method of the class [Hash]: any function.
    A Python [str] is represented by its UTF-8 bytes. *)
From Coq Require Import List Bool Arith NArith ZArith.
From Verif Require Import Base ProofObj MptEq.
Import ListNotations.

Local Notation hashf := keccak.

(** ** Text *)

(** [bytes.hex()]: two lower-case digits per byte. *)
Definition hexdigit (n : N) : byte := if (n <? 10)%N then nB (n + 48) else nB (n + 87).
Definition to_hex (b : bytes) : bytes :=
  flat_map (fun x => [hexdigit (bN x / 16); hexdigit (bN x mod 16)]) b.

(** [bytes.fromhex(s)] (CPython, _PyBytes_FromHex): white space between bytes is skipped, both cases are accepted;
    [None] is the ValueError.  Bytes above 127 are parts of non-ASCII characters, which are refused. *)
Fixpoint from_hex (s : bytes) : option bytes :=
  match s with
  | [] => Some []
  | c :: r =>
      if is_space c then from_hex r
      else match r with
           | [] => None
           | d :: r' =>
               match hexval c, hexval d with
               | Some a, Some b => option_map (cons (nB (Z.to_N (16 * a + b)))) (from_hex r')
               | _, _ => None
               end
           end
  end.

(** [bytes.decode()]: the strict UTF-8 decoder accepts these byte strings (no overlong forms, no surrogates,
    nothing above U+10FFFF). *)
Definition in_range (lo hi : N) (b : byte) : bool := (lo <=? bN b)%N && (bN b <=? hi)%N.
Definition cont := in_range 128 191.
Fixpoint utf8_ok (s : bytes) : bool :=
  match s with
  | [] => true
  | a :: r =>
      if in_range 0 127 a then utf8_ok r
      else match r with
      | [] => false
      | b :: r =>
          if in_range 194 223 a then cont b && utf8_ok r
          else match r with
          | [] => false
          | c :: r =>
              if in_range 224 224 a then in_range 160 191 b && cont c && utf8_ok r
              else if in_range 237 237 a then in_range 128 159 b && cont c && utf8_ok r
              else if in_range 225 239 a then cont b && cont c && utf8_ok r
              else match r with
              | [] => false
              | d :: r =>
                  if in_range 240 240 a then in_range 144 191 b && cont c && cont d && utf8_ok r
                  else if in_range 241 243 a then cont b && cont c && cont d && utf8_ok r
                  else if in_range 244 244 a then in_range 128 143 b && cont c && cont d && utf8_ok r
                  else false
              end
          end
      end
  end.
Definition decode_str (b : bytes) : result bytes := if utf8_ok b then Ok b else Err UnicodeDecodeError.

(** ** State
    [t_upper]: the levels above the bottom one, top first, or [None] when [self.levels is None].  The bottom level is
    the same list object as [self.leaves] (merkletools.py:160-162), so it follows later calls of [add_leaf]. *)
Record mt := mkMt {
  t_leaves : list bytes;
  t_upper  : option (list (list bytes));
  t_ready  : bool;
  t_secure : bool
}.

(** The attribute [levels] (merkletools.py:95-99, 139-165): top first, the leaves last. *)
Definition levels (t : mt) : option (list (list bytes)) :=
  option_map (fun u => u ++ [t_leaves t]) (t_upper t).

(** merkletools.py:17-45 with 95-99: a new tree (for an accepted [hash_type]). *)
Definition mt_new (secure : bool) : mt := mkMt [] None false secure.

(** merkletools.py:95-99 [reset_tree]. *)
Definition reset_tree (t : mt) : mt := mkMt [] None false (t_secure t).

(** A Python argument: a [bytes] object or something else. *)
Inductive pyval := VBytes (b : bytes) | VOther.

(** Python slices with step 2: [l[0::2]]. *)
Fixpoint every2 {A} (l : list A) : list A :=
  match l with [] => [] | [a] => [a] | a :: _ :: r => a :: every2 r end.

(** Python's [l[i]] for any integer [i]. *)
Definition py_nth {A} (l : list A) (i : Z) : option A :=
  if (i <? 0)%Z then
    if (i + Z.of_nat (length l) <? 0)%Z then None else nth_error l (Z.to_nat (i + Z.of_nat (length l)))
  else nth_error l (Z.to_nat i).

Section WithHash.
Context {H : Hash}.
Local Open Scope res_scope.

(** merkletools.py:108-114 (add_leaf) and 193-197 (get_proof_of_inclusion): what is stored for a value. *)
Definition stored (secure : bool) (v : bytes) : bytes := if secure then hashf v else v.

(** merkletools.py:101-115 [add_leaf]. *)
Definition add_leaf (t : mt) (v : bytes) : mt :=
  mkMt (t_leaves t ++ [stored (t_secure t) v]) (t_upper t) (t_ready t) (t_secure t).

(** merkletools.py:117-129 [get_leaf]. *)
Definition get_leaf (t : mt) (i : Z) : result bytes :=
  match py_nth (t_leaves t) i with Some b => Ok (to_hex b) | None => Err IndexError end.

(** merkletools.py:139-154 [_calculate_next_level]: the new level from [self.levels[0]]. *)
Definition next_level (l : list bytes) : list bytes :=
  let n := length l in
  let solo := if Nat.odd n then [last l []] else [] in
  let n := if Nat.odd n then n - 1 else n in
  map (fun p => hashf (fst p ++ snd p)) (combine (every2 (firstn n l)) (every2 (skipn 1 (firstn n l)))) ++ solo.

(** merkletools.py:156-165 [make_tree]: the loop, on [self.levels] (top first).  It runs out of fuel nowhere
    (MtProofs.build_total). *)
Fixpoint build (fuel : nat) (top : list bytes) (below : list (list bytes)) : option (list (list bytes)) :=
  if length top <=? 1 then Some (top :: below)
  else match fuel with O => None | S f => build f (next_level top) (top :: below) end.

(** merkletools.py:156-165 [make_tree]. *)
Definition make_tree (t : mt) : result mt :=
  if 0 <? length (t_leaves t) then
    match build (length (t_leaves t)) (t_leaves t) [] with
    | Some lv => Ok (mkMt (t_leaves t) (Some (removelast lv)) true (t_secure t))
    | None => Err RuntimeError   (* out of fuel *)
    end
  else Ok (mkMt (t_leaves t) (t_upper t) true (t_secure t)).

(** merkletools.py:167-177 [MerkleTools.get_merkle_root]. *)
Definition tools_root (t : mt) : result bytes :=
  match t_ready t, levels t with
  | true, Some lv => match lv with
                     | (x :: _) :: _ => Ok (to_hex x)
                     | _ => Err IndexError
                     end
  | _, _ => Err ValueError
  end.

(** [list.index]: position of the first equal element. *)
Fixpoint index_of (k : bytes) (l : list bytes) : option nat :=
  match l with
  | [] => None
  | x :: r => if bytes_eqb k x then Some 0 else option_map S (index_of k r)
  end.

(** merkletools.py:215: the names of the sides. *)
Definition s_left : bytes := [x6c; x65; x66; x74].
Definition s_right : bytes := [x72; x69; x67; x68; x74].

(** merkletools.py:205-219: the loop over [range(len(self.levels) - 1, 0, -1)]; [lv] lists these levels, bottom
    first.  [int(index / 2.0)] is the integer half (exact for indices below 2^53). *)
Fixpoint poi_loop (lv : list (list bytes)) (index : nat) : result (list (bytes * bytes)) :=
  match lv with
  | [] => Ok []
  | level :: up =>
      let n := length level in
      if (index =? n - 1) && Nat.odd n then poi_loop up (index / 2)
      else
        let is_right := Nat.odd index in
        match nth_error level (if is_right then index - 1 else index + 1) with
        | None => Err IndexError
        | Some sib =>
            r <- poi_loop up (index / 2) ;;
            Ok ((if is_right then s_left else s_right, to_hex sib) :: r)
        end
  end.

(** merkletools.py:179-219 [MerkleTools.get_proof_of_inclusion]; each element of the result is a dict with one item.
    The out-of-range branch (line 202) cannot be reached after [index]. *)
Definition tools_poi (t : mt) (key : bytes) : result (list (bytes * bytes)) :=
  match index_of (stored (t_secure t) key) (t_leaves t) with
  | None => Err ValueError
  | Some i =>
      match levels t with
      | Some lv => if t_ready t then poi_loop (rev (tl lv)) i else Err ValueError
      | None => Err ValueError
      end
  end.

(** merkletools.py:221-254 [MerkleTools.verify_proof_of_inclusion]: [proof] is a list of dicts of strings.  The bare
    [except] catches a missing "left" item as well as a malformed one. *)
Definition left_sibling (p : dict bytes) : option bytes :=
  match dget p s_left with Some s => from_hex s | None => None end.
Fixpoint verify_loop (l : list (dict bytes)) (acc : bytes) : result bytes :=
  match l with
  | [] => Ok acc
  | p :: r =>
      match left_sibling p with
      | Some sib => verify_loop r (hashf (sib ++ acc))
      | None =>
          match dget p s_right with
          | None => Err KeyError
          | Some s => match from_hex s with
                      | None => Err ValueError
                      | Some sib => verify_loop r (hashf (acc ++ sib))
                      end
          end
      end
  end.
Definition tools_verify (l : list (dict bytes)) (target root : bytes) : result bool :=
  match l with
  | [] => Ok (bytes_eqb target root)
  | _ => acc <- verify_loop l target ;; Ok (bytes_eqb acc root)
  end.

(** ** mt.py *)

(** mt.py:27-49 [put]. *)
Definition put (t : mt) (v : pyval) : result unit * mt :=
  match v with VBytes b => (Ok tt, add_leaf t b) | VOther => (Err TypeError, t) end.

(** mt.py:51-58 [put_list] on a list or tuple. *)
Fixpoint put_list (t : mt) (vs : list pyval) : result unit * mt :=
  match vs with
  | [] => (Ok tt, t)
  | v :: r => match put t v with (Ok _, t') => put_list t' r | (Err e, t') => (Err e, t') end
  end.

(** mt.py:60-76 [get]. *)
Definition get (t : mt) (i : Z) : result bytes := get_leaf t i.

(** mt.py:82-84 [make_tree]. *)
Definition do_make (t : mt) : result unit * mt :=
  match make_tree t with Ok t' => (Ok tt, t') | Err e => (Err e, t) end.

(** mt.py:90-95 [get_merkle_root]: the hexadecimal text, as bytes. *)
Definition get_root (t : mt) : result bytes * mt :=
  if t_ready t then (tools_root t, t)
  else match make_tree t with
       | Err e => (Err e, t)
       | Ok t' => (tools_root t', t')
       end.

(** mt.py:98-132 [get_proof_of_inclusion]; the clock reading is an input. *)
Definition get_poi (t : mt) (time : bytes) (key : pyval) : result proof * mt :=
  match key with
  | VOther => (Err TypeError, t)
  | VBytes k =>
      match tools_poi t k with
      | Err e => (Err e, t)
      | Ok pr =>
          match get_root t with
          | (Err e, t') => (Err e, t')
          | (Ok r, t') => (new_proof time k r (map (fun p => PPair (fst p) (snd p)) pr) MT_POI, t')
          end
      end
  end.

(** mt.py:151-153: [{p[0].decode(): p[1].decode()}]; indexing a [bytes] object gives an int, which has no [decode]. *)
Definition decode_elem (e : pelem) : result (dict bytes) :=
  match e with
  | PB [] => Err IndexError
  | PB _ => Err AttributeError
  | PPair a b => a <- decode_str a ;; b <- decode_str b ;; Ok [(a, b)]
  end.

(** The classes that [except ValueError] catches among those raised here. *)
Definition is_value_error (e : exn) : bool :=
  match e with ValueError | UnicodeDecodeError => true | _ => false end.

(** mt.py:134-170 [verify_proof_of_inclusion] on a [Proof] object. *)
Definition verify_poi (t : mt) (p : proof) : result bool * mt :=
  match mapM decode_elem (pf_proof p) with
  | Err e => (Err e, t)
  | Ok str_proof =>
      match decode_str (pf_root p) with
      | Err e => (Err e, t)
      | Ok s =>
          match from_hex s with
          | None => (Err ValueError, t)
          | Some merkle_root =>
              match tools_verify str_proof (pf_key p) merkle_root with
              | Err e => (if is_value_error e then Ok false else Err e, t)
              | Ok false => (Ok false, t)
              | Ok true =>
                  match get_root t with
                  | (Err e, t') => (Err e, t')
                  | (Ok r, t') => (Ok (bytes_eqb r (pf_root p)), t')
                  end
              end
          end
      end
  end.

(** merkletools.py:62-68 [__hash__] and [__eq__] between two [MerkleTree] objects (not the same object): both roots may
    be computed, in this order. *)
Definition mt_hash (t : mt) : result Z * mt :=
  match get_root t with
  | (Err e, t') => (Err e, t')
  | (Ok r, t') => (match py_int16 r with Some z => Ok z | None => Err ValueError end, t')
  end.
Definition mt_eq (t1 t2 : mt) : result bool * (mt * mt) :=
  match mt_hash t1 with
  | (Err e, t1') => (Err e, (t1', t2))
  | (Ok a, t1') => match mt_hash t2 with
                   | (Err e, t2') => (Err e, (t1', t2'))
                   | (Ok b, t2') => (Ok (Z.eqb a b), (t1', t2'))
                   end
  end.
End WithHash.
