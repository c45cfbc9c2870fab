(** Model of the JSON codec, the equality of proofs and their iterator (/repo/src/pymt/proof.py:72-111, 152-203). *)
From Coq Require Import String List Bool Arith NArith.
From Verif Require Import Base ProofObj Json Keccak.
Import ListNotations.
Local Open Scope res_scope.

(** The names of the fields (proof.py:74-80). *)
Definition txt (s : string) : list N := ascii (bs s).
Definition k_type : list N := txt "proof_type".
Definition k_time : list N := txt "timestamp".
Definition k_key : list N := txt "target_key".
Definition k_root : list N := txt "root_hash".
Definition k_proof : list N := txt "proof".

(** Python's [sub in s] on strings. *)
Fixpoint has_sub (sub s : list N) : bool :=
  match strip sub s with
  | Some _ => true
  | None => match s with [] => false | _ :: r => has_sub sub r end
  end.

(** proof.py:162: [i.decode()]; a tuple has no such method. *)
Definition elem_text (e : pelem) : result (list N) :=
  match e with PB b => utf8_decode b | PPair _ _ => Err AttributeError end.

(** proof.py:156-169 [encode_json].  A type that contains neither text (not accepted by the constructor) leaves the tuple of
    [bytes] in place, which json.dumps refuses. *)
Definition proof_encode_json (p : proof) : result (list N) :=
  ty <- utf8_decode (pf_type p) ;; tm <- utf8_decode (pf_time p) ;; key <- utf8_decode (pf_key p) ;;
  root <- utf8_decode (pf_root p) ;;
  let out els := dumps (JObj [(k_type, JStr ty); (k_time, JStr tm); (k_key, JStr key); (k_root, JStr root); (k_proof, JArr els)]) in
  if has_sub (txt "MT") ty then els <- mapM elem_text (pf_proof p) ;; Ok (out (map JStr els))
  else if has_sub (txt "MPT") ty then Err NotImplementedError
  else match pf_proof p with [] => Ok (out []) | _ => Err TypeError end.

(** Python's [sub in v]. *)
Definition jin (sub : list N) (v : json) : result bool :=
  match v with
  | JStr s => Ok (has_sub sub s)
  | JArr l => Ok (existsb (fun x => match x with JStr s => ustr_eqb s sub | _ => false end) l)
  | JObj d => Ok (existsb (fun kv => ustr_eqb (fst kv) sub) d)
  | _ => Err TypeError
  end.
(** Iterating over a value: the characters of a string, the elements of a list, the keys of a dict. *)
Fixpoint dedup (l : list (list N)) (seen : list (list N)) : list (list N) :=
  match l with
  | [] => []
  | k :: r => if existsb (ustr_eqb k) seen then dedup r seen else k :: dedup r (k :: seen)
  end.
Definition jiter (v : json) : result (list json) :=
  match v with
  | JStr s => Ok (map (fun c => JStr [c]) s)
  | JArr l => Ok l
  | JObj d => Ok (map JStr (dedup (map fst d) []))
  | _ => Err TypeError
  end.
(** [v.encode()]. *)
Definition jencode (v : json) : result bytes := match v with JStr s => utf8_encode s | _ => Err AttributeError end.

(** proof.py:171-203 [decode_json] on a [str]. *)
Definition proof_decode_json (s : list N) : result proof :=
  v <- loads s ;;
  l <- jindex v k_proof ;;
  ty <- jindex v k_type ;;
  m <- jin (txt "MPT") ty ;;
  if (m : bool) then Err NotImplementedError
  else
    m <- jin (txt "MT") ty ;;
    if (m : bool) then
      els <- jiter l ;; els <- mapM jencode els ;;
      k <- jindex v k_key ;; k <- jencode k ;;
      r <- jindex v k_root ;; r <- jencode r ;;
      t <- jencode ty ;;
      p <- new_proof [] k r (map PB els) t ;;
      tm <- jindex v k_time ;; tm <- jencode tm ;;
      Ok (mkProof (pf_type p) tm (pf_key p) (pf_root p) (pf_proof p))
    else Err TypeError.

(** ** Equality *)

(** CPython's [repr] of a [bytes] object. *)
Definition quote_of (b : bytes) : byte :=
  if existsb (byte_eqb x27) b && negb (existsb (byte_eqb x22) b) then x22 else x27.
Definition hexdig (n : N) : byte := if (n <? 10)%N then nB (n + 48) else nB (n + 87).
Definition repr_byte (q c : byte) : bytes :=
  if byte_eqb c q || byte_eqb c x5c then [x5c; c]
  else if byte_eqb c x09 then [x5c; x74]
  else if byte_eqb c x0a then [x5c; x6e]
  else if byte_eqb c x0d then [x5c; x72]
  else if (bN c <? 32)%N || (127 <=? bN c)%N then [x5c; x78; hexdig (bN c / 16); hexdig (bN c mod 16)]
  else [c].
Definition bytes_repr (b : bytes) : bytes :=
  let q := quote_of b in x62 :: q :: flat_map (repr_byte q) b ++ [q].
Definition elem_repr (e : pelem) : bytes :=
  match e with
  | PB b => bytes_repr b
  | PPair a b => x28 :: bytes_repr a ++ [x2c; x20] ++ bytes_repr b ++ [x29]
  end.
(** [repr] of a tuple: "()", "(x,)", "(x, y)", ... *)
Fixpoint tail_repr (l : list pelem) : bytes :=
  match l with [] => [x29] | e :: r => [x2c; x20] ++ elem_repr e ++ tail_repr r end.
Definition tuple_repr (l : list pelem) : bytes :=
  match l with
  | [] => [x28; x29]
  | [e] => x28 :: elem_repr e ++ [x2c; x29]
  | e :: r => x28 :: elem_repr e ++ tail_repr r
  end.
(** proof.py:72-80 [__dict__], as text. *)
Definition proof_str (p : proof) : bytes :=
  bs "{'proof_type': " ++ bytes_repr (pf_type p) ++ bs ", 'timestamp': " ++ bytes_repr (pf_time p) ++
  bs ", 'target_key': " ++ bytes_repr (pf_key p) ++ bs ", 'root_hash': " ++ bytes_repr (pf_root p) ++
  bs ", 'proof': " ++ tuple_repr (pf_proof p) ++ bs "}".

Section WithHash.
Context {H : Hash}.
(** proof.py:88-90 [__hash__], as called by [__eq__]: the hexadecimal digest as a number. *)
Definition proof_hash (p : proof) : N := unbe (keccak (proof_str p)).
(** proof.py:92-97 [__eq__] on another proof. *)
Definition proof_eq (p q : proof) : bool := N.eqb (proof_hash p) (proof_hash q).
End WithHash.

(** ** Iteration *)

Inductive field := FB (b : bytes) | FT (l : list pelem).
(** proof.py:152-153 [items]. *)
Definition proof_items (p : proof) : list (list N * field) :=
  [(k_type, FB (pf_type p)); (k_time, FB (pf_time p)); (k_key, FB (pf_key p)); (k_root, FB (pf_root p)); (k_proof, FT (pf_proof p))].
(** proof.py:101-102: the attributes _data and _offset; None before the first [__iter__]. *)
Definition cursor := option (list (list N * field) * nat).
(** proof.py:99-103 [__iter__]: the proof is its own iterator. *)
Definition proof_iter (p : proof) : cursor := Some (proof_items p, 0).
(** proof.py:105-111 [__next__]; [Ok None] is StopIteration. *)
Definition proof_next (c : cursor) : result (option (list N * field)) * cursor :=
  match c with
  | None => (Err AttributeError, c)
  | Some (d, n) => match nth_error d n with Some x => (Ok (Some x), Some (d, S n)) | None => (Ok None, c) end
  end.
(** [for x in p: body(x)]; the body may use the proof again.  [fuel] bounds the rounds. *)
Fixpoint for_loop {A} (fuel : nat) (body : list N * field -> cursor -> list A * cursor) (c : cursor) : result (list A) * cursor :=
  match fuel with
  | O => (Err RecursionError, c)
  | S f =>
      match proof_next c with
      | (Err e, c') => (Err e, c')
      | (Ok None, c') => (Ok [], c')
      | (Ok (Some x), c') =>
          let (out, c2) := body x c' in
          match for_loop f body c2 with (Ok l, c3) => (Ok (out ++ l), c3) | (Err e, c3) => (Err e, c3) end
      end
  end.
(** [list(p)]: what the cursor was before does not matter, [__iter__] replaces it. *)
Definition proof_list (fuel : nat) (p : proof) (c : cursor) : result (list (list N * field)) * cursor :=
  for_loop fuel (fun x c => ([x], c)) (proof_iter p).
(** [[(x, y) for x in p for y in p]]. *)
Definition proof_pairs (fuel : nat) (p : proof) (c : cursor) : result (list ((list N * field) * (list N * field))) * cursor :=
  for_loop fuel (fun x c => match proof_list fuel p c with (Ok l, c') => (map (pair x) l, c') | (Err _, c') => ([], c') end) (proof_iter p).
