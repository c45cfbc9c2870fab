(** Model of /repo/src/pymt/utils/hash.py and of [file_exists], [dir_exists] of /repo/src/pymt/utils/utils.py. *)
From Coq Require Import String List Bool Arith NArith.
From Verif Require Import Base ProofObj Json MerkleTree ProofJson.
Import ListNotations.

Section WithHash.
Context {H : Hash}.
(** hash.py:5-26. *)
Definition keccak_hash (data : bytes) (hexdigest : bool) : bytes := if hexdigest then to_hex (keccak data) else keccak data.
(** hash.py:29-52: [update] appends to what is hashed. *)
Definition keccak_hash_list (data : list bytes) (hexdigest : bool) : bytes :=
  let hashed := fold_left (fun acc item => acc ++ item) data [] in if hexdigest then to_hex (keccak hashed) else keccak hashed.
End WithHash.

Notation ustr := (list N) (only parsing).
(** The characters that separate names and extensions. *)
Definition slash : N := 47%N.
Definition dot : N := 46%N.
(** posixpath.join of two names. *)
Definition path_join (a b : ustr) : ustr :=
  match b with
  | c :: _ => if N.eqb c slash then b else if (length a =? 0) || N.eqb (last a slash) slash then a ++ b else a ++ slash :: b
  | [] => if (length a =? 0) || N.eqb (last a slash) slash then a else a ++ [slash]
  end.
(** utils.py:218-240, 243-265; [is] is os.path.isfile or os.path.isdir. *)
Definition exists_ (is : ustr -> bool) (cwd name : ustr) : bool :=
  match name with
  | d :: s :: r => if N.eqb d dot && N.eqb s slash then is (path_join cwd r) else is name
  | _ => is name
  end.
