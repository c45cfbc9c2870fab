(** More of /repo/src/pymt/merkletools.py and mt.py: creating trees, counting leaves, the methods without behaviour. *)
From Coq Require Import String Ascii List Bool Arith NArith.
From Verif Require Import Base Keccak MerkleTree.
Import ListNotations.

(** merkletools.py:28-40: the accepted values of [hash_type]. *)
Definition hash_names : list bytes :=
  map bs ["sha256"; "md5"; "sha224"; "sha384"; "sha512"; "sha3_256"; "sha3_224"; "sha3_384"; "sha3_512"]%string.
(** [str.lower()] on the bytes of a text, as far as it matters here: no character beyond ASCII becomes a letter, digit or underscore of
    these names ([str.lower] takes the Kelvin sign to "k", which is in none of them). *)
Definition lower_byte_of (c : byte) : byte := if (65 <=? bN c)%N && (bN c <=? 90)%N then nB (bN c + 32) else c.
Definition lower_text (t : bytes) : bytes := map lower_byte_of t.

(** mt.py:7-24 with merkletools.py:17-45.  [secure]: a bool or something else; [hash_type]: a text.
    The hash function of the new tree is the instance of [Hash] in use. *)
Inductive mt_created := NewTree (name : bytes) (t : mt) | SecureTypeError | UnsupportedHash.
Definition mt_init (secure : option bool) (hash_type : bytes) : mt_created :=
  match secure with
  | None => SecureTypeError
  | Some s => if existsb (bytes_eqb (lower_text hash_type)) hash_names then NewTree (lower_text hash_type) (mt_new s) else UnsupportedHash
  end.

(** merkletools.py:53-54 [__len__], 131-133 [get_leaf_count], mt.py:78-80 [get_count]; merkletools.py:135-137 [get_tree_ready_state];
    merkletools.py:47-50 [secure]. *)
Definition get_count (t : mt) : nat := length (t_leaves t).
Definition ready_state (t : mt) : bool := t_ready t.
Definition is_secure (t : mt) : bool := t_secure t.

(** mt.py:172-175 [get_proof_of_exclusion]; 177-180 [verify_proof_of_exclusion] has no parameter, so that calling it on a tree raises
    TypeError before its body. *)
Definition get_poe (t : mt) : result unit := Err NotImplementedError.
Definition verify_poe (t : mt) (args : nat) : result bool := Err TypeError.
