(** Model of the texts of objects: [__repr__] and [__str__] of proofs and key pairs, the time stamps of proofs. *)
From Coq Require Import String List Bool Arith NArith.
From Verif Require Import Base ProofObj Json Keccak ProofJson Keypairs.
Import ListNotations.
Local Open Scope res_scope.

(** proof.py:82-86 [Proof.__repr__]. *)
Definition proof_repr (p : proof) : bytes :=
  (bs "Proof(type=" ++ bytes_repr (pf_type p) ++ bs ", timestamp=" ++ bytes_repr (pf_time p) ++ bs ", target_key=" ++ bytes_repr (pf_key p) ++
   bs ", root_hash=" ++ bytes_repr (pf_root p) ++ bs ", proof=" ++ tuple_repr (pf_proof p) ++ bs ")")%list.

(** A [datetime]; CPython's [str] of one without time zone, [isoformat(" ")]. *)
Record datetime := mkTime { t_year : N; t_month : N; t_day : N; t_hour : N; t_min : N; t_sec : N; t_us : N }.
Fixpoint fixed (w : nat) (n : N) : bytes := match w with O => [] | S w' => fixed w' (n / 10) ++ [nB (48 + n mod 10)] end%N.
Definition time_str (t : datetime) : bytes :=
  (fixed 4 (t_year t) ++ bs "-" ++ fixed 2 (t_month t) ++ bs "-" ++ fixed 2 (t_day t) ++ bs " " ++
   fixed 2 (t_hour t) ++ bs ":" ++ fixed 2 (t_min t) ++ bs ":" ++ fixed 2 (t_sec t) ++
   (if t_us t =? 0 then [] else bs "." ++ fixed 6 (t_us t)))%N%list.
(** proof.py:35: the time stamp of a proof made now. *)
Definition new_proof_at (now : datetime) (key root : bytes) (l : list pelem) (ty : bytes) : result proof := new_proof (time_str now) key root l ty.

Section WithCrypto.
Context {C : Crypto}.
(** The names of the classes (keypairs.py:53-57, 409-413, 428-432). *)
Definition cls_name (c : cls) : list N := match c with Base => txt "RsaKeyPair" | Auth => txt "RsaAuthKeyPair" | Enc => txt "RsaEncKeyPair" end.
(** keypairs.py:53-57, 409-413, 428-432.  [str_of] is Python's [str] of a nickname. *)
Definition kp_str (str_of : json -> list N) (a : kp) : list N := cls_name (kp_cls a) ++ txt "(nickname=" ++ str_of (kp_nick a) ++ txt ")".
Definition kp_repr (str_of : json -> list N) (a : kp) : result (list N) :=
  p <- public_key a ;; s <- utf8_decode p ;; Ok (cls_name (kp_cls a) ++ txt "(nickname=" ++ str_of (kp_nick a) ++ txt ", public_key=" ++ s ++ txt ")").
End WithCrypto.
