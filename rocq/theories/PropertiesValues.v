(** Properties of the values the tries take (C237) and of the texts of nodes without data (C238).  Theorem statements only; proofs are in ValuesProofs.v. *)
From Coq Require Import String List Bool Arith NArith Lia.
From Verif Require Import Base Keccak Rlp NibblePath Node ProofObj Mpt Empt SpecCodec SpecRlp NodeSkeleton SpecValues Examples ValuesProofs.
Import ListNotations.

(** C237: update of an EMPT either raises because of the value, and changes nothing, *)
Theorem C237_refused : forall (H : Hash) v x, empt_refuses v x -> forall lim fl df e k, empt_update lim fl df e k v = (Err x, e).
Proof. exact @empt_refused. Qed.
Print Assumptions C237_refused.

(** or is update of its trie with the text of the reference, followed, if this returns, by storing the data. *)
Theorem C237_taken : forall (H : Hash) v, ~ (exists x, empt_refuses v x) -> forall lim fl e k b, stored_form k (val_bytes v) b ->
  empt_update lim fl false e k v = let (r, t) := mpt_update lim fl (e_trie e) k b in
    (r, mkEmpt (match r with Ok _ => dset (e_data e) k v | Err _ => e_data e end) t).
Proof. exact @empt_taken. Qed.
Print Assumptions C237_taken.

(** There is one such text. *)
Theorem C237_one_text : forall (H : Hash), (forall b, length (keccak b) = 32) -> forall k d, (blen k < 2 ^ 57)%N -> (blen d < 2 ^ 57)%N ->
  exists b, forall b', stored_form k d b' <-> b' = b.
Proof. exact @stored_one. Qed.
Print Assumptions C237_one_text.

(** The same for SparseEMPT, which takes bytes alone. *)
Theorem C237_sparse_refused : forall (H : Hash) v x, sparse_refuses v x -> forall lim fl t k, sparse_update lim fl t k v = (Err x, t).
Proof. exact @sparse_refused_exact. Qed.
Print Assumptions C237_sparse_refused.
Theorem C237_sparse_taken : forall (H : Hash) v, ~ (exists x, sparse_refuses v x) -> forall lim fl t k b, stored_form k (val_bytes v) b ->
  sparse_update lim fl t k v = mpt_update lim fl t k b.
Proof. exact @sparse_taken. Qed.
Print Assumptions C237_sparse_taken.

(** get, where data and reference are found, whoever put them there. *)
Theorem C237_get : forall (H : Hash) lim e k v b r, dget (e_data e) k = Some v -> mpt_get lim (e_trie e) k = Ok b -> ref_decode b = Ok r ->
  (forall x, get_refuses v x -> empt_get lim e k = Err x) /\
  (~ (exists x, get_refuses v x) -> empt_get lim e k =
     if N.eqb (base256 (keccak (r_key r ++ r_data r))) (base256 (keccak (k ++ val_bytes v))) then Ok v else Err InvalidReferenceError).
Proof. exact @get_decides. Qed.
Print Assumptions C237_get.

Example C237_applies : let H : Hash := toy in
  empt_refuses (VObj true false (bs "x")) NotImplementedError /\ ~ (exists x, empt_refuses (VObj true true (bs "x")) x) /\
  sparse_refuses (VObj false true (bs "x")) AttributeError /\ ~ (exists x, sparse_refuses (VBytes (bs "x")) x) /\
  (exists b, ref_encode (mkRef (bs "k") (bs "x")) = Ok b /\ stored_form (bs "k") (bs "x") b) /\
  (let e := snd (empt_update 100 [] false (empt_new false) (bs "k") (VObj true true (bs "x"))) in
   dget (e_data e) (bs "k") = Some (VObj true true (bs "x")) /\ exists b r, mpt_get 100 (e_trie e) (bs "k") = Ok b /\ ref_decode b = Ok r /\
   empt_get 100 e (bs "k") = Ok (VObj true true (bs "x")) /\ empt_get 100 (mkEmpt [(bs "k", VObj false true (bs "x"))] (e_trie e)) (bs "k") = Err AttributeError).
Proof.
  intros H. split; [constructor; auto|]. split; [intros [x X]; inversion X as [|? ? ? [D|D]]; discriminate|]. split; [constructor|]. split; [intros [x X]; inversion X|]. split.
  - destruct (ref_encode (mkRef (bs "k") (bs "x"))) as [b|] eqn:E; [|vm_compute in E; discriminate]. exists b. split; [reflexivity|]. apply stored_encode, E.
  - split; [vm_compute; reflexivity|]. eexists. eexists. split; [vm_compute; reflexivity|]. split; [vm_compute; reflexivity|]. split; vm_compute; reflexivity.
Qed.

(** C238: the text that encode(include_data=False) of a node gives. *)
Theorem C238_bare_encode_exact : forall n b, node_encode_bare n = Ok b <-> bare_write n b.
Proof. exact bare_encode_exact. Qed.
Print Assumptions C238_bare_encode_exact.

Example C238_applies : node_encode_bare (Extension (mkNp [x01; x23] 1) (repeat x61 32)) = Ok [xc3; x82; x11; x23] /\
  node_encode_bare (Leaf (mkNp [x01; x23] 1) (bs "v")) = Ok [xc3; x82; x31; x23] /\ node_encode_bare (Branch (repeat [] 16) (bs "v")) = Ok (xd0 :: repeat x80 16) /\
  (exists x, node_encode_bare (Extension (mkNp [x01; x23] 1) [x61; x62]) = Err x) /\
  bare_write (Extension (mkNp [x01; x23] 1) (repeat x61 32)) [xc3; x82; x11; x23].
Proof.
  assert (E : node_encode_bare (Extension (mkNp [x01; x23] 1) (repeat x61 32)) = Ok [xc3; x82; x11; x23]) by (vm_compute; reflexivity).
  split; [exact E|]. split; [vm_compute; reflexivity|]. split; [vm_compute; reflexivity|]. split; [eexists; vm_compute; reflexivity|]. apply bare_encode_exact, E.
Qed.
