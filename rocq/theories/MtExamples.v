(** Concrete Merkle trees for the examples next to the property theorems. Tests, not proofs. *)
From Coq Require Import String List Bool Arith NArith ZArith Lia.
From Verif Require Import Base BaseProofs Keccak KeccakProofs ProofObj Spec MptEq Examples MerkleTree SpecMt MtProofs MtProofs2 MtSound MtRefutations.
Import ListNotations.

#[local] Instance K : Hash := toy.

(** Five values, among them a repeated one, after a reset, with a failing put_list and questions in between. *)
Definition ex_mt_hist : list mop :=
  [OPut (VBytes (bs "old")); OMake; OReset; OPut (VBytes (bs "do")); OPutList [VBytes (bs "dog"); VBytes (bs "doge"); VOther; VBytes (bs "x")];
   ORoot; OPut (VBytes (bs "horse")); OPut VOther; OPut (VBytes (bs "do")); OMake; OProve [] (VBytes (bs "dog")); ORoot; OGet 1%Z; OHash].
Definition ex_mt_vals : list bytes := [bs "do"; bs "dog"; bs "doge"; bs "horse"; bs "do"].
Definition ex_mt (s : bool) : mt := snd (mt_run (mt_new s) ex_mt_hist).
Lemma ex_mt_values : values ex_mt_hist = ex_mt_vals.
Proof. reflexivity. Qed.
Lemma ex_mt_built : forall s, built_over s (ex_mt s) ex_mt_vals.
Proof.
  intros s. exists ex_mt_hist. eexists. split; [apply surjective_pairing|]. split; [reflexivity|]. split; [reflexivity|discriminate].
Qed.
(** The proof of "doge", as a path, and as an object. *)
Definition ex_poi (s : bool) (v : bytes) : proof :=
  match fst (get_poi (ex_mt s) (bs "now") (VBytes v)) with Ok p => p | Err _ => mkProof [] [] [] [] [] end.
Definition ex_path (p : proof) : path := match proof_path (pf_proof p) with Some pa => pa | None => [] end.
(** Values of 32 bytes. *)
Definition ex_digests : list bytes := map (fun v => toy v) ex_mt_vals.
