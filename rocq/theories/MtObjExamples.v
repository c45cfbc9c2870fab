(** Concrete MerkleTree objects for the examples in PropertiesMtObj.v. Tests, not proofs. *)
From Coq Require Import String List Bool Arith NArith ZArith Lia.
From Verif Require Import Base BaseProofs Keccak KeccakProofs ProofObj Spec MptEq Examples MerkleTree SpecMt MtProofs MtProofs2 SpecAudit SpecMtObj MtObjProofs MtExamples.
Import ListNotations.

#[local] Instance K : Hash := toy.

(** Asked for a root while empty, then filled: the root stays missing until the tree is built; then more values without building. *)
Definition ex_obj_hist : list mop :=
  [OHash; OPutList [VBytes (bs "do"); VBytes (bs "dog")]; ORoot; OProve [] (VBytes (bs "do")); OPut (VBytes (bs "doge")); OMake; OPut (VBytes (bs "horse"));
   ORoot; OProve (bs "now") (VBytes (bs "doge")); OProve [] (VBytes (bs "cat")); OGet (-1)%Z; OGet 4%Z; OHash].
Definition ex_obj_outs (s : bool) : list mout := fst (mt_run (mt_new s) ex_obj_hist).
Definition ex_obj_view : view := View [bs "do"; bs "dog"; bs "doge"; bs "horse"] (Made 3).
Definition ex_three : list bytes := [bs "do"; bs "dog"; bs "doge"].
Definition ex_three_hist : list mop := [OPutList (map VBytes ex_three); OMake].
Definition ex_three_mt (s : bool) : mt := snd (mt_run (mt_new s) ex_three_hist).
Lemma ex_three_built : forall s, built_over s (ex_three_mt s) ex_three.
Proof. intros s. exists ex_three_hist. eexists. split; [apply surjective_pairing|]. split; [reflexivity|]. split; [reflexivity|discriminate]. Qed.
Definition ex_two_mt : mt := snd (mt_run (mt_new false) [OPutList [VBytes (bs "do"); VBytes (bs "dog")]; OMake]).
Lemma ex_two_built : built_over false ex_two_mt [bs "do"; bs "dog"].
Proof. eexists. eexists. split; [apply surjective_pairing|]. split; [reflexivity|]. split; [reflexivity|discriminate]. Qed.
(** The path of "doge" in the tree over three values. *)
Definition ex_three_path : path :=
  match fst (get_poi (ex_three_mt false) [] (VBytes (bs "doge"))) with Ok p => ex_path p | Err _ => [] end.
