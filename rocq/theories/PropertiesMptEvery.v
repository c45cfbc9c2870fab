(** Property of calls on MPT objects (C181).  Theorem statements only; proofs are in MptEveryProofs.v. *)
From Coq Require Import String List Bool Arith NArith.
From Verif Require Import Base Keccak NibblePath ProofObj Mpt Spec SpecYp SpecEvery MptPy SpecMptEvery Examples MptEveryExamples MptEveryProofs.
Import ListNotations.

(** C181: what every call on an MPT answers, after any calls, whether or not they raised; with enough frames and a storage that does not
    fail there is no other answer.  [d]: the dictionary at the end. *)
Theorem C181_every_call : forall (H : Hash), (forall b, length (keccak b) = 32) ->
  forall secure h outs t, mpt_session (mpt_new secure) h = (outs, t) -> gfits secure h -> keys_ok secure (gkeys h) -> no_collision (m_log t) ->
  (exists d used, gfollows secure no_refs false h outs d used) /\
  (gquiet secure h -> forall outs' d used, gfollows secure no_refs false h outs' d used -> outs' = outs).
Proof. exact @mpt_every_call. Qed.
Print Assumptions C181_every_call.

Example C181_applies : let H : Hash := toy in
  (forall s, gok s gloud /\ gok s gquiet_h /\ gquiet s gquiet_h) /\
  map brief (tl (fst (mpt_session (mpt_new false) gloud))) =
    [OVal (Err KeyError); OBool (Ok false); ONone (Err ValueError); OProof (Err ValueError); OProof (Err ValueError);
     ONone (Ok tt); ONone (Ok tt); ONone (Err StorageFault); ONone (Err RecursionError); ONone (Ok tt);
     OVal (Ok (bs "puppy")); OVal (Err KeyNotFoundError); OVal (Err RecursionError); OBool (Ok false);
     OVal (Ok [x00; x00; x00; x00; x00]); OProof (Err LeafPathError); OVal (Ok [x00; x00; x00; x00]); OProof (Err PoeError);
     ONone (Err LeafPathError); ONone (Err StorageFault); ONone (Ok tt); ONone (Ok tt); ONone (Ok tt);
     ORoot None; OVal (Err ValueError); ONone (Err ValueError); OProof (Err ValueError)] /\
  gok true gvoid /\
  fst (mpt_session (mpt_new true) gvoid) =
    [ONone (Ok tt); OVal (Ok []); OBool (Ok true); ONone (Ok tt); ONone (Ok tt); OVal (Ok []); ONone (Ok tt); OVal (Ok []); ONone (Ok tt);
     OBool (Ok false); OVal (Ok [])].
Proof.
  intros H. split; [intros s; split; [apply gloud_ok|split; [apply gquiet_ok|apply gquiet_quiet]]|].
  split; [vm_compute; reflexivity|]. split; [apply gvoid_ok|vm_compute; reflexivity].
Qed.
