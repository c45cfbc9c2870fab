(** Data injected under a key that was never stored. *)
From Coq Require Import List Bool Arith NArith String Lia.
From Verif Require Import Base BaseProofs Keccak KeccakProofs NibblePath ProofObj Mpt Spec Examples Empt SpecEmpt EmptExamples EmptRefutations.
Import ListNotations.
#[local] Instance K : Hash := keccak256.
Definition fork_hist : list ecall := [eput "ab" "c"; eput "b" "x"].
Definition forked : empt := Eval vm_compute in snd (empt_run (empt_new false) fork_hist).
Definition fork_outs : list outcome := map (fun c => (ec_op c, true)) fork_hist.
Lemma injected_accepted : exists outs e k ds v lim, ereachable false outs e /\ status_after outs k = Absent /\ frames false k < lim /\
  NoDup (map fst ds) /\ empt_get lim e k = Err KeyError /\ empt_get lim (mkEmpt ds (e_trie e)) k = Ok v.
Proof.
  exists fork_outs, forked, (bs "a"), [(bs "a", VBytes (bs "bc"))], (VBytes (bs "bc")), 100.
  split; [apply (erun_reachable K false fork_hist); [vm_compute; reflexivity|reflexivity|vm_compute; reflexivity]|].
  split; [reflexivity|]. split; [cbn; lia|]. split; [constructor; [intros []|constructor]|]. split; vm_compute; reflexivity.
Qed.
