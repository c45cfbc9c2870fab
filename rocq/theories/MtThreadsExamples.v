(** Concrete schedules of calls on one MerkleTree object.  Tests, not proofs. *)
From Coq Require Import String List Bool Arith NArith ZArith Lia.
From Verif Require Import Base Keccak ProofObj MptEq MerkleTree SpecMt Spec Examples MtThreads SpecMtThreads MtThreadsRace.
Import ListNotations.
#[local] Instance K : Hash := toy.
Local Notation put s := (QPut (MerkleTree.VBytes (bs s))).
Notation yrun s ms := (mrun (mpool_new s) ms).
Definition yanswers (s : bool) (ms : list mmove) : list (option mtout) := map (manswer_of (yrun s ms)) (List.seq 0 (List.length (mcalls_of ms))).

(** Three puts cross; a count and a leaf are read between; the last put has not had its turn. *)
Definition ycross : list mmove :=
  [QCall (put "do"); QCall (put "dog"); QCall QCount; QGo 1; QGo 2; QCall (put "horse"); QCall (QLeaf 0); QGo 3; QGo 4; QGo 0; QCall (put "doge"); QGo 1].
(** make_tree in one thread; values are put before and while it runs, the last one between counting the leaves and taking the last one. *)
Definition ybusy : list mmove :=
  filled 0 [bs "do"; bs "dog"; bs "horse"] ++ [QCall QMake] ++ repeat (QGo 3) 7 ++ [QCall (put "doge"); QGo 4] ++ repeat (QGo 3) 40 ++ [QCall QRoot] ++ repeat (QGo 5) 6.
(** Calls one after the other, with two threads counting meanwhile. *)
Definition yturns : list mmove :=
  filled 0 [bs "do"; bs "dog"; bs "horse"] ++ [QCall QCount; QCall QRoot] ++ repeat (QGo 4) 12 ++ [QGo 3; QCall (QLeaf (-1))] ++ repeat (QGo 4) 40 ++ [QGo 5] ++
  [QCall (put "doge"); QGo 6; QCall QMake] ++ repeat (QGo 7) 50 ++ [QCall (QPoi [] (MerkleTree.VBytes (bs "dog")))] ++ repeat (QGo 8) 50.
(** Of a proof, the number of its elements. *)
Definition brief_y (o : option mtout) : option mtout := match o with Some (YProof (Ok p)) => Some (YCount (List.length (pf_proof p))) | _ => o end.
