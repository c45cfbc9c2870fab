(** Properties of clear of an EMPT while other threads use it (C275, C276).  Theorem statements only; proofs are in ClearingProofs.v. *)
From Coq Require Import String List Bool Arith NArith Lia.
From Verif Require Import Base BaseProofs Keccak KeccakProofs NibblePath ProofObj Mpt Empt Spec Examples Threads SpecThreads EThreads SpecEThreads EThreadsExamples SpecETally Mixins SpecMixins Popitem SpecPopitem PopitemExamples
  Clearing SpecClearing ClearingProofs ClearingExamples.
Import ListNotations.

(** C275: what clear does to the object is what some calls of get and delete do; *)
Theorem C275_only_calls : forall (H : Hash) secure cs, b_pool (d_bench (c_desk (crun secure (room_new secure) cs))) = erun secure (epool_new secure) (csteps secure cs).
Proof. exact @room_pool. Qed.
Print Assumptions C275_only_calls.

(** the items taken, and the key if it is there, are no more than the updates of that key that have returned; *)
Theorem C275_items_counted : forall (H : Hash) secure cs k, let w := b_pool (d_bench (c_desk (crun secure (room_new secure) cs))) in
  popitems k (ctrace secure cs) (c_desk (crun secure (room_new secure) cs)) + has w k <= tally (puts_k k) (csteps secure cs) w.
Proof. exact @clears_counted. Qed.
Print Assumptions C275_items_counted.

(** it ends when a popitem raises, and only KeyError does it not raise itself; *)
Theorem C275_answer : forall (H : Hash) secure cs j r, canswer_of (crun secure (room_new secure) cs) j = Some r -> ended (c_desk (crun secure (room_new secure) cs)) r.
Proof. exact @clear_answer. Qed.
Print Assumptions C275_answer.

(** when nobody else has a turn meanwhile, it does what it does in a program with one thread (C62). *)
Theorem C275_alone : forall (H : Hash) secure, (forall b, length (keccak b) = 32) -> forall cs lim m, 0 < lim ->
  let e := eobject secure (b_pool (d_bench (c_desk (crun secure (room_new secure) cs)))) in let j := length (ccalls cs) in S (length (e_data e)) * (12 * lim + 29) <= m ->
  let w := crun secure (room_new secure) (cs ++ CClear lim :: repeat (CGo j) m) in
  canswer_of w j = Some (fst (empt_clear lim e)) /\ eobject secure (b_pool (d_bench (c_desk w))) = snd (empt_clear lim e).
Proof. exact @clear_alone. Qed.
Print Assumptions C275_alone.

Example C275_applies : let H : Hash := toy in forall s, canswer_of (room_of s alone_clear) 0 = Some (Ok tt) /\ keys_in (room_of s alone_clear) = [] /\
  map (fun k => popitems k (ctrace s alone_clear) (c_desk (room_of s alone_clear))) [bs "do"; bs "dog"; bs "horse"; bs "cat"] = [1; 1; 1; 0].
Proof. intros H. exact alone_clear_says. Qed.

(** C276 (refuted): after a clear during which other threads only delete there are no keys.  When another thread deletes the key that clear has chosen,
    clear returns normally and all the other keys are still there; *)
Theorem C276_clear_clears_refuted : forall (H : Hash) secure, (forall b, length (keccak b) = 32) -> forall cs lim lim2 k ks e' m, 0 < lim -> 0 < lim2 -> 6 * lim2 + 14 <= m ->
  let after cs := crun secure (room_new secure) cs in
  let e := eobject secure (b_pool (d_bench (c_desk (after cs)))) in let i := length (x_calls (b_pool (d_bench (c_desk (after cs))))) in let j := length (ccalls cs) in
  keys_in (after cs) = k :: ks -> empt_delete lim2 false false [] e k = (Ok tt, e') ->
  let w := after (((cs ++ [CClear lim; CGo j]) ++ map CMove (map DMove (map BMove (ECall lim2 (XDel k) :: repeat (EGo (S i)) m)))) ++ repeat (CGo j) (12 * lim + 28)) in
  canswer_of w j = Some (Ok tt) /\ keys_in w = ks.
Proof. exact @clear_leaves. Qed.
Print Assumptions C276_clear_clears_refuted.

(** the hypotheses hold of an EMPT with three keys; and of two threads that clear at the same time one can return with keys left. *)
Example C276_applies : let H : Hash := toy in (forall b, length (keccak b) = 32) /\
  (forall s, let e := eobject s (b_pool (d_bench (c_desk (room_of s set_up)))) in
     keys_in (room_of s set_up) = [bs "do"; bs "dog"; bs "horse"] /\ fst (empt_delete 100 false false [] e (bs "do")) = Ok tt) /\
  (forall s, map (canswer_of (room_of s two_clears)) [0; 1] = [None; Some (Ok tt)] /\ keys_in (room_of s two_clears) <> []).
Proof. intros H. split; [exact toy_len|]. split; [exact leaves_holds|exact two_clears_says]. Qed.
