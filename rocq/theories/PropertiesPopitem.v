(** Properties of popitem of an EMPT while other threads use it (C273, C274).  Theorem statements only; proofs are in PopitemProofs.v and PopitemEnds.v. *)
From Coq Require Import String List Bool Arith NArith Lia.
From Verif Require Import Base BaseProofs Keccak KeccakProofs NibblePath ProofObj Mpt Empt Spec Examples Threads SpecThreads EThreads SpecEThreads EThreadsExamples SpecETally Mixins SpecMixins
  Popitem SpecPopitem PopitemProofs PopitemEnds PopitemExamples.
Import ListNotations.

(** C273: an item that popitem returns was put by an update that has returned; *)
Theorem C273_items_were_put : forall (H : Hash) secure ds q k v, danswer_of (drun secure (desk_new secure) ds) q = Some (Ok (k, v)) -> put_before secure (dsteps secure ds) k v.
Proof. exact @popitem_values. Qed.
Print Assumptions C273_items_were_put.

(** the calls of popitem that returned a key, and the key if it is there, are no more than the updates of that key that have returned; *)
Theorem C273_items_counted : forall (H : Hash) secure ds k, let w := b_pool (d_bench (drun secure (desk_new secure) ds)) in
  popitems k ds (drun secure (desk_new secure) ds) + has w k <= tally (puts_k k) (dsteps secure ds) w.
Proof. exact @popitems_counted. Qed.
Print Assumptions C273_items_counted.

(** what popitem does to the object is what some calls of get, update and delete do; *)
Theorem C273_only_calls : forall (H : Hash) secure ds, b_pool (d_bench (drun secure (desk_new secure) ds)) = erun secure (epool_new secure) (dsteps secure ds).
Proof. exact @desk_pool. Qed.
Print Assumptions C273_only_calls.

(** when the number of keys has changed between its making of the iterator and its first key, it raises RuntimeError, when there are no keys KeyError, both
    without doing anything to the object; otherwise it goes on as pop of the key that is first then; *)
Theorem C273_first_key : forall (H : Hash) secure ds lim b, let after ds := drun secure (desk_new secure) ds in
  let q := length (dcalls ds) in let ds' := ds ++ DPopitem lim :: b in dturns q b = 0 ->
  let n := length (here (d_bench (after ds))) in let ks := here (d_bench (after ds')) in let w := after (ds' ++ [DGo q]) in
  (length ks <> n -> danswer_of w q = Some (Err RuntimeError) /\ d_bench w = d_bench (after ds')) /\
  (length ks = n -> ks = [] -> danswer_of w q = Some (Err KeyError) /\ d_bench w = d_bench (after ds')) /\
  (forall k r, length ks = n -> ks = k :: r -> danswer_of w q = None /\ d_bench w = bgo secure (d_bench (after ds')) (BCall lim (PPop k None))).
Proof. exact @popitem_first. Qed.
Print Assumptions C273_first_key.

(** it ends, whatever other threads do, after a number of steps that depends on the recursion limit only; *)
Theorem C273_end : forall (H : Hash) secure, (forall b, length (keccak b) = 32) -> forall ds lim b, 12 * lim + 29 <= dturns (length (dcalls ds)) b ->
  danswer_of (drun secure (desk_new secure) (ds ++ DPopitem lim :: b)) (length (dcalls ds)) <> None.
Proof. exact @popitem_ends. Qed.
Print Assumptions C273_end.

(** when nobody else has a turn meanwhile, it does what it does in a program with one thread (C62). *)
Theorem C273_alone : forall (H : Hash) secure, (forall b, length (keccak b) = 32) -> forall ds lim m, 0 < lim -> 12 * lim + 29 <= m ->
  let q := length (dcalls ds) in let w := drun secure (desk_new secure) (ds ++ DPopitem lim :: repeat (DGo q) m) in
  let r := empt_popitem lim (eobject secure (b_pool (d_bench (drun secure (desk_new secure) ds)))) in danswer_of w q = Some (fst r) /\ eobject secure (b_pool (d_bench w)) = snd r.
Proof. exact @popitem_alone. Qed.
Print Assumptions C273_alone.

Example C273_applies : let H : Hash := toy in forall s,
  danswers s three_items = [Some (Ok (bs "do", VBytes (bs "verb"))); Some (Ok (bs "dog", VBytes (bs "puppy"))); Some (Ok (bs "horse", VBytes (bs "stallion"))); Some (Err KeyError)] /\
  popitems (bs "dog") three_items (desk_of s three_items) = 1 /\ tally (puts_k (bs "dog")) (dsteps s three_items) (b_pool (d_bench (desk_of s three_items))) = 1.
Proof. intros H. exact three_items_says. Qed.

(** C274 (refuted): popitem returns an item of an EMPT that has keys all the time.  It raises RuntimeError when another thread adds a key between its making
    of the iterator and its first key; *)
Theorem C274_popitem_returns_refuted : forall (H : Hash) secure, (forall b, length (keccak b) = 32) -> forall ds lim lim2 k v m, 0 < lim2 -> 6 * lim2 + 14 <= m ->
  let e := eobject secure (b_pool (d_bench (drun secure (desk_new secure) ds))) in let i := length (x_calls (b_pool (d_bench (drun secure (desk_new secure) ds)))) in let q := length (dcalls ds) in
  dget (e_data e) k = None -> fst (empt_update lim2 [] false e k v) = Ok tt ->
  danswer_of (drun secure (desk_new secure) (((ds ++ [DPopitem lim]) ++ map DMove (map BMove (ECall lim2 (XPut k v) :: repeat (EGo i) m))) ++ [DGo q])) q = Some (Err RuntimeError).
Proof. exact @popitem_raises. Qed.
Print Assumptions C274_popitem_returns_refuted.

(** the hypotheses hold of an EMPT with three keys; and of two threads that call popitem at the same time one can get KeyError, with two keys left. *)
Example C274_applies : let H : Hash := toy in (forall b, length (keccak b) = 32) /\
  (forall s, let e := eobject s (b_pool (d_bench (desk_of s laid))) in dget (e_data e) (bs "cat") = None /\ fst (empt_update 100 [] false e (bs "cat") (VBytes (bs "tom"))) = Ok tt /\
     here (d_bench (desk_of s laid)) = [bs "do"; bs "dog"; bs "horse"]) /\
  (forall s, danswers s two_items = [Some (Ok (bs "do", VBytes (bs "verb"))); Some (Err KeyError)] /\ here (d_bench (desk_of s two_items)) = [bs "dog"; bs "horse"]).
Proof. intros H. split; [exact toy_len|]. split; [exact raises_holds|exact two_items_says]. Qed.
