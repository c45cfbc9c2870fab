(** Properties of pop and setdefault of an EMPT while other threads use it (C270 to C272).  Theorem statements only; proofs are in MixinsProofs.v,
    MixinsMain.v, MixinsTorn.v, MixinsEnds.v and MixinsAlone.v. *)
From Coq Require Import String List Bool Arith NArith Lia.
From Verif Require Import Base BaseProofs Keccak KeccakProofs NibblePath ProofObj Mpt Empt Spec Examples Threads SpecThreads EThreads SpecEThreads EThreadsExamples SpecETally Mixins SpecMixins
  MixinsProofs MixinsMain MixinsTorn MixinsEnds MixinsAlone MixinsExamples.
Import ListNotations.

(** C270: what pop and setdefault do to the object is what some calls of get, update and delete do; *)
Theorem C270_only_calls : forall (H : Hash) secure bs, b_pool (brun secure (bench_new secure) bs) = erun secure (epool_new secure) (btrace secure bs).
Proof. exact @bench_pool. Qed.
Print Assumptions C270_only_calls.

(** a value they return was given for that key by an update that has returned, or is the default given to pop; *)
Theorem C270_values_were_put : forall (H : Hash) secure bs j lim c v, nth_error (bcalls bs) j = Some (lim, c) ->
  banswer_of (brun secure (bench_new secure) bs) j = Some (Ok v) ->
  put_before secure (btrace secure bs) (mkey c) v \/ c = PPop (mkey c) (Some v).
Proof. exact @mixin_values. Qed.
Print Assumptions C270_values_were_put.

(** the pops of a key that returned a value (other than their default), and the key if it is there, are no more than the updates of that key that have returned; *)
Theorem C270_pops_counted : forall (H : Hash) secure bs k, let w := b_pool (brun secure (bench_new secure) bs) in
  popped k bs (brun secure (bench_new secure) bs) + has w k <= tally (puts_k k) (btrace secure bs) w.
Proof. exact @pops_counted. Qed.
Print Assumptions C270_pops_counted.

(** they end, whatever other threads do, after a number of steps that depends on the recursion limit only; *)
Theorem C270_end : forall (H : Hash) secure, (forall b, length (keccak b) = 32) -> forall bs lim c b, 12 * lim + 28 <= bturns (length (bcalls bs)) b ->
  banswer_of (brun secure (bench_new secure) (bs ++ BCall lim c :: b)) (length (bcalls bs)) <> None.
Proof. exact @mixins_end. Qed.
Print Assumptions C270_end.

(** and when nobody else has a turn meanwhile, they do what they do in a program with one thread (C62). *)
Theorem C270_alone : forall (H : Hash) secure, (forall b, length (keccak b) = 32) -> forall bs lim c m, 0 < lim -> 12 * lim + 28 <= m ->
  let j := length (bcalls bs) in let w := brun secure (bench_new secure) (bs ++ BCall lim c :: repeat (BGo j) m) in
  let r := mixin_single lim (eobject secure (b_pool (brun secure (bench_new secure) bs))) c in banswer_of w j = Some (fst r) /\ eobject secure (b_pool w) = snd r.
Proof. exact @mixin_alone. Qed.
Print Assumptions C270_alone.

Example C270_applies : let H : Hash := toy in forall s,
  banswers s pops = [Some (Ok (VBytes (bs "puppy"))); Some (Err KeyError); Some (Ok (VBytes (bs "stallion"))); Some (Err KeyError); Some (Ok (VBytes (bs "none")))] /\
  popped (bs "dog") pops (bench_of s pops) = 1 /\ tally (puts_k (bs "dog")) (btrace s pops) (b_pool (bench_of s pops)) = 1 /\
  banswers s defaults = [Some (Ok (VBytes (bs "puppy"))); Some (Ok (VBytes (bs "tom")))].
Proof.
  intros H s. split; [exact (proj1 (pops_says s))|]. split; [exact (proj1 (proj2 (pops_says s)))|]. split; [exact (proj1 (proj2 (proj2 (pops_says s))))|exact (proj1 (defaults_says s))].
Qed.

(** C271 (refuted): a pop and an update of its key by two threads have the results of one of their two orders.  The pop can return the value from before
    the update, which returns too, and the key is gone: after the pop, the update would leave its value; after the update, the pop would return it. *)
Theorem C271_pop_in_one_step_refuted : forall (H : Hash) secure, (forall b, length (keccak b) = 32) -> forall bs lim k v1 lim2 v2 e2 e3, 0 < lim -> 0 < lim2 -> v1 <> v2 ->
  let e := eobject secure (b_pool (brun secure (bench_new secure) bs)) in
  empt_get lim e k = Ok v1 -> empt_update lim2 [] false e k v2 = (Ok tt, e2) -> empt_delete lim false false [] e2 k = (Ok tt, e3) ->
  let j := length (bcalls bs) in let i := length (x_calls (b_pool (brun secure (bench_new secure) bs))) in
  exists m1 m3,
    let w := brun secure (bench_new secure)
      (((bs ++ BCall lim (PPop k None) :: repeat (BGo j) m1) ++ map BMove (ECall lim2 (XPut k v2) :: repeat (EGo (S (S i))) (6 * lim2 + 14))) ++ repeat (BGo j) m3) in
    banswer_of w j = Some (Ok v1) /\ eanswer_of (b_pool w) (S (S i)) = Some (RNone (Ok tt)) /\ dget (x_data (b_pool w)) k = None /\
    fst (empt_pop lim e2 k None) <> Ok v1 /\ (forall lim' e' e'', empt_update lim' [] false e' k v2 = (Ok tt, e'') -> dget (e_data e'') k = Some v2).
Proof. exact @torn_pop. Qed.
Print Assumptions C271_pop_in_one_step_refuted.

Example C271_applies : let H : Hash := toy in (forall b, length (keccak b) = 32) /\
  forall s, let e := eobject s (b_pool (bench_of s based)) in let u := empt_update 100 [] false e (bs "dog") (VBytes (bs "hound")) in
  empt_get 100 e (bs "dog") = Ok (VBytes (bs "puppy")) /\ fst u = Ok tt /\ fst (empt_delete 100 false false [] (snd u) (bs "dog")) = Ok tt.
Proof. intros H. split; [exact toy_len|exact torn_pop_holds]. Qed.

(** C272 (refuted): two threads that call setdefault for one key get one value.  Each can get its own default, and the object keeps one of them. *)
Theorem C272_setdefault_agrees_refuted : forall (H : Hash) secure, (forall b, length (keccak b) = 32) -> forall bs lim k d1 lim2 d2 e2 e3, 0 < lim -> 0 < lim2 ->
  let e := eobject secure (b_pool (brun secure (bench_new secure) bs)) in
  dget (e_data e) k = None -> empt_update lim2 [] false e k d2 = (Ok tt, e2) -> empt_update lim [] false e2 k d1 = (Ok tt, e3) ->
  let j := length (bcalls bs) in
  exists m1 m2 m2' m3,
    let w := brun secure (bench_new secure)
      ((((bs ++ BCall lim (PSetdefault k d1) :: repeat (BGo j) m1) ++ BCall lim2 (PSetdefault k d2) :: repeat (BGo (S j)) m2) ++ repeat (BGo (S j)) m2') ++ repeat (BGo j) m3) in
    banswer_of w j = Some (Ok d1) /\ banswer_of w (S j) = Some (Ok d2) /\ dget (x_data (b_pool w)) k = Some d1.
Proof. exact @torn_setdefault. Qed.
Print Assumptions C272_setdefault_agrees_refuted.

Example C272_applies : let H : Hash := toy in forall s,
  (let e := eobject s (b_pool (bench_of s based)) in let u := empt_update 100 [] false e (bs "cat") (VBytes (bs "tom")) in
   dget (e_data e) (bs "cat") = None /\ fst u = Ok tt /\ fst (empt_update 100 [] false (snd u) (bs "cat") (VBytes (bs "tiger"))) = Ok tt) /\
  banswers s two_defaults = [Some (Ok (VBytes (bs "tiger"))); Some (Ok (VBytes (bs "tom")))].
Proof. intros H s. split; [exact (torn_setdefault_holds s)|exact (two_defaults_says s)]. Qed.
