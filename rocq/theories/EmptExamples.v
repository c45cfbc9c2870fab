(** Concrete EMPT states used to show that the hypotheses of the property theorems can be met.  Tests, not proofs. *)
From Coq Require Import List Bool Arith NArith String Lia.
From Verif Require Import Base BaseProofs Keccak KeccakProofs NibblePath Node ProofObj Mpt Spec Examples Empt SpecEmpt EmptRefutations.
Import ListNotations.
#[local] Instance K : Hash := toy.

(** An object as value, an empty value, an overwrite, a deletion; an insertion that fails in the data storage, one
    that fails in the trie storage, the deletion of an absent key, a bytearray. *)
Definition ehist : list ecall :=
  [eput "do" "verb"; ECall (EPut (bs "dog") (VObj true true (bs "puppy"))) 100 false false [];
   eput "doge" "coin"; eput "horse" ""; eput "do" "noun"; edel "doge";
   ECall (EPut (bs "hen") (VBytes (bs "egg"))) 100 false true [];
   ECall (EPut (bs "cow") (VBytes (bs "milk"))) 100 false false [false; true];
   edel "cat"; ECall (EPut (bs "do") (VBytearray (bs "x"))) 100 false false []].
Definition ex_eplain : empt := Eval vm_compute in snd (empt_run (empt_new false) ehist).
Definition ex_esecure : empt := Eval vm_compute in snd (empt_run (empt_new true) ehist).
Definition ex_empt (s : bool) : empt := if s then ex_esecure else ex_eplain.
Definition ex_outs : list outcome :=
  [(EPut (bs "do") (VBytes (bs "verb")), true); (EPut (bs "dog") (VObj true true (bs "puppy")), true);
   (EPut (bs "doge") (VBytes (bs "coin")), true); (EPut (bs "horse") (VBytes []), true);
   (EPut (bs "do") (VBytes (bs "noun")), true); (EDel (bs "doge"), true);
   (EPut (bs "hen") (VBytes (bs "egg")), false); (EPut (bs "cow") (VBytes (bs "milk")), false);
   (EDel (bs "cat"), false); (EPut (bs "do") (VBytearray (bs "x")), false)].
Lemma ex_ereachable : forall s, ereachable s ex_outs (ex_empt s).
Proof.
  intros s. apply (erun_reachable K s ehist); [destruct s; vm_compute; reflexivity|reflexivity|destruct s; vm_compute; reflexivity].
Qed.
Lemma ex_ekeys : forall s k, no_collision_b (k :: okeys ex_outs) = true -> keys_ok s (k :: okeys ex_outs).
Proof. intros s k E _. apply no_collision_b_ok. exact E. Qed.

(** The same without failures of storages. *)
Definition chist : list ecall := firstn 6 ehist ++ [edel "cat"].
Definition ex_cplain : empt := Eval vm_compute in snd (empt_run (empt_new false) chist).
Definition ex_csecure : empt := Eval vm_compute in snd (empt_run (empt_new true) chist).
Definition ex_clean (s : bool) : empt := if s then ex_csecure else ex_cplain.
Definition ex_couts : list outcome := firstn 6 ex_outs ++ [(EDel (bs "cat"), false)].
Lemma ex_creachable : forall s, ereachable s ex_couts (ex_clean s).
Proof.
  intros s. apply (erun_reachable K s chist); [destruct s; vm_compute; reflexivity|reflexivity|destruct s; vm_compute; reflexivity].
Qed.
Lemma ex_cknown : forall x, status_after ex_couts x <> Unknown.
Proof.
  intros x. unfold status_after, ex_couts, ex_outs. cbn [firstn app fold_left]. unfold step_status. cbn [fst eop_key storable].
  repeat match goal with |- context [bytes_eqb x ?k] => destruct (bytes_eqb_spec x k); [subst; vm_compute; discriminate|] end.
  discriminate.
Qed.
(** Another order, with detours. *)
Definition dhist : list ecall :=
  [eput "horse" ""; eput "dog" "puppy"; eput "zebra" "stripes"; edel "zebra"; eput "do" "noun"].
Definition ex_dplain : empt := Eval vm_compute in snd (empt_run (empt_new false) dhist).
Definition ex_dsecure : empt := Eval vm_compute in snd (empt_run (empt_new true) dhist).
Definition ex_other (s : bool) : empt := if s then ex_dsecure else ex_dplain.
Definition ex_douts : list outcome := map (fun c => (ec_op c, true)) dhist.
Lemma ex_dreachable : forall s, ereachable s ex_douts (ex_other s).
Proof.
  intros s. apply (erun_reachable K s dhist); [destruct s; vm_compute; reflexivity|reflexivity|destruct s; vm_compute; reflexivity].
Qed.
Lemma ex_cframes : forall s k, In k (okeys ex_couts) -> frames s k < 100 /\ (blen k < 2 ^ 57)%N.
Proof.
  intros s k Hk. unfold okeys, ex_couts, ex_outs in Hk. cbn [firstn app map fst eop_key] in Hk.
  repeat (destruct Hk as [<-|Hk]; [destruct s; split; [cbn; lia|vm_compute; reflexivity|cbn; lia|vm_compute; reflexivity]|]).
  destruct Hk.
Qed.
