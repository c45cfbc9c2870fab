(** Concrete cases for PropertiesYp.v.  Tests, not proofs. *)
From Coq Require Import String List Bool Arith NArith ZArith Lia.
From Verif Require Import Base BaseProofs Rlp RlpProofs Keccak KeccakProofs NibblePath Node ProofObj Mpt Spec SpecCodec SpecRlp RlpExact Examples
  Empt SpecEmpt SpecSparse EmptExamples SparseExamples SpecYp SpecCost.
Import ListNotations.
#[local] Instance K : Hash := toy.

(** Two keys, "a" and "b": an extension over the nibble 6, a branch, two leaves with nothing left of the key. *)
Definition two_ops : list op := [Put (bs "a") (bs "some text"); Put (bs "b") (bs "more text")].
Definition J2 : pairs := pairs_of false (dict_after two_ops).
Definition leaf_item (v : string) : item := IList [IBytes [x20]; IBytes (bs v)].
Definition branch_item : item :=
  IList ([IBytes []; leaf_item "some text"; leaf_item "more text"] ++ repeat (IBytes []) 13 ++ [IBytes []]).
Definition root_item : item := IList [IBytes [x16]; IBytes (keccak (renc branch_item))].

Lemma J2_is : forall q v, J2 q v <-> (q = [6; 1] /\ v = bs "some text") \/ (q = [6; 2] /\ v = bs "more text").
Proof.
  intros q v. unfold J2, pairs_of, two_ops, dict_after. unfold apply_ops. cbn [fold_left apply_op]. split.
  - intros (k & E & ->). destruct (bytes_eqb_spec k (bs "b")) as [Ek|_]; [subst k; injection E as <-; right; split; reflexivity|].
    destruct (bytes_eqb_spec k (bs "a")) as [Ek|_]; [subst k; injection E as <-; left; split; reflexivity|discriminate].
  - intros [[-> ->]|[-> ->]]; [exists (bs "a")|exists (bs "b")]; split; vm_compute; reflexivity.
Qed.

(** Derived by hand from the definition. *)
Lemma J2_leaf : forall i v, (i = 1 /\ v = "some text"%string) \/ (i = 2 /\ v = "more text"%string) ->
  yp_n (under [i] (under [6] J2)) (leaf_item v).
Proof.
  intros i v Hi. eapply yp_inline with (b := renc (leaf_item v)).
  - apply yp_leaf with (k := []); [|apply (hp_even x20 [] true); reflexivity]. split.
    + unfold under. cbn [app]. apply J2_is. destruct Hi as [[-> ->]|[-> ->]]; auto.
    + unfold under. cbn [app]. intros q w E. apply J2_is in E. destruct Hi as [[-> ->]|[-> ->]], E as [[E ->]|[E ->]]; try discriminate;
        injection E as ->; auto.
  - apply decode_form. destruct Hi as [[-> ->]|[-> ->]]; vm_compute; reflexivity.
  - destruct Hi as [[-> ->]|[-> ->]]; vm_compute; lia.
Qed.
Lemma J2_none : forall i, i <> 1 -> i <> 2 -> yp_n (under [i] (under [6] J2)) (IBytes []).
Proof.
  intros i H1 H2. apply yp_none. intros q v E. unfold under in E. cbn [app] in E. apply J2_is in E.
  destruct E as [[E _]|[E _]]; injection E; intros; congruence.
Qed.
Lemma J2_branch : yp_c (under [6] J2) branch_item.
Proof.
  apply yp_branch with (rs := [IBytes []; leaf_item "some text"; leaf_item "more text"] ++ repeat (IBytes []) 13).
  - split; [|split].
    + exists [1], (bs "some text"), [2], (bs "more text"). unfold under. cbn [app]. repeat split; try (apply J2_is; auto). discriminate.
    + intros q v _. exists q. reflexivity.
    + intros p Hc. destruct (Hc [1] (bs "some text")) as [r E]; [apply J2_is; auto|].
      destruct (Hc [2] (bs "more text")) as [r' E']; [apply J2_is; auto|]. destruct p as [|x p]; [reflexivity|]. cbn in E, E'. congruence.
  - reflexivity.
  - intros i r E. destruct i as [|[|[|i]]]; cbn [nth_error app] in E.
    + injection E as <-. apply J2_none; discriminate.
    + injection E as <-. apply J2_leaf. auto.
    + injection E as <-. apply J2_leaf. auto.
    + assert (r = IBytes []) by (apply nth_error_In, repeat_spec in E; exact E). subst r. apply J2_none; discriminate.
  - right. split; [reflexivity|]. intros w E. unfold under in E. cbn [app] in E. apply J2_is in E. destruct E as [[E _]|[E _]]; discriminate.
Qed.
Lemma J2_text : yp_text J2 (renc root_item).
Proof.
  exists root_item. split; [|apply decode_form; vm_compute; reflexivity].
  apply yp_extension with (p := [6]); [|discriminate|apply (hp_odd x16 [] false 6); [lia|reflexivity]|].
  - split; [|split].
    + exists [6; 1], (bs "some text"), [6; 2], (bs "more text"). repeat split; try (apply J2_is; auto). discriminate.
    + intros q v E. apply J2_is in E. destruct E as [[-> _]|[-> _]]; eexists; reflexivity.
    + intros p Hc. destruct (Hc [6; 1] (bs "some text")) as [r E]; [apply J2_is; auto|].
      destruct (Hc [6; 2] (bs "more text")) as [r' E']; [apply J2_is; auto|]. destruct p as [|x [|y p]]; [cbn; lia|cbn; lia|].
      cbn in E, E'. congruence.
  - eapply yp_digest; [exact J2_branch|apply decode_form; vm_compute; reflexivity|vm_compute; lia].
Qed.
Definition two_hist : list call := [put "a" "some text"; put "b" "more text"].
Definition two_trie : mpt := Eval vm_compute in snd (mpt_run (mpt_new false) two_hist).
Lemma two_reachable : reachable false two_ops two_trie.
Proof. apply (run_reachable false two_hist); vm_compute; reflexivity. Qed.

Lemma ex_keys0 : forall s, keys_ok s (map op_key (ex_ops s)).
Proof. intros s. apply (ex_keys_ok s []). destruct s; vm_compute; reflexivity. Qed.
(** Node texts of proofs. *)
Definition texts (r : result proof) : list bytes :=
  match r with Ok p => flat_map (fun e => match e with PB b => [b] | _ => [] end) (pf_proof p) | Err _ => [] end.

(** What an EMPT holds after calls none of which failed half-way. *)
Definition ex_contents (k : bytes) : option bytes :=
  match status_after ex_couts k with Present v => Some (val_bytes v) | _ => None end.
Lemma ex_contents_agree : agrees ex_contents (status_after ex_couts).
Proof. intros k. unfold ex_contents. pose proof (ex_cknown k). destruct (status_after ex_couts k); congruence || reflexivity. Qed.

(** A trie with nodes of at least 32 bytes; an update of b"" and a deletion of b"\xab" that reach the bounds. *)
Definition long (s : string) : bytes := bs s ++ repeat x41 40.
Definition call_at (o : op) : call := Call o 100 [].
Definition one_hist : list call := [call_at (Put [xab] (long "one"))].
Definition one_trie : mpt := Eval vm_compute in snd (mpt_run (mpt_new false) one_hist).
Definition deep_hist : list call := map call_at [Put [xab] (long "one"); Put [xab; xcd] (long "two"); Put [x00] (long "three")].
Definition deep_trie : mpt := Eval vm_compute in snd (mpt_run (mpt_new false) deep_hist).
Lemma one_reachable : reachable false (map c_op one_hist) one_trie.
Proof. apply (run_reachable false one_hist); vm_compute; reflexivity. Qed.
Lemma deep_reachable : reachable false (map c_op deep_hist) deep_trie.
Proof. apply (run_reachable false deep_hist); vm_compute; reflexivity. Qed.
(** The n-th access raises. *)
Definition raises_at (n : nat) : list bool := repeat false n ++ [true].
Definition returned (r : result unit * mpt) : bool := match fst r with Ok _ => true | Err _ => false end.

Lemma J2_branch_node : yp_node J2 (renc branch_item).
Proof.
  apply node_extension with (p := [6]); [|discriminate|apply node_root; exists branch_item; split; [exact J2_branch|apply decode_form; vm_compute; reflexivity]].
  split; [|split].
  - exists [6; 1], (bs "some text"), [6; 2], (bs "more text"). repeat split; try (apply J2_is; auto). discriminate.
  - intros q v E. apply J2_is in E. destruct E as [[-> _]|[-> _]]; eexists; reflexivity.
  - intros p Hc. destruct (Hc [6; 1] (bs "some text")) as [r E]; [apply J2_is; auto|].
    destruct (Hc [6; 2] (bs "more text")) as [r' E']; [apply J2_is; auto|]. destruct p as [|x [|y p]]; [cbn; lia|cbn; lia|].
    cbn in E, E'. congruence.
Qed.
