(** Properties of calls that several threads make on one EMPT object (C230 to C236).  Theorem statements only; proofs are in EThreadsSerial.v and the
    files after it. *)
From Coq Require Import String List Bool Arith NArith Lia.
From Verif Require Import Base Keccak NibblePath ProofObj Mpt Empt Spec SpecEmpt SpecEvery MptPy SpecMptEvery Threads SpecThreads EThreads SpecEThreads Examples EThreadsExamples
  EThreadsSerial EThreadsAlone EThreadsTrace EThreadsRead EThreadsRace.
Import ListNotations.

(** C230: what the answer of a call that reads rests on, for every order of the steps of all calls. *)
Theorem C230_reads_rest_on_moments : forall (H : Hash), (forall b, length (keccak b) = 32) ->
  forall secure ms, keys_ok secure (ekeys ms) -> xfits ms ->
  let w := erun secure (epool_new secure) ms in no_collision (h_log (p_obj (x_trie w))) ->
  forall i lim c o, nth_error (ecalls_of ms) i = Some (lim, c) -> eanswer_of w i = Some o -> erests secure ms i lim c o.
Proof. exact @ethreads_rest. Qed.
Print Assumptions C230_reads_rest_on_moments.

Example C230_applies : let H : Hash := toy in forall s, xok s xcrowd /\
  map brief_x (xanswers s xcrowd) =
    [Some (RNone (Ok tt)); Some (RNone (Ok tt)); Some (RNone (Ok tt)); Some (RNone (Ok tt)); Some (RVal (Ok (VBytes (bs "puppy")))); Some (RNone (Ok tt));
     Some (RBool (Ok true)); Some (RVal (Ok (VBytes (repeat x00 (if s then 3 else 4))))); Some (RRef (Ok (mkRef (bs "do") (bs "verb")))); Some (RNone (Ok tt))].
Proof. intros H s. split; [apply xcrowd_ok|destruct s; vm_compute; reflexivity]. Qed.

(** C231: where each update and delete is made after the earlier ones have answered, they answer as without other threads, and leave the object
    that they leave without other threads. *)
Theorem C231_one_writer : forall (H : Hash) secure, (forall b, length (keccak b) = 32) ->
  forall ms, one_ewriter secure ms -> Forall (fun x => 0 < fst x) (ecalls_of ms) ->
  let w := erun secure (epool_new secure) ms in
  (forall n o, nth_error (wanswers w ms) n = Some (Some o) -> nth_error (fst (in_turn (empt_new secure) (ewrites ms))) n = Some o) /\
  (~ In None (wanswers w ms) ->
     wanswers w ms = map Some (fst (in_turn (empt_new secure) (ewrites ms))) /\ eobject secure w = snd (in_turn (empt_new secure) (ewrites ms))).
Proof. exact @one_ewriter_serial. Qed.
Print Assumptions C231_one_writer.

Example C231_applies : let H : Hash := toy in forall s, one_ewriter s xgone /\ Forall (fun x => 0 < fst x) (ecalls_of xgone) /\
  wanswers (xrun s xgone) xgone = repeat (Some (RNone (Ok tt))) 6 /\
  ewrites xgone = [(100, XPut (bs "do") (VBytes (bs "verb"))); (100, XPut (bs "dog") (VBytes (bs "puppy"))); (100, XPut (bs "horse") (VBytes (bs "stallion")));
    (100, XPut (bs "doge") (VBytes (bs "coin"))); (100, XDel (bs "horse")); (100, XPut (bs "do") (VBytes (bs "noun")))].
Proof.
  intros H s. split; [apply xgone_ok|]. split; [repeat constructor|]. split; [destruct s; vm_compute; reflexivity|vm_compute; reflexivity].
Qed.

(** C232: with one writer, once an update of a key has answered and until another call writes the key, get, get_reference and contains give
    its value, whatever the writer does to other keys meanwhile; *)
Theorem C232_settled : forall (H : Hash), (forall b, length (keccak b) = 32) ->
  forall secure ms, keys_ok secure (ekeys ms) -> xfits ms ->
  let w := erun secure (epool_new secure) ms in no_collision (h_log (p_obj (x_trie w))) -> one_ewriter secure ms ->
  forall m1 m2 lim c k j lim' v o, ms = m1 ++ ECall lim c :: m2 ->
  nth_error (ecalls_of m1) j = Some (lim', XPut k v) -> eanswer_of (erun secure (epool_new secure) m1) j = Some (RNone (Ok tt)) ->
  (forall n x, j < n -> nth_error (ecalls_of ms) n = Some x -> ~ writes_key k (snd x)) ->
  eanswer_of w (length (ecalls_of m1)) = Some o -> served secure lim k v c o.
Proof. exact @settled. Qed.
Print Assumptions C232_settled.

(** after a delete of the key, get raises KeyError. *)
Theorem C232_removed : forall (H : Hash) secure ms, one_ewriter secure ms ->
  forall m1 m2 lim k j lim' o, ms = m1 ++ ECall lim (XGet k) :: m2 ->
  nth_error (ecalls_of m1) j = Some (lim', XDel k) -> eanswer_of (erun secure (epool_new secure) m1) j = Some (RNone (Ok tt)) ->
  (forall n x, j < n -> nth_error (ecalls_of ms) n = Some x -> ~ writes_key k (snd x)) ->
  eanswer_of (erun secure (epool_new secure) ms) (length (ecalls_of m1)) = Some o -> o = RVal (Err KeyError).
Proof. exact @removed. Qed.
Print Assumptions C232_removed.

Example C232_applies : let H : Hash := toy in forall s, (xok s xpair /\ one_ewriter s xpair) /\ xpair = xpair1 ++ ECall 100 (XGet (bs "doge")) :: xpair2 /\
  nth_error (ecalls_of xpair1) 3 = Some (100, XPut (bs "doge") (VBytes (bs "coin"))) /\ eanswer_of (xrun s xpair1) 3 = Some (RNone (Ok tt)) /\
  (forall n x, 3 < n -> nth_error (ecalls_of xpair) n = Some x -> ~ writes_key (bs "doge") (snd x)) /\
  eanswer_of (xrun s xpair) 4 = Some (RVal (Ok (VBytes (bs "coin")))).
Proof.
  intros H s. split; [apply xpair_ok|]. split; [reflexivity|]. split; [vm_compute; reflexivity|]. split; [destruct s; vm_compute; reflexivity|]. split; [|destruct s; vm_compute; reflexivity].
  intros n x L E. do 6 (destruct n as [|n]; [try lia; vm_compute in E; injection E as <-; vm_compute; first [exact (fun F => F)|discriminate]|]). destruct n; discriminate.
Qed.
Example C232_removed_applies : let H : Hash := toy in forall s, (xok s xgone /\ one_ewriter s xgone) /\
  nth_error (ecalls_of xpair) 5 = Some (100, XDel (bs "horse")) /\ eanswer_of (xrun s xpair) 5 = Some (RNone (Ok tt)) /\
  (forall n x, 5 < n -> nth_error (ecalls_of xgone) n = Some x -> ~ writes_key (bs "horse") (snd x)) /\
  eanswer_of (xrun s xgone) 6 = Some (RVal (Err KeyError)).
Proof.
  intros H s. split; [apply xgone_ok|]. split; [vm_compute; reflexivity|]. split; [destruct s; vm_compute; reflexivity|]. split; [|destruct s; vm_compute; reflexivity].
  intros n x L E. do 8 (destruct n as [|n]; [try lia; vm_compute in E; injection E as <-; vm_compute; first [exact (fun F => F)|discriminate]|]). destruct n; discriminate.
Qed.

(** C233, refuted: after two updates of a key have answered, the key has one of the two values.  In every state two updates can cross: both return,
    and get finds the value of one and the reference of the other. *)
Theorem C233_crossed_updates_refuted : forall (H : Hash) secure, (forall b, length (keccak b) = 32) ->
  forall ms k l1 v1 rb1 l2 v2 rb2, let e := eobject secure (erun secure (epool_new secure) ms) in let i := length (ecalls_of ms) in
  let t' := snd (mpt_update l2 [] (snd (mpt_update l1 [] (e_trie e) k rb1)) k rb2) in
  0 < l1 -> 0 < l2 -> bind (update_ref k v1) (fun r => ref_encode r) = Ok rb1 -> bind (update_ref k v2) (fun r => ref_encode r) = Ok rb2 ->
  fst (mpt_update l1 [] (e_trie e) k rb1) = Ok tt -> fst (mpt_update l2 [] (snd (mpt_update l1 [] (e_trie e) k rb1)) k rb2) = Ok tt ->
  ref_hash (mkRef k (val_bytes v2)) <> ref_hash (mkRef k (val_bytes v1)) ->
  exists n1 n2, let w := erun secure (epool_new secure) (ms ++ [ECall l1 (XPut k v1); ECall l2 (XPut k v2)] ++ repeat (EGo i) n1 ++ repeat (EGo (S i)) n2 ++ [EGo i]) in
  eanswer_of w i = Some (RNone (Ok tt)) /\ eanswer_of w (S i) = Some (RNone (Ok tt)) /\
  eobject secure w = mkEmpt (dset (dset (e_data e) k v2) k v1) t' /\
  forall lim, mpt_get lim t' k = Ok rb2 -> empt_get lim (eobject secure w) k = Err InvalidReferenceError.
Proof. exact @crossed. Qed.
Print Assumptions C233_crossed_updates_refuted.

Example C233_applies : let H : Hash := toy in forall s,
  let e := eobject s (xrun s xbase) in let k := bs "cat" in let v1 := VBytes (bs "tom") in let v2 := VBytes (bs "tabby") in
  exists rb1 rb2, bind (update_ref k v1) (fun r => ref_encode r) = Ok rb1 /\ bind (update_ref k v2) (fun r => ref_encode r) = Ok rb2 /\
  fst (mpt_update 100 [] (e_trie e) k rb1) = Ok tt /\ fst (mpt_update 100 [] (snd (mpt_update 100 [] (e_trie e) k rb1)) k rb2) = Ok tt /\
  N.eqb (ref_hash (mkRef k (val_bytes v2))) (ref_hash (mkRef k (val_bytes v1))) = false /\
  mpt_get 100 (snd (mpt_update 100 [] (snd (mpt_update 100 [] (e_trie e) k rb1)) k rb2)) k = Ok rb2.
Proof.
  intros H s. destruct s; (eexists; eexists; split; [vm_compute; reflexivity|]; split; [vm_compute; reflexivity|]; split; [vm_compute; reflexivity|]; split; [vm_compute; reflexivity|];
    split; vm_compute; reflexivity).
Qed.

(** C234, refuted: a get of a key that the one writer is overwriting gives the old or the new value.  It raises InvalidReferenceError if the update
    comes between its look at the data and its look at the trie. *)
Theorem C234_torn_get_refuted : forall (H : Hash) secure, (forall b, length (keccak b) = 32) ->
  forall ms k lim v1 l2 v2 rb2, let e := eobject secure (erun secure (epool_new secure) ms) in let i := length (ecalls_of ms) in let t' := snd (mpt_update l2 [] (e_trie e) k rb2) in
  0 < lim -> 0 < l2 -> dget (e_data e) k = Some v1 -> bind (update_ref k v2) (fun r => ref_encode r) = Ok rb2 -> fst (mpt_update l2 [] (e_trie e) k rb2) = Ok tt ->
  mpt_get lim t' k = Ok rb2 -> ref_hash (mkRef k (val_bytes v2)) <> ref_hash (mkRef k (val_bytes v1)) -> expected_ref k v1 = Ok (mkRef k (val_bytes v1)) ->
  exists n1 n2, let w := erun secure (epool_new secure) (ms ++ [ECall lim (XGet k); EGo i; ECall l2 (XPut k v2)] ++ repeat (EGo (S i)) n1 ++ repeat (EGo i) n2) in
  eanswer_of w (S i) = Some (RNone (Ok tt)) /\ eanswer_of w i = Some (RVal (Err InvalidReferenceError)).
Proof. exact @torn_get. Qed.
Print Assumptions C234_torn_get_refuted.

Example C234_applies : let H : Hash := toy in forall s,
  let e := eobject s (xrun s xbase) in let k := bs "dog" in let v1 := VBytes (bs "puppy") in let v2 := VBytes (bs "hound") in
  exists rb2, dget (e_data e) k = Some v1 /\ bind (update_ref k v2) (fun r => ref_encode r) = Ok rb2 /\ fst (mpt_update 100 [] (e_trie e) k rb2) = Ok tt /\
  mpt_get 100 (snd (mpt_update 100 [] (e_trie e) k rb2)) k = Ok rb2 /\
  N.eqb (ref_hash (mkRef k (val_bytes v2))) (ref_hash (mkRef k (val_bytes v1))) = false /\ expected_ref k v1 = Ok (mkRef k (val_bytes v1)).
Proof.
  intros H s. destruct s; (eexists; split; [vm_compute; reflexivity|]; split; [vm_compute; reflexivity|]; split; [vm_compute; reflexivity|]; split; [vm_compute; reflexivity|];
    split; vm_compute; reflexivity).
Qed.

(** C235: no call waits for another one. *)
Theorem C235_no_waiting : forall (H : Hash) secure, (forall b, length (keccak b) = 32) ->
  forall ms lim c ms2, 6 * lim + 14 <= eturns (length (ecalls_of ms)) ms2 ->
  eanswer_of (erun secure (epool_new secure) (ms ++ ECall lim c :: ms2)) (length (ecalls_of ms)) <> None.
Proof. exact @eanswers. Qed.
Print Assumptions C235_no_waiting.

Example C235_applies : let H : Hash := toy in
  let ms2 := ECall 100 (XDel (bs "dog")) :: concat (repeat [EGo 3; EGo 4; EGo 4] 614) in
  (6 * 100 + 14 <=? eturns (length (ecalls_of xbase)) ms2) = true /\
  eanswer_of (xrun true (xbase ++ ECall 100 (XPut (bs "cat") (VBytes (bs "tom"))) :: ms2)) 3 = Some (RNone (Ok tt)).
Proof. intros H ms2. split; vm_compute; reflexivity. Qed.

(** C236: a call that has its turns while no other call has any is the call of a program with one thread, whatever calls are under way. *)
Theorem C236_alone : forall (H : Hash) secure, (forall b, length (keccak b) = 32) ->
  forall ms lim c m, 0 < lim -> 6 * lim + 14 <= m ->
  let i := length (ecalls_of ms) in let w := erun secure (epool_new secure) (ms ++ ECall lim c :: repeat (EGo i) m) in
  eanswer_of w i = Some (fst (esingle lim (eobject secure (erun secure (epool_new secure) ms)) c)) /\
  eobject secure w = snd (esingle lim (eobject secure (erun secure (epool_new secure) ms)) c).
Proof. exact @ealone. Qed.
Print Assumptions C236_alone.

Example C236_applies : let H : Hash := toy in forall s,
  let ms := xbase ++ [ECall 100 (XDel (bs "dog")); EGo 3; EGo 3; EGo 3] in
  eanswer_of (xrun s (ms ++ ECall 100 (XGet (bs "dog")) :: repeat (EGo 4) 614)) 4 = Some (RVal (Ok (VBytes (bs "puppy")))) /\
  eanswer_of (xrun s (ms ++ ECall 100 (XGet (bs "dog")) :: repeat (EGo 4) 614)) 3 = None.
Proof. intros H s. split; destruct s; vm_compute; reflexivity. Qed.
