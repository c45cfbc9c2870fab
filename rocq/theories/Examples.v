(** Concrete states used to show that the hypotheses of the property theorems can be met.
    Tests, not proofs.  They use a cheap 32-byte hash, so that the independent checker,
    which has no virtual machine, can replay them; TestVectors.v uses the real Keccak-256. *)
From Coq Require Import List Bool Arith NArith String.
From Verif Require Import Base BaseProofs Keccak KeccakProofs NibblePath Node ProofObj Mpt Spec.
Import ListNotations.

Definition toy (b : bytes) : bytes :=
  le_bytes 8 (fold_left (fun a c => N.land (a * 31 + bN c + 1) 18446744073709551615) b 7%N) ++ repeat x00 24.
Lemma toy_len : forall b, List.length (toy b) = 32.
Proof. intros b. unfold toy. rewrite app_length, le_bytes_len. reflexivity. Qed.
#[local] Instance K : Hash := toy.

Definition put (k v : string) : call := Call (Put (bs k) (bs v)) 100 [].
Definition del (k : string) : call := Call (Del (bs k)) 100 [].

(** Keys that are prefixes of each other, an overwrite, a delete, a delete of an absent
    key (raises), a put whose second storage access raises, a put with one stack frame. *)
Definition ex_hist : list call :=
  [put "do" "verb"; put "dog" "puppy"; put "doge" "dime"; put "horse" "stallion"; put "doge" "coin";
   put "house" "a value of more than thirty-two bytes in length"; del "cat";
   Call (Put (bs "hound") (bs "dog")) 100 [false; true]; Call (Put (bs "hound") (bs "dog")) 1 [];
   del "house"].
Definition ex_plain : mpt := Eval vm_compute in snd (mpt_run (mpt_new false) ex_hist).
Definition ex_secure : mpt := Eval vm_compute in snd (mpt_run (mpt_new true) ex_hist).
Definition ex_ops (secure : bool) : list op := fst (mpt_run (mpt_new secure) ex_hist).
(** The trie after [ex_hist]. *)
Definition ex_trie (secure : bool) : mpt := if secure then ex_secure else ex_plain.
Lemma ex_trie_eq : forall s, ex_trie s = snd (mpt_run (mpt_new s) ex_hist).
Proof. intros s. destruct s; vm_compute; reflexivity. Qed.

Lemma ex_ok : forall s, ok_history s ex_hist.
Proof. intros s. apply ok_history_b_ok. vm_compute. reflexivity. Qed.
Lemma ex_nocoll : forall s, no_collision (m_log (ex_trie s)).
Proof. intros s. apply no_collision_b_ok. destruct s; vm_compute; reflexivity. Qed.
Lemma ex_reachable : forall s, reachable s (ex_ops s) (ex_trie s).
Proof.
  intros s. exists ex_hist. split; [|split].
  - rewrite ex_trie_eq. unfold ex_ops. apply surjective_pairing.
  - exact (ex_ok s).
  - apply ex_nocoll.
Qed.
(** The seven calls that returned. *)
Lemma ex_ops_are : forall s, ex_ops s =
  [Put (bs "do") (bs "verb"); Put (bs "dog") (bs "puppy"); Put (bs "doge") (bs "dime");
   Put (bs "horse") (bs "stallion"); Put (bs "doge") (bs "coin");
   Put (bs "house") (bs "a value of more than thirty-two bytes in length"); Del (bs "house")].
Proof. intros s. destruct s; vm_compute; reflexivity. Qed.

Lemma ex_keys_ok : forall s ks, no_collision_b (ks ++ map op_key (ex_ops s)) = true -> keys_ok s (ks ++ map op_key (ex_ops s)).
Proof. intros s ks E _. apply no_collision_b_ok. exact E. Qed.

Lemma ex_keys_ok1 : forall s k, no_collision_b (k :: map op_key (ex_ops s)) = true -> keys_ok s (k :: map op_key (ex_ops s)).
Proof. intros s k E _. apply no_collision_b_ok. exact E. Qed.

(** Empty values in secure mode: stored, kept while other keys come and go, written over a value. *)
Definition void_hist : list call :=
  [put "dog" ""; put "doge" ""; put "do" "verb"; put "horse" ""; put "do" ""; del "doge"].
Lemma void_ok : ok_history true void_hist.
Proof.
  unfold ok_history, void_hist.
  repeat (apply Forall_cons; [split; [vm_compute; reflexivity|first [exact I|split; [discriminate|vm_compute; reflexivity]]]|]). apply Forall_nil.
Qed.
Definition void_trie : mpt := snd (mpt_run (mpt_new true) void_hist).
Lemma void_reachable : reachable true (map c_op void_hist) void_trie.
Proof.
  exists void_hist. split; [vm_compute; reflexivity|]. split; [exact void_ok|]. apply no_collision_b_ok. vm_compute. reflexivity.
Qed.

Section Generic.
Context {H : Hash}.
(** Generic: any history whose checks compute is reachable. *)
Lemma run_reachable : forall s h l t, mpt_run (mpt_new s) h = (l, t) ->
  forallb (fun c => ok_op_b (c_op c)) h = true -> no_collision_b (m_log t) = true -> reachable s l t.
Proof.
  intros s h l t E H1 H2. exists h. split; auto. split; [apply ok_history_b_ok|apply no_collision_b_ok]; auto.
Qed.
Lemma run_reachable' : forall s h, forallb (fun c => ok_op_b (c_op c)) h = true ->
  no_collision_b (m_log (snd (mpt_run (mpt_new s) h))) = true ->
  reachable s (fst (mpt_run (mpt_new s) h)) (snd (mpt_run (mpt_new s) h)).
Proof. intros s h H1 H2. eapply run_reachable; eauto. apply surjective_pairing. Qed.
End Generic.
