(** Loops over an EMPT that change it (C214-C216).  Theorem statements only; proofs are in LoopProofs2.v.
    Vocabulary: SpecLoop.v, SpecEvery.v.  Model: EmptLoop.v, EmptPy.v, Empt.v. *)
From Coq Require Import String List Bool Arith NArith.
From Verif Require Import Base Keccak KeccakProofs ProofObj Mpt Spec SpecEmpt Empt SpecYp EmptPy EmptLoop SpecEvery SpecLoop Examples EveryExamples LoopProofs2.
Import ListNotations.

(** C214: what a loop over an EMPT does whose body makes any calls on it, after any calls. *)
Theorem C214_every_loop : forall (H : Hash), (forall b, length (keccak b) = 32) ->
  forall secure h outs e w lim body ts en e', empt_session (empt_new secure) h = (outs, e) -> empt_loop w lim body e = (ts, en, e') ->
  efits (h ++ turn_calls ts) -> keys_ok secure (ekeys (h ++ turn_calls ts)) -> ekeccak_ok (h ++ turn_calls ts) -> no_collision (m_log (e_trie e')) ->
  exists g0 g, efollows secure (EView [] no_refs false) h outs g0 /\
    loops secure w lim body (map fst (ev_vals g0)) (map fst (ev_vals g0)) 0 g0 ts en g /\ forall r, yp_root (refs_of secure (ev_refs g)) r <-> empt_root_hash e' = r.
Proof. exact @loop_follows. Qed.
Print Assumptions C214_every_loop.

Theorem C214_only_way : forall (H : Hash), (forall b, length (keccak b) = 32) ->
  forall secure h outs e w lim body ts en e', empt_session (empt_new secure) h = (outs, e) -> empt_loop w lim body e = (ts, en, e') ->
  efits (h ++ turn_calls ts) -> keys_ok secure (ekeys (h ++ turn_calls ts)) -> ekeccak_ok (h ++ turn_calls ts) -> no_collision (m_log (e_trie e')) ->
  equiet secure (h ++ turn_calls ts) -> (forall k, In k (ekeys (h ++ turn_calls ts)) -> frames secure k < lim) ->
  forall outs' g0 ts' en' g', efollows secure (EView [] no_refs false) h outs' g0 ->
  loops secure w lim body (map fst (ev_vals g0)) (map fst (ev_vals g0)) 0 g0 ts' en' g' ->
  outs' = outs /\ ts' = ts /\ en' = en /\ forall r, yp_root (refs_of secure (ev_refs g')) r <-> empt_root_hash e' = r.
Proof. exact @loop_only_way. Qed.
Print Assumptions C214_only_way.

Definition three : list (nat * ecmd) := firstn 4 quiet.
(** Asks for another key, and in the second turn adds one. *)
Definition curious (i : nat) (k : bytes) (ov : option value) : list (nat * ecmd) * bool :=
  ((100, QIn (KBytes (bs "cat"))) :: (if i =? 1 then [(100, QPut (KBytes (bs "cat")) (VBytes (bs "kitten")) [] false)] else []), true).
Definition impatient (i : nat) (k : bytes) (ov : option value) : list (nat * ecmd) * bool := ([(100, QGet (KBytes k))], negb (i =? 1)).
(** Replaces a key by another one. *)
Definition replaces (i : nat) (k : bytes) (ov : option value) : list (nat * ecmd) * bool :=
  ([(100, QPop (KBytes k) None); (100, QPut (KBytes (k ++ k)) (VBytes k) [] false)], true).
Example C214_applies : let H : Hash := toy in forall s, let e := snd (empt_session (empt_new s) three) in
  let r := empt_loop OItems 100 curious e in let ts := fst (fst r) in
  ok_session s (three ++ turn_calls ts) /\ equiet s (three ++ turn_calls ts) /\ no_collision (m_log (e_trie (snd r))) /\
  snd (fst r) = LRaise RuntimeError /\ map t_outs ts = [[ABool (Ok false)]; [ABool (Ok false); ANone (Ok tt)]] /\
  let r2 := empt_loop OValues 100 impatient e in
  snd (fst r2) = LLeft /\ map t_val (fst (fst r2)) = [Some (VBytes (bs "noun")); Some (VObj true true (bs "puppy"))] /\
  let r3 := empt_loop OKeys 100 replaces e in
  snd (fst r3) = LFree /\ length (fst (fst r3)) = 1 /\ snd (fst (empt_loop OKeys 100 (fun _ _ _ => ([], true)) e)) = LDone.
Proof.
  intros H s e r ts. split; [apply ok_session_b; destruct s; vm_compute; reflexivity|]. split; [apply quiet_b_ok; destruct s; vm_compute; reflexivity|].
  split; [apply no_collision_b_ok; destruct s; vm_compute; reflexivity|]. destruct s; vm_compute; repeat split.
Qed.

(** C215: a loop that sets the key it is at sees every key once, in order, with the value that it had before the loop. *)
Theorem C215_setting_in_a_loop : forall (H : Hash), (forall b, length (keccak b) = 32) ->
  forall secure h outs e w lim lim' f vals ts en e', empt_session (empt_new secure) h = (outs, e) ->
  empt_items lim e = Ok vals -> (forall i k ov, storable (f i k ov) = true) ->
  empt_loop w lim (fun i k ov => ([(lim', QPut (KBytes k) (f i k ov) [] false)], true)) e = (ts, en, e') ->
  efits (h ++ turn_calls ts) -> keys_ok secure (ekeys (h ++ turn_calls ts)) -> ekeccak_ok (h ++ turn_calls ts) -> no_collision (m_log (e_trie e')) ->
  (forall k, In k (map fst vals) -> frames secure k < lim /\ frames secure k < lim') ->
  ts = rewriting w lim' f 0 vals /\ en = LDone /\ empt_items lim e' = Ok (rewritten w f 0 vals).
Proof. exact @loop_rewrites. Qed.
Print Assumptions C215_setting_in_a_loop.

Definition twice (i : nat) (k : bytes) (ov : option value) : value := VBytes (k ++ match ov with Some v => val_bytes v ++ val_bytes v | None => [] end).
Example C215_applies : let H : Hash := toy in forall s, let e := snd (empt_session (empt_new s) three) in
  empt_items 100 e = Ok [(bs "do", VBytes (bs "noun")); (bs "dog", VObj true true (bs "puppy")); (bs "doge", VBytes (bs "coin"))] /\
  (forall i k ov, storable (twice i k ov) = true) /\
  let r := empt_loop OItems 100 (fun i k ov => ([(100, QPut (KBytes k) (twice i k ov) [] false)], true)) e in
  ok_session s (three ++ turn_calls (fst (fst r))) /\ no_collision (m_log (e_trie (snd r))) /\
  empt_items 100 (snd r) = Ok [(bs "do", VBytes (bs "donounnoun")); (bs "dog", VBytes (bs "dogpuppypuppy")); (bs "doge", VBytes (bs "dogecoincoin"))].
Proof.
  intros H s e. split; [destruct s; vm_compute; reflexivity|]. split; [reflexivity|]. intros r.
  split; [apply ok_session_b; destruct s; vm_compute; reflexivity|]. split; [apply no_collision_b_ok; destruct s; vm_compute; reflexivity|].
  destruct s; vm_compute; reflexivity.
Qed.

(** C216 (refuted): a loop that deletes the key it is at deletes all keys.  It deletes the first one and raises RuntimeError, for every EMPT with a key. *)
Theorem C216_deleting_in_a_loop_refuted : forall (H : Hash), (forall b, length (keccak b) = 32) ->
  forall secure h outs e w lim lim' k v vals ts en e', empt_session (empt_new secure) h = (outs, e) ->
  empt_items lim e = Ok ((k, v) :: vals) ->
  empt_loop w lim (fun i k ov => ([(lim', QDel (KBytes k) false false [])], true)) e = (ts, en, e') ->
  efits (h ++ turn_calls ts) -> keys_ok secure (ekeys (h ++ turn_calls ts)) -> ekeccak_ok (h ++ turn_calls ts) -> no_collision (m_log (e_trie e')) ->
  (forall k', In k' (k :: map fst vals) -> frames secure k' < lim /\ frames secure k' < lim') ->
  ts = [Turn k (shown w v) [(lim', QDel (KBytes k) false false [])] [ANone (Ok tt)]] /\ en = LRaise RuntimeError /\ empt_items lim e' = Ok vals.
Proof. exact @loop_deletes. Qed.
Print Assumptions C216_deleting_in_a_loop_refuted.

(** Over a list of the keys it does. *)
Theorem C216_deleting_over_a_list : forall (H : Hash), (forall b, length (keccak b) = 32) ->
  forall secure h outs e lim lim' vals outs2 e2, empt_session (empt_new secure) h = (outs, e) ->
  empt_items lim e = Ok vals -> empt_session e (dels lim' vals) = (outs2, e2) ->
  efits h -> keys_ok secure (ekeys h) -> ekeccak_ok h -> no_collision (m_log (e_trie e2)) ->
  (forall k, In k (map fst vals) -> frames secure k < lim') ->
  outs2 = map (fun _ => ANone (Ok tt)) vals /\ empt_items lim e2 = Ok [].
Proof. exact @list_deletes. Qed.
Print Assumptions C216_deleting_over_a_list.

Example C216_applies : let H : Hash := toy in forall s, let e := snd (empt_session (empt_new s) three) in
  let r := empt_loop OKeys 100 (fun i k ov => ([(100, QDel (KBytes k) false false [])], true)) e in
  ok_session s (three ++ turn_calls (fst (fst r))) /\ no_collision (m_log (e_trie (snd r))) /\
  empt_items 100 (snd r) = Ok [(bs "dog", VObj true true (bs "puppy")); (bs "doge", VBytes (bs "coin"))].
Proof.
  intros H s e r. split; [apply ok_session_b; destruct s; vm_compute; reflexivity|]. split; [apply no_collision_b_ok; destruct s; vm_compute; reflexivity|].
  destruct s; vm_compute; reflexivity.
Qed.
