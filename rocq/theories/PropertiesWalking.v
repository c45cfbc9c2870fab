(** Properties of deletes and of iterating over an EMPT while other threads use it (C266 to C269).  Theorem statements only; proofs are in
    ETallyProofs.v and WalkingMain.v. *)
From Coq Require Import String List Bool Arith NArith Lia.
From Verif Require Import Base BaseProofs Keccak NibblePath ProofObj Mpt Empt Spec Examples Threads SpecThreads EThreads SpecEThreads EThreadsExamples SpecETally ETallyProofs
  Walking SpecWalking WalkingProofs WalkingMain WalkingExamples.
Import ListNotations.

(** C266: a key is deleted at most as often as it was put; a key that was put is there unless a delete of it was made; the value of a key was put; *)
Theorem C266_tallies : forall (H : Hash) secure ms k, let w := erun secure (epool_new secure) ms in
  tally (dels_k k) ms w + has w k <= tally (puts_k k) ms w /\
  (0 < tally (puts_k k) ms w -> has w k = 1 \/ exists lim, In (lim, XDel k) (ecalls_of ms)) /\
  (forall v, dget (x_data w) k = Some v -> exists i lim, nth_error (ecalls_of ms) i = Some (lim, XPut k v) /\ eanswer_of w i = Some (RNone (Ok tt))).
Proof. exact @tallies. Qed.
Print Assumptions C266_tallies.

(** a get returns a value that a call which had returned at a moment of the get put for that key. *)
Theorem C266_got_was_put : forall (H : Hash) secure ms i lim k v, nth_error (ecalls_of ms) i = Some (lim, XGet k) ->
  eanswer_of (erun secure (epool_new secure) ms) i = Some (RVal (Ok v)) ->
  exists m e j lim', eduring secure ms i m e /\ nth_error (ecalls_of m) j = Some (lim', XPut k v) /\ eanswer_of (erun secure (epool_new secure) m) j = Some (RNone (Ok tt)).
Proof. exact @got_put. Qed.
Print Assumptions C266_got_was_put.

Example C266_applies : let H : Hash := toy in forall s,
  skipn 3 (xanswers s three) = [Some (RNone (Ok tt)); Some (RNone (Err KeyError)); Some (RNone (Err KeyError))] /\
  tally (dels_k (bs "dog")) three (xrun s three) = 1 /\ tally (puts_k (bs "dog")) three (xrun s three) = 1 /\
  nth_error (ecalls_of xcrowd) 4 = Some (100, XGet (bs "dog")) /\ eanswer_of (xrun s xcrowd) 4 = Some (RVal (Ok (VBytes (bs "puppy")))).
Proof.
  intros H s. split; [exact (proj1 (three_says s))|]. split; [exact (proj1 (proj2 (three_says s)))|]. split; [exact (proj1 (proj2 (proj2 (three_says s))))|].
  split; destruct s; vm_compute; reflexivity.
Qed.

(** C267: every key an iterator gives was in the EMPT, put by a call that had returned, at a moment when the iterator was under way; it gives no more
    keys than there were at some such moment; while no key is added or removed, it gives the keys in their order, ends, and does not raise. *)
Theorem C267_iterators : forall (H : Hash) secure us j p, nth_error (u_walks (urun secure (tour_new secure) us)) j = Some p ->
  (forall k, In k (given_of p) -> exists u, under_way secure us j u /\ In k (keys_at secure u) /\
     exists i lim v, nth_error (ecalls_of (umoves u)) i = Some (lim, XPut k v) /\ eanswer_of (erun secure (epool_new secure) (umoves u)) i = Some (RNone (Ok tt))) /\
  (exists u, under_way secure us j u /\ length (given_of p) <= length (keys_at secure u)) /\
  (calm_keys secure us j -> exists u, under_way secure us j u /\
     match p with WAt _ _ g => g = firstn (length g) (keys_at secure u) | WEnd g => g = keys_at secure u | WFail _ => False end).
Proof. exact @walk_beside. Qed.
Print Assumptions C267_iterators.

Example C267_applies : let H : Hash := toy in forall s, calm_keys s calmly 0 /\ walk_of s calmly 0 = Some (WEnd [bs "do"; bs "dog"; bs "horse"]) /\
  walk_of s swapped 0 = Some (WFail [bs "do"; bs "cat"; bs "cat"]).
Proof. intros H s. split; [exact (calmly_calm s)|]. split; [exact (calmly_says s)|exact (proj1 (swapped_says s))]. Qed.

(** C268: refuted that a loop over the keys is not disturbed by other threads: whatever they do, a different number of keys raises RuntimeError at the next
    step; *)
Theorem C268_resized_refuted : forall (H : Hash) secure us j n c g b pick, nth_error (u_walks (urun secure (tour_new secure) us)) j = Some (WAt n c g) ->
  length (keys_at secure (us ++ map UMove b)) <> n ->
  nth_error (u_walks (urun secure (tour_new secure) (us ++ map UMove b ++ [UNext j pick]))) j = Some (WFail g).
Proof. exact @walk_resized. Qed.
Print Assumptions C268_resized_refuted.

(** every update with a new key does that. *)
Theorem C268_update_refuted : forall (H : Hash) secure, (forall b, length (keccak b) = 32) -> forall us j c g lim k v m pick,
  let e := eobject secure (erun secure (epool_new secure) (umoves us)) in let i := length (ecalls_of (umoves us)) in
  nth_error (u_walks (urun secure (tour_new secure) us)) j = Some (WAt (length (keys_at secure us)) c g) -> 0 < lim -> 6 * lim + 14 <= m ->
  ~ In k (keys_at secure us) -> fst (empt_update lim [] false e k v) = Ok tt ->
  nth_error (u_walks (urun secure (tour_new secure) (us ++ map UMove (ECall lim (XPut k v) :: repeat (EGo i) m) ++ [UNext j pick]))) j = Some (WFail g).
Proof. exact @walk_put. Qed.
Print Assumptions C268_update_refuted.

Example C268_applies : let H : Hash := toy in forall s,
  walk_of s listing 0 = Some (WAt (length (keys_at s listing)) true [bs "do"]) /\ ~ In (bs "cat") (keys_at s listing) /\ length (ecalls_of (umoves listing)) = 3 /\
  fst (empt_update 100 [] false (eobject s (xrun s (umoves listing))) (bs "cat") (VBytes (bs "tom"))) = Ok tt /\ walk_of s added 0 = Some (WFail [bs "do"]).
Proof.
  intros H s. split; [destruct s; vm_compute; reflexivity|]. split.
  - assert (E : keys_at s listing = [bs "do"; bs "dog"; bs "horse"]) by (destruct s; vm_compute; reflexivity). rewrite E. intros [F|[F|[F|[]]]]; vm_compute in F; discriminate.
  - split; [destruct s; vm_compute; reflexivity|]. split; [destruct s; vm_compute; reflexivity|exact (proj2 (added_says s))].
Qed.

(** C269: an iterator changes nothing for the other threads; *)
Theorem C269_others_unchanged : forall (H : Hash) secure us, u_pool (urun secure (tour_new secure) us) = erun secure (epool_new secure) (umoves us).
Proof. exact @walks_apart. Qed.
Print Assumptions C269_others_unchanged.

(** it ends, whatever they do, when it is asked once more than there were keys when it was made. *)
Theorem C269_ends : forall (H : Hash) secure u1 u2, S (length (keys_at secure u1)) <= unexts (uiters u1) u2 ->
  exists g, nth_error (u_walks (urun secure (tour_new secure) (u1 ++ UIter :: u2))) (uiters u1) = Some (WEnd g) \/
            nth_error (u_walks (urun secure (tour_new secure) (u1 ++ UIter :: u2))) (uiters u1) = Some (WFail g).
Proof. exact @walk_ends. Qed.
Print Assumptions C269_ends.

(** [len] counts the keys at a moment; each of them was put. *)
Theorem C269_len : forall (H : Hash) secure us, let w := urun secure (tour_new secure) us in u_len w = length (keys_at secure us) /\ NoDup (keys_at secure us) /\ (forall k, In k (keys_at secure us) <-> has (u_pool w) k = 1) /\ (forall k, In k (keys_at secure us) -> 0 < tally (puts_k k) (umoves us) (u_pool w)).
Proof. exact @len_keys. Qed.
Print Assumptions C269_len.

Example C269_applies : let H : Hash := toy in forall s, let u1 := map UMove xbase in let u2 := skipn (S (length u1)) calmly in
  calmly = u1 ++ UIter :: u2 /\ S (length (keys_at s u1)) = 4 /\ unexts (uiters u1) u2 = 4 /\ u_len (tour_of s calmly) = 3.
Proof.
  intros H s u1 u2. split; [vm_compute; reflexivity|]. split; [destruct s; vm_compute; reflexivity|]. split; [vm_compute; reflexivity|destruct s; vm_compute; reflexivity].
Qed.
