(** Digest lengths of the executable hashes, and a checker for [no_collision]. *)
From Coq Require Import List Bool Arith NArith Lia.
From Verif Require Import Base BaseProofs Keccak Spec.
Import ListNotations.

Lemma keccak_round_len : forall s k, length (keccak_round s k) = 25.
Proof. reflexivity. Qed.
Lemma fold_round_len : forall l s, length s = 25 -> length (fold_left keccak_round l s) = 25.
Proof. induction l as [|k l IH]; intros s Hs; auto. cbn [fold_left]. apply IH. apply keccak_round_len. Qed.
Lemma xor_into_len : forall s l, length (xor_into s l) = length s.
Proof. induction s as [|a s IH]; destruct l; cbn; auto. Qed.
Lemma keccak_f_len : forall s, length s = 25 -> length (keccak_f s) = 25.
Proof. intros. unfold keccak_f. apply fold_round_len. auto. Qed.
Lemma absorb_len : forall fuel s b, length s = 25 -> length (absorb fuel s b) = 25.
Proof.
  induction fuel as [|f IH]; intros s b Hs; cbn [absorb]; auto.
  destruct (_ <? _); [|apply IH]; apply keccak_f_len; rewrite xor_into_len; auto.
Qed.
Lemma le_bytes_len : forall n x, length (le_bytes n x) = n.
Proof. induction n; cbn; auto. Qed.
Lemma flat_map_len : forall (A B : Type) (f : A -> list B) n l, (forall x, length (f x) = n) ->
  length (flat_map f l) = n * length l.
Proof. intros A B f n l Hf. induction l; cbn; [lia|]. rewrite app_length, Hf, IHl. lia. Qed.

Lemma keccak256_len : forall b, length (keccak256 b) = 32.
Proof.
  intros b. unfold keccak256. rewrite (flat_map_len _ _ _ 8) by (apply le_bytes_len).
  rewrite firstn_length, absorb_len by reflexivity. reflexivity.
Qed.

Lemma sha_round_len : forall st kw, length st = 8 -> length (sha_round st kw) = 8.
Proof.
  intros st kw Hs. unfold sha_round. do 8 (destruct st as [|? st]; [discriminate|]).
  destruct st; [reflexivity|discriminate].
Qed.
Lemma fold_sha_len : forall l st, length st = 8 -> length (fold_left sha_round l st) = 8.
Proof. induction l as [|k l IH]; intros st Hs; auto. cbn [fold_left]. apply IH. apply sha_round_len. auto. Qed.
Lemma sha_block_len : forall st b, length st = 8 -> length (sha_block st b) = 8.
Proof.
  intros st b Hs. unfold sha_block. rewrite map_length, combine_length, fold_sha_len, Hs by auto. reflexivity.
Qed.
Lemma sha_blocks_len : forall fuel st b, length st = 8 -> length (sha_blocks fuel st b) = 8.
Proof.
  induction fuel as [|f IH]; intros st b Hs; cbn [sha_blocks]; auto. destruct b; auto.
  apply IH. apply sha_block_len. auto.
Qed.
Lemma sha256_len : forall b, length (sha256 b) = 32.
Proof.
  intros b. unfold sha256. rewrite (flat_map_len _ _ _ 4).
  - rewrite sha_blocks_len; reflexivity.
  - intros x. unfold be_fixed. rewrite rev_length. apply le_bytes_len.
Qed.

(** Decision procedure: pairwise comparison of digests. *)
Definition no_collision_b {H : Hash} (l : list bytes) : bool :=
  let hs := map (fun b => (b, keccak b)) l in
  forallb (fun x => forallb (fun y => bytes_eqb (fst x) (fst y) || negb (bytes_eqb (snd x) (snd y))) hs) hs.

Lemma no_collision_b_ok : forall {H : Hash} l, no_collision_b l = true -> no_collision l.
Proof.
  intros H l E a b Ha Hb Ek. unfold no_collision_b in E. rewrite forallb_forall in E.
  specialize (E (a, keccak a) (in_map (fun b => (b, keccak b)) _ _ Ha)). cbn [fst snd] in E.
  rewrite forallb_forall in E. specialize (E (b, keccak b) (in_map (fun b => (b, keccak b)) _ _ Hb)).
  cbn [fst snd] in E. rewrite Ek, bytes_eqb_refl in E. cbn [negb] in E. rewrite orb_false_r in E.
  destruct (bytes_eqb_spec a b); [auto|discriminate].
Qed.

(** Decision procedure for [ok_history]. *)
Definition ok_op_b (o : op) : bool :=
  (blen (op_key o) <? 2 ^ 59)%N && match o with Put _ v => negb (bytes_eqb v []) && (blen v <? 2 ^ 59)%N | Del _ => true end.
Lemma ok_op_b_ok : forall s o, ok_op_b o = true -> ok_op s o.
Proof.
  intros s o E. unfold ok_op_b in E. apply andb_prop in E. destruct E as [E1 E2]. apply N.ltb_lt in E1.
  split; auto. destruct o; auto. apply andb_prop in E2. destruct E2 as [E2 E3]. apply N.ltb_lt in E3.
  split; auto. intros _ ->. discriminate.
Qed.
Lemma ok_history_b_ok : forall s h, forallb (fun c => ok_op_b (c_op c)) h = true -> ok_history s h.
Proof.
  intros s h E. rewrite forallb_forall in E. apply Forall_forall. intros c Hc. apply ok_op_b_ok. auto.
Qed.
