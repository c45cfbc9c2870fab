(** Concrete sessions of calls on EMPT and SparseEMPT objects.  Tests, not proofs. *)
From Coq Require Import List Bool Arith NArith String Lia.
From Verif Require Import Base BaseProofs Keccak KeccakProofs NibblePath ProofObj Mpt Spec SpecEmpt Examples Empt EmptPy SpecEvery.
Import ListNotations.
#[local] Instance K : Hash := toy.
Local Notation k s := (KBytes (bs s)).
Local Notation v s := (VBytes (bs s)).

(** Storing, a write that fails in the data storage, one that fails in the trie storage, a removal that fails in the trie storage,
    keys and values of wrong types, and all readings in between. *)
Definition loud : list (nat * ecmd) :=
  [(100, QPut (k "do") (v "verb") [] false); (100, QPut (k "dog") (VObj true true (bs "puppy")) [] false);
   (100, QPut (k "doge") (v "coin") [] true); (100, QGet (k "doge")); (100, QIn (k "doge")); (100, QDel (k "doge") false false []);
   (100, QPut (k "do") (v "noun") [] true); (100, QGet (k "do")); (100, QRef (k "do")); (100, QItems);
   (100, QPut KOther (v "x") [] false); (100, QPut KOther (VObj false false []) [] false); (100, QPut (k "a") (VBytearray []) [] false);
   (100, QPut (k "horse") (v "stallion") [false; true] false); (100, QDel (k "dog") false false [true]); (100, QKeys);
   (100, QPop (k "dog") (Some (v "none"))); (100, QPop (k "cat") None); (100, QPut (k "do") (v "verb") [] false);
   (100, QSetDefault (k "do") (v "y")); (100, QSetDefault (k "hen") (v "egg")); (1, QGet (k "hen")); (100, QPopItem); (100, QValues);
   (100, QClear); (100, QLen); (100, QRef (k "do")); (100, QPopItem)].
(** Nothing fails in the storages. *)
Definition quiet : list (nat * ecmd) :=
  [(100, QPut (k "do") (v "verb") [] false); (100, QPut (k "dog") (VObj true true (bs "puppy")) [] false);
   (100, QPut (k "doge") (v "coin") [] false); (100, QPut (k "do") (v "noun") [] false); (100, QGet (k "do")); (100, QRef (k "d"));
   (100, QDel (k "dog") false false []); (100, QDel (k "dog") false false []); (100, QItems); (100, QPop (k "doge") None); (100, QIn (k "doge"))].
(** The same content by another way. *)
Definition quiet2 : list (nat * ecmd) := [(100, QSetDefault (k "do") (v "noun")); (100, QPut (k "x") (v "y") [] false); (100, QPop (k "x") None)].

Ltac in_list := repeat match goal with F : _ \/ _ |- _ => destruct F as [F|F] | F : False |- _ => destruct F end.
Definition fits_b (h : list (nat * ecmd)) : bool :=
  forallb (fun x => (blen x <? 2 ^ 57)%N) (ekeys h) && forallb (fun x => (blen (snd x) <? 2 ^ 57)%N) (etexts h).
Lemma fits_b_ok : forall h, fits_b h = true -> efits h.
Proof.
  intros h E. apply andb_prop in E. destruct E as [E1 E2]. rewrite forallb_forall in E1, E2. split.
  - intros x Hx. apply N.ltb_lt. auto.
  - intros x b Hx. apply N.ltb_lt. apply (E2 (x, b)). exact Hx.
Qed.
Definition ok_session (s : bool) (h : list (nat * ecmd)) : Prop :=
  efits h /\ keys_ok s (ekeys h) /\ ekeccak_ok h /\ no_collision (m_log (e_trie (snd (empt_session (empt_new s) h)))).
Lemma ok_session_b : forall s h, fits_b h && no_collision_b (ekeys h) && no_collision_b (map (fun kb => fst kb ++ snd kb) (etexts h)) &&
  no_collision_b (m_log (e_trie (snd (empt_session (empt_new s) h)))) = true -> ok_session s h.
Proof.
  intros s h E. rewrite !andb_true_iff in E. destruct E as (((E1 & E2) & E3) & E4).
  split; [apply fits_b_ok; assumption|]. split; [intros _; apply no_collision_b_ok; assumption|]. split; apply no_collision_b_ok; assumption.
Qed.
Lemma loud_ok : forall s, ok_session s loud.
Proof. intros s. apply ok_session_b. destruct s; vm_compute; reflexivity. Qed.
Lemma quiet_ok : forall s, ok_session s quiet.
Proof. intros s. apply ok_session_b. destruct s; vm_compute; reflexivity. Qed.
Lemma quiet2_ok : forall s, ok_session s quiet2.
Proof. intros s. apply ok_session_b. destruct s; vm_compute; reflexivity. Qed.
Definition quiet_b (s : bool) (h : list (nat * ecmd)) : bool :=
  forallb (fun c => match snd c with
                    | QPut _ _ fl df => match fl with [] => negb df | _ => false end
                    | QDel _ cf df fl => match fl with [] => negb (cf || df) | _ => false end
                    | _ => true
                    end && forallb (fun x => frames s x <? fst c) (ekeys h)) h.
Lemma quiet_b_ok : forall s h, quiet_b s h = true -> equiet s h.
Proof.
  intros s h E lim c Hin. unfold quiet_b in E. rewrite forallb_forall in E. specialize (E _ Hin). apply andb_prop in E. destruct E as [E1 E2]. split.
  - cbn [snd] in E1. destruct c; try exact I.
    + cbn [equiet1]. destruct fl, df; try discriminate; auto.
    + cbn [equiet1]. destruct fl, cf, df; try discriminate; auto.
  - rewrite forallb_forall in E2. intros x Hx. apply Nat.ltb_lt. apply E2. exact Hx.
Qed.
Lemma quiet_quiet : forall s, equiet s quiet.
Proof. intros s. apply quiet_b_ok. destruct s; vm_compute; reflexivity. Qed.

(** SparseEMPT. *)
Definition sloud : list (nat * scmd) :=
  [(100, TPut (k "do") (v "verb") []); (100, TPut (k "dog") (v "puppy") [false; true]); (100, TPut (k "doge") (v "coin") []);
   (100, TRef (k "do")); (100, TIn (k "dog")); (100, TItem (k "do")); (100, TRoot); (100, TPut KOther (v "a") []);
   (100, TPut (k "a") (VObj true true []) []); (100, TPut (k "a") (VObj false false []) []); (100, TPut (k "a") (VBytearray []) []);
   (100, TDel (k "doge") false [true]); (100, TDel (k "doge") true []); (100, TDel (k "doge") false []); (100, TDel (k "doge") false []);
   (1, TIn (k "do")); (100, TRef KOther)].
Definition squiet_h : list (nat * scmd) :=
  [(100, TPut (k "do") (v "verb") []); (100, TPut (k "dog") (v "puppy") []); (100, TRef (k "d")); (100, TDel (k "do") false []);
   (100, TDel (k "do") false []); (100, TRef (k "dog"))].
Definition sok_session (s : bool) (h : list (nat * scmd)) : Prop :=
  sfits h /\ keys_ok s (skeys h) /\ no_collision (m_log (snd (sparse_session (sparse_new [] None s) h))).
Definition sfits_b (h : list (nat * scmd)) : bool :=
  forallb (fun x => (blen x <? 2 ^ 57)%N) (skeys h) &&
  forallb (fun c => match snd c with TPut _ x _ => (blen (val_bytes x) <? 2 ^ 57)%N | _ => true end) h.
Lemma sok_session_b : forall s h, sfits_b h && no_collision_b (skeys h) &&
  no_collision_b (m_log (snd (sparse_session (sparse_new [] None s) h))) = true -> sok_session s h.
Proof.
  intros s h E. unfold sfits_b in E. rewrite !andb_true_iff, !forallb_forall in E. destruct E as (((E1 & E2) & E3) & E4).
  split; [split|split; [intros _|]; apply no_collision_b_ok; assumption].
  - intros x Hx. apply N.ltb_lt. auto.
  - intros lim c Hc. specialize (E2 _ Hc). cbn [snd] in E2.
    destruct c; try exact I. apply N.ltb_lt. assumption.
Qed.
Lemma sloud_ok : forall s, sok_session s sloud.
Proof. intros s. apply sok_session_b. destruct s; vm_compute; reflexivity. Qed.
Lemma squiet_ok : forall s, sok_session s squiet_h.
Proof. intros s. apply sok_session_b. destruct s; vm_compute; reflexivity. Qed.
Lemma squiet_quiet : forall s, squiet s squiet_h.
Proof.
  intros s lim c Hin. split.
  - cbn [In squiet_h] in Hin. in_list; injection Hin as <- <-; cbn [squiet1]; auto.
  - assert (lim = 100) by (cbn [In squiet_h] in Hin; in_list; injection Hin as <- <-; reflexivity). subst lim.
    intros x Hx. cbn in Hx. in_list; subst x; destruct s; cbn; lia.
Qed.
