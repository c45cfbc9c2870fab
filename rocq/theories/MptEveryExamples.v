(** Concrete sessions of calls on MPT objects.  Tests, not proofs. *)
From Coq Require Import List Bool Arith NArith String Lia.
From Verif Require Import Base BaseProofs Keccak KeccakProofs NibblePath ProofObj Mpt Spec Examples MptPy SpecMptEvery.
Import ListNotations.
#[local] Instance K : Hash := toy.
Local Notation b s := (bs s).

(** Calls on a new trie, updates and removals of which some fail in the storage or for want of frames, proofs, and calls on the emptied trie. *)
Definition gloud : list (nat * gcmd) :=
  [(100, GRoot); (100, GGet (b "do")); (100, GIn (b "do")); (100, GDel (b "do") [true]); (100, GPoi (b "now") (b "do")); (100, GPoe (b "now") (b "do"));
   (100, GPut (b "do") (b "verb") []); (100, GPut (b "dog") (b "puppy") []); (100, GPut (b "doge") (b "coin") [false; true]);
   (1, GPut (b "dog") (b "cat") []); (100, GPut (b "horse") (b "stallion") []); (100, GGet (b "dog")); (100, GGet (b "doge")); (1, GGet (b "dog"));
   (100, GIn (b "dogs")); (100, GPoi (b "now") (b "dog")); (100, GPoi (b "now") (b "doge")); (100, GPoe (b "now") (b "hound")); (100, GPoe (b "now") (b "dog"));
   (100, GDel (b "doge") []); (100, GDel (b "dog") [true]); (100, GDel (b "dog") []); (100, GDel (b "do") []); (100, GDel (b "horse") []);
   (100, GRoot); (100, GGet (b "do")); (100, GDel (b "do") []); (100, GPoi (b "now") (b "do"))].
(** Nothing fails in the storage. *)
Definition gquiet_h : list (nat * gcmd) :=
  [(100, GPut (b "do") (b "verb") []); (100, GPut (b "dog") (b "puppy") []); (100, GPut (b "horse") (b "stallion") []); (100, GGet (b "dog"));
   (100, GGet (b "d")); (100, GGet (b "h")); (100, GPoi (b "now") (b "h")); (100, GPoe (b "now") (b "hound")); (100, GDel (b "dog") []); (100, GRootHash)].

(** Empty values in secure mode. *)
Definition gvoid : list (nat * gcmd) :=
  [(100, GPut (b "dog") [] []); (100, GGet (b "dog")); (100, GIn (b "dog")); (100, GPut (b "doge") [] []); (100, GPut (b "do") (b "verb") []);
   (100, GGet (b "dog")); (100, GPut (b "do") [] []); (100, GGet (b "do")); (100, GDel (b "dog") []); (100, GIn (b "dog")); (100, GGet (b "doge"))].

Definition gfits_b (s : bool) (h : list (nat * gcmd)) : bool :=
  forallb (fun x => (blen x <? 2 ^ 59)%N) (gkeys h) &&
  forallb (fun c => match snd c with GPut _ v _ => (s || negb (bytes_eqb v [])) && (blen v <? 2 ^ 59)%N | _ => true end) h.
Lemma gfits_b_ok : forall s h, gfits_b s h = true -> gfits s h.
Proof.
  intros s h E. unfold gfits_b in E. rewrite andb_true_iff, !forallb_forall in E. destruct E as [E1 E2]. split.
  - intros x Hx. apply N.ltb_lt. auto.
  - intros lim c Hx. specialize (E2 _ Hx). cbn [snd] in E2. destruct c; try exact I. cbn [gfits1]. rewrite andb_true_iff in E2. destruct E2 as [E2 E3].
    split; [intros -> ->; discriminate|apply N.ltb_lt; exact E3].
Qed.
Definition gok (s : bool) (h : list (nat * gcmd)) : Prop :=
  gfits s h /\ keys_ok s (gkeys h) /\ no_collision (m_log (snd (mpt_session (mpt_new s) h))).
Lemma gok_b : forall s h, gfits_b s h && no_collision_b (gkeys h) && no_collision_b (m_log (snd (mpt_session (mpt_new s) h))) = true -> gok s h.
Proof.
  intros s h E. rewrite !andb_true_iff in E. destruct E as ((E1 & E2) & E3).
  split; [apply gfits_b_ok; assumption|]. split; [intros _; apply no_collision_b_ok; assumption|apply no_collision_b_ok; assumption].
Qed.
Lemma gloud_ok : forall s, gok s gloud.
Proof. intros s. apply gok_b. destruct s; vm_compute; reflexivity. Qed.
Lemma gquiet_ok : forall s, gok s gquiet_h.
Proof. intros s. apply gok_b. destruct s; vm_compute; reflexivity. Qed.
Lemma gquiet_quiet : forall s, gquiet s gquiet_h.
Proof.
  intros s lim c Hin. assert (E : lim = 100) by (cbn [In gquiet_h] in Hin; repeat destruct Hin as [Hin|Hin]; [congruence..|contradiction]). split.
  - cbn [In gquiet_h] in Hin. repeat destruct Hin as [Hin|Hin]; try contradiction; injection Hin as <- <-; exact eq_refl || exact I.
  - intros k Hk. subst lim. destruct s; [cbn; lia|].
    assert (F : forallb (fun k => frames false k <? 100) (gkeys gquiet_h) = true) by (vm_compute; reflexivity).
    rewrite forallb_forall in F. apply Nat.ltb_lt. auto.
Qed.

Lemma gvoid_ok : gok true gvoid.
Proof. apply gok_b. vm_compute. reflexivity. Qed.

(** An answer without the texts of a proof: their number instead. *)
Definition brief (o : gout) : gout :=
  match o with
  | OProof (Ok p) => OVal (Ok (repeat x00 (List.length (pf_proof p))))
  | o => o
  end.
