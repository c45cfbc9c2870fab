(** Concrete histories for C182. *)
From Coq Require Import String List Bool Arith NArith.
From Verif Require Import Base BaseProofs Keccak KeccakProofs Mpt Spec SpecLoose Examples LooseProofs LooseThms.
Import ListNotations.
#[local] Instance K : Hash := toy.

Definition loose_hist : list call :=
  [put "dog" ""; put "do" "x"; Call (Put (bs "doge") (bs "z")) 2 []; put "doge" "y"; del "dog"; put "do" ""; put "cat" ""].
Definition loose_run_of (h : list call) := outcomes (mpt_new false) h.
Definition loose_trie : mpt := snd (loose_run_of loose_hist).

Lemma loose_log : no_collision (m_log loose_trie).
Proof. apply no_collision_b_ok. vm_compute. reflexivity. Qed.
Lemma loose_sized : sized loose_hist.
Proof. unfold sized, loose_hist. repeat constructor. Qed.
Lemma loose_results : fst (loose_run_of loose_hist) =
  [Ok tt; Ok tt; Err RecursionError; Ok tt; Err AssertionError; Ok tt; Ok tt].
Proof. vm_compute. reflexivity. Qed.


(** Only what was put is there. *)
Lemma plain_puts : forall h d rs e, plain_run d h rs e -> forall q w, e q = Some w -> d q = Some w \/ In (Put q w) (map c_op h).
Proof.
  induction 1 as [d|d k v lim fl d1 h rs d2 T P IH|d k lim fl d1 h rs d2 Hk T P IH|d c e h rs d2 F P IH]; intros q w E; auto.
  - destruct (IH q w E) as [E1|E1]; [|right; right; exact E1].
    destruct (bytes_eqb_spec q k) as [->|Hq].
    + destruct T as (_ & _ & [[A _]|[A _]]); [|congruence]. right. left. cbn. congruence.
    + left. destruct T as (T1 & T2 & _). destruct (below_dec q k) as [B|B].
      * destruct (d q) as [[|b x]|] eqn:Eq; [rewrite (T2 q Eq B) in E1; discriminate|..];
          (rewrite T1 in E1; [congruence|exact Hq|intros [F _]; congruence]).
      * rewrite T1 in E1; [exact E1|exact Hq|tauto].
  - destruct (IH q w E) as [E1|E1]; [|right; right; exact E1]. left. rewrite T in E1. cbn in E1.
    destruct (bytes_eqb q k); [discriminate|exact E1].
  - destruct (IH q w E) as [E1|E1]; [auto|right; right; exact E1].
Qed.

Lemma answers_no : forall t d k, answers t d -> mpt_contains 100 t k = Ok false -> d k = None.
Proof.
  intros t d k A F. destruct (A 100 k) as (_ & _ & A3). rewrite F in A3.
  destruct (d k) eqn:E; [|reflexivity]. assert (G : false = true); [|discriminate]. apply A3. left. discriminate.
Qed.

Lemma loose_contents : exists d, plain_run (fun _ => None) loose_hist (fst (loose_run_of loose_hist)) d /\
  d (bs "cat") = Some [] /\ d (bs "dog") = None.
Proof.
  destruct (plain_every toy_len loose_hist (fst (loose_run_of loose_hist)) loose_trie) as (d & P & A).
  - exact (surjective_pairing (loose_run_of loose_hist)).
  - exact loose_sized.
  - exact loose_log.
  - exists d. split; [exact P|]. split.
    + destruct (A 100 (bs "cat")) as (_ & A2 & _).
      assert (F : mpt_get 100 loose_trie (bs "cat") = Ok []) by (vm_compute; reflexivity).
      destruct (A2 _ F) as [G|(_ & x & r & w & G & _)]; [exact G|]. exfalso.
      destruct (plain_puts _ _ _ _ P _ _ G) as [C|C]; [discriminate|]. vm_compute in C.
      repeat destruct C as [C|C]; try discriminate C. exact C.
    + apply (answers_no loose_trie); [exact A|]. vm_compute. reflexivity.
Qed.
