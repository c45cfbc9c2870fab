(** Concrete schedules of iterating over an EMPT and of deletes by several threads.  Tests, not proofs. *)
From Coq Require Import String List Bool Arith NArith Lia.
From Verif Require Import Base BaseProofs Keccak KeccakProofs NibblePath ProofObj Mpt Empt Spec Examples Threads SpecThreads EThreads SpecEThreads EThreadsExamples SpecETally Walking SpecWalking WalkingProofs.
Import ListNotations.
#[local] Instance K : Hash := toy.
Local Notation b s := (bs s).
Local Notation vb s := (VBytes (bs s)).
Notation tour_of s us := (urun s (tour_new s) us).
Notation walk_of s us j := (nth_error (u_walks (urun s (tour_new s) us)) j).

(** Three threads delete one key. *)
Definition three : list emove := xbase ++ [ECall 100 (XDel (b "dog")); ECall 100 (XDel (b "dog")); ECall 100 (XDel (b "dog"))] ++ List.concat (repeat [EGo 3; EGo 4; EGo 5] 60).
Example three_says : forall s, skipn 3 (xanswers s three) = [Some (RNone (Ok tt)); Some (RNone (Err KeyError)); Some (RNone (Err KeyError))] /\
  tally (dels_k (b "dog")) three (xrun s three) = 1 /\ tally (puts_k (b "dog")) three (xrun s three) = 1 /\ has (xrun s three) (b "dog") = 0 /\ has (xrun s three) (b "do") = 1.
Proof. intros s. destruct s; vm_compute; repeat split; reflexivity. Qed.

(** A value changes while the keys are listed. *)
Definition calmly : list umove := map UMove xbase ++ [UIter; UNext 0 0; UMove (ECall 100 (XPut (b "horse") (vb "mare")))] ++ List.concat (repeat [UMove (EGo 3); UMove (EGo 3)] 20) ++
  [UNext 0 0; UNext 0 0; UNext 0 0].
Example calmly_says : forall s, walk_of s calmly 0 = Some (WEnd [b "do"; b "dog"; b "horse"]).
Proof. intros s. destruct s; vm_compute; reflexivity. Qed.
Fixpoint calm_b (s : bool) (w : tour) (us : list umove) (j : nat) (ks : list bytes) : bool :=
  match nth_error (u_walks w) j with Some (WAt _ _ _) => same_keys (ukeys (u_pool w)) ks | _ => true end && match us with [] => true | m :: us => calm_b s (ugo s w m) us j ks end.
Lemma calm_b_at : forall s j ks u w u2, calm_b s w (u ++ u2) j ks = true ->
  match nth_error (u_walks (urun s w u)) j with Some (WAt _ _ _) => same_keys (ukeys (u_pool (urun s w u))) ks | _ => true end = true.
Proof.
  intros s j ks u. induction u as [|m u IH]; intros w u2 E.
  - destruct u2; apply andb_true_iff in E as [E _]; exact E.
  - cbn [app] in E. apply andb_true_iff in E as [_ E]. exact (IH _ _ E).
Qed.
Lemma calm_b_ok : forall s us j ks, calm_b s (tour_new s) us j ks = true -> calm_keys s us j.
Proof.
  intros s us j ks E. assert (A : forall u, under_way s us j u -> keys_at s u = ks).
  { intros u (u2 & n & c & g & -> & W). apply calm_b_at in E. rewrite W in E. rewrite keys_now in E. apply same_keys_ok, E. }
  intros u u' U U'. rewrite (A _ U), (A _ U'). reflexivity.
Qed.
Lemma calmly_calm : forall s, calm_keys s calmly 0.
Proof. intros s. apply (calm_b_ok s calmly 0 [b "do"; b "dog"; b "horse"]). destruct s; vm_compute; reflexivity. Qed.
(** A key is deleted and another one added while the keys are listed; a key is added. *)
Definition swapped : list umove := map UMove xbase ++ [UIter; UNext 0 0] ++ map UMove (xfull 3 (XDel (b "dog")) ++ xfull 4 (XPut (b "cat") (vb "tom"))) ++ [UNext 0 2; UNext 0 2; UNext 0 2].
Example swapped_says : forall s, walk_of s swapped 0 = Some (WFail [b "do"; b "cat"; b "cat"]) /\ walk_of s (firstn (List.length swapped - 1) swapped) 0 = Some (WAt 3 false [b "do"; b "cat"; b "cat"]).
Proof. intros s. split; destruct s; vm_compute; reflexivity. Qed.
Definition listing : list umove := map UMove xbase ++ [UIter; UNext 0 0].
Definition added : list umove := listing ++ map UMove (ECall 100 (XPut (b "cat") (vb "tom")) :: repeat (EGo 3) 614) ++ [UNext 0 0].
Example added_says : forall s, walk_of s listing 0 = Some (WAt 3 true [b "do"]) /\ walk_of s added 0 = Some (WFail [b "do"]).
Proof. intros s. split; destruct s; vm_compute; reflexivity. Qed.
