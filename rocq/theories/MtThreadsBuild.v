(** One thread makes the tree while others put values. *)
From Coq Require Import List Bool Arith NArith ZArith Lia.
From Verif Require Import Base BaseProofs ProofObj MptEq MerkleTree SpecMt MtProofs ThreadsPool EThreadsRun MtThreads SpecMtThreads MtThreadsRun MtThreadsSerial.
Import ListNotations.

Section S.
Context {H : Hash}.

(** ** Levels *)
Inductive climbs (l : list bytes) : list (list bytes) -> Prop :=
| climbs_one : climbs l [next_level l]
| climbs_more : forall x u, climbs l (x :: u) -> 2 <= length x -> climbs l (next_level x :: x :: u).
Lemma climbs_top : forall l u, climbs l u -> l <> [] -> exists x u', u = x :: u' /\ x <> [] /\ merkle_root x = merkle_root l.
Proof.
  induction 1 as [|x u Hc IH Hx]; intros Hl.
  - exists (next_level l), []. split; [reflexivity|]. split; [apply next_ne, Hl|apply merkle_root_next, Hl].
  - destruct (IH Hl) as (x' & u' & E & Hn & Er). injection E as <- <-. exists (next_level x), (x :: u). split; [reflexivity|]. split; [apply next_ne, Hn|]. rewrite merkle_root_next by exact Hn. exact Er.
Qed.
Lemma climbs_root : forall l x u, climbs l (x :: u) -> l <> [] -> length x <= 1 -> x = [merkle_root l].
Proof.
  intros l x u Hc Hl L. destruct (climbs_top _ _ Hc Hl) as (x' & u' & E & Hn & Er). injection E as <- <-. destruct x as [|a [|b x]]; [congruence| |cbn in L; lia]. rewrite <- Er. reflexivity.
Qed.

Lemma snapshot_more : forall ls x n l, snapshot ls n l -> snapshot (ls ++ [x]) n l.
Proof.
  intros ls x n l [[L ->]|(O & j & y & L & E & ->)].
  - left. rewrite app_length. split; [lia|]. rewrite firstn_app. replace (n - length ls) with 0 by lia. cbn [firstn]. rewrite app_nil_r. reflexivity.
  - right. split; [exact O|]. exists j, y. pose proof (nth_lt _ _ _ _ E) as Lj. split; [exact L|]. split; [rewrite nth_snoc_old by exact Lj; exact E|].
    rewrite firstn_app. replace (n - 1 - length ls) with 0 by lia. cbn [firstn]. rewrite app_nil_r. reflexivity.
Qed.
Lemma firstn_more : forall (A : Type) (ls : list A) x n, n <= length ls -> firstn n (ls ++ [x]) = firstn n ls.
Proof. intros A ls x n L. rewrite firstn_app. replace (n - length ls) with 0 by lia. cbn [firstn]. apply app_nil_r. Qed.

(** The tree is made, over leaves of which there were [n] at the moment they were counted. *)
Definition whole (lo : nat) (ls : list bytes) (u : list (list bytes)) : Prop :=
  exists n, lo <= n /\ 1 <= n /\ ((u = [] /\ n = 1 /\ ls <> []) \/
    exists l x u', length l = n /\ 2 <= n /\ snapshot ls n l /\ u = x :: u' /\ climbs l u /\ length x <= 1).
(** The tree is being made. *)
Definition half (lo : nat) (ls : list bytes) (u : list (list bytes)) : Prop :=
  (u = [] /\ ls <> []) \/ exists l n, lo <= n /\ 2 <= n /\ length l = n /\ snapshot ls n l /\ climbs l u.
Definition done_with (lo : nat) (t : mt) : Prop := (t_upper t = None /\ lo = 0) \/ exists u, t_upper t = Some u /\ whole lo (t_leaves t) u.
Definition rest (lo : nat) (t : mt) : Prop := (t_ready t = false /\ t_upper t = None) \/ (t_ready t = true /\ done_with lo t).
(** The next level is to be made over [firstn n top ++ solo]. *)
Definition pend (lo : nat) (ls : list bytes) (u : list (list bytes)) (n : nat) (solo : list bytes) : Prop :=
  let top := match u with x :: _ => x | [] => ls end in
  Nat.even n = true /\ n <= length top /\ 2 <= n + length solo /\
  (solo = [] \/ exists x j, solo = [x] /\ nth_error top j = Some x /\ n <= j) /\
  match u with [] => lo <= n + length solo | _ => firstn n top ++ solo = top end.
Definition pushed (lo : nat) (ls : list bytes) (u : list (list bytes)) (new : list bytes) : Prop :=
  match u with
  | [] => exists l n, lo <= n /\ 2 <= n /\ length l = n /\ snapshot ls n l /\ new = next_level l
  | x :: _ => 2 <= length x /\ new = next_level x
  end.
Definition answered (lo : nat) (ls : list bytes) (r : result bytes) : Prop :=
  match r with
  | Ok r => exists n l, lo <= n /\ 1 <= n /\ snapshot ls n l /\ length l = n /\ r = to_hex (merkle_root l)
  | Err e => e = ValueError /\ lo = 0
  end.
Definition sound (lo : nat) (ls : list bytes) (o : mtout) : Prop :=
  match o with YBytes r => answered lo ls r | YProof (Ok p) => answered lo ls (Ok (pf_root p)) | _ => True end.
Definition top_len (ls : list bytes) (u : list (list bytes)) : nat := length (match u with x :: _ => x | [] => ls end).

Definition inv (lo : nat) (t : mt) (p : mpc) : Prop :=
  let ls := t_leaves t in
  lo <= length ls /\
  match p with
  | CDone _ => rest lo t
  | CPut _ | CCount | CLeaf _ => False
  | CBegin _ | CAny _ => done_with 0 t
  | CBase _ => ls <> []
  | CWhile _ => exists u, t_upper t = Some u /\ half lo ls u
  | CWhile2 _ u => t_upper t = Some u /\ half lo ls u
  | CLen _ => exists u, t_upper t = Some u /\ half lo ls u /\ 2 <= top_len ls u
  | CLen2 _ u => t_upper t = Some u /\ half lo ls u /\ 2 <= top_len ls u
  | CSolo _ n => exists u, t_upper t = Some u /\ half lo ls u /\ Nat.odd n = true /\ 2 <= n /\ n <= top_len ls u /\ match u with [] => lo <= n | _ => n = top_len ls u end
  | CSolo2 _ n u => t_upper t = Some u /\ half lo ls u /\ Nat.odd n = true /\ 2 <= n /\ n <= top_len ls u /\ match u with [] => lo <= n | _ => n = top_len ls u end
  | CFst _ n solo => exists u, t_upper t = Some u /\ half lo ls u /\ pend lo ls u n solo
  | CFst2 _ n solo u => t_upper t = Some u /\ half lo ls u /\ pend lo ls u n solo
  | CSnd _ n solo l => exists u, t_upper t = Some u /\ half lo ls u /\ pend lo ls u n solo /\ l = every2 (firstn n (top_of t u))
  | CSnd2 _ n solo l u => t_upper t = Some u /\ half lo ls u /\ pend lo ls u n solo /\ l = every2 (firstn n (top_of t u))
  | CPush _ new => exists u, t_upper t = Some u /\ half lo ls u /\ pushed lo ls u new
  | CPush2 _ new u => t_upper t = Some u /\ half lo ls u /\ pushed lo ls u new
  | CEnd _ => done_with lo t
  | CReady _ => rest lo t
  | CCheck _ | CCheck2 _ => t_ready t = true /\ done_with lo t
  | CTop _ => t_ready t = true /\ exists u, t_upper t = Some u /\ whole lo ls u
  | CTop2 _ u => t_ready t = true /\ t_upper t = Some u /\ whole lo ls u
  | _ => rest lo t
  end.

(** ** Puts *)
Definition grow (t : mt) (x : bytes) : mt := mkMt (t_leaves t ++ [x]) (t_upper t) (t_ready t) (t_secure t).
Lemma whole_more : forall lo ls x u, whole lo ls u -> whole lo (ls ++ [x]) u.
Proof.
  intros lo ls x u (n & L1 & L2 & [(E1 & E2 & E3)|(l & y & u' & A1 & A2 & A3 & A4 & A5 & A6)]); exists n; split; auto; split; auto.
  - left. repeat split; auto. destruct ls; discriminate.
  - right. exists l, y, u'. repeat split; auto. apply snapshot_more, A3.
Qed.
Lemma half_more : forall lo ls x u, half lo ls u -> half lo (ls ++ [x]) u.
Proof.
  intros lo ls x u [[E1 E2]|(l & n & A1 & A2 & A3 & A4 & A5)]; [left; split; auto; destruct ls; discriminate|]. right. exists l, n. repeat split; auto. apply snapshot_more, A4.
Qed.
Lemma done_more : forall lo t x, done_with lo t -> done_with lo (grow t x).
Proof. intros lo t x [E|(u & E & W)]; [left; exact E|]. right. exists u. split; [exact E|]. apply whole_more, W. Qed.
Lemma rest_more : forall lo t x, rest lo t -> rest lo (grow t x).
Proof. intros lo t x [E|[E D]]; [left; exact E|]. right. split; [exact E|]. apply done_more, D. Qed.
Lemma top_more : forall ls x u, top_len ls u <= top_len (ls ++ [x]) u.
Proof. intros ls x [|y u]; unfold top_len; [rewrite app_length; lia|lia]. Qed.
Lemma pend_more : forall lo ls x u n solo, pend lo ls u n solo -> pend lo (ls ++ [x]) u n solo.
Proof.
  intros lo ls x [|y u] n solo P; [|exact P]. destruct P as (A1 & A2 & A3 & A4 & A5). cbn [pend]. split; [exact A1|]. split; [rewrite app_length; lia|]. split; [exact A3|]. split; [|exact A5].
  destruct A4 as [E|(z & j & E1 & E2 & E3)]; [left; exact E|]. right. exists z, j. split; [exact E1|]. split; [|exact E3]. rewrite nth_snoc_old by (eapply nth_lt, E2). exact E2.
Qed.
Lemma pushed_more : forall lo ls x u new, pushed lo ls u new -> pushed lo (ls ++ [x]) u new.
Proof.
  intros lo ls x [|y u] new P; [|exact P]. destruct P as (l & n & A1 & A2 & A3 & A4 & A5). exists l, n. repeat split; auto. apply snapshot_more, A4.
Qed.
Lemma answered_more : forall lo ls x r, answered lo ls r -> answered lo (ls ++ [x]) r.
Proof. intros lo ls x [r|e] A; [|exact A]. destruct A as (n & l & A1 & A2 & A3 & A4 & A5). exists n, l. repeat split; auto. apply snapshot_more, A3. Qed.
Lemma sound_more : forall lo ls x o, sound lo ls o -> sound lo (ls ++ [x]) o.
Proof. intros lo ls x o. destruct o as [r|n|r|[r|e]|r]; cbn [sound]; auto using answered_more. Qed.
Lemma firstn_top : forall t x u n, n <= length (top_of t u) -> firstn n (top_of (grow t x) u) = firstn n (top_of t u).
Proof. intros t x [|y u] n L; [|reflexivity]. cbn [top_of grow t_leaves]. apply firstn_more. exact L. Qed.
Lemma inv_more : forall lo t x p, inv lo t p -> inv lo (grow t x) p.
Proof.
  intros lo t x p [L I]. split; [cbn [grow t_leaves]; rewrite app_length; lia|].
  destruct p; cbn [grow t_leaves t_upper t_ready t_secure] in *; try exact I; try (apply rest_more; exact I); try (apply done_more; exact I).
  - destruct (t_leaves t); discriminate.
  - destruct I as (u & A & B). eauto using half_more.
  - destruct I as (A & B). eauto using half_more.
  - destruct I as (u & A & B & C). exists u. pose proof (top_more (t_leaves t) x u). repeat split; auto using half_more; lia.
  - destruct I as (A & B & C). pose proof (top_more (t_leaves t) x u). repeat split; auto using half_more; lia.
  - destruct I as (u & A & B & C & D & E & F). exists u. pose proof (top_more (t_leaves t) x u). repeat split; auto using half_more; try lia. destruct u; auto.
  - destruct I as (A & B & C & D & E & F). pose proof (top_more (t_leaves t) x u). repeat split; auto using half_more; try lia. destruct u; auto.
  - destruct I as (u & A & B & C). exists u. auto using half_more, pend_more.
  - destruct I as (A & B & C). auto using half_more, pend_more.
  - destruct I as (u & A & B & C & D). exists u. split; [exact A|]. split; [apply half_more, B|]. split; [apply pend_more, C|]. rewrite D. f_equal. symmetry. apply (firstn_top t x u).
    destruct C as (_ & C & _). destruct u; exact C.
  - destruct I as (A & B & C & D). split; [exact A|]. split; [apply half_more, B|]. split; [apply pend_more, C|]. rewrite D. f_equal. symmetry. apply (firstn_top t x u).
    destruct C as (_ & C & _). destruct u; exact C.
  - destruct I as (u & A & B & C). exists u. auto using half_more, pushed_more.
  - destruct I as (A & B & C). auto using half_more, pushed_more.
  - destruct I as (A & B). split; [exact A|]. apply done_more, B.
  - destruct I as (A & B). split; [exact A|]. apply done_more, B.
  - destruct I as (A & u & B & C). split; [exact A|]. eauto using whole_more.
  - destruct I as (A & B & C). auto using whole_more.
Qed.

(** ** Steps of the thread that makes the tree *)
Lemma even_snoc : forall (l : list bytes) solo n, length l = n -> Nat.even n = true -> (solo = [] \/ exists x, solo = [x]) ->
  next_level (l ++ solo) = map (fun p => keccak (fst p ++ snd p)) (combine (every2 l) (every2 (skipn 1 l))) ++ solo.
Proof.
  intros l solo n L E S0. unfold next_level. cbv zeta. rewrite app_length, L. destruct S0 as [->|[x ->]].
  - cbn [length]. rewrite Nat.add_0_r, app_nil_r. assert (O : Nat.odd n = false) by (unfold Nat.odd; rewrite E; reflexivity). rewrite O, <- L, firstn_all. reflexivity.
  - cbn [length]. assert (O : Nat.odd (n + 1) = true) by (rewrite Nat.add_1_r, Nat.odd_succ; exact E). rewrite O. rewrite last_last. replace (n + 1 - 1) with n by lia.
    rewrite firstn_app, <- L, firstn_all, Nat.sub_diag. cbn [firstn]. rewrite app_nil_r. reflexivity.
Qed.
Lemma pend_pushed : forall lo t u n solo, t_upper t = Some u -> pend lo (t_leaves t) u n solo ->
  pushed lo (t_leaves t) u (map (fun p => keccak (fst p ++ snd p)) (combine (every2 (firstn n (top_of t u))) (every2 (skipn 1 (firstn n (top_of t u))))) ++ solo).
Proof.
  intros lo t u n solo Eu (A1 & A2 & A3 & A4 & A5). fold (top_of t u) in *.
  assert (Ln : length (firstn n (top_of t u)) = n) by (rewrite firstn_length; unfold top_of in *; destruct u; lia).
  rewrite <- (even_snoc _ solo n Ln A1) by (destruct A4 as [E|(x & j & E & _)]; eauto). destruct u as [|y u].
  - cbn [pushed top_of] in *. exists (firstn n (t_leaves t) ++ solo), (n + length solo). split; [exact A5|]. split; [exact A3|]. split; [rewrite app_length, Ln; reflexivity|]. split; [|reflexivity].
    destruct A4 as [->|(x & j & -> & Ej & Lj)].
    + left. cbn [length]. rewrite Nat.add_0_r, app_nil_r. auto.
    + cbn [length]. destruct (Nat.eq_dec j n) as [->|N].
      * left. pose proof (nth_lt _ _ _ _ Ej). split; [lia|]. rewrite Nat.add_1_r. symmetry. apply firstn_snoc. exact Ej.
      * right. split; [rewrite Nat.add_1_r, Nat.odd_succ; exact A1|]. exists j, x. replace (n + 1 - 1) with n by lia. repeat split; auto. lia.
  - cbn [pushed top_of] in *. rewrite A5. split; [|reflexivity]. rewrite <- A5, app_length, Ln. exact A3.
Qed.
Lemma whole_root : forall lo t u, whole lo (t_leaves t) u -> exists x r, top_of t u = x :: r /\ answered lo (t_leaves t) (Ok (to_hex x)).
Proof.
  intros lo t u (n & L1 & L2 & [(-> & -> & E3)|(l & x & u' & A1 & A2 & A3 & -> & A5 & A6)]).
  - cbn [top_of]. destruct (t_leaves t) as [|a ls]; [congruence|]. exists a, ls. split; [reflexivity|]. exists 1, [a]. repeat split; auto. left. cbn. split; [lia|reflexivity].
  - assert (Hl : l <> []) by (destruct l; [cbn in A1; lia|discriminate]). rewrite (climbs_root _ _ _ A5 Hl A6). exists (merkle_root l), []. split; [reflexivity|]. exists n, l. repeat split; auto.
Qed.
Lemma told_sound : forall lo ls w r, (forall e, r = Err e -> answered lo ls r) -> (forall x, r = Ok x -> answered lo ls r) -> sound lo ls (told w r).
Proof.
  intros lo ls w r E1 E2. destruct w as [|tm k pr|root]; cbn [told sound].
  - destruct r as [x|e]; [apply (E2 x eq_refl)|apply (E1 e eq_refl)].
  - destruct r as [x|e]; cbn [bind]; [|exact I]. unfold new_proof. specialize (E2 x eq_refl).
    destruct (existsb (bytes_eqb MT_POI) accepted_types); [exact E2|exact I].
  - exact I.
Qed.

Definition fine (lo : nat) (t : mt) (p : mpc) : Prop := match p with CDone o => sound lo (t_leaves t) o | _ => True end.
Lemma rest_loop : forall lo t tm k i x pr, lo <= length (t_leaves t) -> rest lo t -> inv lo t (loop tm k i x pr) /\ fine lo t (loop tm k i x pr).
Proof. intros lo t tm k i [|x] pr L R; cbn [loop]; split; try exact I; split; auto. Qed.

Lemma inv_step : forall lo t p, inv lo t p -> match p with CDone _ => True | _ => inv lo (fst (mstep t p)) (snd (mstep t p)) /\ fine lo (fst (mstep t p)) (snd (mstep t p)) end.
Proof.
  intros lo t p [L Iv].
  assert (Lv : forall e f, rest lo t -> (forall u, t_upper t = Some u -> inv lo t (f u) /\ fine lo t (f u)) -> sound lo (t_leaves t) e -> inv lo t (with_levels t e f) /\ fine lo t (with_levels t e f)).
  { intros e f R Hf He. unfold with_levels. destruct (t_upper t) as [u|] eqn:Eu; [auto|]. split; [split; auto|exact He]. }
  destruct p; cbn [mstep fst snd]; try exact I; try contradiction.
  - (* CBegin *) split; [|exact I]. split; [exact L|]. exact Iv.
  - (* CAny *) destruct (Nat.ltb_spec 0 (length (t_leaves t))) as [Lp|Lp]; (split; [|exact I]); (split; [exact L|]).
    + intros E. rewrite E in Lp. cbn in Lp. lia.
    + destruct Iv as [[E _]|(u & E & W)].
      * left. split; [exact E|lia].
      * right. exists u. split; [exact E|]. replace lo with 0 by lia. exact W.
  - (* CBase *) split; [|exact I]. split; [exact L|]. exists []. split; [reflexivity|]. left. auto.
  - (* CWhile *) destruct Iv as (u & Eu & Hf). unfold with_levels. rewrite Eu. split; [|exact I]. split; [exact L|]. auto.
  - (* CWhile2 *) destruct Iv as (Eu & Hf). destruct (Nat.ltb_spec 1 (length (top_of t u))) as [L1|L1]; (split; [|exact I]); (split; [exact L|]).
    + exists u. repeat split; auto.
    + right. exists u. split; [exact Eu|]. destruct Hf as [[-> E]|(l & n & A1 & A2 & A3 & A4 & A5)].
      * cbn [top_of] in L1. exists 1. split; [lia|]. split; [lia|]. left. auto.
      * exists n. split; [exact A1|]. split; [lia|]. right. destruct u as [|x u]; [inversion A5|]. exists l, x, u. repeat split; auto.
  - (* CLen *) destruct Iv as (u & Eu & Hf & Lt). unfold with_levels. rewrite Eu. split; [|exact I]. split; [exact L|]. auto.
  - (* CLen2 *) destruct Iv as (Eu & Hf & Lt). cbv zeta. destruct (Nat.odd (length (top_of t u))) eqn:Od; (split; [|exact I]); (split; [exact L|]).
    + exists u. unfold top_len in *. fold (top_of t u) in *. repeat split; auto. destruct u; auto.
    + exists u. split; [exact Eu|]. split; [exact Hf|]. unfold pend, top_len in *. fold (top_of t u) in *. cbn [length]. rewrite Nat.add_0_r, app_nil_r.
      assert (Ev : Nat.even (length (top_of t u)) = true) by (rewrite <- Nat.negb_odd, Od; reflexivity). repeat split; auto; try lia. destruct u; [exact L|]. cbn [top_of]. apply firstn_all.
  - (* CSolo *) destruct Iv as (u & Eu & Hf & Iv). unfold with_levels. rewrite Eu. split; [|exact I]. split; [exact L|]. auto.
  - (* CSolo2 *) destruct Iv as (Eu & Hf & Od & L2 & Ln & Lo). unfold top_len in *. fold (top_of t u) in *. destruct (rev (top_of t u)) as [|x r] eqn:Er.
    { apply (f_equal (@length bytes)) in Er. rewrite rev_length in Er. cbn in Er. lia. }
    assert (Et : top_of t u = rev r ++ [x]) by (rewrite <- (rev_involutive (top_of t u)), Er; reflexivity).
    assert (Lr : length (top_of t u) = length r + 1) by (rewrite Et, app_length, rev_length; reflexivity).
    assert (Nx : nth_error (top_of t u) (length r) = Some x) by (rewrite Et, <- (rev_length r); apply nth_snoc_new).
    split; [|exact I]. split; [exact L|]. exists u. split; [exact Eu|]. split; [exact Hf|]. unfold pend. fold (top_of t u). cbn [length].
    split; [|split; [lia|split; [lia|split]]].
    + destruct n as [|n]; [lia|]. rewrite Nat.odd_succ in Od. cbn [Nat.sub]. rewrite Nat.sub_0_r. exact Od.
    + right. exists x, (length r). repeat split; auto. lia.
    + destruct u as [|y u]; [lia|]. cbn [top_of] in *. subst n. rewrite Lr. replace (length r + 1 - 1) with (length (rev r)) by (rewrite rev_length; lia). rewrite Et at 1.
      rewrite firstn_app, firstn_all, Nat.sub_diag. cbn [firstn]. rewrite app_nil_r. symmetry. exact Et.
  - (* CFst *) destruct Iv as (u & Eu & Hf & Iv). unfold with_levels. rewrite Eu. split; [|exact I]. split; [exact L|]. auto.
  - (* CFst2 *) destruct Iv as (Eu & Hf & Iv). split; [|exact I]. split; [exact L|]. exists u. auto.
  - (* CSnd *) destruct Iv as (u & Eu & Hf & Iv). unfold with_levels. rewrite Eu. split; [|exact I]. split; [exact L|]. auto.
  - (* CSnd2 *) destruct Iv as (Eu & Hf & Iv & ->). split; [|exact I]. split; [exact L|]. exists u. split; [exact Eu|]. split; [exact Hf|]. apply pend_pushed; auto.
  - (* CPush *) destruct Iv as (u & Eu & Hf & Iv). unfold with_levels. rewrite Eu. split; [|exact I]. split; [exact L|]. auto.
  - (* CPush2 *) destruct Iv as (Eu & Hf & Iv). split; [|exact I]. split; [exact L|]. exists (new :: u). split; [reflexivity|]. cbn [set_upper t_leaves]. destruct u as [|x u]; cbn [pushed] in Iv.
    + destruct Iv as (l & n & A1 & A2 & A3 & A4 & ->). right. exists l, n. repeat split; auto. constructor.
    + destruct Iv as [L2 ->]. destruct Hf as [[E _]|(l & n & A1 & A2 & A3 & A4 & A5)]; [discriminate|]. right. exists l, n. repeat split; auto. constructor; assumption.
  - (* CEnd *) assert (D : done_with lo (set_ready t true)) by exact Iv. destruct a as [w|]; cbn [next].
    + split; [|exact I]. split; [exact L|]. split; [reflexivity|exact D].
    + split; [|exact I]. split; [exact L|]. right. split; [reflexivity|exact D].
  - (* CReady *) destruct Iv as [[R1 R2]|[R1 R2]]; rewrite R1; (split; [|exact I]); (split; [exact L|]).
    + left. auto.
    + auto.
  - (* CCheck *) destruct Iv as [R D]. rewrite R. split; [|exact I]. split; [exact L|]. auto.
  - (* CCheck2 *) destruct Iv as [R D]. destruct (t_upper t) as [u|] eqn:Eu.
    + split; [|exact I]. split; [exact L|]. split; [exact R|]. destruct D as [[D _]|(u' & D & W)]; [congruence|]. rewrite Eu in *. eauto.
    + split; [split; [exact L|right; auto]|]. destruct D as [[_ D]|(u' & D & W)]; [|congruence]. cbn [fine]. apply told_sound; intros; [split; congruence|discriminate].
  - (* CTop *) destruct Iv as (R & u & Eu & W). unfold with_levels. rewrite Eu. split; [|exact I]. split; [exact L|]. auto.
  - (* CTop2 *) destruct Iv as (R & Eu & W). destruct (whole_root _ _ _ W) as (x & r & Et & A). rewrite Et. split.
    + split; [exact L|]. right. split; [exact R|]. right. eauto.
    + cbn [fine]. apply told_sound; intros; [discriminate|exact A].
  - (* CIndex *) destruct (index_of _ _); split; try exact I; split; auto.
  - (* CNone *) destruct (t_upper t) eqn:Eu; split; try exact I; split; auto.
  - (* CGo *) destruct (t_ready t) eqn:Er; split; try exact I; split; auto.
  - (* CRange *) apply Lv; [exact Iv| |exact I]. intros u Eu. apply rest_loop; auto.
  - (* CLevel *) apply Lv; [exact Iv| |exact I]. intros u Eu. destruct (entry u x); split; try exact I; split; auto.
  - (* CLevel2 *) cbv zeta. destruct (_ && _); [apply rest_loop; auto|]. split; [|exact I]. split; auto.
  - (* CSib *) apply Lv; [exact Iv| |exact I]. intros u Eu. destruct (entry u x); split; try exact I; split; auto.
  - (* CSib2 *) destruct (nth_error _ _); [apply rest_loop; auto|]. split; [split; auto|exact I].
Qed.
End S.
