(** Proofs about Json.v. *)
From Coq Require Import List Bool Arith NArith ZArith Lia.
From Coq Require Import ZifyN ZifyNat ZifyBool.
From Verif Require Import Base BaseProofs Json.
Import ListNotations.
Local Open Scope N_scope.
Ltac Zify.zify_post_hook ::= Z.to_euclidean_division_equations.

(** ** Strings *)
Lemma ustr_eqb_eq : forall a b, ustr_eqb a b = true <-> a = b.
Proof.
  induction a as [|x a IH]; intros [|y b]; cbn [ustr_eqb]; split; intros E; try congruence; try reflexivity.
  - apply andb_true_iff in E as [E1 E2]. apply N.eqb_eq in E1. apply IH in E2. congruence.
  - injection E as -> ->. apply andb_true_iff. split; [apply N.eqb_refl|now apply IH].
Qed.
Lemma ustr_eqb_refl : forall a, ustr_eqb a a = true.
Proof. intros a. now apply ustr_eqb_eq. Qed.

(** A code point that is not a surrogate. *)
Definition scalar (c : N) : Prop := c < 1114112 /\ ~ (55296 <= c <= 57343).

Lemma unhexd_hexd : forall n, n < 16 -> unhexd (hexd n) = Some n.
Proof.
  intros n Hn. unfold hexd, unhexd.
  destruct (n <? 10) eqn:E.
  - replace ((48 <=? n + 48) && (n + 48 <=? 57)) with true by lia. f_equal. lia.
  - replace ((48 <=? n + 87) && (n + 87 <=? 57)) with false by lia.
    replace ((97 <=? n + 87) && (n + 87 <=? 102)) with true by lia. f_equal. lia.
Qed.
Lemma hex4_u : forall n, n < 65536 ->
  hex4 (hexd (n / 4096 mod 16)) (hexd (n / 256 mod 16)) (hexd (n / 16 mod 16)) (hexd (n mod 16)) = Some n.
Proof.
  intros n Hn. unfold hex4. rewrite !unhexd_hexd by (apply N.mod_lt; lia). f_equal. lia.
Qed.

Lemma pstr_u_raw : forall h1 h2 h3 h4 u r, hex4 h1 h2 h3 h4 = Some u -> is_high u = false ->
  pstr (92 :: 117 :: h1 :: h2 :: h3 :: h4 :: r) = pcons u (pstr r).
Proof. intros h1 h2 h3 h4 u r E Hh. cbn [pstr]. change (92 =? 34) with false. change (92 =? 92) with true. change (117 =? 117) with true.
  cbv iota. rewrite E, Hh. reflexivity. Qed.
Lemma pstr_u : forall n r, n < 65536 -> is_high n = false -> pstr (u_esc n ++ r) = pcons n (pstr r).
Proof. intros n r Hn Hh. unfold u_esc. cbn [app]. apply pstr_u_raw; [now apply hex4_u|exact Hh]. Qed.
Lemma pstr_pair_raw : forall h1 h2 h3 h4 k1 k2 k3 k4 u w r, hex4 h1 h2 h3 h4 = Some u -> is_high u = true ->
  hex4 k1 k2 k3 k4 = Some w -> is_low w = true ->
  pstr (92 :: 117 :: h1 :: h2 :: h3 :: h4 :: 92 :: 117 :: k1 :: k2 :: k3 :: k4 :: r) =
  pcons (65536 + (u - 55296) * 1024 + (w - 56320)) (pstr r).
Proof.
  intros h1 h2 h3 h4 k1 k2 k3 k4 u w r E Hh E' Hl. cbn [pstr].
  change (92 =? 34) with false. change (92 =? 92) with true. change (117 =? 117) with true.
  cbv iota. rewrite E, Hh. cbn [andb]. cbv iota. rewrite E', Hl. reflexivity.
Qed.
Lemma pstr_pair : forall u w r, is_high u = true -> is_low w = true ->
  pstr (u_esc u ++ u_esc w ++ r) = pcons (65536 + (u - 55296) * 1024 + (w - 56320)) (pstr r).
Proof.
  intros u w r Hu Hw. unfold u_esc. cbn [app]. unfold is_high, is_low in *.
  apply pstr_pair_raw; [apply hex4_u; lia|unfold is_high; lia|apply hex4_u; lia|unfold is_low; lia].
Qed.

Lemma pstr_simple : forall e x r, e <> 117 -> simple_esc e = Some x -> pstr (92 :: e :: r) = pcons x (pstr r).
Proof.
  intros e x r Hu Hs. cbn [pstr]. change (92 =? 34) with false. change (92 =? 92) with true. cbv iota.
  replace (e =? 117) with false by lia. rewrite Hs. reflexivity.
Qed.

Lemma pstr_esc : forall c r, scalar c -> pstr (esc_char c ++ r) = pcons c (pstr r).
Proof.
  intros c r [Hc Hs]. unfold esc_char.
  destruct (c =? 34) eqn:E1; [apply N.eqb_eq in E1; subst c; apply pstr_simple; [lia|reflexivity]|].
  destruct (c =? 92) eqn:E2; [apply N.eqb_eq in E2; subst c; apply pstr_simple; [lia|reflexivity]|].
  destruct (c =? 10) eqn:E3; [apply N.eqb_eq in E3; subst c; apply pstr_simple; [lia|reflexivity]|].
  destruct (c =? 13) eqn:E4; [apply N.eqb_eq in E4; subst c; apply pstr_simple; [lia|reflexivity]|].
  destruct (c =? 9) eqn:E5; [apply N.eqb_eq in E5; subst c; apply pstr_simple; [lia|reflexivity]|].
  destruct (c =? 12) eqn:E6; [apply N.eqb_eq in E6; subst c; apply pstr_simple; [lia|reflexivity]|].
  destruct (c =? 8) eqn:E7; [apply N.eqb_eq in E7; subst c; apply pstr_simple; [lia|reflexivity]|].
  destruct ((32 <=? c) && (c <=? 126)) eqn:E8.
  - cbn [app pstr]. rewrite E1, E2. replace (c <? 32) with false by lia. reflexivity.
  - destruct (c <? 65536) eqn:E9.
    + apply pstr_u; [lia|]. unfold is_high. lia.
    + cbv zeta. rewrite <- app_assoc. rewrite pstr_pair; [|unfold is_high; lia|unfold is_low; lia].
      f_equal. lia.
Qed.

Lemma pstr_body : forall s r, Forall scalar s -> pstr (flat_map esc_char s ++ 34 :: r) = Some (s, r).
Proof.
  induction s as [|c s IH]; intros r F; cbn [flat_map].
  - reflexivity.
  - inversion F as [|? ? Hc Fs]; subst. rewrite <- app_assoc, pstr_esc by exact Hc. rewrite IH by exact Fs. reflexivity.
Qed.

(** ** Values *)
Fixpoint jok (v : json) : Prop :=
  match v with
  | JStr s => Forall scalar s
  | JArr l => (fix all (l : list json) := match l with [] => True | x :: r => jok x /\ all r end) l
  | JObj d => (fix all (d : list (ustr * json)) :=
                 match d with [] => True | kv :: r => (Forall scalar (fst kv) /\ jok (snd kv)) /\ all r end) d
  | JNum _ => False
  | JTrue | JFalse | JNull => True
  end.
Lemma jok_arr : forall l, jok (JArr l) <-> Forall jok l.
Proof.
  induction l as [|x l IH]; cbn; split; intros A; auto.
  - destruct A as [A B]. constructor; [exact A|now apply IH].
  - inversion A; subst. split; [assumption|now apply IH].
Qed.
Lemma jok_obj : forall d, jok (JObj d) <-> Forall (fun kv => Forall scalar (fst kv) /\ jok (snd kv)) d.
Proof.
  induction d as [|x l IH]; cbn; split; intros A; auto.
  - destruct A as [A B]. constructor; [exact A|now apply IH].
  - inversion A; subst. split; [assumption|now apply IH].
Qed.

(** Nesting depth bounds the fuel together with the number of elements; we simply count nodes. *)
Fixpoint jsize (v : json) : nat :=
  match v with
  | JArr l => S (fold_right (fun x n => S (jsize x + n)) O l)
  | JObj d => S (fold_right (fun kv n => S (jsize (snd kv) + n)) O d)
  | _ => 1%nat
  end.

Lemma json_ind2 : forall P : json -> Prop,
  (forall s, P (JStr s)) -> (forall l, Forall P l -> P (JArr l)) ->
  (forall d, Forall (fun kv => P (snd kv)) d -> P (JObj d)) ->
  (forall t, P (JNum t)) -> P JTrue -> P JFalse -> P JNull -> forall v, P v.
Proof.
  intros P Hs Ha Ho Hn Ht Hf Hl. fix IH 1. intros [s|l|d|t| | |].
  - apply Hs.
  - apply Ha. induction l as [|x l IHl]; constructor; [apply IH|exact IHl].
  - apply Ho. induction d as [|[k x] d IHd]; constructor; [apply IH|exact IHd].
  - apply Hn.
  - exact Ht.
  - exact Hf.
  - exact Hl.
Qed.

Lemma dumps_head : forall v, jok v -> exists c r, dumps v = c :: r /\ is_ws c = false /\ c <> 93 /\ c <> 125.
Proof.
  intros [s|l|d|t| | |] K; cbn [dumps]; try contradiction;
    unfold dump_str, lit_true, lit_false, lit_null; do 2 eexists; (split; [reflexivity|]); repeat split; try reflexivity; lia.
Qed.
Lemma ws_head : forall c r, is_ws c = false -> ws (c :: r) = c :: r.
Proof. intros c r E. cbn [ws]. now rewrite E. Qed.
Lemma ws_dumps : forall v r, jok v -> ws (dumps v ++ r) = dumps v ++ r.
Proof. intros v r K. destruct (dumps_head v K) as [c [q [E [W _]]]]. rewrite E. cbn [app]. now apply ws_head. Qed.

Definition good (v : json) : Prop := jok v -> forall f r, (jsize v <= f)%nat -> pval f (dumps v ++ r) = Some (v, r).

Lemma pelems_ok : forall l, l <> [] -> Forall good l -> Forall jok l -> forall f r,
  (fold_right (fun x n => S (jsize x + n)) O l <= f)%nat ->
  pelems f (join [44; 32] (map dumps l) ++ 93 :: r) = Some (l, r).
Proof.
  induction l as [|v l IH]; [congruence|]. intros _ G K f r Hf.
  inversion G as [|? ? Gv Gl]; subst. inversion K as [|? ? Kv Kl]; subst.
  cbn [fold_right] in Hf. destruct f as [|f]; [lia|]. cbn [pelems].
  destruct l as [|w l].
  - cbn [map join]. rewrite (Gv Kv f (93 :: r)) by lia. rewrite ws_head by reflexivity. reflexivity.
  - cbn [map]. change (join [44; 32] (dumps v :: dumps w :: map dumps l)) with
      (dumps v ++ [44; 32] ++ join [44; 32] (map dumps (w :: l))).
    rewrite <- !app_assoc. rewrite (Gv Kv f) by lia. cbn [app]. rewrite ws_head by reflexivity.
    change (44 =? 93) with false. change (44 =? 44) with true. cbv iota.
    replace (ws (32 :: join [44; 32] (map dumps (w :: l)) ++ 93 :: r)) with (join [44; 32] (map dumps (w :: l)) ++ 93 :: r).
    + rewrite IH; [reflexivity|congruence|exact Gl|exact Kl|cbn [fold_right] in *; lia].
    + change (ws (32 :: join [44; 32] (map dumps (w :: l)) ++ 93 :: r)) with (ws (join [44; 32] (map dumps (w :: l)) ++ 93 :: r)).
      symmetry. inversion Kl as [|? ? Kw Kl']; subst. destruct l as [|x l].
      * cbn [map join]. now apply ws_dumps.
      * cbn [map]. change (join [44; 32] (dumps w :: dumps x :: map dumps l)) with
          (dumps w ++ [44; 32] ++ join [44; 32] (map dumps (x :: l))). rewrite <- !app_assoc. now apply ws_dumps.
Qed.

Definition dump_member (kv : ustr * json) : ustr := dump_str (fst kv) ++ [58; 32] ++ dumps (snd kv).
Lemma join_members_head : forall kv d r, exists q, join [44; 32] (map dump_member (kv :: d)) ++ r = 34 :: q.
Proof. intros kv [|x d] r; cbn [map join]; unfold dump_member, dump_str; cbn [app]; eexists; reflexivity. Qed.

Lemma pmembers_ok : forall d, d <> [] -> Forall (fun kv => good (snd kv)) d ->
  Forall (fun kv => Forall scalar (fst kv) /\ jok (snd kv)) d -> forall f r,
  (fold_right (fun kv n => S (jsize (snd kv) + n)) O d <= f)%nat ->
  pmembers f (join [44; 32] (map dump_member d) ++ 125 :: r) = Some (d, r).
Proof.
  induction d as [|[k v] d IH]; [congruence|]. intros _ G K f r Hf.
  inversion G as [|? ? Gv Gl]; subst. inversion K as [|? ? Kkv Kl]; subst. cbn [fst snd] in *. destruct Kkv as [Kk Kv].
  cbn [fold_right snd] in Hf. destruct f as [|f]; [lia|].
  assert (E : forall tail, dump_member (k, v) ++ tail = 34 :: flat_map esc_char k ++ 34 :: 58 :: 32 :: dumps v ++ tail).
  { intros tail. unfold dump_member, dump_str. cbn [fst snd]. cbn [app]. f_equal. rewrite <- !app_assoc. reflexivity. }
  destruct d as [|kw d].
  - cbn [map join]. rewrite E. cbn [pmembers]. change (34 =? 34) with true. cbv iota.
    rewrite pstr_body by exact Kk. rewrite ws_head by reflexivity. change (58 =? 58) with true. cbv iota.
    change (ws (32 :: dumps v ++ 125 :: r)) with (ws (dumps v ++ 125 :: r)). rewrite ws_dumps by exact Kv.
    rewrite (Gv Kv f) by lia. rewrite ws_head by reflexivity. reflexivity.
  - cbn [map]. change (join [44; 32] (dump_member (k, v) :: dump_member kw :: map dump_member d)) with
      (dump_member (k, v) ++ [44; 32] ++ join [44; 32] (map dump_member (kw :: d))).
    rewrite <- !app_assoc. rewrite E. cbn [pmembers]. change (34 =? 34) with true. cbv iota.
    rewrite pstr_body by exact Kk. rewrite ws_head by reflexivity. change (58 =? 58) with true. cbv iota.
    rewrite <- ?app_assoc.
    change (ws (32 :: dumps v ++ [44; 32] ++ join [44; 32] (map dump_member (kw :: d)) ++ 125 :: r)) with
      (ws (dumps v ++ [44; 32] ++ join [44; 32] (map dump_member (kw :: d)) ++ 125 :: r)).
    rewrite ws_dumps by exact Kv. rewrite (Gv Kv f) by lia. cbn [app]. rewrite ws_head by reflexivity.
    change (44 =? 125) with false. change (44 =? 44) with true. cbv iota.
    destruct (join_members_head kw d (125 :: r)) as [q Eq].
    change (ws (32 :: join [44; 32] (map dump_member (kw :: d)) ++ 125 :: r)) with (ws (join [44; 32] (map dump_member (kw :: d)) ++ 125 :: r)).
    rewrite Eq, ws_head by reflexivity. rewrite <- Eq.
    rewrite IH; [reflexivity|congruence|exact Gl|exact Kl|cbn [fold_right] in *; lia].
Qed.

Lemma pval_dumps : forall v, good v.
Proof.
  apply json_ind2; unfold good.
  - intros s K f r Hf. cbn [jsize] in Hf. destruct f as [|f]; [lia|]. cbn [dumps pval]. unfold dump_str. cbn [app].
    change (34 =? 34) with true. cbv iota. rewrite <- app_assoc. cbn [app]. rewrite pstr_body by exact K. reflexivity.
  - intros l G K f r Hf. apply jok_arr in K. cbn [jsize] in Hf. destruct f as [|f]; [lia|]. cbn [dumps pval app].
    change (91 =? 34) with false. change (91 =? 91) with true. cbv iota.
    rewrite <- app_assoc. cbn [app]. destruct l as [|x l].
    + cbn [map join app]. rewrite ws_head by reflexivity. reflexivity.
    + assert (Kx : jok x) by now inversion K.
      assert (W : ws (join [44; 32] (map dumps (x :: l)) ++ 93 :: r) = join [44; 32] (map dumps (x :: l)) ++ 93 :: r /\
        exists c q, join [44; 32] (map dumps (x :: l)) ++ 93 :: r = c :: q /\ c <> 93).
      { destruct (dumps_head x Kx) as [c [q [E [W [N1 N2]]]]].
        destruct l as [|y l].
        - cbn [map join]. split; [now apply ws_dumps|]. rewrite E. cbn [app]. eauto.
        - cbn [map]. change (join [44; 32] (dumps x :: dumps y :: map dumps l)) with
            (dumps x ++ [44; 32] ++ join [44; 32] (map dumps (y :: l))). rewrite <- !app_assoc.
          split; [now apply ws_dumps|]. rewrite E. cbn [app]. eauto. }
      destruct W as [W [c [q [E Nc]]]]. rewrite W.
      rewrite pelems_ok; [|congruence|exact G|exact K|lia].
      rewrite E. replace (c =? 93) with false by lia. reflexivity.
  - intros d G K f r Hf. apply jok_obj in K. cbn [jsize] in Hf. destruct f as [|f]; [lia|]. cbn [dumps pval app].
    change (123 =? 34) with false. change (123 =? 91) with false. change (123 =? 123) with true. cbv iota.
    rewrite <- app_assoc. cbn [app]. destruct d as [|x d].
    + cbn [map join app]. rewrite ws_head by reflexivity. reflexivity.
    + change (map (fun kv : ustr * json => dump_str (fst kv) ++ 58 :: 32 :: dumps (snd kv)) (x :: d)) with (map dump_member (x :: d)).
      destruct (join_members_head x d (125 :: r)) as [q E].
      assert (W : ws (join [44; 32] (map dump_member (x :: d)) ++ 125 :: r) = join [44; 32] (map dump_member (x :: d)) ++ 125 :: r)
        by (rewrite E; now apply ws_head).
      rewrite W. rewrite pmembers_ok; [|congruence|exact G|exact K|lia].
      rewrite E. reflexivity.
  - intros t K. contradiction.
  - intros _ [|f] r Hf; [cbn in Hf; lia|]. reflexivity.
  - intros _ [|f] r Hf; [cbn in Hf; lia|]. reflexivity.
  - intros _ [|f] r Hf; [cbn in Hf; lia|]. reflexivity.
Qed.

Lemma jsize_arr_le : forall l, Forall (fun v => (jsize v <= length (dumps v))%nat) l -> l <> [] ->
  (fold_right (fun x n => S (jsize x + n)) O l <= length (join [44; 32]%N (map dumps l)) + 1)%nat.
Proof.
  induction l as [|x l IH]; [congruence|]. intros F _. inversion F as [|? ? Fx Fl]; subst. cbn [fold_right].
  destruct l as [|y l].
  - cbn [fold_right map join]. lia.
  - specialize (IH Fl ltac:(congruence)). cbn [map].
    change (join [44; 32]%N (dumps x :: dumps y :: map dumps l)) with (dumps x ++ [44; 32]%N ++ join [44; 32]%N (map dumps (y :: l))).
    rewrite !app_length. cbn [length]. lia.
Qed.
Lemma jsize_obj_le : forall d, Forall (fun kv => (jsize (snd kv) <= length (dumps (snd kv)))%nat) d -> d <> [] ->
  (fold_right (fun kv n => S (jsize (snd kv) + n)) O d <= length (join [44; 32]%N (map dump_member d)) + 1)%nat.
Proof.
  induction d as [|x l IH]; [congruence|]. intros F _. inversion F as [|? ? Fx Fl]; subst. cbn [fold_right].
  assert (L : (length (dumps (snd x)) <= length (dump_member x))%nat) by (unfold dump_member; rewrite !app_length; lia).
  destruct l as [|y l].
  - cbn [fold_right map join]. lia.
  - specialize (IH Fl ltac:(congruence)). cbn [map].
    change (join [44; 32]%N (dump_member x :: dump_member y :: map dump_member l)) with
      (dump_member x ++ [44; 32]%N ++ join [44; 32]%N (map dump_member (y :: l))).
    rewrite !app_length. cbn [length]. lia.
Qed.
Lemma jsize_le : forall v, jok v -> (jsize v <= length (dumps v))%nat.
Proof.
  apply (json_ind2 (fun v => jok v -> (jsize v <= length (dumps v))%nat)).
  - intros s _. cbn. lia.
  - intros l F K. apply jok_arr in K. cbn [jsize dumps]. destruct l as [|x l]; [cbn; lia|].
    pose proof (jsize_arr_le (x :: l)) as L. cbn [length]. rewrite app_length. cbn [length].
    enough (Q : Forall (fun v => (jsize v <= length (dumps v))%nat) (x :: l)) by (specialize (L Q ltac:(congruence)); lia).
    rewrite Forall_forall in *. intros v Hv. apply F; [exact Hv|now apply K].
  - intros d F K. apply jok_obj in K. cbn [jsize dumps]. destruct d as [|x l]; [cbn; lia|].
    change (map (fun kv : ustr * json => dump_str (fst kv) ++ [58; 32]%N ++ dumps (snd kv)) (x :: l)) with (map dump_member (x :: l)).
    pose proof (jsize_obj_le (x :: l)) as L. cbn [length]. rewrite app_length. cbn [length].
    enough (Q : Forall (fun kv => (jsize (snd kv) <= length (dumps (snd kv)))%nat) (x :: l)) by (specialize (L Q ltac:(congruence)); lia).
    rewrite Forall_forall in *. intros v Hv. apply F; [exact Hv|now apply K].
  - intros t K. contradiction.
  - intros _. cbn. lia.
  - intros _. cbn. lia.
  - intros _. cbn. lia.
Qed.

(** json.loads(json.dumps(v)) is v, for values made of strings without surrogates, lists, dicts and constants. *)
Lemma loads_dumps : forall v, jok v -> loads (dumps v) = Ok v.
Proof.
  intros v K. unfold loads. destruct (dumps_head v K) as [c [r [E [W _]]]].
  assert (Hb : match dumps v with c0 :: _ => c0 =? 65279 | [] => false end = false).
  { destruct v; try contradiction; reflexivity. }
  rewrite Hb. rewrite <- (app_nil_r (dumps v)) at 2. rewrite ws_dumps by exact K.
  rewrite pval_dumps; [reflexivity|exact K|]. pose proof (jsize_le v K). lia.
Qed.

(** ** UTF-8 *)
Lemma cbits_nB : forall n, n < 64 -> cbits (nB (128 + n)) = Some n.
Proof.
  intros n Hn. unfold cbits. rewrite bN_nB by lia. replace ((128 <=? 128 + n) && (128 + n <? 192)) with true by lia.
  f_equal. lia.
Qed.
Lemma cbits_some : forall b n, cbits b = Some n -> n < 64 /\ b = nB (128 + n).
Proof.
  intros b n E. unfold cbits in E. destruct ((128 <=? bN b) && (bN b <? 192)) eqn:C; [|discriminate].
  injection E as <-. split; [lia|]. rewrite <- (nB_bN b) at 1. f_equal. lia.
Qed.

Lemma some_inj : forall (A : Type) (x y : A), Some x = Some y -> x = y.
Proof. congruence. Qed.
Lemma utf8_char_dec : forall c b r, utf8_char c = Some b -> scalar c /\ utf8_dec (b ++ r) = option_map (cons c) (utf8_dec r).
Proof.
  intros c b r E. unfold utf8_char in E.
  destruct (c <? 128) eqn:C1.
  - apply some_inj in E; subst b. split; [unfold scalar; lia|]. cbn [app utf8_dec]. rewrite bN_nB by lia. rewrite C1. reflexivity.
  - destruct (c <? 2048) eqn:C2.
    + apply some_inj in E; subst b. split; [unfold scalar; lia|]. cbn [app utf8_dec].
      rewrite bN_nB by lia. rewrite cbits_nB by lia.
      replace (192 + c / 64 <? 128) with false by lia. replace (192 + c / 64 <? 192) with false by lia.
      replace (192 + c / 64 <? 224) with true by lia. cbv zeta.
      replace ((192 + c / 64 - 192) * 64 + c mod 64) with c by lia.
      unfold in_plane. replace ((128 <=? c) && (c <? 1114112) && negb ((55296 <=? c) && (c <=? 57343))) with true by lia. reflexivity.
    + destruct ((55296 <=? c) && (c <=? 57343)) eqn:C3; [discriminate|].
      destruct (c <? 65536) eqn:C4.
      * apply some_inj in E; subst b. split; [unfold scalar; lia|]. cbn [app utf8_dec].
        rewrite bN_nB by lia. rewrite !cbits_nB by lia.
        replace (224 + c / 4096 <? 128) with false by lia. replace (224 + c / 4096 <? 192) with false by lia.
        replace (224 + c / 4096 <? 224) with false by lia. replace (224 + c / 4096 <? 240) with true by lia. cbv zeta.
        replace ((224 + c / 4096 - 224) * 4096 + c / 64 mod 64 * 64 + c mod 64) with c by lia.
        unfold in_plane. replace ((2048 <=? c) && (c <? 1114112) && negb ((55296 <=? c) && (c <=? 57343))) with true by lia. reflexivity.
      * destruct (c <? 1114112) eqn:C5; [|discriminate].
        apply some_inj in E; subst b. split; [unfold scalar; lia|]. cbn [app utf8_dec].
        rewrite bN_nB by lia. rewrite !cbits_nB by lia.
        replace (240 + c / 262144 <? 128) with false by lia. replace (240 + c / 262144 <? 192) with false by lia.
        replace (240 + c / 262144 <? 224) with false by lia. replace (240 + c / 262144 <? 240) with false by lia.
        replace (240 + c / 262144 <? 248) with true by lia. cbv zeta.
        replace ((240 + c / 262144 - 240) * 262144 + c / 4096 mod 64 * 4096 + c / 64 mod 64 * 64 + c mod 64) with c by lia.
        unfold in_plane. replace ((65536 <=? c) && (c <? 1114112) && negb ((55296 <=? c) && (c <=? 57343))) with true by lia. reflexivity.
Qed.

Lemma utf8_encode_dec : forall s b, utf8_encode s = Ok b -> utf8_dec b = Some s /\ Forall scalar s.
Proof.
  induction s as [|c s IH]; intros b E; cbn [utf8_encode] in E.
  - injection E as <-. split; [reflexivity|constructor].
  - destruct (utf8_char c) as [x|] eqn:C; [|discriminate]. destruct (utf8_encode s) as [y|] eqn:S; [|discriminate].
    injection E as <-. destruct (IH y eq_refl) as [D F]. destruct (utf8_char_dec c x y C) as [Sc Dc].
    rewrite Dc, D. split; [reflexivity|now constructor].
Qed.
Lemma utf8_encode_decode : forall s b, utf8_encode s = Ok b -> utf8_decode b = Ok s.
Proof. intros s b E. unfold utf8_decode. destruct (utf8_encode_dec s b E) as [-> _]. reflexivity. Qed.

Lemma utf8_char_scalar : forall c, scalar c -> exists b, utf8_char c = Some b.
Proof.
  intros c [H1 H2]. unfold utf8_char. destruct (c <? 128); [eauto|]. destruct (c <? 2048); [eauto|].
  replace ((55296 <=? c) && (c <=? 57343)) with false by lia. destruct (c <? 65536); [eauto|].
  replace (c <? 1114112) with true by lia. eauto.
Qed.
Lemma utf8_encode_total : forall s, Forall scalar s -> exists b, utf8_encode s = Ok b.
Proof.
  induction s as [|c s IH]; intros F; cbn [utf8_encode]; [eauto|]. inversion F as [|? ? Hc Fs]; subst.
  destruct (utf8_char_scalar c Hc) as [x ->]. destruct (IH Fs) as [y ->]. eauto.
Qed.

Lemma in_plane_true : forall l c, in_plane l c = true -> l <= c /\ scalar c.
Proof. intros l c E. unfold in_plane in E. unfold scalar. lia. Qed.

Lemma utf8_dec_cons : forall b c s, utf8_dec b = Some (c :: s) -> exists x r, b = x ++ r /\ utf8_char c = Some x /\
  utf8_dec r = Some s /\ x <> [].
Proof.
  intros b c s E. destruct b as [|a b]; [discriminate|]. cbn [utf8_dec] in E.
  assert (OM : forall c' r, option_map (cons c') (utf8_dec r) = Some (c :: s) -> c' = c /\ utf8_dec r = Some s).
  { intros c' r Er. destruct (utf8_dec r); [|discriminate]. cbn in Er. injection Er as -> ->. auto. }
  destruct (bN a <? 128) eqn:A1.
  { apply OM in E as [<- E]. exists [a], b. repeat split; [|exact E|congruence]. unfold utf8_char. rewrite A1, nB_bN. reflexivity. }
  destruct (bN a <? 192) eqn:A2; [discriminate|].
  destruct b as [|b0 b]; [discriminate|]. destruct (cbits b0) as [y|] eqn:B0; [|discriminate].
  apply cbits_some in B0 as [Hy ->].
  destruct (bN a <? 224) eqn:A3.
  { cbv zeta in E. destruct (in_plane 128 _) eqn:I; [|discriminate]. apply in_plane_true in I as [I1 I2].
    apply OM in E as [<- E]. exists [a; nB (128 + y)], b. repeat split; [|exact E|congruence].
    unfold utf8_char. replace (_ <? 128) with false by lia. replace (_ <? 2048) with true by lia.
    rewrite <- (nB_bN a) at 3. repeat f_equal; lia. }
  destruct b as [|b1 b]; [discriminate|]. destruct (cbits b1) as [z|] eqn:B1; [|discriminate].
  apply cbits_some in B1 as [Hz ->].
  destruct (bN a <? 240) eqn:A4.
  { cbv zeta in E. destruct (in_plane 2048 _) eqn:I; [|discriminate]. apply in_plane_true in I as [I1 [I2 I3]].
    apply OM in E as [<- E]. exists [a; nB (128 + y); nB (128 + z)], b. repeat split; [|exact E|congruence].
    unfold utf8_char. replace (_ <? 128) with false by lia. replace (_ <? 2048) with false by lia.
    replace ((55296 <=? _) && (_ <=? 57343)) with false by lia. replace (_ <? 65536) with true by lia.
    rewrite <- (nB_bN a) at 4. repeat f_equal; lia. }
  destruct b as [|b2 b]; [discriminate|]. destruct (cbits b2) as [w|] eqn:B2; [|discriminate].
  apply cbits_some in B2 as [Hw ->].
  destruct (bN a <? 248) eqn:A5; [|discriminate].
  cbv zeta in E. destruct (in_plane 65536 _) eqn:I; [|discriminate]. apply in_plane_true in I as [I1 [I2 I3]].
  apply OM in E as [<- E]. exists [a; nB (128 + y); nB (128 + z); nB (128 + w)], b. repeat split; [|exact E|congruence].
  unfold utf8_char. replace (_ <? 128) with false by lia. replace (_ <? 2048) with false by lia.
  replace ((55296 <=? _) && (_ <=? 57343)) with false by lia. replace (_ <? 65536) with false by lia.
  replace (_ <? 1114112) with true by lia.
  rewrite <- (nB_bN a) at 5. repeat f_equal; lia.
Qed.
Lemma utf8_dec_encode : forall s b, utf8_dec b = Some s -> utf8_encode s = Ok b.
Proof.
  induction s as [|c s IH]; intros b E.
  - destruct b as [|a b]; [reflexivity|]. exfalso. cbn [utf8_dec] in E.
    repeat match type of E with
    | option_map _ ?o = _ => destruct o; discriminate
    | (match ?x with _ => _ end) = _ => destruct x; try discriminate
    end.
  - destruct (utf8_dec_cons b c s E) as [x [r [-> [C [D _]]]]]. cbn [utf8_encode]. rewrite C, (IH r D). reflexivity.
Qed.
Lemma utf8_decode_encode : forall b s, utf8_decode b = Ok s -> utf8_encode s = Ok b.
Proof.
  intros b s E. unfold utf8_decode in E. destruct (utf8_dec b) as [s'|] eqn:D; [|discriminate]. injection E as <-.
  now apply utf8_dec_encode.
Qed.
Lemma utf8_decode_scalar : forall b s, utf8_decode b = Ok s -> Forall scalar s.
Proof. intros b s E. apply utf8_decode_encode in E. now apply utf8_encode_dec in E. Qed.
