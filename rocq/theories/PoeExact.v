(** Exclusion proofs: exactly when they are made and exactly when the maker accepts them. *)
From Coq Require Import List Bool Arith NArith Lia.
From Verif Require Import Base BaseProofs NibblePath NibbleProofs Node ProofObj Mpt Tree TreeEnc StoreProofs UpdateProofs DeleteProofs
  ReadProofs Spec SpecCodec CodecProofs SpecProof SpecWalk MptRefine MptProofs PoiProofs PoeProofs WalkProofs.
Import ListNotations.

(** The nodes of the proof: those visited, without an extension the key leaves half-way. *)
Fixpoint trail (t : tree) (q : list nat) : list tree :=
  match t with
  | TEmpty => []
  | TLeaf _ _ => [t]
  | TExt p c => match strip p q with
                | Some r => t :: trail c r
                | None => match q with [] => [t] | _ => [] end
                end
  | TBranch cs v =>
      t :: match q with
           | [] => []
           | i :: r =>
               (fix go (l : list tree) (j : nat) : list tree :=
                  match l with
                  | [] => []
                  | c :: l' => match j with O => trail c r | S j' => go l' j' end
                  end) cs i
           end
  end.

Lemma trail_branch : forall cs v i r, trail (TBranch cs v) (i :: r) = TBranch cs v :: trail (nth i cs TEmpty) r.
Proof.
  intros cs v i r. cbn [trail]. f_equal. revert i. induction cs as [|c cs IH]; intros i; destruct i; auto. apply IH.
Qed.

Definition missed (u : tree) (r : list nat) : bool :=
  match u, r with TExt _ _, _ :: _ => true | _, _ => false end.

Section P.
Context {H : Hash}.
Hypothesis keccak_len : forall b, length (keccak b) = 32.

Lemma trail_good : forall t q, wf t -> small t -> Forall good (trail t q).
Proof.
  induction t as [|p v|p c IH|cs v IH] using tree_ind2; intros q Hw Hs.
  - constructor.
  - constructor; [split; [discriminate|auto]|constructor].
  - cbn [trail]. destruct (strip p q) as [r|].
    + constructor; [split; [discriminate|auto]|]. apply IH; [apply Hw|eapply small_ext; eauto].
    + destruct q; constructor; [split; [discriminate|auto]|constructor].
  - destruct q as [|i r]; [constructor; [split; [discriminate|auto]|constructor]|]. rewrite trail_branch.
    constructor; [split; [discriminate|auto]|]. assert (Hw' := Hw). apply wf_branch in Hw'.
    destruct (nth_in_or_default i cs TEmpty) as [Hi|Hi]; [|rewrite Hi; constructor].
    rewrite Forall_forall in IH. apply IH; [exact Hi|apply wf_nth; apply Hw'|eapply small_nth; eauto].
Qed.

Lemma trail_sub : forall t q s, In s (trail t q) -> sub s t.
Proof.
  induction t as [|p v|p c IH|cs v IH] using tree_ind2; intros q s Hs.
  - contradiction.
  - destruct Hs as [<-|[]]. constructor.
  - cbn [trail] in Hs. destruct (strip p q) as [r|].
    + destruct Hs as [<-|Hs]; constructor; eauto.
    + destruct q; [|contradiction]. destruct Hs as [<-|[]]. constructor.
  - destruct q as [|i r]; [destruct Hs as [<-|[]]; constructor|]. rewrite trail_branch in Hs.
    destruct Hs as [<-|Hs]; [constructor|]. apply (s_child s cs v i).
    destruct (nth_in_or_default i cs TEmpty) as [Hi|Hi]; [|rewrite Hi in Hs; contradiction].
    rewrite Forall_forall in IH. eauto.
Qed.

Lemma tref_inj : forall tr a b, nocoll (encs tr) -> sub a tr -> sub b tr -> good a -> good b -> tref a = tref b -> a = b.
Proof.
  intros tr a b Hn Ha Hb Ga Gb E. apply (tenc_inj keccak_len); try apply Ga; try apply Gb.
  - eapply nocoll_incl; [|exact Hn]. intros x Hx. apply in_app_or in Hx. destruct Hx as [Hx|Hx].
    + apply (sub_encs _ _ Ha). exact Hx.
    + apply (sub_encs _ _ Hb). exact Hx.
  - rewrite !tref_eq in E by (apply Ga || apply Gb).
    destruct (Nat.ltb_spec (length (tenc a)) 32), (Nat.ltb_spec (length (tenc b)) 32); auto.
    + apply (f_equal (@length byte)) in E. rewrite keccak_len in E. lia.
    + apply (f_equal (@length byte)) in E. rewrite keccak_len in E. lia.
    + apply Hn; auto.
      * apply (sub_encs _ _ Ha). apply encs_here; [apply Ga|auto].
      * apply (sub_encs _ _ Hb). apply encs_here; [apply Gb|auto].
Qed.

Lemma sub_trans : forall b c, sub b c -> forall a, sub a b -> sub a c.
Proof. induction 1; intros a Ha; auto; [constructor; auto|]. eapply s_child. eauto. Qed.

Lemma trail_nodup : forall t q tr, sub t tr -> nocoll (encs tr) -> wf t -> small t -> NoDup (map tref (trail t q)).
Proof.
  induction t as [|p v|p c IH|cs v IH] using tree_ind2; intros q tr Ht Hn Hw Hs.
  - constructor.
  - constructor; [intros []|constructor].
  - cbn [trail]. assert (Hwc : wf c) by apply Hw. assert (Hsc : small c) by (eapply small_ext; eauto).
    destruct (strip p q) as [r|]; [|destruct q; constructor; [intros []|constructor]].
    assert (Sc : sub c tr) by (apply (sub_trans _ _ Ht); constructor; constructor).
    constructor; [|eapply IH; eauto].
    intros Hin. apply in_map_iff in Hin. destruct Hin as (s & E & Hin).
    assert (Gs : good s) by (pose proof (trail_good c r Hwc Hsc) as Hg; rewrite Forall_forall in Hg; auto).
    assert (Ss : sub s c) by (eapply trail_sub; eauto).
    assert (Gt : good (TExt p c)) by (split; [discriminate|split; auto]).
    pose proof (tref_inj tr s (TExt p c) Hn (sub_trans _ _ Sc _ Ss) Ht Gs Gt E) as ->.
    apply (sub_size keccak_len) in Ss. cbn [tsize] in Ss. lia.
  - destruct q as [|i r]; [constructor; [intros []|constructor]|]. rewrite trail_branch. cbn [map].
    assert (Hw' := Hw). apply wf_branch in Hw'. destruct Hw' as (_ & _ & Hf).
    assert (Hwc : wf (nth i cs TEmpty)) by (apply wf_nth; auto).
    assert (Hsc : small (nth i cs TEmpty)) by (eapply small_nth; eauto).
    assert (Sc : sub (nth i cs TEmpty) tr) by (apply (sub_trans _ _ Ht); eapply s_child; constructor).
    destruct (nth_in_or_default i cs TEmpty) as [Hi|Hi].
    2:{ rewrite Hi. constructor; [intros []|constructor]. }
    rewrite Forall_forall in IH. constructor; [|eapply IH; eauto].
    intros Hin. apply in_map_iff in Hin. destruct Hin as (s & E & Hin).
    assert (Gs : good s) by (pose proof (trail_good _ r Hwc Hsc) as Hg; rewrite Forall_forall in Hg; auto).
    assert (Ss : sub s (nth i cs TEmpty)) by (eapply trail_sub; eauto).
    assert (Gt : good (TBranch cs v)) by (split; [discriminate|split; auto]).
    pose proof (tref_inj tr s (TBranch cs v) Hn (sub_trans _ _ Sc _ Ss) Ht Gs Gt E) as ->.
    apply (sub_size keccak_len) in Ss. pose proof (tsize_child keccak_len cs i v). lia.
Qed.

(** ** Making the proof *)
Lemma poe_halt : forall fuel m t path acc u r, t <> TEmpty -> wf t -> small t -> stored m t -> length (nibs path) < fuel ->
  halt t (nibs path) = (u, r) ->
  exists n path', nmatch n u /\ nibs path' = r /\
    get_poe_ fuel m (tref t) path acc = Ok (n, acc ++ map tenc (trail t (nibs path)), path').
Proof.
  induction fuel as [|f IH]; intros m t path acc u r Hne Hw Hs St Hf Eh; [lia|].
  destruct (get_node_stored keccak_len m t Hne Hw Hs (here_of_stored _ _ St)) as (n & En & Hm).
  pose proof (node_encode_match keccak_len n t Hm Hw Hs) as Ee.
  cbn [get_poe_]. rewrite En. cbn [bind]. rewrite Ee. cbn [bind].
  destruct n as [lp d|ep nr|bs d], t as [|p w|p c|cs w]; cbn [nmatch] in Hm; try contradiction.
  - destruct Hm as [<- <-]. injection Eh as <- <-. exists (Leaf lp d), path. split; [cbn; auto|]. split; auto.
    destruct (np_len path =? 0); reflexivity.
  - destruct Hm as [<- ->]. destruct Hw as (Hep & Hep0 & Hb & Hwc).
    assert (Hep' : length (nibs ep) <> 0) by (destruct (nibs ep); cbn; congruence).
    assert (Hc : c <> TEmpty) by (intros ->; contradiction).
    apply stored_ext in St. destruct St as [_ St]. cbn [halt] in Eh. cbn [trail].
    destruct (strip (nibs ep) (nibs path)) as [q|] eqn:Es.
    + rewrite np_starts_with_spec, Es. pose proof (np_starts_with_skip _ _ _ Es) as Er. apply strip_spec in Es.
      assert (Hl := f_equal (@length nat) Es). rewrite app_length in Hl.
      replace (np_len path =? 0) with false by (symmetry; apply Nat.eqb_neq; rewrite np_len_spec; lia).
      destruct (IH m c (np_consume path (np_len ep)) (acc ++ [tenc (TExt (nibs ep) c)]) u r) as (n & path' & A & B & C);
        auto; try (rewrite Er; auto; lia).
      { eapply small_ext; eauto. }
      exists n, path'. split; auto. split; auto. rewrite C, Er. cbn [map]. rewrite <- app_assoc. reflexivity.
    + rewrite np_starts_with_spec, Es. injection Eh as <- <-. exists (Extension ep (tref c)), path.
      split; [cbn; auto|]. split; auto.
      destruct (path_cases path) as [[Hz Hn]|(i & q & Hn & Hz & Hi & Hq)]; rewrite Hz, Hn; cbn [Nat.eqb map]; auto.
      rewrite app_nil_r. reflexivity.
  - destruct Hm as [-> <-]. apply wf_branch in Hw. destruct Hw as (Hlen & Hok & Hwc).
    apply stored_branch in St. destruct St as [_ St].
    destruct (path_cases path) as [[Hz Hn]|(i & q & Hn & Hz & Hi & Hq)]; rewrite Hz; cbn [Nat.eqb]; rewrite Hn in Eh; rewrite Hn.
    + injection Eh as <- <-. exists (Branch (map tref cs) d), path. split; [cbn; auto|]. split; auto.
    + rewrite halt_branch in Eh. rewrite trail_branch, Hi, nth_map_tref. destruct (tree_empty_dec (nth i cs TEmpty)) as [Hc|Hc].
      * injection Eh as <- <-. exists (Branch (map tref cs) d), path. split; [cbn; auto|]. split; auto. rewrite Hc. reflexivity.
      * replace (0 <? length (tref (nth i cs TEmpty))) with true by (symmetry; apply tref_pos; auto).
        destruct (IH m (nth i cs TEmpty) (np_consume path 1) (acc ++ [tenc (TBranch cs d)]) u r) as (n & path' & A & B & C);
          auto using wf_nth, stored_nth; try (rewrite Hq; auto).
        { eapply small_nth; eauto. }
        { rewrite Hn in Hf. cbn [length] in Hf. lia. }
        exists n, path'. split; auto. split; auto. rewrite C, Hq. cbn [map]. rewrite <- app_assoc. reflexivity.
Qed.

Lemma contains_halt : forall fuel m t path u r, t <> TEmpty -> wf t -> small t -> stored m t -> length (nibs path) < fuel ->
  halt t (nibs path) = (u, r) ->
  exists n path', nmatch n u /\ nibs path' = r /\ contains_ fuel m (tref t) path = Ok (n, path').
Proof.
  induction fuel as [|f IH]; intros m t path u r Hne Hw Hs St Hf Eh; [lia|].
  destruct (get_node_stored keccak_len m t Hne Hw Hs (here_of_stored _ _ St)) as (n & En & Hm).
  cbn [contains_]. rewrite En.
  destruct n as [lp d|ep nr|bs d], t as [|p w|p c|cs w]; cbn [nmatch] in Hm; try contradiction.
  - destruct Hm as [<- <-]. injection Eh as <- <-. exists (Leaf lp d), path. split; [cbn; auto|]. split; auto.
    destruct (np_len path =? 0); reflexivity.
  - destruct Hm as [<- ->]. destruct Hw as (Hep & Hep0 & Hb & Hwc).
    assert (Hep' : length (nibs ep) <> 0) by (destruct (nibs ep); cbn; congruence).
    assert (Hc : c <> TEmpty) by (intros ->; contradiction).
    apply stored_ext in St. destruct St as [_ St]. cbn [halt] in Eh.
    destruct (strip (nibs ep) (nibs path)) as [q|] eqn:Es.
    + rewrite np_starts_with_spec, Es. pose proof (np_starts_with_skip _ _ _ Es) as Er. apply strip_spec in Es.
      assert (Hl := f_equal (@length nat) Es). rewrite app_length in Hl.
      replace (np_len path =? 0) with false by (symmetry; apply Nat.eqb_neq; rewrite np_len_spec; lia).
      apply IH; auto; try (rewrite Er; auto; lia). eapply small_ext; eauto.
    + rewrite np_starts_with_spec, Es. injection Eh as <- <-. exists (Extension ep (tref c)), path.
      split; [cbn; auto|]. split; auto. destruct (np_len path =? 0); reflexivity.
  - destruct Hm as [-> <-]. apply wf_branch in Hw. destruct Hw as (Hlen & Hok & Hwc).
    apply stored_branch in St. destruct St as [_ St].
    destruct (path_cases path) as [[Hz Hn]|(i & q & Hn & Hz & Hi & Hq)]; rewrite Hz; cbn [Nat.eqb]; rewrite Hn in Eh.
    + injection Eh as <- <-. exists (Branch (map tref cs) d), path. split; [cbn; auto|]. split; auto.
    + rewrite halt_branch in Eh. rewrite Hi, nth_map_tref. destruct (tree_empty_dec (nth i cs TEmpty)) as [Hc|Hc].
      * injection Eh as <- <-. exists (Branch (map tref cs) d), path. split; [cbn; auto|]. split; auto. rewrite Hc. reflexivity.
      * replace (0 <? length (tref (nth i cs TEmpty))) with true by (symmetry; apply tref_pos; auto).
        apply IH; auto using wf_nth, stored_nth; try (rewrite Hq; auto).
        { eapply small_nth; eauto. }
        { rewrite Hn in Hf. cbn [length] in Hf. lia. }
Qed.

(** ** Checking it *)
Lemma check_step : forall f L t path, good t -> exists n, nmatch n t /\
  verify_poe_ (S f) (plist (t :: L)) (tref t) path =
    (if np_len path =? 0 then Ok (Some n, plist L)
     else match n with
          | Leaf _ _ => Ok (Some n, plist L)
          | Extension ep nr =>
              if np_starts_with path ep then verify_poe_ f (plist L) nr (np_consume path (np_len ep)) else Ok (Some n, plist L)
          | Branch bs _ =>
              let b := nth (np_at path 0) bs [] in
              if 0 <? length b then verify_poe_ f (plist L) b (np_consume path 1) else Ok (Some n, plist L)
          end).
Proof.
  intros f L t path Hg. destruct (node_decode_tenc keccak_len t) as (n & En & Hm); try apply Hg.
  exists n. split; auto. cbn [verify_poe_].
  assert (E1 : dget (plist (t :: L)) (tref t) = Some (tenc t)).
  { unfold plist. cbn [map dget]. rewrite bytes_eqb_refl. reflexivity. }
  assert (E2 : ddel (plist (t :: L)) (tref t) = plist L).
  { unfold plist. cbn [map ddel]. rewrite bytes_eqb_refl. reflexivity. }
  assert (E3 : (if length (tref t) =? 32 then dget (plist (t :: L)) (tref t) else Some (tref t)) = Some (tenc t)).
  { rewrite E1, (tref_32 keccak_len) by apply Hg. rewrite tref_eq by apply Hg. destruct (length (tenc t) <? 32); reflexivity. }
  rewrite E3, En. cbn [bind]. rewrite E1, E2. reflexivity.
Qed.

(** The walk meets an extension that is not in the list. *)
Lemma check_miss : forall f t path, good t ->
  verify_poe_ (S f) [] (tref t) path = if length (tenc t) <? 32 then Err PoeError else Ok (None, []).
Proof.
  intros f t path Hg. cbn [verify_poe_]. rewrite (tref_32 keccak_len) by apply Hg.
  destruct (length (tenc t) <? 32) eqn:El; cbn [negb dget]; auto.
  rewrite tref_eq, El by apply Hg. destruct (node_decode_tenc keccak_len t) as (n & En & Hm); try apply Hg.
  rewrite En. reflexivity.
Qed.

Lemma check_trail : forall fuel t path u r, t <> TEmpty -> wf t -> small t -> length (nibs path) < fuel ->
  halt t (nibs path) = (u, r) ->
  if missed u r
  then verify_poe_ fuel (plist (trail t (nibs path))) (tref t) path =
         if length (tenc u) <? 32 then Err PoeError else Ok (None, [])
  else exists n, nmatch n u /\ verify_poe_ fuel (plist (trail t (nibs path))) (tref t) path = Ok (Some n, []).
Proof.
  induction fuel as [|f IH]; intros t path u r Hne Hw Hs Hf Eh; [lia|].
  assert (Hg : good t) by (split; auto). destruct t as [|p w|p c|cs w]; [congruence|..].
  - injection Eh as <- <-. cbn [missed trail]. destruct (check_step f [] (TLeaf p w) path Hg) as (n & Hm & E).
    exists n. split; auto. rewrite E. destruct n; cbn [nmatch] in Hm; try contradiction.
    destruct (np_len path =? 0); reflexivity.
  - assert (Hw0 := Hw). destruct Hw as (Hep & Hep0 & Hb & Hwc). assert (Hc : c <> TEmpty) by (intros ->; contradiction).
    assert (Hep' : length p <> 0) by (destruct p; cbn; congruence).
    cbn [halt] in Eh. cbn [trail]. destruct (strip p (nibs path)) as [q|] eqn:Es.
    + destruct (check_step f (trail c q) (TExt p c) path Hg) as (n & Hm & E).
      destruct n as [|ep nr|]; cbn [nmatch] in Hm; try contradiction. destruct Hm as [Ep ->].
      assert (Es' : strip (nibs ep) (nibs path) = Some q) by (rewrite Ep; exact Es).
      pose proof (np_starts_with_skip _ _ _ Es') as Er. rewrite np_starts_with_spec, Es' in E.
      apply strip_spec in Es. assert (Hl := f_equal (@length nat) Es). rewrite app_length in Hl.
      replace (np_len path =? 0) with false in E by (symmetry; apply Nat.eqb_neq; rewrite np_len_spec; lia).
      rewrite E. rewrite <- Er. apply IH; auto; try (rewrite Er; auto; lia). eapply small_ext; eauto.
    + injection Eh as <- <-.
      destruct (path_cases path) as [[Hz Hn]|(i & q & Hn & Hz & Hi & Hq)]; rewrite Hn; cbn [missed].
      * destruct (check_step f [] (TExt p c) path Hg) as (n & Hm & E). exists n. split; auto. rewrite E, Hz. reflexivity.
      * apply check_miss. exact Hg.
  - assert (Hw0 := Hw). apply wf_branch in Hw. destruct Hw as (Hlen & Hok & Hwc).
    destruct (path_cases path) as [[Hz Hn]|(i & q & Hn & Hz & Hi & Hq)]; rewrite Hn in Eh; rewrite Hn.
    + injection Eh as <- <-. cbn [missed]. destruct (check_step f [] (TBranch cs w) path Hg) as (n & Hm & E).
      exists n. split; auto. cbn [trail]. rewrite E, Hz. reflexivity.
    + rewrite halt_branch in Eh. rewrite trail_branch.
      destruct (check_step f (trail (nth i cs TEmpty) q) (TBranch cs w) path Hg) as (n & Hm & E).
      assert (Hm' := Hm). destruct n as [| |bs d]; cbn [nmatch] in Hm; try contradiction. destruct Hm as [-> ->].
      rewrite E, Hz. cbn [Nat.eqb]. cbv zeta. rewrite Hi, nth_map_tref.
      destruct (tree_empty_dec (nth i cs TEmpty)) as [Hc|Hc].
      * injection Eh as <- <-. cbn [missed]. exists (Branch (map tref cs) w). split; auto. rewrite Hc. reflexivity.
      * replace (0 <? length (tref (nth i cs TEmpty))) with true by (symmetry; apply tref_pos; auto).
        rewrite <- Hq. apply IH; auto using wf_nth.
        -- eapply small_nth; eauto.
        -- rewrite Hq. rewrite Hn in Hf. cbn [length] in Hf. lia.
        -- rewrite Hq. exact Eh.
Qed.

(** ** From the keys *)
Lemma edge_leaf : forall t p0 r, wf t -> edge (keys t) p0 -> single (keys t) p0 ->
  exists lp v, halt t (p0 ++ r) = (TLeaf lp v, r) /\ forall x, keys t (p0 ++ x) <-> x = lp.
Proof.
  induction t as [|p w|p c IH|cs w IH] using tree_ind2; intros p0 r Hw He (z & Hz).
  - destruct (proj2 (Hz z) eq_refl) as (v & E). discriminate.
  - destruct He as [->|(a & i & b & -> & (v & Hk) & Hn)].
    + exists p, w. split; [reflexivity|]. intros x. cbn [app]. unfold keys. split.
      * intros (v & E). apply leaf_key_inv in E. apply E.
      * intros ->. exists w. apply lookup_leaf_self.
    + exfalso. apply leaf_key_inv in Hk. destruct Hk as [Hk _]. destruct (proj2 (Hz z) eq_refl) as (v' & E).
      apply leaf_key_inv in E. destruct E as [E _]. rewrite <- Hk, <- app_assoc in E. apply app_inv_head in E.
      apply (Hn z). symmetry. exact E.
  - destruct He as [->|(a & i & b & -> & (v & Hk) & Hn)].
    + exfalso. destruct (wf_ext_keys p c Hw) as (q1 & q2 & v1 & v2 & Hd & K1 & K2). apply Hd.
      rewrite (proj1 (Hz q1)) by (exists v1; exact K1). rewrite (proj1 (Hz q2)) by (exists v2; exact K2). reflexivity.
    + destruct (proj2 (Hz z) eq_refl) as (v' & Hk').
      apply ext_key_inv in Hk. destruct Hk as (s1 & E1 & L1). apply ext_key_inv in Hk'. destruct Hk' as (s2 & E2 & L2).
      assert (Hp : exists a', a = p ++ a').
      { rewrite <- app_assoc in E2. cbn [app] in E2. clear - E1 E2 Hn. revert a E1 E2.
        induction p as [|x p IH]; intros a E1 E2; [exists a; reflexivity|]. cbn [app] in *. destruct a as [|y a]; cbn [app] in *.
        - injection E2 as <- E2. exfalso. apply (Hn (p ++ s1)). exact E1.
        - injection E1 as <- E1. injection E2 as E2. destruct (IH a E1 E2) as (a' & ->). exists a'. reflexivity. }
      destruct Hp as (a' & ->). destruct Hw as (_ & _ & _ & Hwc).
      assert (Hl : forall x, keys (TExt p c) (p ++ x) <-> keys c x) by (intros x; unfold keys; rewrite lookup_ext_app; reflexivity).
      destruct (IH (a' ++ [i]) r Hwc) as (lp & lv & Eh & Hx).
      * right. exists a', i, b. split; auto. split; auto. exists v. rewrite <- app_assoc in E1. apply app_inv_head in E1.
        rewrite E1. exact L1.
      * exists z. intros x. rewrite <- Hl, <- Hz, !app_assoc. reflexivity.
      * exists lp, lv. split.
        { cbn [halt]. rewrite <- !app_assoc, strip_app, app_assoc. exact Eh. }
        intros x. rewrite <- Hx, <- Hl, !app_assoc. reflexivity.
  - assert (Hw' := Hw). apply wf_branch in Hw'. destruct Hw' as (_ & _ & Hf).
    destruct p0 as [|i p0].
    + exfalso. destruct (wf_branch_keys cs w Hw) as (q1 & q2 & v1 & v2 & Hd & K1 & K2). apply Hd.
      rewrite (proj1 (Hz q1)) by (exists v1; exact K1). rewrite (proj1 (Hz q2)) by (exists v2; exact K2). reflexivity.
    + assert (Hl : forall x, keys (TBranch cs w) (i :: x) <-> keys (nth i cs TEmpty) x)
        by (intros x; unfold keys; rewrite lookup_branch; reflexivity).
      assert (Hc : nth i cs TEmpty <> TEmpty).
      { intros E. destruct (proj2 (Hz z) eq_refl) as (v & F). cbn [app] in F. rewrite lookup_branch, E in F. discriminate. }
      destruct (nth_in_or_default i cs TEmpty) as [Hi|Hi]; [|congruence]. rewrite Forall_forall in IH.
      destruct (IH _ Hi p0 r (wf_nth _ _ Hf)) as (lp & lv & Eh & Hx).
      * destruct He as [He|(a & j & b & Ea & Hk & Hn)]; [discriminate|]. destruct a as [|j' a]; cbn [app] in Ea.
        -- injection Ea as -> ->. left. reflexivity.
        -- injection Ea as <- ->. right. exists a, j, b. split; auto. split; auto. apply Hl. exact Hk.
      * exists z. intros x. rewrite <- Hl. apply Hz.
      * exists lp, lv. split.
        { cbn [app]. rewrite halt_branch. destruct (tree_empty_dec (nth i cs TEmpty)); [congruence|exact Eh]. }
        intros x. rewrite <- Hx. cbn [app]. apply Hl.
Qed.

Lemma trail_head : forall t q u r, t <> TEmpty -> halt t q = (u, r) ->
  (exists L, trail t q = t :: L) \/ (trail t q = [] /\ u = t /\ r = q /\ missed u r = true /\ exists p c, t = TExt p c /\ strip p q = None).
Proof.
  intros t q u r Hne E. destruct t as [|p v|p c|cs v]; [congruence|left; eexists; reflexivity| |].
  - cbn [halt] in E. cbn [trail]. destruct (strip p q) eqn:Es; [left; eauto|]. injection E as <- <-.
    destruct q; [left; eauto|]. right. repeat (split; auto). exists p, c. auto.
  - left. destruct q; eexists; [reflexivity|apply trail_branch].
Qed.

Lemma outside_same : forall K K' : nibset, (forall q, K q <-> K' q) -> forall q, outside K q <-> outside K' q.
Proof.
  intros K K' E q. split; intros (c & A & B); exists c; (split; [|exact B]); intros x Hx; apply A; apply E; exact Hx.
Qed.
Lemma own_tail_same : forall K K' : nibset, (forall q, K q <-> K' q) -> forall q, own_tail K q <-> own_tail K' q.
Proof.
  intros K K' E q. split; intros (p & r & A & B & C & D); exists p, r; (split; [exact A|]);
    (split; [|split; [|apply E; exact D]]); [apply (edge_same _ _ E)|apply (single_same _ _ E)|apply (edge_same _ _ E)|apply (single_same _ _ E)]; auto.
Qed.

(** A missed extension is where [get] raises ExtensionPathError. *)
Lemma missed_raises : forall t q u r, t <> TEmpty -> wf t -> halt t q = (u, r) -> lookup t q = None ->
  missed u r = true <-> get_raises (keys t) q ExtensionPathError.
Proof.
  intros t q u r Hne Hw Eh El. destruct (halt_class _ _ _ _ Hne Hw Eh El) as (p & s & L & C). split.
  - destruct u as [| |ep c|]; try discriminate. destruct r as [|i r]; [discriminate|]. intros _. destruct C as (J & _ & N).
    exists p, s. split; auto. right. left. split; auto. split; auto. intros Z. apply N; auto. discriminate.
  - intros (p2 & s2 & L2 & F). destruct (leaves_at_unique _ _ _ _ _ _ L L2) as [<- <-].
    destruct F as [(F & _)|[(_ & J & Z)|[(F & _)|(F & _)]]]; try discriminate.
    destruct u as [|lp v|ep c|cs v]; [contradiction|..].
    + exfalso. destruct C as (S & _). eapply single_not_joined; eauto.
    + destruct r as [|i r]; [|reflexivity]. exfalso. destruct C as (_ & Y & _). destruct (Y eq_refl) as [-> Hed]. apply Z; auto.
    + exfalso. destruct C as (S & _). eapply forked_not_joined; eauto.
Qed.

Lemma own_tail_halt : forall t q u r, t <> TEmpty -> wf t -> halt t q = (u, r) -> lookup t q = None ->
  own_tail (keys t) q <-> exists v, u = TLeaf q v.
Proof.
  intros t q u r Hne Hw Eh El. split.
  - intros (p & s & -> & He & Hs & Hk). destruct (edge_leaf t p s Hw He Hs) as (lp & v & E & Hx).
    rewrite E in Eh. injection Eh as <- <-. apply Hx in Hk. exists v. rewrite Hk. reflexivity.
  - intros (v & ->). destruct (halt_spec t q _ r Hne Hw Eh) as (Hu & Hst & p & E & Hl & He).
    destruct He as [He|[]]. exists p, r. split; auto. split; auto.
    assert (Hk : forall x, keys t (p ++ x) <-> x = q).
    { intros x. unfold keys. rewrite Hl. split; [intros (y & F); apply leaf_key_inv in F; apply F|].
      intros ->. exists v. apply lookup_leaf_self. }
    split; [exists q; exact Hk|apply Hk; reflexivity].
Qed.

Lemma outside_root : forall t q u r, t <> TEmpty -> wf t -> halt t q = (u, r) -> missed u r = true ->
  outside (keys t) q <-> trail t q = [].
Proof.
  intros t q u r Hne Hw Eh Hm. destruct (trail_head t q u r Hne Eh) as [(L & E)|(E & -> & -> & _ & p & c & -> & Es)]; rewrite E.
  - split; [|discriminate]. intros (d & Ha & Hb). exfalso.
    destruct (halt_spec t q u r Hne Hw Eh) as (Hu & Hst & p0 & Eq & Hl & _).
    destruct t as [|p v|p c|cs v]; [congruence| | |].
    + injection Eh as <- <-. discriminate.
    + cbn [halt] in Eh. cbn [trail] in E. destruct (strip p q) as [z|] eqn:Es.
      * apply strip_spec in Es. destruct Hw as (_ & _ & Hbr & Hwc). destruct c as [| | |cs w]; try contradiction.
        destruct (wf_branch_keys cs w Hwc) as (q1 & q2 & v1 & v2 & Hd & K1 & K2).
        assert (Hd1 : exists r1, p ++ q1 = d ++ r1) by (apply Ha; exists v1; rewrite lookup_ext_app; exact K1).
        assert (Hd2 : exists r2, p ++ q2 = d ++ r2) by (apply Ha; exists v2; rewrite lookup_ext_app; exact K2).
        destruct Hd1 as (r1 & D1), Hd2 as (r2 & D2). apply Hb.
        assert (Hp : exists p', p = d ++ p').
        { clear - D1 D2 Hd. revert p D1 D2. induction d as [|x d IH]; intros p D1 D2; [exists p; reflexivity|].
          destruct p as [|y p]; cbn [app] in *.
          - exfalso. apply Hd. subst. reflexivity.
          - injection D1 as -> D1. injection D2 as D2. destruct (IH p D1 D2) as (p' & ->). exists p'. reflexivity. }
        destruct Hp as (p' & ->). exists (p' ++ z). rewrite Es, app_assoc. reflexivity.
      * destruct q; [|discriminate]. injection Eh as <- <-. discriminate.
    + destruct (wf_branch_keys cs v Hw) as (q1 & q2 & v1 & v2 & Hd & K1 & K2).
      destruct (Ha q1) as (r1 & D1); [exists v1; exact K1|]. destruct (Ha q2) as (r2 & D2); [exists v2; exact K2|].
      destruct d as [|x d]; [apply Hb; exists q; reflexivity|]. apply Hd. rewrite D1, D2. reflexivity.
  - split; [reflexivity|]. intros _. exists p. split.
    + intros x (v & Hx). apply ext_key_inv in Hx. destruct Hx as (z & -> & _). eauto.
    + intros (z & ->). rewrite strip_app in Es. discriminate.
Qed.

(** ** The theorem *)
Lemma reach_halt' : forall secure l t k, reachable secure l t -> keys_ok secure (k :: map op_key l) ->
  dict_after l k = None -> (exists k0 v0, dict_after l k0 = Some v0) ->
  exists tr u r, repr t tr /\ tr <> TEmpty /\ m_secure t = secure /\
    halt tr (nibs_of (eff_key t k)) = (u, r) /\ lookup tr (nibs_of (eff_key t k)) = None /\
    (forall q, keys tr q <-> present_keys secure (dict_after l) q) /\ nibs_of (eff_key t k) = nibbles (trie_key secure k) /\
    (forall x v, lookup tr x = Some v -> exists k', dict_after l k' = Some v).
Proof.
  intros secure l t k R Hk Ed (k0 & v0 & Ed0).
  assert (Hkl : keys_ok secure (map op_key l)) by (eapply keys_ok_incl; [|exact Hk]; intros x Hx; right; exact Hx).
  destruct (reach_lookup keccak_len _ _ _ k R Hk) as (tr & Rt & Hh & Es & El).
  assert (Hp := present_keys_tree _ _ _ _ R Hkl Hh).
  destruct (halt tr (nibs_of (eff_key t k))) as [u r] eqn:Eh. exists tr, u, r. split; auto. split.
  { intros ->. destruct (proj2 (Hp (nibbles (trie_key secure k0)))) as (v & E); [exists k0, v0; auto|discriminate]. }
  split; auto. split; auto. split; [congruence|]. split; auto. split; [rewrite eff_key_eff, Es; reflexivity|].
  intros x v Ex. destruct Hh as [H1 H2]. destruct (H2 _ _ Ex) as [y Ey]. rewrite Ey, H1 in Ex.
  destruct (dict_after_eff_inv secure l y v Hkl Ex) as (k' & _ & Ev). eauto.
Qed.

Lemma poe_exact : forall secure l t k lim lim' time t', reachable secure l t -> keys_ok secure (k :: map op_key l) ->
  dict_after l k = None -> (exists k0 v0, dict_after l k0 = Some v0) -> (blen k < 2 ^ 59)%N ->
  frames secure k < lim -> frames secure k < lim' -> m_root t' = m_root t -> mpt_contains lim t k = Ok false ->
  let K := present_keys secure (dict_after l) in let q := nibbles (trie_key secure k) in
  exists p, mpt_get_poe lim time t k = Ok p /\
    (get_raises K q ExtensionPathError -> outside K q ->
       no_collision (proof_hashed (pf_proof p) ++ hashed_by t) -> mpt_verify_poe lim' t' p = Ok false) /\
    (get_raises K q ExtensionPathError -> ~ outside K q ->
       mpt_verify_poe lim' t' p = Ok true \/ (mpt_verify_poe lim' t' p = Err PoeError /\ ~ long_values (dict_after l))) /\
    (~ get_raises K q ExtensionPathError -> own_tail K q -> mpt_verify_poe lim' t' p = Ok false) /\
    (~ get_raises K q ExtensionPathError -> ~ own_tail K q -> mpt_verify_poe lim' t' p = Ok true).
Proof.
  intros secure l t k lim lim' time t' R Hk Ed Hd Hbl Hl Hl' Hr' Hc.
  destruct (reach_halt' _ _ _ _ R Hk Ed Hd) as (tr & u & r & Rt & Hne & Es & Eh & El & HK & Eq & Hval). cbv zeta.
  rewrite <- Eq. pose proof (get_raises_same _ _ HK (nibs_of (eff_key t k)) ExtensionPathError) as I1.
  pose proof (outside_same _ _ HK (nibs_of (eff_key t k))) as I2. pose proof (own_tail_same _ _ HK (nibs_of (eff_key t k))) as I3.
  destruct (repr_nonempty keccak_len t tr Rt Hne) as (E1 & E2 & E3 & E4).
  assert (Hrh := root_hash_repr keccak_len t tr Rt Hne). assert (Hnc := nocoll_encs t tr Rt).
  assert (Rt' := Rt). destruct Rt' as (Hw & Hs & St & Hdi & Hn & _). assert (Hg : good tr) by (split; auto).
  set (q := nibs_of (eff_key t k)) in *.
  assert (Hq : length q < lim /\ length q < lim').
  { subst q. rewrite nibs_of_length, eff_key_eff, Es, (eff_frames keccak_len). auto. }
  assert (Hsq : (N.of_nat (length q) < SZ)%N).
  { subst q. rewrite nibs_of_length, eff_key_eff. unfold eff, SZ. destruct (m_secure t); [rewrite keccak_len; reflexivity|].
    unfold blen in Hbl. change (2 ^ 60)%N with (2 * 2 ^ 59)%N. lia. }
  destruct (poe_halt lim (m_map t) tr (np_of (eff_key t k)) [] u r Hne Hw Hs St) as (n & path' & Hm & Hp & Eg);
    [rewrite nibs_np_of; apply Hq|rewrite nibs_np_of; exact Eh|].
  rewrite nibs_np_of in Eg. fold q in Eg. cbn [app] in Eg.
  assert (Hrq : length r <= length q).
  { destruct (halt_spec tr q u r Hne Hw Eh) as (_ & _ & p0 & -> & _). rewrite app_length. lia. }
  assert (Gn : good (TLeaf (nibs path') null_bytes)).
  { split; [discriminate|]. split; [apply nibs_ok|].
    intros x v E. apply leaf_key_inv in E. destruct E as [-> ->]. split; [|reflexivity]. rewrite Hp.
    assert ((N.of_nat (length r) <= N.of_nat (length q))%N) by lia. lia. }
  set (e := tenc (TLeaf (nibs path') null_bytes)) in *.
  assert (N1 : node_encode (Leaf path' null_bytes) = Ok e)
    by (apply (node_encode_match keccak_len); try apply Gn; cbn; auto).
  destruct (node_decode_tenc keccak_len _ (proj1 Gn) (proj1 (proj2 Gn)) (proj2 (proj2 Gn))) as (nn & N2 & Hmn). fold e in N2.
  assert (N4 : node_encode nn = Ok e) by (apply (node_encode_match keccak_len); try apply Gn; auto).
  assert (N3 : node_data nn = Ok null_bytes).
  { destruct nn; cbn in Hmn; try contradiction. destruct Hmn as [_ ->]. reflexivity. }
  assert (Eget : mpt_get_poe lim time t k = Ok (mkProof MPT_POE time (eff_key t k) (root_hash t) (map PB (map tenc (trail tr q) ++ [e])))).
  { unfold mpt_get_poe. rewrite E2, Hc, E3, Eg. cbn [bind]. rewrite N1. cbn [bind].
    assert (Hu : match u with TBranch _ v => v = [] | TLeaf lp _ => lp <> r | _ => True end).
    { destruct u as [|lp v|ep c|cs v]; auto.
      - intros ->. destruct (halt_spec tr q _ r Hne Hw Eh) as (_ & _ & p0 & Ep & Hlk & _). rewrite Ep, Hlk, lookup_leaf_self in El. discriminate.
      - unfold mpt_contains in Hc. rewrite E1, E2, E3 in Hc.
        destruct (contains_halt lim (m_map t) tr (np_of (eff_key t k)) _ r Hne Hw Hs St (proj1 Hq) Eh) as (n2 & path2 & Hm2 & _ & Ec).
        rewrite Ec in Hc. destruct n2; cbn [nmatch] in Hm2; try contradiction. destruct Hm2 as [_ ->].
        destruct v; auto. discriminate. }
    destruct n as [lp d|ep nr|bs d], u as [|p w|p c|cs w]; cbn [nmatch] in Hm; try contradiction.
    - destruct Hm as [<- <-]. replace (np_eq lp path') with false; [reflexivity|]. symmetry. apply np_eq_false. congruence.
    - reflexivity.
    - destruct Hm as [_ ->]. rewrite Hu. reflexivity. }
  eexists. split; [exact Eget|].
  assert (F : root_is_empty t' = false /\ root_ref t' = tref tr /\ root_hash t' = keccak (tenc tr)).
  { rewrite <- Hrh, <- E2, <- E3. unfold root_hash, root_falsy, root_is_empty, root_ref. rewrite Hr'. auto. }
  destruct F as (F1 & F2 & F3). 
  fold q in I1, I2, I3.
  rewrite <- I1, <- I2, <- I3, <- (missed_raises tr q u r Hne Hw Eh El), (own_tail_halt tr q u r Hne Hw Eh El).
  assert (Gt := trail_good tr q Hw Hs).
  assert (V : forall L, trail tr q = tr :: L ->
    mpt_verify_poe lim' t' (mkProof MPT_POE time (eff_key t k) (root_hash t) (map PB (map tenc (trail tr q) ++ [e]))) =
    ('(n, rest) <- verify_poe_ lim' (plist (trail tr q)) (tref tr) (np_of (eff_key t k)) ;;
     if negb (length rest =? 0) then Ok false
     else match n with Some (Leaf lp _) => Ok (negb (np_eq lp (np_of (eff_key t k)))) | _ => Ok true end)%res).
  { intros L EL. unfold mpt_verify_poe. cbn [pf_type pf_proof pf_key]. rewrite bytes_eqb_refl, F1, F2, F3. cbn [negb].
    replace (hash_first _) with (@Ok bytes (keccak (tenc tr))) by (rewrite EL; reflexivity). cbn [bind]. rewrite bytes_eqb_refl. cbn [negb].
    unfold decode_last. rewrite map_app. cbn [map]. rewrite last_last, N2. cbn [bind]. rewrite N3. cbn [bind].
    rewrite bytes_eqb_refl. cbn [negb]. rewrite removelast_snoc, (poe_storage_good keccak_len) by exact Gt. cbn [bind].
    rewrite pstore_plist; [reflexivity|]. cbn [dkeys map app].
    apply (trail_nodup tr q tr); auto. constructor. }
  pose proof (check_trail lim' tr (np_of (eff_key t k)) u r Hne Hw Hs) as CT.
  rewrite nibs_np_of in CT. fold q in CT. specialize (CT (proj2 Hq) Eh).
  split; [|split; [|split]].
  - intros Hmi Ho Hco. apply (outside_root tr q u r Hne Hw Eh Hmi) in Ho. cbn [pf_proof] in Hco.
    unfold mpt_verify_poe. cbn [pf_type pf_proof pf_key]. rewrite bytes_eqb_refl, F1, F3, Ho. cbn [negb].
    rewrite Ho in Hco. cbn [map app] in Hco. cbn [map app]. unfold hash_first. cbn [pf_proof bind].
    replace (bytes_eqb (keccak (tenc tr)) (keccak e)) with false; [reflexivity|]. symmetry. apply bytes_eqb_neq. intros Ek.
    assert (Ete : tenc tr = e).
    { apply Hco; auto.
      - apply in_or_app. right. unfold hashed_by. rewrite E3.
        destruct (Nat.ltb_spec (length (tenc tr)) 32) as [Hlt|Hlt].
        + left. rewrite tref_eq by auto. apply Nat.ltb_lt in Hlt. rewrite Hlt. reflexivity.
        + right. destruct Hdi as (_ & _ & D). apply (D (keccak (tenc tr)) (tenc tr)).
          eapply encs_stored; eauto. apply encs_here; auto.
      - apply in_or_app. left. cbn [proof_hashed flat_map]. rewrite N2, N4. left. reflexivity. }
    destruct (trail_head tr q u r Hne Eh) as [(L & EL)|(_ & _ & _ & _ & p & c & -> & _)]; [congruence|].
    destruct (node_decode_tenc keccak_len _ Hne Hw Hs) as (n3 & N5 & Hm3). rewrite Ete, N2 in N5. injection N5 as <-.
    destruct nn; cbn [nmatch] in Hm3, Hmn; contradiction.
  - intros Hmi Ho. rewrite Hmi in CT.
    destruct (trail_head tr q u r Hne Eh) as [(L & EL)|(EL & _)]; [|exfalso; apply Ho; apply (outside_root tr q u r Hne Hw Eh Hmi); exact EL].
    rewrite (V L EL), CT. destruct (length (tenc u) <? 32) eqn:Elt; [|left; reflexivity]. right. split; [reflexivity|].
    intros Hlv. destruct u as [| |ep c|]; try discriminate.
    destruct (halt_spec tr q _ r Hne Hw Eh) as (Hu & _ & p0 & Ep & Hlk & _).
    assert (Gu : good (TExt ep c)).
    { split; [discriminate|]. split; [exact Hu|]. intros x v Ex. rewrite <- Hlk in Ex. destruct (Hs _ _ Ex) as [A B]. split; auto.
      rewrite app_length in A. lia. }
    assert (Hbv : big_values (TExt ep c)).
    { intros x v Ex. rewrite <- Hlk in Ex. destruct (Hval _ _ Ex) as (k' & Ev). eapply Hlv; eauto. }
    pose proof (big_tref32 keccak_len _ Gu Hbv) as B. rewrite (tref_32 keccak_len), Elt in B by apply Gu. discriminate.
  - intros Hmi (v & Hu). destruct (missed u r) eqn:Em; [congruence|]. destruct CT as (n2 & Hm2 & Ev).
    destruct (trail_head tr q u r Hne Eh) as [(L & EL)|(_ & _ & _ & Em' & _)]; [|congruence].
    rewrite (V L EL), Ev. cbn [bind length Nat.eqb negb]. subst u. destruct n2; cbn [nmatch] in Hm2; try contradiction.
    destruct Hm2 as [Hp2 _]. replace (np_eq path (np_of (eff_key t k))) with true; [reflexivity|].
    symmetry. apply np_eq_spec. rewrite nibs_np_of. exact Hp2.
  - intros Hmi Hu. destruct (missed u r) eqn:Em; [congruence|]. destruct CT as (n2 & Hm2 & Ev).
    destruct (trail_head tr q u r Hne Eh) as [(L & EL)|(_ & _ & _ & Em' & _)]; [|congruence].
    rewrite (V L EL), Ev. cbn [bind length Nat.eqb negb]. destruct n2 as [lp d| |]; auto.
    destruct u as [|p w| |]; cbn [nmatch] in Hm2; try contradiction. destruct Hm2 as [Hp2 _].
    replace (np_eq lp (np_of (eff_key t k))) with false; [reflexivity|]. symmetry. apply np_eq_false. rewrite nibs_np_of.
    intros Hq2. apply Hu. exists w. rewrite Hq2 in Hp2. rewrite <- Hp2. reflexivity.
Qed.

Lemma no_KeyError : forall secure l t k lim, reachable secure l t -> keys_ok secure (k :: map op_key l) ->
  dict_after l k = None -> (exists k0 v0, dict_after l k0 = Some v0) -> frames secure k < lim ->
  mpt_get lim t k <> Err KeyError /\ fst (mpt_delete lim [] t k) <> Err KeyError.
Proof.
  intros secure l t k lim R Hk Ed Hd Hl. split.
  - intros E. apply (get_Err_raises keccak_len _ _ _ _ _ _ R Hk Ed Hd Hl) in E.
    destruct E as (p & r & _ & [(E & _)|[(E & _)|[(E & _)|(E & _)]]]); discriminate.
  - destruct (reach_halt' _ _ _ _ R Hk Ed Hd) as (tr & u & r & Rt & Hne & Es & Eh & El & HK & Eq & Hval).
    destruct (repr_nonempty keccak_len t tr Rt Hne) as (E1 & E2 & E3 & E4). destruct Rt as (Hw & Hs & St & _).
    unfold mpt_delete, run_op. rewrite E2, E3, (delete_halt keccak_len lim (m_map t) (m_log t) tr (np_of (eff_key t k)) u r); auto.
    + cbn. destruct u, r; discriminate.
    + rewrite nibs_np_of, nibs_of_length, eff_key_eff, Es, (eff_frames keccak_len). exact Hl.
Qed.

Lemma reach_empty : forall secure l t k, reachable secure l t -> keys_ok secure (k :: map op_key l) ->
  (forall x, dict_after l x = None) -> repr t TEmpty.
Proof.
  intros secure l t k R Hk Hd. destruct (reach_lookup keccak_len _ _ _ k R Hk) as (tr & Rt & Hh & Es & El).
  destruct (tree_empty_dec tr) as [->|Hne]; [exact Rt|]. exfalso. assert (Hw : wf tr) by apply Rt.
  destruct (wf_has_key _ Hw Hne) as (q & v & E). destruct Hh as [H1 H2]. destruct (H2 _ _ E) as [y Ey]. rewrite Ey, H1 in E.
  assert (Hkl : keys_ok secure (map op_key l)) by (eapply keys_ok_incl; [|exact Hk]; intros x Hx; right; exact Hx).
  destruct (dict_after_eff_inv secure l y v Hkl E) as (k' & _ & Ev). rewrite Hd in Ev. discriminate.
Qed.

Lemma poe_refused : forall secure l t k lim time, reachable secure l t -> keys_ok secure (k :: map op_key l) -> frames secure k < lim ->
  ((forall x, dict_after l x = None) -> mpt_get_poe lim time t k = Err ValueError) /\
  (mpt_contains lim t k = Ok true -> mpt_get_poe lim time t k = Err PoeError).
Proof.
  intros secure l t k lim time R Hk Hl. split.
  - intros Hd. pose proof (reach_empty _ _ _ _ R Hk Hd) as Rt. unfold mpt_get_poe.
    destruct (repr_empty_root t Rt) as [E _]. rewrite E. reflexivity.
  - intros Hc. unfold mpt_get_poe. assert (E : root_is_empty t = false).
    { unfold mpt_contains in Hc. destruct (root_falsy t); [discriminate|]. destruct (root_is_empty t); [discriminate|reflexivity]. }
    rewrite E, Hc. reflexivity.
Qed.

(** The root of a trie that a call has changed is never the hash of nothing. *)
Lemma update_root : forall lim fl t tr k v t', repr t tr -> mpt_update lim fl t k v = (Ok tt, t') -> ok_op (m_secure t) (Put k v) ->
  nocoll (m_log t') -> m_root t' <> Some EMPTY_HASH.
Proof.
  intros lim fl t tr k v t' R E (Hk & Hv & Hvs) Hn.
  destruct (repr_update keccak_len lim fl t tr k v (Ok tt) t') as (tr' & R' & U); auto.
  { split; [apply (eff_small keccak_len); auto|unfold SZ; lia]. }
  assert (Hne : tr' <> TEmpty).
  { intros ->. destruct U as (_ & U & _). specialize (U (nibs_of (eff_key t k))). destruct (path_dec _ _); [discriminate|congruence]. }
  destruct (repr_nonempty keccak_len t' tr' R' Hne) as (_ & _ & _ & ->). intros F. injection F as F.
  apply (tref_not_empty_hash keccak_len t' tr' R' Hne). exact F.
Qed.

Lemma delete_root : forall lim fl t tr k t', repr t tr -> mpt_delete lim fl t k = (Ok tt, t') ->
  nocoll (m_log t') -> m_root t' <> Some EMPTY_HASH.
Proof.
  intros lim fl t tr k t' R E Hn' Er.
  destruct (call_keeps keccak_len t (Call (Del k) lim fl) (Ok tt) t' (repr_dinv _ _ R) E) as [D' G].
  assert (E0 := E).
  destruct (tree_empty_dec tr) as [->|Hne].
  { destruct (repr_empty_root t R) as [E1 _]. unfold mpt_delete in E. rewrite E1 in E. discriminate. }
  destruct (repr_nonempty keccak_len t tr R Hne) as (E1 & E2 & E3 & E4). unfold mpt_delete in E. rewrite E2, E3 in E.
  assert (R0 := R). destruct R as (Hw & Hs & St & Hd & Hn & _ & Hkp).
  unfold run_op in E.
  pose proof (delete_spec keccak_len lim tr (np_of (eff_key t k))
               (mkStore (m_map t) (m_log t) fl) Hd Hn Hne Hw Hs St) as S.
  rewrite nibs_np_of in S. unfold spec in S.
  destruct (delete_ lim (tref tr) (np_of (eff_key t k)) _) as [[a|e] s] eqn:Eu; [|discriminate]; cbn [snd] in S.
  injection E as <-. cbn [m_log m_map m_root] in *. specialize (S Hn').
  destruct S as (Hl & O).
  assert (Hsm : forall tr', (forall q, lookup tr' q = without (lookup tr) (nibs_of (eff_key t k)) q) -> small tr').
  { intros tr' El q v Eq. rewrite El in Eq. unfold without in Eq. destruct (path_dec _ _); [discriminate|eauto]. }
  assert (Hkt : forall tr', (forall q, lookup tr' q = without (lookup tr) (nibs_of (eff_key t k)) q) -> kept (m_secure t) tr').
  { intros tr' El q v Eq. rewrite El in Eq. unfold without in Eq. destruct (path_dec _ _); [discriminate|exact (Hkp q v Eq)]. }
  assert (Key : forall t1 r, Some r = Some EMPTY_HASH -> r = tref t1 -> t1 <> TEmpty -> wf t1 -> small t1 -> kept (m_secure t) t1 -> stored (s_map s) t1 -> False).
  { intros t1 r F -> Hne1 Hw1 Hs1 Hk1 St1. injection F as F.
    apply (tref_not_empty_hash keccak_len (mkMpt (s_map s) (s_log s) (Some (tref t1)) (m_secure t)) t1); auto.
    unfold repr. cbn [m_log m_map m_root m_secure]. do 5 (split; [auto|]). auto. }
  destruct a as [|r|p r]; cbn [outcome] in O.
  - discriminate.
  - destruct O as (t1 & -> & Hw1 & Hne1 & El & St1 & _). eapply Key; eauto.
  - destruct O as (t1 & -> & Hw1 & El & St1 & _ & Hf). eapply Key; eauto. destruct Hf as [[? ->]|[? ->]]; discriminate.
Qed.

Lemma run_root : forall h t tr d l t', repr t tr -> holds tr d -> ok_history (m_secure t) h -> mpt_run t h = (l, t') -> nocoll (m_log t') ->
  (l = [] -> m_root t' = m_root t) /\ (l <> [] -> m_root t' <> Some EMPTY_HASH).
Proof.
  induction h as [|c h IH]; intros t tr d l t' R Hh Hok; cbn [mpt_run].
  - intros E Hn. injection E as <- <-. split; congruence.
  - destruct (mpt_call t c) as [r t1] eqn:Ec. destruct (mpt_run t1 h) as [l2 t2] eqn:Er.
    intros E Hn. injection E as <- <-.
    destruct (call_keeps keccak_len _ _ _ _ (repr_dinv _ _ R) Ec) as [D1 G1].
    destruct (run_keeps keccak_len _ _ _ _ D1 Er) as [D2 G2].
    inversion Hok as [|? ? Hc Hok']; subst. rewrite <- (proj1 G1) in Hok'. assert (Hn1 := grows_nocoll _ _ G2 Hn).
    destruct (call_repr keccak_len t tr d c r t1 R Hh Hc Ec Hn1) as (tr1 & R1 & H1).
    destruct r as [[]|e].
    + destruct (IH t1 tr1 _ l2 t2 R1 H1 Hok' Er Hn) as [I1 I2]. split; [discriminate|]. intros _.
      assert (Hr : m_root t1 <> Some EMPTY_HASH).
      { destruct c as [[k v|k] lim fl]; unfold mpt_call in Ec; cbn [c_op c_lim c_faults] in *;
        [eapply (update_root lim fl t tr k v t1)|eapply (delete_root lim fl t tr k t1)]; auto. }
      destruct l2 as [|o l2]; [rewrite I1 by reflexivity; exact Hr|apply I2; discriminate].
    + destruct H1 as [-> Hr]. destruct (IH t1 tr d l2 t2 R1 Hh Hok' Er Hn) as [I1 I2]. split; auto.
      intros ->. rewrite I1; auto.
Qed.

Lemma empty_trie_calls : forall secure l t k lim, reachable secure l t -> keys_ok secure (k :: map op_key l) ->
  (forall x, dict_after l x = None) -> 0 < lim ->
  mpt_get lim t k = Err (if root_falsy t then ValueError else KeyError) /\
  (root_falsy t = true <-> l <> []) /\ mpt_delete lim [] t k = (Err ValueError, t).
Proof.
  intros secure l t k lim R Hk Hd Hl. pose proof (reach_empty _ _ _ _ R Hk Hd) as Rt.
  destruct (repr_empty_root t Rt) as [E Er]. split; [|split].
  - unfold mpt_get. destruct (root_falsy t) eqn:Ef; [reflexivity|].
    destruct Er as [Er|Er]; [unfold root_falsy in Ef; rewrite Er in Ef; discriminate|].
    unfold root_ref. rewrite Er. destruct lim as [|f]; [lia|]. cbn [get_]. unfold get_node.
    replace (length EMPTY_HASH =? 32) with true by (unfold EMPTY_HASH; rewrite keccak_len; reflexivity).
    destruct Rt as (_ & _ & _ & Di & Hn & _). rewrite (dget_empty_hash _ _ Di Hn). reflexivity.
  - destruct R as (h & Eh & Hok & Hn).
    assert (Hn0 : nocoll (m_log (mpt_new secure))).
    { destruct (run_keeps keccak_len _ _ _ _ (new_dinv secure) Eh) as [_ G]. eapply grows_nocoll; eauto. }
    destruct (run_root h (mpt_new secure) TEmpty (fun _ => None) l t) as [I1 I2]; auto.
    { apply mpt_new_repr. exact Hn0. }
    { split; [reflexivity|discriminate]. }
    unfold root_falsy. split.
    + intros F ->. rewrite I1 in F by reflexivity. cbn in F. destruct EMPTY_HASH eqn:Ee; [|discriminate].
      assert (L : length EMPTY_HASH = 32) by (unfold EMPTY_HASH; apply keccak_len). rewrite Ee in L. discriminate.
    + intros F. destruct Er as [->|Er]; [reflexivity|]. exfalso. apply (I2 F Er).
  - unfold mpt_delete. rewrite E. reflexivity.
Qed.
End P.
