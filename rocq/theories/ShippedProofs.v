(** /repo/src/pymt/examples/empt_proof_of_inclusion.py and empt_proof_of_exclusion.py, for every hash function. *)
From Coq Require Import String List Bool Arith NArith Lia.
From Verif Require Import Base BaseProofs Keccak NibblePath ProofObj Mpt Spec SpecCodec SpecProof SpecEmpt SpecGet SpecWalk Empt EmptPy SpecEvery SpecData
  Fleet SpecFleet FleetProofs FleetPoi FleetExamples.
Import ListNotations.

(** The updates of a script on its only EMPT, a plain one. *)
Definition updates (lim : nat) (l : list (bytes * bytes)) : list fcmd :=
  map (fun kv => FCall 0 lim (QPut (KBytes (fst kv)) (VBytes (snd kv)) [] false)) l.
(** src/pymt/examples/empt_proof_of_inclusion.py:10-16. *)
Definition inclusion_data : list (bytes * bytes) :=
  [(bs "do", bs "g"); (bs "dog", bs "cat"); (bs "doge", bs "mice"); (bs "horse", bs "bird"); (bs "dogecoin", bs "eliphant");
   (bs "bitcoin", bs "panda"); (bs "ethereum", bs "penguin")].
(** src/pymt/examples/empt_proof_of_exclusion.py:9-13. *)
Definition exclusion_data : list (bytes * bytes) :=
  [(bs "do", bs "verb"); (bs "dog", bs "puppy"); (bs "doge", bs "coin"); (bs "horse", bs "poney"); (bs "dogecoin", bs "crypto")].

Lemma forallb_blen : forall l, forallb (fun x => (blen x <? 2 ^ 57)%N) l = true -> forall x, In x l -> (blen x < 2 ^ 57)%N.
Proof. intros l E x Hx. rewrite forallb_forall in E. apply N.ltb_lt. auto. Qed.

Section AnyHash.
Context {H : Hash}.
Hypothesis keccak_len : forall b, length (keccak b) = 32.
Definition refs_after (l : list (bytes * bytes)) (r : kvmap) : kvmap := fold_left (fun r kv => set_ref r (fst kv) (snd kv)) l r.
Lemma updates_follow : forall lim faint l vals r u, NoDup (map fst vals ++ map fst l) ->
  ffollows faint (FView vals [Member false r u]) (updates lim l) (map (fun _ => FAns (ANone (Ok tt))) l)
    (FView (vals ++ map (fun kv => (fst kv, VBytes (snd kv))) l) [Member false (refs_after l r) (match l with [] => u | _ => true end)]).
Proof.
  intros lim faint l. induction l as [|[x y] l IH]; intros vals r u Hn; [cbn; rewrite app_nil_r; constructor|]. cbn [updates map fst snd refs_after fold_left].
  eapply ffollows_cons.
  - eapply fdoes_call with (vals := vals ++ [(x, VBytes y)]) (r := set_ref r x y) (used := true); [reflexivity| |apply (replaced_at [] _ _ [])]. constructor. cbn [mb_secure mb_refs mb_used fv_vals].
    apply (stores_both false lim [] false (EView vals r u)); auto. constructor. intros Hi. cbn [map fst] in Hn.
    apply NoDup_remove_2 in Hn. apply Hn. apply in_or_app. auto.
  - specialize (IH (vals ++ [(x, VBytes y)]) (set_ref r x y) true). rewrite <- app_assoc in IH. cbn [app mb_secure] in *.
    replace (match l with [] => true | _ => true end) with true in IH by (destruct l; reflexivity). apply IH.
    rewrite map_app, <- app_assoc. exact Hn.
Qed.
(** What the refs say about the keys. *)
Lemma refs_after_some : forall l r k b, refs_after l r k = Some b -> In (k, b) l \/ r k = Some b.
Proof.
  induction l as [|[x y] l IH]; intros r k b E; [auto|]. apply IH in E. destruct E as [E|E]; [left; right; exact E|].
  cbn [fst snd] in E. unfold set_ref in E. destruct (bytes_eqb_spec k x) as [->|]; [injection E as <-; left; left; reflexivity|auto].
Qed.

Lemma keys_updates : forall lim l, fkeys (updates lim l) = map fst l /\ ftexts (updates lim l) = l.
Proof. intros lim l. unfold fkeys, ftexts, updates. split; induction l as [|[x y] l IH]; cbn in *; congruence. Qed.
(** A way to mention the key of the question that changes nothing. *)
Definition asked (lim : nat) (l : list (bytes * bytes)) (k : bytes) : list fcmd := FOutside [(k, VBytes [])] :: FOutside [] :: updates lim l.
Lemma keys_asked : forall lim l k, fkeys (asked lim l k) = k :: map fst l /\ ftexts (asked lim l k) = l.
Proof.
  intros lim l k. destruct (keys_updates lim l) as [E1 E2]. unfold asked, fkeys, ftexts in *. cbn. rewrite E1, E2. split; reflexivity.
Qed.
Lemma quiet_in : forall lim l i n c, In (FCall i n c) (updates lim l) -> n = lim /\ equiet1 c.
Proof. intros lim l i n c Hin. apply in_map_iff in Hin. destruct Hin as (kv & E & _). injection E as _ <- <-. cbn. auto. Qed.

Lemma script : forall lim l k outs w, NoDup (map fst l) -> (forall x, In x (k :: map fst l) -> 2 * length x < lim) ->
  (forall x, In x (k :: map fst l) -> (blen x < 2 ^ 57)%N) -> (forall x, In x (map snd l) -> (blen x < 2 ^ 57)%N) ->
  (forall x y, In (x, y) l -> (2 ^ 208 <= unbe (keccak (x ++ y)))%N) ->
  fleet_run (fleet_new [false]) (updates lim l) = (outs, w) -> no_collision (fl_log w) ->
  outs = map (fun _ => FAns (ANone (Ok tt))) l /\ exists h, fl_objs w = [h] /\
  proofs_say w (FView (map (fun kv => (fst kv, VBytes (snd kv))) l) [Member false (refs_after l no_refs) (match l with [] => false | _ => true end)]) [k].
Proof.
  intros lim l k outs w Hnd Hlim Hsk Hsv Hbig E N.
  assert (No : forall d, ~ In (FOutside d) (updates lim l)).
  { intros d Hd. apply in_map_iff in Hd. destruct Hd as (kv & X & _). discriminate. }
  set (h := asked lim l k). destruct (keys_asked lim l k) as [Ek Et]. fold h in Ek, Et.
  assert (Hf : ffits h).
  { split; [rewrite Ek; exact Hsk|]. rewrite Et. split.
    - intros x y Hx. apply Hsv. apply (in_map snd) in Hx. exact Hx.
    - intros d [Hd|[Hd|Hd]]; [injection Hd as <-; constructor; [intros []|constructor]|injection Hd as <-; constructor|elim (No _ Hd)]. }
  assert (Hn : ~ ffaint h) by (intros (x & y & Hx & Hs); rewrite Et in Hx; apply Hbig in Hx; lia).
  assert (Hk : fkeys_ok [false] h) by (intros m [<-|[]] Hm; discriminate).
  assert (Hq : fquiet [false] h).
  { intros i n c [Hin|[Hin|Hin]]; try discriminate. destruct (quiet_in _ _ _ _ _ Hin) as [-> Hq]. split; [exact Hq|]. intros m x [<-|[]] Hx. rewrite Ek in Hx. exact (Hlim x Hx). }
  assert (E' : fleet_run (fleet_new [false]) h = (FDone :: FDone :: outs, w)).
  { unfold h, asked. cbn [fleet_run fleet_do fl_trie fl_log fl_data fl_objs].
    change (Fleet (fl_trie (fleet_new [false])) (fl_log (fleet_new [false])) [] (fl_objs (fleet_new [false]))) with (fleet_new [false]). rewrite E. reflexivity. }
  assert (F : ffollows (ffaint h) (fleet_start [false]) h (FDone :: FDone :: map (fun _ => FAns (ANone (Ok tt))) l)
    (FView (map (fun kv => (fst kv, VBytes (snd kv))) l) [Member false (refs_after l no_refs) (match l with [] => false | _ => true end)])).
  { unfold h at 2, asked. eapply ffollows_cons; [constructor|]. eapply ffollows_cons; [constructor|].
    apply (updates_follow lim (ffaint h) l [] no_refs false). exact Hnd. }
  destruct (fleet_only keccak_len [false] h _ w E' Hf Hk N Hq Hn _ _ F) as (Eo & _ & Len & _). split; [injection Eo; auto|].
  cbn [fv_objs length] in Len. destruct (fl_objs w) as [|h0 [|? ?]] eqn:Ew; try discriminate. exists h0. split; [reflexivity|].
  destruct (fleet_proofs keccak_len [false] h _ w E' Hf Hk N Hn) as [_ P]. specialize (P Hq _ _ F).
  intros i hi m x lim1 lim2 time t' Ei Em Hx. apply (P i hi m x lim1 lim2 time t' Ei Em). rewrite Ek. destruct Hx as [<-|[]]. left. reflexivity.
Qed.

(** The only object of a script. *)
Definition only_trie (w : fleet) : mpt := match fl_objs w with h :: _ => e_trie (obj_of w h) | [] => mpt_new false end.
Lemma inclusion_run : forall lim time outs w, 16 < lim -> fleet_run (fleet_new [false]) (updates lim inclusion_data) = (outs, w) -> no_collision (fl_log w) ->
  (forall x y, In (x, y) inclusion_data -> (2 ^ 208 <= unbe (keccak (x ++ y)))%N) ->
  outs = map (fun _ => FAns (ANone (Ok tt))) inclusion_data /\
  exists p, mpt_get_poi lim time (only_trie w) (bs "dog") = Ok p /\ mpt_verify_poi lim (only_trie w) p = Ok true.
Proof.
  intros lim time outs w Hl E N Hb.
  destruct (script lim inclusion_data (bs "dog") outs w) as (Eo & h & Eh & P); auto.
  - apply nodup_b_ok. vm_compute. reflexivity.
  - intros x Hx. assert (L : forallb (fun y => length y <=? 8) (bs "dog" :: map fst inclusion_data) = true) by (vm_compute; reflexivity).
    rewrite forallb_forall in L. specialize (L _ Hx). apply Nat.leb_le in L. lia.
  - apply forallb_blen. vm_compute. reflexivity.
  - apply forallb_blen. vm_compute. reflexivity.
  - split; [exact Eo|]. unfold only_trie. rewrite Eh. unfold proofs_say in P.
    destruct (P 0 h (Member false (refs_after inclusion_data no_refs) true) (bs "dog") lim lim time (e_trie (obj_of w h))) as (P1 & _); auto.
    + rewrite Eh. reflexivity.
    + left. reflexivity.
    + cbn [mb_secure frames]. assert (length (bs "dog") = 3) as -> by reflexivity. lia.
    + cbn [mb_secure frames]. assert (length (bs "dog") = 3) as -> by reflexivity. lia.
    + apply P1. vm_compute. discriminate.
Qed.
Lemma sixes : forall q, present_keys false (refs_after exclusion_data no_refs) q -> exists r, q = 6 :: r.
Proof.
  intros q (k & b & E & ->). apply refs_after_some in E. destruct E as [E|E]; [|discriminate]. revert E. unfold trie_key.
  assert (L : forallb (fun kb => match nibbles (fst kb) with 6 :: _ => true | _ => false end) exclusion_data = true) by (vm_compute; reflexivity).
  rewrite forallb_forall in L. intros E. specialize (L _ E). cbn [fst] in L. destruct (nibbles k) as [|i r]; [discriminate|].
  destruct (Nat.eq_dec i 6) as [->|Hi]; [eauto|]. do 7 (destruct i; try discriminate). congruence.
Qed.
Lemma exclusion_run : forall lim time outs w, 16 < lim -> fleet_run (fleet_new [false]) (updates lim exclusion_data) = (outs, w) -> no_collision (fl_log w) ->
  (forall x y, In (x, y) exclusion_data -> (2 ^ 208 <= unbe (keccak (x ++ y)))%N) ->
  outs = map (fun _ => FAns (ANone (Ok tt))) exclusion_data /\
  exists p, mpt_get_poe lim time (only_trie w) (bs "wolf") = Ok p /\
    (no_collision (proof_hashed (pf_proof p) ++ root_ref (only_trie w) :: fl_log w) -> mpt_verify_poe lim (only_trie w) p = Ok false).
Proof.
  intros lim time outs w Hl E N Hb.
  destruct (script lim exclusion_data (bs "wolf") outs w) as (Eo & h & Eh & P); auto.
  - apply nodup_b_ok. vm_compute. reflexivity.
  - intros x Hx. assert (L : forallb (fun y => length y <=? 8) (bs "wolf" :: map fst exclusion_data) = true) by (vm_compute; reflexivity).
    rewrite forallb_forall in L. specialize (L _ Hx). apply Nat.leb_le in L. lia.
  - apply forallb_blen. vm_compute. reflexivity.
  - apply forallb_blen. vm_compute. reflexivity.
  - split; [exact Eo|]. unfold only_trie. rewrite Eh. unfold proofs_say in P.
    assert (Hw : length (bs "wolf") = 4) by reflexivity.
    destruct (P 0 h (Member false (refs_after exclusion_data no_refs) true) (bs "wolf") lim lim time (e_trie (obj_of w h))) as (_ & _ & _ & _ & P1); auto.
    + rewrite Eh. reflexivity.
    + left. reflexivity.
    + cbn [mb_secure frames]. rewrite Hw. lia.
    + cbn [mb_secure frames]. rewrite Hw. lia.
    + destruct P1 as (p & Ep & Pf & _).
      * exists (bs "do"). vm_compute. discriminate.
      * intros [X|[_ (x & b & q & v & Ek & Ex & _)]]; [apply X; vm_compute; reflexivity|]. cbn [mb_refs] in Ex. apply refs_after_some in Ex. destruct Ex as [Ex|Ex]; [|discriminate].
        cbn in Ex. repeat destruct Ex as [Ex|Ex]; try contradiction; injection Ex as <- _; discriminate.
      * exists p. split; [exact Ep|]. apply Pf; cbn [mb_secure mb_refs].
        -- exists [], (nibbles (bs "wolf")). split; [split; [reflexivity|split]|].
           ++ exists (nibbles (bs "do")). exists (bs "do"), (bs "verb"). split; [vm_compute; reflexivity|reflexivity].
           ++ intros i r Ei. injection Ei as <- _. intros [r' X]. apply sixes in X. destruct X as [r2 X]. discriminate.
           ++ right. left. split; [reflexivity|]. split; [|discriminate]. split.
              ** exists (nibbles (bs "do")), (nibbles (bs "dog")). split; [discriminate|]. split; [exists (bs "do"), (bs "verb")|exists (bs "dog"), (bs "puppy")]; (split; [vm_compute; reflexivity|reflexivity]).
              ** exists 6. intros r. apply sixes.
        -- exists [6]. split; [intros x Hx; apply sixes in Hx; exact Hx|]. intros [r X]. discriminate.
Qed.
End AnyHash.
