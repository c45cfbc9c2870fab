(** Concrete programs with several EMPT objects over the same storages, and
    /repo/src/pymt/examples/empt_create_and_change.py. *)
From Coq Require Import String List Bool Arith NArith Lia.
From Verif Require Import Base BaseProofs Keccak KeccakProofs NibblePath ProofObj Mpt Spec SpecEmpt SpecGet Examples Empt EmptPy SpecEvery SpecData SpecYp
  Fleet SpecFleet FleetProofs.
Import ListNotations.
Local Notation k s := (KBytes (bs s)).
Local Notation v s := (VBytes (bs s)).

Fixpoint nodup_b (l : list bytes) : bool := match l with [] => true | x :: l' => negb (existsb (bytes_eqb x) l') && nodup_b l' end.
Lemma nodup_b_ok : forall l, nodup_b l = true -> NoDup l.
Proof.
  induction l as [|x l IH]; intros E; [constructor|]. apply andb_prop in E. destruct E as [E1 E2]. constructor; [|auto].
  intros Hi. apply negb_true_iff in E1. assert (X : existsb (bytes_eqb x) l = true) by (apply existsb_exists; exists x; split; [exact Hi|apply bytes_eqb_eq; reflexivity]). congruence.
Qed.
Definition ffits_b (h : list fcmd) : bool :=
  forallb (fun x => (blen x <? 2 ^ 57)%N) (fkeys h) && forallb (fun x => (blen (snd x) <? 2 ^ 57)%N) (ftexts h) &&
  forallb (fun c => match c with FOutside l => nodup_b (map fst l) | _ => true end) h.
Lemma ffits_b_ok : forall h, ffits_b h = true -> ffits h.
Proof.
  intros h E. unfold ffits_b in E. rewrite !andb_true_iff, !forallb_forall in E. destruct E as ((E1 & E2) & E3). split; [|split].
  - intros x Hx. apply N.ltb_lt. auto.
  - intros x b Hx. apply N.ltb_lt. apply (E2 (x, b)). exact Hx.
  - intros l Hl. apply nodup_b_ok. apply (E3 (FOutside l) Hl).
Qed.

Section Toy.
#[local] Instance K : Hash := toy.
(** Object 1 is opened on the root that object 0 then leaves behind; object 2 hashes its keys, object 3 is opened when object 0 is empty. *)
Definition parting : list fcmd :=
  [FCall 0 100 (QPut (k "do") (v "verb") [] false); FCall 0 100 (QPut (k "dog") (v "puppy") [] false); FOpen 0;
   FCall 2 100 (QGet (k "dog")); FCall 0 100 (QPut (k "do") (v "noun") [] false); FCall 2 100 (QGet (k "do")); FCall 2 100 (QRef (k "do"));
   FCall 0 100 (QGet (k "do")); FCall 1 100 (QGet (k "dog")); FCall 1 100 (QIn (k "do")); FCall 1 100 (QPut (k "dog") (v "puppy") [] false);
   FCall 1 100 QItems; FCall 1 100 (QDel (k "dog") false false []); FCall 0 100 (QGet (k "dog")); FCall 0 100 (QIn (k "dog"));
   FCall 0 100 (QDel (k "dog") false false []); FOutside [(bs "do", v "verb")]; FCall 2 100 (QGet (k "do")); FCall 0 100 (QGet (k "do"));
   FOutside [(bs "dog", v "puppy"); (bs "do", v "noun")]; FCall 0 100 QClear; FOpen 0; FOpen 1; FOpen 7; FCall 9 100 QLen; FCall 2 100 QKeys;
   FCall 2 100 (QIn (k "do"))].
Definition parting_answers : list fout :=
  [FAns (ANone (Ok tt)); FAns (ANone (Ok tt)); FOpened (Ok tt);
   FAns (AVal (Ok (v "puppy"))); FAns (ANone (Ok tt)); FAns (AVal (Err InvalidReferenceError)); FAns (ARef (Ok (mkRef (bs "do") (bs "verb"))));
   FAns (AVal (Ok (v "noun"))); FAns (AVal (Err KeyError)); FAns (ABool (Ok false)); FAns (ANone (Ok tt));
   FAns (AItems (Err KeyNotFoundError)); FAns (ANone (Ok tt)); FAns (AVal (Err KeyError)); FAns (ABool (Ok true));
   FAns (ANone (Err KeyError)); FDone; FAns (AVal (Ok (v "verb"))); FAns (AVal (Err InvalidReferenceError));
   FDone; FAns (ANone (Ok tt)); FOpened (Err ValueError); FOpened (Err ValueError); FNobody; FNobody; FAns (AKeys []); FAns (ABool (Ok true))].
Lemma parting_answers_ok : fst (fleet_run (fleet_new [false; true]) parting) = parting_answers.
Proof. vm_compute. reflexivity. Qed.
Definition ok_fleet (modes : list bool) (h : list fcmd) : Prop :=
  ffits h /\ fkeys_ok modes h /\ no_collision (fl_log (snd (fleet_run (fleet_new modes) h))) /\ ~ ffaint h /\ fquiet modes h.
Definition fquiet_b (modes : list bool) (h : list fcmd) : bool :=
  forallb (fun c => match c with
                    | FCall _ lim q => match q with
                                       | QPut _ _ fl df => match fl with [] => negb df | _ => false end
                                       | QDel _ cf df fl => match fl with [] => negb (cf || df) | _ => false end
                                       | _ => true
                                       end && forallb (fun m => forallb (fun x => frames m x <? lim) (fkeys h)) modes
                    | _ => true
                    end) h.
Lemma ok_fleet_b : forall modes h, ffits_b h && no_collision_b (fkeys h) && no_collision_b (fl_log (snd (fleet_run (fleet_new modes) h))) &&
  forallb (fun kb => negb (unbe (keccak (fst kb ++ snd kb)) <? 2 ^ 208)%N) (ftexts h) && fquiet_b modes h = true -> ok_fleet modes h.
Proof.
  intros modes h E. rewrite !andb_true_iff in E. destruct E as ((((E1 & E2) & E3) & E4) & E5).
  split; [apply ffits_b_ok; exact E1|]. split; [intros m _ _; apply no_collision_b_ok; exact E2|]. split; [apply no_collision_b_ok; exact E3|]. split.
  - rewrite forallb_forall in E4. intros (x & b & Hi & Hs). specialize (E4 _ Hi). apply negb_true_iff, N.ltb_ge in E4. cbn [fst snd] in E4. lia.
  - intros i lim c Hin. unfold fquiet_b in E5. rewrite forallb_forall in E5. specialize (E5 _ Hin). cbn beta iota in E5. apply andb_prop in E5. destruct E5 as [E5 E6]. split.
    + destruct c as [| | |x w fl df|x cf df fl| | | | | | | |]; try exact I.
      * destruct fl; [|discriminate]. destruct df; [discriminate|]. split; reflexivity.
      * destruct fl; [|discriminate]. destruct cf, df; try discriminate. repeat split; reflexivity.
    + intros m x Hm Hx. rewrite forallb_forall in E6. specialize (E6 _ Hm). rewrite forallb_forall in E6. apply Nat.ltb_lt. exact (E6 _ Hx).
Qed.
Lemma parting_ok : ok_fleet [false; true] parting.
Proof. apply ok_fleet_b. vm_compute. reflexivity. Qed.
End Toy.

(** src/pymt/examples/empt_create_and_change.py:5-32.  Object 0 is [trie], object 1 [trie_from_old_hash]; the default data
    storage is the same dict for both. *)
Definition change_example (lim : nat) : list fcmd :=
  [FCall 0 lim (QPut (k "do") (v "a deer") [] false); FCall 0 lim (QPut (k "dog") (v "a doge") [] false);
   FCall 0 lim (QPut (k "doge") (v "a doge") [] false); FCall 0 lim (QPut (k "horse") (v "a horse") [] false);
   FOpen 0; FCall 1 lim (QGet (k "doge")); FCall 0 lim (QDel (k "doge") false false []); FCall 0 lim (QGet (k "doge"))].
Section AnyHash.
Context {H : Hash}.
Hypothesis keccak_len : forall b, length (keccak b) = 32.
Lemma change_run : forall lim outs w, 10 < lim -> fleet_run (fleet_new [false]) (change_example lim) = (outs, w) -> no_collision (fl_log w) ->
  ~ ffaint (change_example lim) ->
  outs = [FAns (ANone (Ok tt)); FAns (ANone (Ok tt)); FAns (ANone (Ok tt)); FAns (ANone (Ok tt)); FOpened (Ok tt);
          FAns (AVal (Ok (v "a doge"))); FAns (ANone (Ok tt)); FAns (AVal (Err KeyError))].
Proof.
  intros lim outs w Hl E N Hf. symmetry.
  assert (Fit : ffits (change_example lim)) by (apply ffits_b_ok; vm_compute; reflexivity).
  assert (Ko : fkeys_ok [false] (change_example lim)) by (intros m [<-|[]] X; discriminate).
  assert (Hq : fquiet [false] (change_example lim)).
  { intros i l c Hin. assert (El : l = lim) by (cbn in Hin; repeat destruct Hin as [Hin|Hin]; try contradiction; try discriminate; injection Hin; auto). subst l. split.
    - cbn in Hin. repeat destruct Hin as [Hin|Hin]; try contradiction; try discriminate; injection Hin as <- <-; cbn; auto.
    - intros m x [<-|[]] Hx. assert (L : forallb (fun y => length y <=? 5) (fkeys (change_example lim)) = true) by (vm_compute; reflexivity).
      rewrite forallb_forall in L. specialize (L _ Hx). apply Nat.leb_le in L. cbn [frames]. lia. }
  eapply (proj1 (A := _)). eapply (fleet_only keccak_len [false] (change_example lim) outs w E Fit Ko N Hq Hf).
  assert (Step : forall i vals r u s c o vals' r' u', xdoes s lim (EView vals r u) c o (EView vals' r' u') -> forall l1 l2, length l1 = i ->
    fdoes (ffaint (change_example lim)) (FView vals (l1 ++ Member s r u :: l2)) (FCall i lim c) (FAns o) (FView vals' (l1 ++ Member s r' u' :: l2))).
  { intros i vals r u s c o vals' r' u' X l1 l2 <-. eapply fdoes_call; [apply nth_mid|exact X|apply replaced_at]. }
  unfold change_example, fleet_start. cbn [map].
  assert (New : forall vals r u x y, ~ In x (map fst vals) -> xdoes false lim (EView vals r u) (QPut (KBytes x) (VBytes y) [] false) (ANone (Ok tt)) (EView (vals ++ [(x, VBytes y)]) (set_ref r x y) true)).
  { intros vals r u x y Hx. constructor. apply (stores_both false lim [] false (EView vals r u)); auto. constructor. exact Hx. }
  assert (Ne : forall a b, bytes_eqb a b = false -> a <> b) by (intros a b Eb ->; rewrite (proj2 (bytes_eqb_eq b b) eq_refl) in Eb; discriminate).
  eapply ffollows_cons; [refine (Step 0 _ _ _ _ _ _ _ _ _ (New _ _ _ _ _ _) [] [] eq_refl); intros []|].
  eapply ffollows_cons; [refine (Step 0 _ _ _ _ _ _ _ _ _ (New _ _ _ _ _ _) [] [] eq_refl); cbn; intuition discriminate|].
  eapply ffollows_cons; [refine (Step 0 _ _ _ _ _ _ _ _ _ (New _ _ _ _ _ _) [] [] eq_refl); cbn; intuition discriminate|].
  eapply ffollows_cons; [refine (Step 0 _ _ _ _ _ _ _ _ _ (New _ _ _ _ _ _) [] [] eq_refl); cbn; intuition discriminate|].
  eapply ffollows_cons; [eapply fdoes_open; [reflexivity|right; exists (bs "do"); cbn; discriminate]|]. cbn [fv_vals fv_objs app].
  eapply ffollows_cons.
  { eapply (Step 1 _ _ _ _ _ _ _ _ _) with (l1 := [_]) (l2 := []); [|reflexivity]. constructor. eapply data_same; [cbn; auto 6|apply refers_own; reflexivity|constructor|reflexivity]. }
  eapply ffollows_cons.
  { eapply (Step 0 _ _ _ _ _ _ _ _ _) with (l1 := []); [|reflexivity]. constructor. eapply drops_both; auto; [cbn; discriminate|].
    cbn [ev_vals]. apply (removed_at [_; _] [_]). }
  eapply ffollows_cons; [|constructor].
  eapply (Step 0 _ _ _ _ _ _ _ _ _) with (l1 := []); [|reflexivity]. constructor. apply data_none. cbn. intuition discriminate.
Qed.
End AnyHash.
