(** The text of a MerkleTools object, the cost of a build, and the shipped example. *)
From Coq Require Import String List Bool Arith NArith ZArith Lia ZifyBool ZifyNat ZifyN.
From Verif Require Import Base BaseProofs ProofObj ProofJson ProofJsonProofs Keccak Spec MptEq SpecJson MerkleTree SpecMt SpecText SpecAudit TextProofs MtProofs MtProofs2
  MtSound AuditProofs SpecMtObj MtTextProofs MtObjProofs MerkleTools SpecTools ToolsProofs.
Import ListNotations.

(** ** Texts *)
Lemma array_byte_literal : forall q c t b, (q = x27 \/ q = x22 /\ c <> x22) -> literal_body q t b ->
  literal_body q (array_byte c ++ t) (c :: b) /\ Forall printable (array_byte c).
Proof.
  intros q c t b Q L. unfold array_byte. destruct (byte_eqb c x22) eqn:E.
  - apply byte_eqb_iff in E. subst c. destruct Q as [->|[-> N]]; [|congruence]. split; [|repeat constructor; cbv; discriminate].
    apply lit_plain; [cbv; split; discriminate|discriminate|discriminate|exact L].
  - destruct Q as [->|[-> N]]; [apply repr_byte_literal; auto|].
    destruct (byte_eqb c x27) eqn:E2.
    + apply byte_eqb_iff in E2. subst c. cbn. split; [apply lit_self; auto|repeat constructor; cbv; discriminate].
    + replace (repr_byte x27 c) with (repr_byte x22 c); [apply repr_byte_literal; auto|]. unfold repr_byte. now rewrite E, E2.
Qed.
Lemma quote_rule : forall b, quote_of b = x22 <-> In x27 b /\ ~ In x22 b.
Proof. intros b. exact (proj2 (proj2 (repr_literal b))). Qed.
Lemma array_repr_text : forall b, entry_text true b (array_repr b).
Proof.
  intros b. pose proof (quote_cases b) as Q. pose proof (quote_rule b) as R. set (q := quote_of b) in *.
  assert (G : forall l, (q = x22 -> ~ In x22 l) -> literal_body q (flat_map array_byte l ++ [q]) l /\ Forall printable (flat_map array_byte l)).
  { induction l as [|c l IH]; intros N; [split; constructor|]. destruct IH as [A B]; [intros E I; apply (N E); now right|]. cbn [flat_map]. rewrite <- app_assoc.
    destruct (array_byte_literal q c (flat_map array_byte l ++ [q]) l) as [C D]; [|exact A|split; [exact C|]; apply Forall_app; now split].
    destruct Q as [Q|Q]; [now left|right]. split; [exact Q|]. intros ->. apply (N Q). now left. }
  destruct (G b) as [A B]; [intros E; now apply R|].
  assert (Pq : printable q) by (destruct Q as [-> | ->]; cbv; split; discriminate).
  exists (x62 :: q :: flat_map array_byte b ++ [q]). split; [unfold array_repr; fold q; cbn; rewrite <- app_assoc; reflexivity|]. split.
  - exists q. eexists. split; [exact Q|]. split; [reflexivity|exact A].
  - split; [|exact R]. constructor; [cbv; split; discriminate|]. constructor; [exact Pq|]. apply Forall_app. split; [exact B|]. constructor; [exact Pq|constructor].
Qed.
Lemma entry_repr_text : forall e, entry_text (is_array e) (entry_bytes e) (entry_repr e).
Proof. intros [b|b]; cbn [is_array entry_bytes entry_repr]; [apply array_repr_text|]. exists (bytes_repr b). split; [reflexivity|]. apply repr_literal. Qed.
Lemma list_repr_text : forall A B (f : A -> B) (P : B -> bytes -> Prop) g l, (forall a, P (f a) (g a)) -> list_text P (map f l) (list_repr g l).
Proof.
  intros A B f P g l W. unfold list_text, list_repr. eexists. split; [reflexivity|]. destruct l as [|a l]; [now left|right].
  cbn [map]. revert a. induction l as [|b l IH]; intros a; cbn [flat_map map]; [rewrite app_nil_r; constructor; apply W|].
  rewrite <- app_assoc. apply items_more; [apply W|apply IH].
Qed.

(** ** Reading a text *)
Definition legible {A} (P : A -> bytes -> Prop) : Prop := forall a t, P a t -> forall a' t' r r', P a' t' -> t ++ r = t' ++ r' -> a = a' /\ t = t'.
Definition opens {A} (P : A -> bytes -> Prop) : Prop := forall a t, P a t -> exists c u, t = c :: u /\ c <> x5d.
Lemma body_prefix : forall q, (q = x27 \/ q = x22) -> forall t b, literal_body q t b -> forall t' b' r r', literal_body q t' b' -> t ++ r = t' ++ r' -> t = t'.
Proof.
  intros q Q t b L. induction L as [|c t b P N1 N2 L IH|c t b S L IH|t b L IH|t b L IH|t b L IH|h l n m c t b V1 V2 E L IH]; intros t' b' r r' L' X;
    inversion L'; subst; cbn [app] in X; try (injection X; intros; subst); try congruence; try (destruct Q; congruence);
    try (match goal with Y : _ ++ _ = _ ++ _ |- _ => rewrite (IH _ _ _ _ ltac:(eassumption) Y) end; reflexivity);
    try (match goal with X : _ \/ _ \/ _ |- _ => destruct X as [X|[X|X]]; discriminate end).
Qed.
Lemma literal_legible : forall t b, bytes_literal t b -> forall t' b' r r', bytes_literal t' b' -> t ++ r = t' ++ r' -> b = b' /\ t = t'.
Proof.
  intros t b L t' b' r r' L' E. assert (X : t = t').
  { destruct L as (q & u & Q & -> & L), L' as (q' & u' & Q' & -> & L'). cbn [app] in E. injection E as <- E. now rewrite (body_prefix q Q u b L u' b' r r' L' E). }
  split; [|exact X]. subst t'. exact (literal_det _ _ _ L L').
Qed.
Lemma entry_legible : legible (fun e : bool * bytes => entry_text (fst e) (snd e)).
Proof.
  intros [a b] t (l & -> & L & _) [a' b'] t' r r' (l' & -> & L' & _) E. cbn [fst snd] in *. destruct a, a'.
  - rewrite <- !app_assoc in E. apply app_inv_head in E.
    destruct (literal_legible _ _ L _ _ _ _ L' E) as [-> ->]. now split.
  - exfalso. destruct L' as (q & u & Q & -> & _). cbn [app] in E. injection E as E1 _. destruct Q as [-> | ->]; discriminate.
  - exfalso. destruct L as (q & u & Q & -> & _). cbn [app] in E. injection E as E1 _. destruct Q as [-> | ->]; discriminate.
  - destruct (literal_legible _ _ L _ _ _ _ L' E) as [-> ->]. now split.
Qed.
Lemma entry_opens : opens (fun e : bool * bytes => entry_text (fst e) (snd e)).
Proof.
  intros [[|] b] t (l & -> & L & _); cbn [fst snd].
  - do 2 eexists. split; [reflexivity|discriminate].
  - destruct L as (q & u & Q & -> & _). do 2 eexists. split; [reflexivity|discriminate].
Qed.
Lemma items_legible : forall A (P : A -> bytes -> Prop), legible P -> forall l t, items_text P l t -> forall l' t' r r', items_text P l' t' ->
  t ++ x5d :: r = t' ++ x5d :: r' -> l = l' /\ t = t'.
Proof.
  intros A P W l t I. induction I as [a t Pa|a t l u Pa I IH]; intros l' t' r r' I' E; destruct I' as [a' t' Pa'|a' t' l' u' Pa' I'].
  - destruct (W _ _ Pa _ _ _ _ Pa' E) as [-> ->]. now split.
  - rewrite <- !app_assoc in E. destruct (W _ _ Pa _ _ _ _ Pa' E) as [-> ->]. apply app_inv_head in E. discriminate.
  - rewrite <- !app_assoc in E. destruct (W _ _ Pa _ _ _ _ Pa' E) as [-> ->]. apply app_inv_head in E. discriminate.
  - rewrite <- !app_assoc in E. destruct (W _ _ Pa _ _ _ _ Pa' E) as [-> ->]. apply app_inv_head in E. apply app_inv_head in E.
    destruct (IH _ _ _ _ I' E) as [-> ->]. now split.
Qed.
Lemma items_open : forall A (P : A -> bytes -> Prop), opens P -> forall l t, items_text P l t -> exists c u, t = c :: u /\ c <> x5d.
Proof. intros A P W l t [a t' Pa|a t' l' u Pa I]; destruct (W _ _ Pa) as (c & v & -> & N); cbn [app]; eauto. Qed.
Lemma list_legible : forall A (P : A -> bytes -> Prop), legible P -> opens P -> legible (list_text P).
Proof.
  intros A P W O l t (u & -> & C) l' t' r r' (u' & -> & C') E. cbn [app] in E. injection E as E. rewrite <- !app_assoc in E. cbn [app] in E.
  destruct C as [[-> ->]|I], C' as [[-> ->]|I'].
  - now split.
  - exfalso. destruct (items_open _ _ O _ _ I') as (c & v & -> & N). cbn in E. injection E as E _. congruence.
  - exfalso. destruct (items_open _ _ O _ _ I) as (c & v & -> & N). cbn in E. injection E as E _. congruence.
  - destruct (items_legible _ _ W _ _ I _ _ _ _ I' E) as [-> ->]. now split.
Qed.
Lemma list_opens : forall A (P : A -> bytes -> Prop), opens (list_text P).
Proof. intros A P l t (u & -> & _). do 2 eexists. split; [reflexivity|discriminate]. Qed.

Section WithHash.
Context {H : Hash}.

Lemma rows_of : forall s g t m, tabs s g t -> v_stage g = Made m -> exists u, o_upper t = Some u /\ o_ready t = true /\ 1 <= m <= length (v_vals g) /\
  let rows := u ++ [map EArray (o_leaves t)] in
  (forall j row, nth_error (rev rows) j = Some row -> level_at (leaves_of s (v_vals g)) m j (map (fun e => (is_array e, entry_bytes e)) row)) /\
  (forall j, j < length u <-> 2 ^ j < m).
Proof.
  intros s g t m T Em. destruct (tabs_secure _ _ _ T) as [Es El]. destruct T as [[B S] U]. rewrite Em in *. destruct U as (c & C & U). exists (rev c).
  destruct S as (S1 & S2 & S3 & S4). split; [exact U|]. split; [exact S2|]. split; [lia|]. 
  set (ls := leaves_of s (firstn m (v_vals g))) in *. assert (Ll : length ls = m) by (unfold ls; rewrite leaves_of_length, firstn_length; lia).
  assert (Ne : ls <> []) by (intros X; rewrite X in Ll; cbn in Ll; lia). pose proof (echain_plain _ _ C) as P. rewrite map_map, map_id in P.
  cbn zeta. split.
  - intros j row E k. rewrite rev_app_distr, rev_involutive in E. cbn [rev app] in E. rewrite nth_error_map. unfold entry_at. destruct j as [|j].
    + injection E as <-. rewrite El, nth_error_map. now destruct (nth_error _ k).
    + cbn [nth_error] in E. cbn [Nat.eqb].
      pose proof (chain_entry _ _ P Ne (S j) (map entry_bytes row)) as Y. cbn [nth_error map] in Y. rewrite nth_error_map, E in Y. specialize (Y eq_refl k).
      rewrite nth_error_map, Ll in Y. assert (Sl : firstn m (leaves_of s (v_vals g)) = ls) by (unfold ls, leaves_of; apply firstn_map). rewrite Sl.
      destruct (nth_error row k) as [e|] eqn:K; cbn [option_map] in *.
      * pose proof (echain_kind ls _ Ne C (S j) row E k e K) as Kd. rewrite Ll in Kd. cbn [Nat.eqb] in Kd. destruct (k * 2 ^ S j <? m); [|discriminate].
        injection Y as Y. cbn [option_map]. rewrite Kd, Y. reflexivity.
      * now destruct (k * 2 ^ S j <? m).
  - intros j. rewrite rev_length. pose proof (chain_height _ _ P Ne j) as Y. rewrite Ll in Y. cbn [map tl] in Y. rewrite map_length in Y. exact Y.
Qed.
Lemma text_model : forall s g t, tabs s g t -> text_of s g (tools_str t).
Proof.
  intros s g t T. unfold text_of, tools_str. destruct (v_stage g) as [| |m] eqn:E.
  - destruct T as [[_ S] _]. rewrite E in S. cbn [plain t_ready] in S. now rewrite (proj1 S).
  - destruct T as [[_ S] U]. rewrite E in S, U. cbn [plain t_ready] in S. now rewrite (proj1 S), U.
  - destruct (rows_of s g t m T E) as (u & Eu & -> & Hm & R & Ht). rewrite Eu. cbn zeta in R. set (rows := u ++ [map EArray (o_leaves t)]) in *.
    exists (map (map (fun e => (is_array e, entry_bytes e))) rows). assert (Lr : length rows = S (length u)) by (unfold rows; rewrite app_length; cbn; lia).
    rewrite map_length, Lr. split; [intros X; apply (f_equal (@length _)) in X; rewrite map_length in X; cbn in X; lia|]. split.
    + intros j row X. rewrite <- map_rev, nth_error_map in X. destruct (nth_error (rev rows) j) as [r0|] eqn:Y; [|discriminate]. injection X as <-. now apply R.
    + split; [|split].
      * replace (S (length u) - 1) with (length u) by lia. pose proof (Ht (length u)). lia.
      * intros X. apply Ht. lia.
      * apply list_repr_text. intros a. apply list_repr_text. intros e. apply entry_repr_text.
Qed.
Lemma nth_same : forall A (l l' : list A), (forall k, nth_error l k = nth_error l' k) -> l = l'.
Proof.
  induction l as [|a l IH]; intros [|b l'] E; [reflexivity|specialize (E 0); discriminate|specialize (E 0); discriminate|].
  pose proof (E 0) as X. injection X as ->. f_equal. apply IH. intros k. exact (E (S k)).
Qed.
Lemma levels_text_says : forall l m l' m' t, 1 <= m -> 1 <= m' -> levels_text l m t -> levels_text l' m' t -> l = l' /\ m = m'.
Proof.
  intros l m l' m' t M M' (rows & Ne & R & A & B & T) (rows' & Ne' & R' & A' & B' & T').
  assert (X : rows = rows').
  { assert (W : t ++ [] = t ++ []) by reflexivity.
    exact (proj1 (list_legible _ _ (list_legible _ _ entry_legible entry_opens) (list_opens _ _) _ _ T _ _ _ _ T' W)). }
  subst rows'. assert (Lr : 1 <= length rows) by (destruct rows; [congruence|cbn; lia]). split.
  - destruct (nth_error (rev rows) 0) as [row|] eqn:E; [|apply nth_error_None in E; rewrite rev_length in E; lia].
    pose proof (R 0 row E) as Y. pose proof (R' 0 row E) as Y'. apply nth_same. intros k. specialize (Y k). specialize (Y' k). rewrite Y in Y'. cbn [entry_at Nat.eqb] in Y'.
    unfold entry_at in Y'. cbn [Nat.eqb] in Y'. destruct (nth_error l k), (nth_error l' k); cbn in Y'; congruence.
  - destruct (Nat.eq_dec (length rows) 1) as [E1|E1]; [rewrite E1 in A, A'; cbn in A, A'; lia|].
    assert (M2 : 2 <= m /\ 2 <= m') by (pose proof (pow_pos (length rows - 2)); lia).
    destruct (nth_error (rev rows) 1) as [row|] eqn:E; [|apply nth_error_None in E; rewrite rev_length in E; lia].
    assert (K : forall l l' m m', level_at l m 1 row -> level_at l' m' 1 row -> 2 <= m -> m < m' -> False).
    { clear. intros l l' m m' Y Y' L2 L. unfold level_at, entry_at in *. cbn [Nat.eqb Nat.pow Nat.mul Nat.add] in *.
      destruct (Nat.Even_Odd_dec m) as [[k Ek]|[k Ek]].
      - specialize (Y k). specialize (Y' k). rewrite Y in Y'. destruct (Nat.ltb_spec (k * 2) m), (Nat.ltb_spec (k * 2) m'); try lia. discriminate.
      - specialize (Y k). specialize (Y' k). rewrite Y in Y'. destruct (Nat.ltb_spec (k * 2) m), (Nat.ltb_spec (k * 2) m'); try lia. cbn [option_map] in Y'.
        injection Y' as Y' _. destruct (Nat.eqb_spec (k * 2) (m - 1)), (Nat.eqb_spec (k * 2) (m' - 1)); try discriminate; lia. }
    destruct (Nat.lt_trichotomy m m') as [L|[L|L]]; [exfalso|exact L|exfalso].
    + exact (K _ _ _ _ (R 1 row E) (R' 1 row E) (proj1 M2) L).
    + exact (K _ _ _ _ (R' 1 row E) (R 1 row E) (proj2 M2) L).
Qed.
Theorem tools_text : forall s h l g, performs s (View [] Fresh) h l g -> text_of s g (tools_str (snd (tools_run (tools_new s) h))).
Proof.
  intros s h l g F. destruct (performs_model s _ _ _ _ F _ (tabs_new s)) as (t & E & T). rewrite E. exact (text_model s g t T).
Qed.
Lemma echain_det : forall l c, echain l c -> forall c', echain l c' -> c = c'.
Proof. induction 1 as [l L|l c L C IH]; intros c' C'; inversion C'; subst; try lia; [reflexivity|]. f_equal. now apply IH. Qed.
Lemma open_text : forall l m t, levels_text l m t -> exists u, t = x5b :: u.
Proof. intros l m t (rows & _ & _ & _ & _ & u & -> & _). eexists. reflexivity. Qed.
Lemma made_small : forall s g t m, tabs s g t -> v_stage g = Made m -> 1 <= m <= length (v_vals g).
Proof. intros s g t m [[_ S] _] E. rewrite E in S. destruct S as (_ & _ & S & _). lia. Qed.
Theorem tools_same_text : forall s h l g s' h' l' g', performs s (View [] Fresh) h l g -> performs s' (View [] Fresh) h' l' g' ->
  (tools_str (snd (tools_run (tools_new s) h)) = tools_str (snd (tools_run (tools_new s') h')) <-> same_text s g s' g').
Proof.
  intros s h l g s' h' l' g' F F'. destruct (performs_model s _ _ _ _ F _ (tabs_new s)) as (t & -> & T).
  destruct (performs_model s' _ _ _ _ F' _ (tabs_new s')) as (t' & -> & T'). cbn [snd].
  pose proof (text_model s g t T) as X. pose proof (text_model s' g' t' T') as X'. unfold text_of, same_text in *.
  destruct (v_stage g) as [| |m] eqn:E, (v_stage g') as [| |m'] eqn:E';
    try (rewrite X, X'; split; [discriminate|contradiction]); try (rewrite X, X'; tauto);
    try (destruct (open_text _ _ _ X) as [u Q]; rewrite Q, X'; split; [discriminate|contradiction]);
    try (destruct (open_text _ _ _ X') as [u Q]; rewrite Q, X; split; [discriminate|contradiction]).
  split.
  - intros Y. rewrite Y in X. apply (levels_text_says _ _ _ _ (tools_str t')); try assumption.
    + apply (made_small s g t m T E).
    + apply (made_small s' g' t' m' T' E').
  - intros [El ->]. destruct (tabs_secure _ _ _ T) as [_ L1], (tabs_secure _ _ _ T') as [_ L2].
    destruct T as [[_ S] U], T' as [[_ S'] U']. rewrite E in S, U. rewrite E' in S', U'. destruct U as (c & C & U), U' as (c' & C' & U').
    assert (Ef : leaves_of s (firstn m' (v_vals g)) = leaves_of s' (firstn m' (v_vals g'))).
    { unfold leaves_of in *. rewrite <- !firstn_map. now rewrite El. }
    rewrite Ef in C. pose proof (echain_det _ _ C _ C') as Y. injection Y as ->. unfold tools_str. rewrite U, U', L1, L2, El.
    destruct S as (_ & S & _), S' as (_ & S' & _). cbn [plain t_ready] in S, S'. now rewrite S, S'.
Qed.

(** ** Proofs and their checks *)
Lemma audit_root : forall t i x, nth_error (fringe t) i = Some x -> path_root x (audit t i) = thash t.
Proof.
  induction t as [y|a IHa b IHb]; intros i x E.
  - destruct i as [|[|i]]; try discriminate. now injection E as <-.
  - cbn [audit fringe thash] in *. destruct (Nat.ltb_spec i (length (fringe a))) as [L|L]; rewrite path_root_snoc.
    + rewrite nth_error_app1 in E by exact L. now rewrite (IHa i x E).
    + rewrite nth_error_app2 in E by lia. now rewrite (IHb _ x E).
Qed.
Lemma dicts_path : forall pa, Forall2 sibling_of (dicts (hex_path pa)) pa.
Proof.
  induction pa as [|[b x] pa IH]; [constructor|]. cbn. constructor; [|exact IH]. assert (Hx : hex_of (to_hex x) x) by (apply from_hex_exact, from_to_hex).
  destruct b; cbn [fst snd].
  - apply sib_left. exists (to_hex x). split; [reflexivity|exact Hx].
  - apply sib_right; [|exists (to_hex x); split; [reflexivity|exact Hx]]. intros y (h & D & _). discriminate.
Qed.
Theorem tools_own_proof : forall s h l g v b, performs s (View [] Fresh) h l g -> v_stage g = Made (length (v_vals g)) -> means s v b ->
  In (digest s b) (leaves_of s (v_vals g)) -> exists t pa p, tools_run (tools_new s) h = (l, t) /\ spelled pa p /\
  fst (tools_call t (JProve v)) = WPath (Ok p) /\ length pa <= Nat.log2_up (length (v_vals g)) /\
  fst (tools_call t (JVerify (dicts p) (TBuf (digest s b)) (TBuf (merkle_root (leaves_of s (v_vals g)))))) = WBool (Ok true).
Proof.
  intros s h l g v b F E M I. destruct (performs_model s _ _ _ _ F _ (tabs_new s)) as (t & R & T). exists t.
  destruct (tabs_secure _ _ _ T) as [Es El]. pose proof T as [[B S] U]. rewrite E in S. destruct S as (_ & S & Hm & c & C & Eu). rewrite firstn_all in C.
  destruct (index_of_first _ _ I) as (i & E1 & [E2 _] & E3). exists (audit (tree_of (leaves_of s (v_vals g))) i), (hex_path (audit (tree_of (leaves_of s (v_vals g))) i)).
  assert (P : tools_prove t v = Ok (hex_path (audit (tree_of (leaves_of s (v_vals g))) i))).
  { rewrite (prove_means s g t v b T M). unfold tools_poi, stored, levels. cbn [plain t_secure t_leaves t_upper t_ready] in *. rewrite Es, El, Eu.
    change (if s then keccak b else b) with (digest s b). rewrite E1. cbn [option_map]. rewrite S.
    replace (rev (tl (rev c ++ [leaves_of s (v_vals g)]))) with (removelast (leaves_of s (v_vals g) :: c)); [exact (loop_audit _ _ C i E3)|].
    change (rev c ++ [leaves_of s (v_vals g)]) with (rev (leaves_of s (v_vals g) :: c)). now rewrite tl_rev. }
  split; [exact R|]. split; [now apply spelled_exact|]. split; [cbn [tools_call fst]; now rewrite P|]. split.
  - apply audit_len_n. rewrite leaves_of_length. apply Nat.log2_log2_up_spec. lia.
  - cbn [tools_call fst]. f_equal. apply check_model. set (pa := audit _ i).
    assert (Ep : path_root (digest s b) pa = merkle_root (leaves_of s (v_vals g))).
    { unfold pa, merkle_root. apply audit_root. rewrite fringe_tree_of; [exact E2|]. intros X. rewrite X in I. exact I. }
    rewrite <- Ep. pose proof (dicts_path pa) as D. destruct (dicts (hex_path pa)) as [|d ds]; [|now apply checked_yes].
    inversion D as [X Y|]; subst. cbn [path_root]. apply checked_same.
Qed.
Theorem check_text : forall p l t u, (forall b, t <> TBuf b) -> exists e, tools_check (p :: l) t u = Err e.
Proof.
  intros p l t u N. destruct t as [b|x|]; [exfalso; now apply (N b)| |]; cbn [tools_check]; destruct (side p s_right); cbn [bind]; eauto.
Qed.
Theorem check_root_text : forall p l t u, (forall b, u <> TBuf b) -> tools_check (p :: l) t u <> Ok true.
Proof.
  intros p l t u N E. destruct t as [b|x|]; [|now destruct (check_text p l (TStr x) u ltac:(discriminate)) as [e Y]; rewrite Y in E|
    now destruct (check_text p l TNone u ltac:(discriminate)) as [e Y]; rewrite Y in E].
  unfold tools_check in E. destruct (fold_proof (p :: l) b) as [a|]; [|discriminate]. cbn [bind] in E. injection E as E.
  destruct u as [y| |]; try discriminate. now apply (N y).
Qed.
Theorem example_fails : shipped_example = Err KeyError.
Proof. reflexivity. Qed.
Lemma number_model : forall s g t, tabs s g t -> tools_number t =
  match known_root s g with Some r => match r with [] => Err ValueError | _ => Ok (number_of r) end | None => Err ValueError end.
Proof.
  intros s g t T. unfold tools_number. rewrite (tabs_root s g t T). destruct (known_root s g) as [[|x r]|]; [reflexivity| |reflexivity].
  cbn [bind]. now rewrite int_to_hex.
Qed.
Theorem tools_compare : forall s h l g s' h' l' g' c, performs s (View [] Fresh) h l g -> performs s' (View [] Fresh) h' l' g' ->
  (tools_eq (snd (tools_run (tools_new s) h)) (snd (tools_run (tools_new s') h')) = c <-> compared s g s' g' c).
Proof.
  intros s h l g s' h' l' g' c F F'. destruct (performs_model s _ _ _ _ F _ (tabs_new s)) as (t & -> & T).
  destruct (performs_model s' _ _ _ _ F' _ (tabs_new s')) as (t' & -> & T'). cbn [snd]. unfold tools_eq.
  rewrite (number_model s g t T), (number_model s' g' t' T'). split.
  - intros <-. destruct (known_root s g) as [[|x r]|] eqn:E; cbn [bind]; [apply compared_none; left; now right| |apply compared_none; left; now left].
    destruct (known_root s' g') as [[|x' r']|] eqn:E'; cbn [bind]; [apply compared_none; right; now right| |apply compared_none; right; now left].
    destruct (Z.eqb_spec (number_of (x :: r)) (number_of (x' :: r'))) as [N|N].
    + apply (compared_yes s g s' g' (x :: r) (x' :: r')); [exact E|exact E'|discriminate|discriminate|exact N].
    + apply (compared_no s g s' g' (x :: r) (x' :: r')); [exact E|exact E'|discriminate|discriminate|exact N].
  - intros C. destruct C as [r r' E E' N N' Q|r r' E E' N N' Q|[[Q|Q]|[Q|Q]]].
    + rewrite E, E'. destruct r; [congruence|]. destruct r'; [congruence|]. cbn [bind]. f_equal. now apply Z.eqb_eq.
    + rewrite E, E'. destruct r; [congruence|]. destruct r'; [congruence|]. cbn [bind]. f_equal. now apply Z.eqb_neq.
    + now rewrite Q.
    + now rewrite Q.
    + rewrite Q. now destruct (known_root s g) as [[|? ?]|].
    + rewrite Q. now destruct (known_root s g) as [[|? ?]|].
Qed.
Theorem add_any : forall t v b, means (o_secure t) v b -> tools_call t (JAdd v) = tools_call t (JAdd (YBuf b)).
Proof.
  intros t v b M. cbn [tools_call]. unfold tools_add. rewrite (means_model _ v b M), (means_model _ _ _ (means_buf (o_secure t) b)). reflexivity.
Qed.
Theorem add_refused : forall t v e, refused (o_secure t) v e -> tools_call t (JAdd v) = (WUnit (Err e), t).
Proof. intros t v e R. cbn [tools_call]. unfold tools_add. now rewrite (refused_model _ v e R). Qed.
End WithHash.
