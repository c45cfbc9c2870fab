(** Texts of objects, time stamps, names of files, hashes of lists. *)
From Coq Require Import String List Bool Arith NArith Lia ZifyBool ZifyNat ZifyN.
From Verif Require Import Base BaseProofs ProofObj Json JsonProofs Keccak MerkleTree ProofJson ProofJsonProofs Keypairs Texts UtilsMisc Spec SpecText.
Import ListNotations.

(** ** repr of bytes *)
Lemma hexdig_value : forall n, (n < 16)%N -> hex_value (hexdig n) n /\ printable (hexdig n).
Proof.
  intros n L. unfold hex_value, printable, hexdig. destruct (N.ltb_spec n 10).
  - rewrite bN_nB by lia. split; [left|]; lia.
  - rewrite bN_nB by lia. split; [right|]; lia.
Qed.
Lemma hex_value_inj : forall c n m, hex_value c n -> hex_value c m -> n = m.
Proof. intros c n m [[? ?]|[? ?]] [[? ?]|[? ?]]; lia. Qed.
Lemma byte_eqb_iff : forall a b, byte_eqb a b = true <-> a = b.
Proof. intros a b. unfold byte_eqb. rewrite N.eqb_eq. split; [apply bN_inj|now intros ->]. Qed.
Lemma repr_byte_literal : forall q c t b, (q = x27 \/ q = x22) -> literal_body q t b -> literal_body q (repr_byte q c ++ t) (c :: b) /\ Forall printable (repr_byte q c).
Proof.
  intros q c t b Q L. unfold repr_byte.
  assert (Pq : printable q) by (destruct Q as [-> | ->]; cbv; split; discriminate).
  destruct (byte_eqb c q || byte_eqb c x5c) eqn:E1.
  { apply orb_true_iff in E1 as [E1|E1]; apply byte_eqb_iff in E1; subst c; cbn [app].
    - split; [apply lit_self; [destruct Q; auto|exact L]|]. constructor; [cbv; split; discriminate|constructor; [exact Pq|constructor]].
    - split; [apply lit_self; [auto|exact L]|]. repeat constructor; cbv; discriminate. }
  destruct (byte_eqb c x09) eqn:E2. { apply byte_eqb_iff in E2. subst c. split; [now constructor|repeat constructor; cbv; discriminate]. }
  destruct (byte_eqb c x0a) eqn:E3. { apply byte_eqb_iff in E3. subst c. split; [now constructor|repeat constructor; cbv; discriminate]. }
  destruct (byte_eqb c x0d) eqn:E4. { apply byte_eqb_iff in E4. subst c. split; [now constructor|repeat constructor; cbv; discriminate]. }
  apply orb_false_iff in E1 as [E1 E1']. pose proof (bN_lt c) as B.
  destruct ((bN c <? 32) || (127 <=? bN c))%N eqn:E5.
  - cbn [app]. destruct (hexdig_value (bN c / 16)%N ltac:(lia)) as [V1 P1]. destruct (hexdig_value (bN c mod 16)%N ltac:(lia)) as [V2 P2].
    split; [apply (lit_hex q _ _ _ _ c t b V1 V2); [lia|exact L]|]. repeat (constructor; try assumption; try (cbv; split; discriminate)).
  - cbn [app]. assert (P : printable c) by (unfold printable; lia). split; [|constructor; [exact P|constructor]].
    apply lit_plain; [exact P| | |exact L]; intros ->.
    + rewrite (proj2 (byte_eqb_iff q q) eq_refl) in E1. discriminate.
    + discriminate.
Qed.
Lemma repr_literal : forall b, bytes_literal (bytes_repr b) b /\ Forall printable (bytes_repr b) /\
  (nth 1 (bytes_repr b) x00 = x22 <-> In x27 b /\ ~ In x22 b).
Proof.
  intros b. pose proof (quote_cases b) as Q.
  assert (G : forall l, literal_body (quote_of b) (flat_map (repr_byte (quote_of b)) l ++ [quote_of b]) l /\ Forall printable (flat_map (repr_byte (quote_of b)) l)).
  { induction l as [|c l [IH1 IH2]]; [split; constructor|]. cbn [flat_map]. rewrite <- app_assoc.
    destruct (repr_byte_literal (quote_of b) c _ l Q IH1) as [A B]. split; [exact A|]. apply Forall_app. now split. }
  destruct (G b) as [A B]. unfold bytes_repr. split; [exists (quote_of b); eexists; split; [exact Q|]; split; [reflexivity|exact A]|].
  assert (Pq : printable (quote_of b)) by (destruct Q as [-> | ->]; cbv; split; discriminate).
  split.
  - constructor; [cbv; split; discriminate|]. constructor; [exact Pq|]. apply Forall_app. split; [exact B|]. constructor; [exact Pq|constructor].
  - cbn [nth]. unfold quote_of. assert (X : forall c, existsb (byte_eqb c) b = true <-> In c b).
    { intros c. rewrite existsb_exists. split; [intros [y [I E]]; apply byte_eqb_iff in E; now subst|intros I; exists c; split; [exact I|now apply byte_eqb_iff]]. }
    destruct (existsb (byte_eqb x27) b) eqn:E1, (existsb (byte_eqb x22) b) eqn:E2; cbn [andb negb];
      (split; [intros Z; first [discriminate Z|split; [now apply X|intros I; apply X in I; congruence]]|intros [I J]; first [reflexivity|exfalso]]).
    + apply J. now apply X.
    + apply X in I. congruence.
    + apply X in I. congruence.
Qed.
Lemma literal_body_det : forall q, (q = x27 \/ q = x22) -> forall t b, literal_body q t b -> forall b', literal_body q t b' -> b = b'.
Proof.
  intros q Q t b L. induction L as [|c t b P N1 N2 L IH|c t b S L IH|t b L IH|t b L IH|t b L IH|h l n m c t b V1 V2 E L IH]; intros b' L'.
  - inversion L'; subst; try reflexivity; try (destruct Q; discriminate); try contradiction.
  - inversion L'; subst; try contradiction; try (f_equal; now apply IH); try (exfalso; now apply N2).
  - inversion L'; subst; try (destruct Q; discriminate); try contradiction; try (f_equal; now apply IH); try (destruct S as [S|[S|S]]; discriminate).
  - inversion L'; subst; try (destruct Q; discriminate); try contradiction; try (f_equal; now apply IH).
    match goal with X : _ \/ _ \/ _ |- _ => destruct X as [X|[X|X]]; discriminate end.
  - inversion L'; subst; try (destruct Q; discriminate); try contradiction; try (f_equal; now apply IH).
    match goal with X : _ \/ _ \/ _ |- _ => destruct X as [X|[X|X]]; discriminate end.
  - inversion L'; subst; try (destruct Q; discriminate); try contradiction; try (f_equal; now apply IH).
    match goal with X : _ \/ _ \/ _ |- _ => destruct X as [X|[X|X]]; discriminate end.
  - inversion L' as [| | | | | |h' l' n' m' c' t' b2 V1' V2' E' L2]; subst; try (destruct Q; discriminate); try contradiction.
    + match goal with X : _ \/ _ \/ _ |- _ => destruct X as [X|[X|X]]; discriminate end.
    + rewrite (hex_value_inj _ _ _ V1' V1), (hex_value_inj _ _ _ V2' V2) in E'. f_equal; [apply bN_inj; lia|now apply IH].
Qed.
Lemma literal_det : forall t b b', bytes_literal t b -> bytes_literal t b' -> b = b'.
Proof.
  intros t b b' [q [t1 [Q [-> L]]]] [q' [t2 [Q' [E L']]]]. injection E as <- <-. exact (literal_body_det q Q t1 b L b' L').
Qed.
Lemma proof_repr_inj : forall p q, proof_repr p = proof_repr q <-> p = q.
Proof.
  intros [ty tm k r l] [ty' tm' k' r' l']. split; [|now intros ->]. intros E. unfold proof_repr in E. cbn [pf_type pf_time pf_key pf_root pf_proof] in E.
  apply app_inv_head in E. destruct (bytes_repr_inj _ _ _ _ E) as [-> E1].
  apply app_inv_head in E1. destruct (bytes_repr_inj _ _ _ _ E1) as [-> E2].
  apply app_inv_head in E2. destruct (bytes_repr_inj _ _ _ _ E2) as [-> E3].
  apply app_inv_head in E3. destruct (bytes_repr_inj _ _ _ _ E3) as [-> E4].
  apply app_inv_head in E4. destruct (tuple_repr_inj _ _ _ _ E4) as [-> _]. reflexivity.
Qed.
Lemma elem_printable : forall e, Forall printable (elem_repr e).
Proof.
  intros [b|a b]; cbn [elem_repr]; [apply repr_literal|]. constructor; [cbv; split; discriminate|]. apply Forall_app. split; [apply repr_literal|].
  apply Forall_app. split; [repeat constructor; cbv; discriminate|]. apply Forall_app. split; [apply repr_literal|repeat constructor; cbv; discriminate].
Qed.
Lemma tail_printable : forall l, Forall printable (tail_repr l).
Proof.
  induction l as [|e l IH]; [repeat constructor; cbv; discriminate|]. cbn [tail_repr]. apply Forall_app. split; [repeat constructor; cbv; discriminate|].
  apply Forall_app. split; [apply elem_printable|exact IH].
Qed.
Lemma tuple_printable : forall l, Forall printable (tuple_repr l).
Proof.
  intros [|e [|e2 l]]; [repeat constructor; cbv; discriminate| |].
  - cbn [tuple_repr]. constructor; [cbv; split; discriminate|]. apply Forall_app. split; [apply elem_printable|repeat constructor; cbv; discriminate].
  - change (tuple_repr (e :: e2 :: l)) with (x28 :: elem_repr e ++ tail_repr (e2 :: l)). constructor; [cbv; split; discriminate|].
    apply Forall_app. split; [apply elem_printable|apply tail_printable].
Qed.
Definition printable_b (c : byte) : bool := ((32 <=? bN c) && (bN c <=? 126))%N.
Lemma printable_check : forall l, forallb printable_b l = true -> Forall printable l.
Proof. intros l E. apply Forall_forall. intros c I. rewrite forallb_forall in E. specialize (E c I). unfold printable_b in E. unfold printable. lia. Qed.
Lemma proof_repr_printable : forall p, Forall printable (proof_repr p).
Proof.
  intros p. unfold proof_repr. repeat (apply Forall_app; split); try apply repr_literal; try apply tuple_printable; apply printable_check; reflexivity.
Qed.

(** ** Time stamps *)
Lemma fixed_length : forall w n, length (fixed w n) = w.
Proof. induction w as [|w IH]; intros n; [reflexivity|]. cbn [fixed]. rewrite app_length, IH. cbn [length]. lia. Qed.
Lemma less_app : forall c a b, bytes_less a b -> bytes_less (c ++ a) (c ++ b).
Proof. induction c as [|x c IH]; intros a b L; [exact L|]. cbn [app]. apply fl_same. now apply IH. Qed.
Lemma less_ext : forall a b x y, length a = length b -> bytes_less a b -> bytes_less (a ++ x) (b ++ y).
Proof.
  intros a b x y E L. induction L as [z l|u v l m L|u l m L IH]; cbn [length] in E; [discriminate| |]; cbn [app]; [now apply fl_less|apply fl_same; apply IH; lia].
Qed.
Lemma fixed_less : forall w n m, (n < m)%N -> (m < 10 ^ N.of_nat w)%N -> bytes_less (fixed w n) (fixed w m).
Proof.
  induction w as [|w IH]; intros n m L B; [cbn in B; lia|]. cbn [fixed].
  replace (N.of_nat (S w)) with (N.succ (N.of_nat w)) in B by lia. rewrite N.pow_succ_r' in B.
  destruct (N.lt_total (n / 10) (m / 10)) as [C|[C|C]].
  - apply less_ext; [now rewrite !fixed_length|]. apply IH; [exact C|]. apply N.div_lt_upper_bound; lia.
  - rewrite C. apply less_app. apply fl_less. rewrite !bN_nB by lia. pose proof (N.div_mod n 10 ltac:(lia)). pose proof (N.div_mod m 10 ltac:(lia)). lia.
  - pose proof (N.div_le_mono n m 10 ltac:(lia) ltac:(lia)). lia.
Qed.
Lemma less_irrefl : forall a, ~ bytes_less a a.
Proof. induction a as [|x a IH]; intros L; inversion L; subst; [lia|]. now apply IH. Qed.
Lemma less_trans : forall a b c, bytes_less a b -> bytes_less b c -> bytes_less a c.
Proof.
  intros a b c L. revert c. induction L as [z l|u v l m L|u l m L IH]; intros c M.
  - inversion M; subst; constructor.
  - inversion M; subst; [apply fl_less; lia|now apply fl_less].
  - inversion M; subst; [now apply fl_less|]. apply fl_same. now apply IH.
Qed.
Lemma earlier_str : forall t u, valid_time u -> earlier t u -> bytes_less (time_str t) (time_str u).
Proof.
  intros [y mo d h mi s us] [y' mo' d' h' mi' s' us'] (V1 & V2 & V3 & V4 & V5 & V6 & V7) E. unfold earlier, parts, time_str in *.
  cbn [t_year t_month t_day t_hour t_min t_sec t_us] in *.
  assert (F : forall w n m a b, (n < m)%N -> (m < 10 ^ N.of_nat w)%N -> bytes_less (fixed w n ++ a) (fixed w m ++ b)) by (intros w n m a b L B; apply less_ext; [now rewrite !fixed_length|now apply fixed_less]).
  inversion E as [|? ? ? ? L|? ? ? E1]; subst; [now apply F|]. apply less_app. apply less_app. clear E.
  inversion E1 as [|? ? ? ? L|? ? ? E]; subst; [now apply F|]. apply less_app. apply less_app. clear E1.
  inversion E as [|? ? ? ? L|? ? ? E1]; subst; [now apply F|]. apply less_app. apply less_app. clear E.
  inversion E1 as [|? ? ? ? L|? ? ? E]; subst; [now apply F|]. apply less_app. apply less_app. clear E1.
  inversion E as [|? ? ? ? L|? ? ? E1]; subst; [now apply F|]. apply less_app. apply less_app. clear E.
  inversion E1 as [|? ? ? ? L|? ? ? E]; subst; [now apply F|]. apply less_app. clear E1.
  inversion E as [|? ? ? ? L|? ? ? E1]; subst; [|inversion E1].
  destruct (N.eqb_spec us' 0) as [->|N]; [lia|]. destruct (N.eqb_spec us 0) as [->|N2]; [constructor|]. apply less_app. now apply fixed_less.
Qed.
Lemma list_cmp : forall a b : list N, length a = length b -> first_less N.lt a b \/ a = b \/ first_less N.lt b a.
Proof.
  induction a as [|x a IH]; intros [|y b] L; try discriminate; [auto|]. injection L as L. destruct (N.lt_total x y) as [C|[->|C]].
  - left. now apply fl_less.
  - destruct (IH b L) as [C|[->|C]]; [left; now apply fl_same|auto|right; right; now apply fl_same].
  - right. right. now apply fl_less.
Qed.
Lemma parts_inj : forall t u, parts t = parts u -> t = u.
Proof. intros [] [] E. unfold parts in E. cbn in E. congruence. Qed.
Lemma time_order : forall t u, valid_time t -> valid_time u -> (bytes_less (time_str t) (time_str u) <-> earlier t u) /\ (time_str t = time_str u <-> t = u).
Proof.
  intros t u T U. destruct (list_cmp (parts t) (parts u) eq_refl) as [C|[C|C]].
  - pose proof (earlier_str t u U C) as L. split; [split; auto|]. split; [intros E; rewrite E in L; exfalso; exact (less_irrefl _ L)|now intros ->].
  - apply parts_inj in C. subst u. split; [|split; auto]. split; [intros L; exfalso; exact (less_irrefl _ L)|intros L; exfalso; exact (less_irrefl _ (earlier_str t t T L))].
  - pose proof (earlier_str u t T C) as L. split.
    + split; [intros M; exfalso; exact (less_irrefl _ (less_trans _ _ _ M L))|]. intros M. exfalso. exact (less_irrefl _ (less_trans _ _ _ (earlier_str t u U M) L)).
    + split; [intros E; rewrite E in L; exfalso; exact (less_irrefl _ L)|now intros ->].
Qed.

(** ** Hash of a list *)
Section WithHash.
Context {H : Hash}.
Lemma fold_concat : forall l a, fold_left (fun acc (item : bytes) => acc ++ item) l a = a ++ concat l.
Proof. induction l as [|x l IH]; intros a; cbn [fold_left concat]; [now rewrite app_nil_r|]. now rewrite IH, app_assoc. Qed.
Lemma hash_list_concat : forall l hex, keccak_hash_list l hex = keccak_hash (concat l) hex.
Proof. intros l hex. unfold keccak_hash_list, keccak_hash. now rewrite fold_concat. Qed.
Lemma hash_list_merge : forall l1 a b l2 hex, keccak_hash_list (l1 ++ a :: b :: l2) hex = keccak_hash_list (l1 ++ (a ++ b) :: l2) hex.
Proof. intros l1 a b l2 hex. rewrite !hash_list_concat. f_equal. rewrite !concat_app. cbn [concat]. now rewrite <- app_assoc. Qed.
Lemma concat_lengths : forall l m : list bytes, map (@length byte) l = map (@length byte) m -> concat l = concat m -> l = m.
Proof.
  induction l as [|x l IH]; intros [|y m] L E; cbn [map] in L; try discriminate; [reflexivity|]. injection L as L1 L2. cbn [concat] in E.
  assert (X : x = y /\ concat l = concat m).
  { clear IH L2. revert y L1 E. induction x as [|c x IHx]; intros [|d y] L1 E; try discriminate; [split; [reflexivity|exact E]|]. injection L1 as L1. cbn [app] in E. injection E as -> E. destruct (IHx y L1 E) as [-> ?]. auto. }
  destruct X as [-> X]. f_equal. now apply IH.
Qed.
Lemma hash_list_lengths : forall l m, no_collision [concat l; concat m] -> map (@length byte) l = map (@length byte) m ->
  keccak_hash_list l false = keccak_hash_list m false -> l = m.
Proof.
  intros l m NC L E. rewrite !hash_list_concat in E. cbn [keccak_hash] in E. apply concat_lengths; [exact L|]. apply NC; cbn [In]; auto.
Qed.
End WithHash.
Lemma merge_differs : forall (l1 : list bytes) a b l2, l1 ++ a :: b :: l2 <> l1 ++ (a ++ b) :: l2.
Proof. intros l1 a b l2 E. apply (f_equal (@length bytes)) in E. rewrite !app_length in E. cbn [length] in E. lia. Qed.
Lemma proofs_in_time : forall t u k r l ty k' r' l' ty' p q, valid_time t -> valid_time u -> new_proof_at t k r l ty = Ok p -> new_proof_at u k' r' l' ty' = Ok q ->
  (bytes_less (pf_time p) (pf_time q) <-> earlier t u) /\ (pf_time p = pf_time q <-> t = u).
Proof.
  intros t u k r l ty k' r' l' ty' p q T U P Q. unfold new_proof_at, new_proof in P, Q. destruct (existsb (bytes_eqb ty) _); [|discriminate]. destruct (existsb (bytes_eqb ty') _); [|discriminate].
  injection P as <-. injection Q as <-. now apply time_order.
Qed.
