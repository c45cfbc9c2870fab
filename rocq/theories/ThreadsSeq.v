(** A call that no other call interrupts is the call of Mpt.v; what a call does with the storage. *)
From Coq Require Import List Bool Arith NArith ZArith Lia.
From Verif Require Import Base BaseProofs Rlp RlpProofs NibblePath Node ProofObj Mpt StoreProofs Threads.
Import ListNotations.

(** ** The storage part of a call, run alone *)
Fixpoint seq {A} (p : prog A) : M A := fun s =>
  match p with
  | PRet r => (r, s)
  | PGet h k => seq (k (dget (s_map s) h)) s
  | PSet h e k => seq k (mkStore (dset (s_map s) h e) (e :: s_log s) (s_faults s))
  | PRoot k => seq (k None) s
  | PAssign r k => seq k s
  end.
Lemma seq_bind : forall A B (p : prog A) (f : A -> prog B) s, seq (pbind p f) s = mbind (seq p) (fun a => seq (f a)) s.
Proof.
  intros A B p f. induction p as [[a|e]|h k IH|h e k IH|k IH|r k IH]; intros s; cbn [pbind seq].
  - reflexivity.
  - reflexivity.
  - rewrite IH. reflexivity.
  - rewrite IH. reflexivity.
  - rewrite IH. reflexivity.
  - rewrite IH. reflexivity.
Qed.

(** The same as [m] on a storage that does not fail. *)
Definition same {A} (p : prog A) (m : M A) : Prop :=
  forall s, s_faults s = [] -> seq p s = m s /\ s_faults (snd (m s)) = [].
Lemma same_pure : forall A (r : result A), same (PRet r) (lift r).
Proof. intros A r s E. split; [reflexivity|exact E]. Qed.
Lemma same_ret : forall A (a : A), same (pret a) (ret a).
Proof. intros A a s E. split; [reflexivity|exact E]. Qed.
Lemma same_raise : forall A e, same (@praise A e) (raise e).
Proof. intros A e s E. split; [reflexivity|exact E]. Qed.
Lemma same_bind : forall A B (p : prog A) (m : M A) (f : A -> prog B) (g : A -> M B), same p m -> (forall a, same (f a) (g a)) ->
  same (pbind p f) (mbind m g).
Proof.
  intros A B p m f g Hp Hf s E. rewrite seq_bind. destruct (Hp s E) as [Ep Ef]. unfold mbind. rewrite Ep.
  destruct (m s) as [[a|e] s']; cbn [snd] in Ef; [apply Hf; exact Ef|auto].
Qed.

(** What is read and written: a missing node raises KeyError, a node is stored under its digest. *)
Section WithHash.
Context {H : Hash}.
Inductive tame {A} : prog A -> Prop :=
| tame_ret : forall r, tame (PRet r)
| tame_get : forall h k, k None = PRet (Err KeyError) -> (forall o, tame (k o)) -> tame (PGet h k)
| tame_set : forall e k, 32 <= length e -> tame k -> tame (PSet (keccak e) e k).
Lemma tame_bind : forall A B (p : prog A) (f : A -> prog B), tame p -> (forall a, tame (f a)) -> tame (pbind p f).
Proof.
  intros A B p f T Hf. induction T as [[a|e]|h k Ek T IH|e k L T IH]; cbn [pbind].
  - apply Hf.
  - constructor.
  - constructor; [rewrite Ek; reflexivity|exact IH].
  - constructor; auto.
Qed.
Hypothesis keccak_len : forall b, length (keccak b) = 32.

Lemma same_node : forall r, same (p_node (Some r)) (rd_node r).
Proof.
  intros r s E. unfold p_node, rd_node, mbind, get_node. destruct (length r =? 32) eqn:L.
  - unfold tick. rewrite E. cbn [seq fst snd]. split; auto.
  - cbn [seq ret fst snd]. unfold ret. split; auto.
Qed.
Lemma tame_node : forall r, tame (p_node r).
Proof. intros [r|]; unfold p_node; [|constructor]. destruct (length r =? 32); constructor; [reflexivity|]. intros o. constructor. Qed.
Lemma same_store : forall n, same (p_store n) (store_node n).
Proof.
  intros n. unfold p_store, store_node. apply same_bind; [apply same_pure|]. intros r. destruct (length r =? 32); [|apply same_ret].
  apply same_bind; [apply same_pure|]. intros e s E. unfold mbind, write, mbind, tick, ret, pret. rewrite E. cbn. auto.
Qed.
Lemma tame_store : forall n, tame (p_store n).
Proof.
  intros n. unfold p_store, into_reference. destruct (node_encode n) as [e|x]; cbn [bind pbind]; [|constructor].
  destruct (length e <? 32) eqn:L.
  - apply Nat.ltb_lt in L. destruct (length e =? 32) eqn:L2; [apply Nat.eqb_eq in L2; lia|]. constructor.
  - apply Nat.ltb_ge in L. rewrite keccak_len. cbn [Nat.eqb]. constructor; [exact L|]. constructor.
Qed.
Ltac sm := first [apply same_store | apply same_ret | apply same_raise | apply same_pure | apply same_node].
Ltac tm := first [apply tame_store | apply tame_ret | apply tame_node].

Lemma same_branch_leaf : forall p v bs, same (p_branch_leaf p v bs) (create_branch_leaf p v bs).
Proof. intros p v bs. unfold p_branch_leaf, create_branch_leaf. destruct (0 <? np_len p); [|sm]. apply same_bind; [sm|]. intros. sm. Qed.
Lemma tame_branch_leaf : forall p v bs, tame (p_branch_leaf p v bs).
Proof. intros p v bs. unfold p_branch_leaf. destruct (0 <? np_len p); [|tm]. apply tame_bind; [tm|]. intros. tm. Qed.
Lemma same_branch_node : forall a va b vb, same (p_branch_node a va b vb) (create_branch_node a va b vb).
Proof.
  intros a va b vb. unfold p_branch_node, create_branch_node. destruct (_ && _); [sm|].
  apply same_bind; [apply same_branch_leaf|]. intros. apply same_bind; [apply same_branch_leaf|]. intros. sm.
Qed.
Lemma tame_branch_node : forall a va b vb, tame (p_branch_node a va b vb).
Proof.
  intros a va b vb. unfold p_branch_node. destruct (_ && _); [tm|].
  apply tame_bind; [apply tame_branch_leaf|]. intros. apply tame_bind; [apply tame_branch_leaf|]. intros. tm.
Qed.
Lemma same_branch_extension : forall p nr bs, same (p_branch_extension p nr bs) (create_branch_extension p nr bs).
Proof.
  intros p nr bs. unfold p_branch_extension, create_branch_extension. destruct (np_len p <? 1); [sm|]. destruct (np_len p =? 1); [sm|].
  apply same_bind; [sm|]. intros. sm.
Qed.
Lemma tame_branch_extension : forall p nr bs, tame (p_branch_extension p nr bs).
Proof.
  intros p nr bs. unfold p_branch_extension. destruct (np_len p <? 1); [tm|]. destruct (np_len p =? 1); [tm|].
  apply tame_bind; [tm|]. intros. tm.
Qed.
Lemma same_update : forall f r p v, same (p_update f r p v) (update_ f r p v).
Proof.
  induction f as [|f IH]; intros r p v; cbn [p_update update_]; [sm|]. destruct (ref_is_empty r); [sm|].
  apply same_bind; [sm|]. intros [lp d|ep nr|bs d].
  - destruct (np_eq lp p); [sm|]. apply same_bind; [apply same_branch_node|]. intros x. destruct (_ =? 0); sm.
  - destruct (np_starts_with p ep).
    + apply same_bind; [apply IH|]. intros. sm.
    + apply same_bind; [apply same_branch_leaf|]. intros. apply same_bind; [apply same_branch_extension|]. intros.
      apply same_bind; [sm|]. intros. destruct (_ =? 0); sm.
  - destruct (np_len p =? 0); [sm|]. apply same_bind; [apply IH|]. intros. sm.
Qed.
Lemma tame_update : forall f r p v, tame (p_update f r p v).
Proof.
  induction f as [|f IH]; intros r p v; cbn [p_update]; [tm|]. destruct (ref_is_empty r); [tm|].
  apply tame_bind; [tm|]. intros [lp d|ep nr|bs d].
  - destruct (np_eq lp p); [tm|]. apply tame_bind; [apply tame_branch_node|]. intros x. destruct (_ =? 0); tm.
  - destruct (np_starts_with p ep).
    + apply tame_bind; [apply IH|]. intros. tm.
    + apply tame_bind; [apply tame_branch_leaf|]. intros. apply tame_bind; [apply tame_branch_extension|]. intros.
      apply tame_bind; [tm|]. intros. destruct (_ =? 0); tm.
  - destruct (np_len p =? 0); [tm|]. apply tame_bind; [apply IH|]. intros. tm.
Qed.
Lemma same_branch_deleted : forall bs d, same (p_branch_deleted bs d) (branch_deleted bs d).
Proof.
  intros bs d. unfold p_branch_deleted, branch_deleted. destruct (_ && _); [sm|]. destruct (_ && _).
  { apply same_bind; [sm|]. intros. sm. }
  destruct (_ && _); [|apply same_bind; [sm|]; intros; sm].
  unfold p_build, build_new_node. apply same_bind; [sm|]. intros []; (apply same_bind; [sm|]; intros; sm).
Qed.
Lemma tame_branch_deleted : forall bs d, tame (p_branch_deleted bs d).
Proof.
  intros bs d. unfold p_branch_deleted. destruct (_ && _); [tm|]. destruct (_ && _).
  { apply tame_bind; [tm|]. intros. tm. }
  destruct (_ && _); [|apply tame_bind; [tm|]; intros; tm].
  unfold p_build. apply tame_bind; [tm|]. intros []; (apply tame_bind; [tm|]; intros; tm).
Qed.
Lemma same_delete : forall f r p, same (p_delete f (Some r) p) (delete_ f r p).
Proof.
  induction f as [|f IH]; intros r p; cbn [p_delete delete_]; [sm|].
  apply same_bind; [sm|]. intros [lp d|ep nr|bs d].
  - destruct (np_eq p lp); sm.
  - destruct (np_starts_with p ep); [|sm]. apply same_bind; [apply IH|]. intros [|cr|sp sr].
    + sm.
    + apply same_bind; [sm|]. intros. sm.
    + apply same_bind; [sm|]. intros ch. apply same_bind; [sm|]. intros. sm.
  - destruct (_ && _); [sm|]. destruct (np_len p =? 0); [apply same_branch_deleted|].
    destruct (length _ =? 0); [sm|]. apply same_bind; [apply IH|]. intros [|nr|sp nr].
    + apply same_branch_deleted.
    + apply same_bind; [sm|]. intros. sm.
    + apply same_bind; [sm|]. intros. sm.
Qed.
Lemma tame_delete : forall f r p, tame (p_delete f r p).
Proof.
  induction f as [|f IH]; intros r p; cbn [p_delete]; [tm|].
  apply tame_bind; [tm|]. intros [lp d|ep nr|bs d].
  - destruct (np_eq p lp); tm.
  - destruct (np_starts_with p ep); [|tm]. apply tame_bind; [apply IH|]. intros [|cr|sp sr].
    + tm.
    + apply tame_bind; [tm|]. intros. tm.
    + apply tame_bind; [tm|]. intros ch. apply tame_bind; [tm|]. intros. tm.
  - destruct (_ && _); [tm|]. destruct (np_len p =? 0); [apply tame_branch_deleted|].
    destruct (length _ =? 0); [tm|]. apply tame_bind; [apply IH|]. intros [|nr|sp nr].
    + apply tame_branch_deleted.
    + apply tame_bind; [tm|]. intros. tm.
    + apply tame_bind; [tm|]. intros. tm.
Qed.

(** ** Walks *)
Lemma seq_node : forall r s, seq (p_node (Some r)) s = (get_node (s_map s) r, s).
Proof. intros r s. unfold p_node, get_node. destruct (length r =? 32); reflexivity. Qed.
Lemma seq_get : forall f r p s, seq (p_get f (Some r) p) s = (get_ f (s_map s) r p, s).
Proof.
  induction f as [|f IH]; intros r p s; cbn [p_get get_]; [reflexivity|]. rewrite seq_bind. unfold mbind. rewrite seq_node.
  destruct (get_node (s_map s) r) as [n|e]; [|reflexivity]. destruct (np_len p =? 0); [reflexivity|]. destruct n as [lp d|ep nr|bs d].
  - destruct (np_eq lp p); reflexivity.
  - destruct (np_starts_with p ep); [apply IH|reflexivity].
  - cbv zeta. destruct (0 <? _); [apply IH|reflexivity].
Qed.
Lemma tame_pget : forall f r p, tame (p_get f r p).
Proof.
  induction f as [|f IH]; intros r p; cbn [p_get]; [tm|]. apply tame_bind; [tm|]. intros n. destruct (np_len p =? 0); [tm|].
  destruct n as [lp d|ep nr|bs d].
  - destruct (np_eq lp p); tm.
  - destruct (np_starts_with p ep); [apply IH|tm].
  - cbv zeta. destruct (0 <? _); [apply IH|tm].
Qed.
Lemma seq_poi : forall f r p acc s, seq (p_poi f (Some r) p acc) s = (get_poi_ f (s_map s) r p acc, s).
Proof.
  induction f as [|f IH]; intros r p acc s; cbn [p_poi get_poi_]; [reflexivity|]. rewrite seq_bind. unfold mbind. rewrite seq_node.
  destruct (get_node (s_map s) r) as [n|e]; cbn [bind]; [|reflexivity]. destruct (np_len p =? 0).
  { destruct (node_encode n); reflexivity. }
  destruct n as [lp d|ep nr|bs d].
  - destruct (np_eq lp p); [|reflexivity]. destruct (node_encode (Leaf lp d)); reflexivity.
  - destruct (np_starts_with p ep); [|reflexivity]. destruct (node_encode (Extension ep nr)); cbn [bind pbind]; [apply IH|reflexivity].
  - cbv zeta. destruct (0 <? _); [|reflexivity]. destruct (node_encode (Branch bs d)); cbn [bind pbind]; [apply IH|reflexivity].
Qed.
Lemma tame_poi : forall f r p acc, tame (p_poi f r p acc).
Proof.
  induction f as [|f IH]; intros r p acc; cbn [p_poi]; [tm|]. apply tame_bind; [tm|]. intros n. destruct (np_len p =? 0).
  { apply tame_bind; [tm|]. intros. tm. }
  destruct n as [lp d|ep nr|bs d].
  - destruct (np_eq lp p); [|tm]. apply tame_bind; [tm|]. intros. tm.
  - destruct (np_starts_with p ep); [|tm]. apply tame_bind; [tm|]. intros. apply IH.
  - cbv zeta. destruct (0 <? _); [|tm]. apply tame_bind; [tm|]. intros. apply IH.
Qed.
End WithHash.
