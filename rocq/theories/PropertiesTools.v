(** MerkleTools used directly.
    Vocabulary: SpecTools.v, SpecMtObj.v, SpecMt.v, SpecAudit.v, SpecText.v, SpecJson.v.  Model: MerkleTools.v, MerkleTree.v. *)
From Coq Require Import String List Bool Arith NArith ZArith.
From Verif Require Import Base Keccak ProofObj Examples SpecJson MerkleTree SpecMt SpecText SpecAudit SpecMtObj MerkleTools SpecTools ToolsProofs ToolsProofs2.
Import ListNotations.

(** C194: what every call on a MerkleTools object answers or raises, after any calls. *)
Theorem C194_every_call : forall (H : Hash) s h l, fst (tools_run (tools_new s) h) = l <-> exists g, performs s (View [] Fresh) h l g.
Proof. exact @tools_exact. Qed.
Print Assumptions C194_every_call.

Theorem C194_later_calls : forall (H : Hash) s h l g, performs s (View [] Fresh) h l g -> exists t, tools_run (tools_new s) h = (l, t) /\
  forall h' l', fst (tools_run t h') = l' <-> exists g', performs s g h' l' g'.
Proof. exact @tools_state. Qed.
Print Assumptions C194_later_calls.

Theorem C194_comparison : forall (H : Hash) s h l g s' h' l' g' c, performs s (View [] Fresh) h l g -> performs s' (View [] Fresh) h' l' g' ->
  (tools_eq (snd (tools_run (tools_new s) h)) (snd (tools_run (tools_new s') h')) = c <-> compared s g s' g' c).
Proof. exact @tools_compare. Qed.
Print Assumptions C194_comparison.

Example C194_applies : let H : Hash := toy in
  performs false (View [] Fresh) [JAdd (YBuf (bs "a")); JAdd (YInt 1); JAdd (YInts [Some 98%Z; Some 99%Z]); JMake; JCount]
    [WUnit (Ok tt); WUnit (Ok tt); WUnit (Ok tt); WUnit (Ok tt); WCount 3] (View [bs "a"; [x00]; bs "bc"] (Made 3)) /\
  fst (tools_run (tools_new false) [JRoot; JAdd YStr; JAdd (YInt (-1)); JAdd (YInts [Some 256%Z]); JAdd (YBuf (bs "a")); JLeaf (-1); JLeaf 1;
      JReady; JMake; JReady; JRoot; JNumber; JProve (YBuf (bs "b")); JProve (YInts [Some 97%Z]); JVerify [] (TBuf (bs "a")) (TBuf (bs "a")); JReset; JCount]) =
    [WText (Err ValueError); WUnit (Err TypeError); WUnit (Err ValueError); WUnit (Err ValueError); WUnit (Ok tt); WText (Ok (bs "61"));
     WText (Err IndexError); WBool (Ok false); WUnit (Ok tt); WBool (Ok true); WText (Ok (bs "61")); WInt (Ok 97%Z); WPath (Err ValueError);
     WPath (Ok []); WBool (Ok true); WUnit (Ok tt); WCount 0].
Proof.
  split; [|vm_compute; reflexivity]. eapply performs_cons; [apply acts_add, means_buf|]. eapply performs_cons; [apply acts_add, (means_int false 1), eq_refl|].
  eapply performs_cons; [apply acts_add, (means_ints false (bs "bc")), eq_refl|]. eapply performs_cons; [apply acts_make|].
  eapply performs_cons; [apply acts_count|]. apply performs_nil.
Qed.

(** C195: the text of an object says everything about its levels. *)
Theorem C195_text : forall (H : Hash) s h l g, performs s (View [] Fresh) h l g -> text_of s g (tools_str (snd (tools_run (tools_new s) h))).
Proof. exact @tools_text. Qed.
Print Assumptions C195_text.

Theorem C195_same_text : forall (H : Hash) s h l g s' h' l' g', performs s (View [] Fresh) h l g -> performs s' (View [] Fresh) h' l' g' ->
  (tools_str (snd (tools_run (tools_new s) h)) = tools_str (snd (tools_run (tools_new s') h')) <-> same_text s g s' g').
Proof. exact @tools_same_text. Qed.
Print Assumptions C195_same_text.

Example C195_applies : let H : Hash := fun _ => bs "h'" in
  performs false (View [] Fresh) [JAdd (YBuf (bs "it's")); JAdd (YBuf (bs """")); JAdd (YInt 1); JMake; JAdd (YBuf [])]
    [WUnit (Ok tt); WUnit (Ok tt); WUnit (Ok tt); WUnit (Ok tt); WUnit (Ok tt)] (View [bs "it's"; bs """"; [x00]; []] (Made 3)) /\
  tools_str (snd (tools_run (tools_new false) [JAdd (YBuf (bs "it's")); JAdd (YBuf (bs """")); JAdd (YInt 1); JMake; JAdd (YBuf [])])) =
    bs "[[b""h'""], [b""h'"", bytearray(b'\x00')], [bytearray(b""it\'s""), bytearray(b'""'), bytearray(b'\x00'), bytearray(b'')]]" /\
  tools_str (tools_new false) = bs "Tree not ready" /\ tools_str (snd (tools_run (tools_new false) [JMake])) = bs "None".
Proof.
  split; [|vm_compute; auto]. do 2 (eapply performs_cons; [apply acts_add, means_buf|]). eapply performs_cons; [apply acts_add, (means_int false 1), eq_refl|].
  eapply performs_cons; [apply acts_make|]. eapply performs_cons; [apply acts_add, means_buf|]. apply performs_nil.
Qed.

(** C196 (refuted): what get_leaf and get_merkle_root return can be given to verify_proof_of_inclusion.  The shipped example does so and
    raises KeyError; a proof with elements is never accepted for a str. *)
Theorem C196_example_refuted : forall (H : Hash), shipped_example = Err KeyError.
Proof. exact @example_fails. Qed.
Print Assumptions C196_example_refuted.

Theorem C196_text_target : forall (H : Hash) p l t u, (forall b, t <> TBuf b) -> exists e, tools_check (p :: l) t u = Err e.
Proof. exact @check_text. Qed.
Print Assumptions C196_text_target.

Theorem C196_text_root : forall (H : Hash) p l t u, (forall b, u <> TBuf b) -> tools_check (p :: l) t u <> Ok true.
Proof. exact @check_root_text. Qed.
Print Assumptions C196_text_root.

Example C196_applies : let H : Hash := toy in (forall b, TStr (bs "61") <> TBuf b) /\
  tools_check [[(bs "right", Some (bs "62"))]] (TBuf (bs "a")) (TBuf (toy (bs "ab"))) = Ok true /\
  tools_check [[(bs "right", Some (bs "62"))]] (TBuf (bs "a")) (TStr (to_hex (toy (bs "ab")))) = Ok false /\
  tools_check [[(bs "right", Some (bs "62"))]] (TStr (bs "61")) (TBuf (toy (bs "ab"))) = Err TypeError /\
  tools_check [[(bs "left", Some (bs "62"))]] (TStr (bs "61")) (TBuf (toy (bs "ab"))) = Err KeyError.
Proof. split; [discriminate|]. vm_compute. auto. Qed.

(** C197: a tree's own proofs verify, with the bytes of the leaf and of the root, and are short. *)
Theorem C197_own_proof : forall (H : Hash) s h l g v b, performs s (View [] Fresh) h l g -> v_stage g = Made (length (v_vals g)) -> means s v b ->
  In (digest s b) (leaves_of s (v_vals g)) -> exists t pa p, tools_run (tools_new s) h = (l, t) /\ spelled pa p /\
  fst (tools_call t (JProve v)) = WPath (Ok p) /\ length pa <= Nat.log2_up (length (v_vals g)) /\
  fst (tools_call t (JVerify (dicts p) (TBuf (digest s b)) (TBuf (merkle_root (leaves_of s (v_vals g)))))) = WBool (Ok true).
Proof. exact @tools_own_proof. Qed.
Print Assumptions C197_own_proof.

Example C197_applies : let H : Hash := toy in
  performs true (View [] Fresh) [JAdd (YBuf (bs "a")); JAdd (YBuf (bs "b")); JAdd (YBuf (bs "c")); JMake]
    [WUnit (Ok tt); WUnit (Ok tt); WUnit (Ok tt); WUnit (Ok tt)] (View [bs "a"; bs "b"; bs "c"] (Made 3)) /\
  means true (YBuf (bs "b")) (bs "b") /\ In (digest true (bs "b")) (leaves_of true [bs "a"; bs "b"; bs "c"]) /\
  fst (tools_run (tools_new true) [JAdd (YBuf (bs "a")); JAdd (YBuf (bs "b")); JAdd (YBuf (bs "c")); JMake; JProve (YBuf (bs "b"))]) =
    [WUnit (Ok tt); WUnit (Ok tt); WUnit (Ok tt); WUnit (Ok tt);
     WPath (Ok [(bs "left", to_hex (toy (bs "a"))); (bs "right", to_hex (toy (bs "c")))])].
Proof.
  split; [|split; [apply means_buf|split; [right; left; reflexivity|vm_compute; reflexivity]]].
  do 3 (eapply performs_cons; [apply acts_add, means_buf|]). eapply performs_cons; [apply acts_make|]. apply performs_nil.
Qed.

(** C198 (refuted): add_leaf refuses what is not bytes.  Without hashing, an int adds that many zero bytes and an iterable of ints adds
    those bytes; otherwise it raises, and the object stays as it was. *)
Theorem C198_bytes_only_refuted : forall (H : Hash) n,
  tools_call (tools_new false) (JAdd (YInt (Z.of_nat n))) = tools_call (tools_new false) (JAdd (YBuf (repeat x00 n))).
Proof. exact (fun H n => @add_any H (tools_new false) _ _ (means_int false n eq_refl)). Qed.
Print Assumptions C198_bytes_only_refuted.

Theorem C198_as_bytes : forall (H : Hash) t v b, means (o_secure t) v b -> tools_call t (JAdd v) = tools_call t (JAdd (YBuf b)).
Proof. exact @add_any. Qed.
Print Assumptions C198_as_bytes.

Theorem C198_means_or_raises : forall s v, (exists b, means s v b) \/ exists e, refused s v e.
Proof. exact arg_cases. Qed.
Print Assumptions C198_means_or_raises.

Theorem C198_refused : forall (H : Hash) t v e, refused (o_secure t) v e -> tools_call t (JAdd v) = (WUnit (Err e), t).
Proof. exact @add_refused. Qed.
Print Assumptions C198_refused.

Example C198_applies : let H : Hash := toy in
  o_leaves (snd (tools_run (tools_new false) [JAdd (YInt 3); JAdd (YInts [Some 97%Z]); JAdd YStr; JAdd (YInts [Some 97%Z; None; Some 300%Z])])) =
    [[x00; x00; x00]; bs "a"] /\
  refused true (YInt 3) TypeError /\ refused false (YInts [Some 97%Z; Some 300%Z]) ValueError.
Proof. split; [vm_compute; reflexivity|]. split; [now apply refused_int|]. apply (refused_range false (bs "a") 300 []); [reflexivity|now right]. Qed.
