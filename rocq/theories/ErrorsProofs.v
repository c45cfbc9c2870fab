(** Proofs about the exceptions of [decrypt] and [from_key_string]. *)
From Coq Require Import String List Bool NArith Lia.
From Verif Require Import Base Json ProofJson Keypairs SpecJson SpecKeys SpecWire JsonGrammar JsonExact SpecErrors MerkleTree Keccak.
Import ListNotations.

(** Reading entries one after another. *)
Fixpoint take (v : json) (l : list (list N * bool)) : result (list bytes) :=
  match l with
  | [] => Ok []
  | (k, true) :: r => bind (jindex v k) (fun x => bind (unhex_json x) (fun y => bind (take v r) (fun z => Ok (y :: z))))
  | (k, false) :: r => bind (jindex v k) (fun _ => take v r)
  end.

Lemma unhex_err : forall v e, unhex_json v = Err e ->
  (exists s, v = JStr s /\ (forall b, ~ hex_text s b) /\ e = ValueError) \/ ((forall s, v <> JStr s) /\ e = TypeError).
Proof.
  intros v e E. destruct v as [s| | | | | |]; try (right; split; [discriminate|]; cbn [unhex_json] in E; congruence). left. exists s. split; [reflexivity|]. split.
  - intros b T. assert (X : unhex_json (JStr s) = Ok b) by (apply unhex_exact; eauto). rewrite X in E. discriminate.
  - cbn [unhex_json] in E. destruct (forallb _ s); [destruct (from_hex (map nB s))|]; congruence.
Qed.
Lemma jindex_obj_err : forall d k e, jindex (JObj d) k = Err e -> e = KeyError /\ forall v, ~ entry d k v.
Proof.
  intros d k e E. split.
  - cbn [jindex] in E. destruct (jget d k); congruence.
  - intros v I. assert (X : jindex (JObj d) k = Ok v) by (apply jindex_entry; eauto). congruence.
Qed.
Lemma entry_one : forall d k v w, entry d k v -> entry d k w -> v = w.
Proof.
  intros d k v w A B. assert (X : jindex (JObj d) k = Ok v) by (apply jindex_entry; eauto). assert (Y : jindex (JObj d) k = Ok w) by (apply jindex_entry; eauto). congruence.
Qed.
Lemma entry_ix : forall d k v, entry d k v -> jindex (JObj d) k = Ok v.
Proof. intros d k v E. apply jindex_entry. eauto. Qed.
Lemma entry_none : forall d k, (forall v, ~ entry d k v) -> jindex (JObj d) k = Err KeyError.
Proof.
  intros d k N. destruct (jindex (JObj d) k) as [v|e] eqn:E.
  - apply jindex_entry in E as [d' [X E]]. injection X as <-. now apply N in E.
  - now apply jindex_obj_err in E as [-> _].
Qed.
Lemma hex_ok : forall s b, hex_text s b -> unhex_json (JStr s) = Ok b.
Proof. intros s b T. apply unhex_exact. eauto. Qed.
Lemma hex_none : forall s, (forall b, ~ hex_text s b) -> unhex_json (JStr s) = Err ValueError.
Proof.
  intros s N. destruct (unhex_json (JStr s)) as [b|e] eqn:E.
  - apply unhex_exact in E as [s' [X T]]. injection X as <-. now apply N in T.
  - apply unhex_err in E as [[s' [_ [_ ->]]]|[X _]]; [reflexivity|]. now contradiction (X s).
Qed.
Lemma no_text_unhex : forall v, (forall s, v <> JStr s) -> unhex_json v = Err TypeError.
Proof. intros v N. destruct v as [s| | | | | |]; try reflexivity. now contradiction (N s). Qed.

Lemma take_bad : forall d l e, take (JObj d) l = Err e <-> bad_entry d l e.
Proof.
  intros d l e. split.
  - revert e. induction l as [|[k [|]] l IH]; intros e E; [discriminate| |]; cbn [take] in E; destruct (jindex (JObj d) k) as [x|e'] eqn:J.
    + cbn [bind] in E. apply jindex_entry in J as [d' [X J]]. injection X as <-. destruct (unhex_json x) as [y|e'] eqn:U.
      * cbn [bind] in E. apply unhex_exact in U as [s [-> T]]. destruct (take (JObj d) l) as [z|e'] eqn:R; [discriminate|]. cbn [bind] in E.
        apply entry_hex_fine with s y; [exact J|exact T|]. apply IH. congruence.
      * cbn [bind] in E. assert (e' = e) by congruence. subst e'. apply unhex_err in U as [[s [-> [N ->]]]|[N ->]].
        -- now apply entry_no_hex with s.
        -- now apply entry_no_text with x.
    + cbn [bind] in E. apply jindex_obj_err in J as [-> N]. assert (e = KeyError) by congruence. subst e. now apply entry_missing.
    + cbn [bind] in E. apply jindex_entry in J as [d' [X J]]. injection X as <-. apply entry_fine with x; [exact J|]. now apply IH.
    + cbn [bind] in E. apply jindex_obj_err in J as [-> N]. assert (e = KeyError) by congruence. subst e. now apply entry_missing.
  - intros B. induction B as [k [|] r N|k r v J N|k r s J N|k r s b e J T B IH|k r v e J B IH]; cbn [take].
    + now rewrite (entry_none _ _ N).
    + now rewrite (entry_none _ _ N).
    + rewrite (entry_ix _ _ _ J). cbn [bind]. now rewrite (no_text_unhex _ N).
    + rewrite (entry_ix _ _ _ J). cbn [bind]. now rewrite (hex_none _ N).
    + rewrite (entry_ix _ _ _ J). cbn [bind]. rewrite (hex_ok _ _ T). cbn [bind]. now rewrite IH.
    + rewrite (entry_ix _ _ _ J). exact IH.
Qed.

Lemma loads_err : forall s e, loads s = Err e -> e = JSONDecodeError /\ forall v, ~ json_text s v.
Proof.
  intros s e E. split.
  - unfold loads in E. destruct (match s with c :: _ => (c =? 65279)%N | [] => false end); [congruence|].
    destruct (pval (2 * List.length s + 2) (ws s)) as [[v r]|]; [|congruence]. destruct (ws r); congruence.
  - intros v T. apply loads_exact in T. congruence.
Qed.
Lemma no_json : forall s, (forall v, ~ json_text s v) -> loads s = Err JSONDecodeError.
Proof.
  intros s N. destruct (loads s) as [v|e] eqn:E; [apply loads_exact in E; now apply N in E|]. now apply loads_err in E as [-> _].
Qed.
Lemma read_bad : forall s k x r e, bind (loads s) (fun v => take v ((k, x) :: r)) = Err e <-> bad_text s ((k, x) :: r) e.
Proof.
  intros s k x r e. split.
  - intros E. destruct (loads s) as [v|e'] eqn:L; cbn [bind] in E.
    + apply loads_exact in L. assert (X : (exists d, v = JObj d) \/ forall d, v <> JObj d) by (destruct v; eauto; right; discriminate).
      destruct X as [[d ->]|N].
      * apply take_bad in E. now apply text_entry with d.
      * assert (e = TypeError). { cbn [take] in E. destruct v; try (now contradiction (N kvs)); destruct x; cbn [jindex bind] in E; try congruence; exfalso; eapply N; reflexivity. }
        subst e. now apply text_no_object with v.
    + apply loads_err in L as [-> N]. assert (e = JSONDecodeError) by congruence. subst e. now apply text_no_json.
  - intros [N|v L N|d e' L B].
    + now rewrite (no_json _ N).
    + apply loads_exact in L. rewrite L. cbn [bind take]. destruct v; destruct x; try reflexivity; exfalso; eapply N; reflexivity.
    + apply loads_exact in L. rewrite L. cbn [bind]. now apply take_bad.
Qed.

Section WithCrypto.
Context {C : Crypto}.

Lemma open_take : forall m, open_envelope m = bind (utf8_decode m) (fun s => bind (bind (loads s) (fun v => take v
    [(txt "enc_session_key", true); (txt "nonce", true); (txt "tag", true); (txt "ciphertext", true); (txt "signature", true)]))
    (fun l => match l with [a; b; c; d; e] => Ok (a, b, c, d, e) | _ => Err RuntimeError end)).
Proof.
  intros m. unfold open_envelope. destruct (utf8_decode m) as [s|e]; [|reflexivity]. cbn [bind]. destruct (loads s) as [v|e]; [|reflexivity]. cbn [bind take].
  change k_esk with (txt "enc_session_key"). change k_nonce with (txt "nonce"). change k_tag with (txt "tag"). change k_ct with (txt "ciphertext"). change k_sig with (txt "signature").
  destruct (jindex v (txt "enc_session_key")) as [x1|e]; [|reflexivity]. cbn [bind]. destruct (unhex_json x1) as [y1|e]; [|reflexivity]. cbn [bind].
  destruct (jindex v (txt "nonce")) as [x2|e]; [|reflexivity]. cbn [bind]. destruct (unhex_json x2) as [y2|e]; [|reflexivity]. cbn [bind].
  destruct (jindex v (txt "tag")) as [x3|e]; [|reflexivity]. cbn [bind]. destruct (unhex_json x3) as [y3|e]; [|reflexivity]. cbn [bind].
  destruct (jindex v (txt "ciphertext")) as [x4|e]; [|reflexivity]. cbn [bind]. destruct (unhex_json x4) as [y4|e]; [|reflexivity]. cbn [bind].
  destruct (jindex v (txt "signature")) as [x5|e]; [|reflexivity]. cbn [bind]. destruct (unhex_json x5) as [y5|e]; reflexivity.
Qed.
Lemma take_length : forall v l z, take v l = Ok z -> List.length z = List.length (filter snd l).
Proof.
  intros v. induction l as [|[k [|]] l IH]; intros z E; cbn [take] in E.
  - injection E as <-. reflexivity.
  - destruct (jindex v k); [|discriminate]. cbn [bind] in E. destruct (unhex_json _) as [y|]; [|discriminate]. cbn [bind] in E.
    destruct (take v l) as [z'|]; [|discriminate]. cbn [bind] in E. injection E as <-. cbn [filter snd List.length]. now rewrite (IH z').
  - destruct (jindex v k); [|discriminate]. cbn [bind] in E. cbn [filter snd]. now apply IH.
Qed.
Lemma open_bad : forall m e, open_envelope m = Err e <-> unreadable m e.
Proof.
  intros m e. rewrite open_take. split.
  - intros E. destruct (utf8_decode m) as [s|e'] eqn:U; cbn [bind] in E.
    + apply utf8_form_decode in U. apply bytes_bad_text with s; [exact U|]. apply read_bad.
      destruct (bind (loads s) _) as [l|e'] eqn:R.
      * cbn [bind] in E. exfalso. destruct (loads s) as [v|]; [|discriminate]. cbn [bind] in R. apply take_length in R.
        do 5 (destruct l as [|? l]; [discriminate|]). destruct l; discriminate.
      * cbn [bind] in E. congruence.
    + assert (e' = UnicodeDecodeError) by (unfold utf8_decode in U; destruct (utf8_dec m); congruence). assert (e = UnicodeDecodeError) by congruence. subst.
      apply bytes_no_text. intros s T. apply utf8_form_decode in T. congruence.
  - intros [N|s e' U B].
    + assert (X : utf8_decode m = Err UnicodeDecodeError).
      { destruct (utf8_decode m) as [s|e'] eqn:U; [apply utf8_form_decode in U; now apply N in U|]. unfold utf8_decode in U. destruct (utf8_dec m); congruence. }
      now rewrite X.
    + apply utf8_form_decode in U. rewrite U. cbn [bind]. apply read_bad in B. now rewrite B.
Qed.
Lemma value_error_in : forall e, value_error e = true <-> In e value_errors.
Proof.
  intros e. split.
  - destruct e; try discriminate; intros _; cbn; tauto.
  - cbn. intros [<-|[<-|[<-|[<-|[]]]]]; reflexivity.
Qed.
Lemma message_open : forall m esk nonce tag ct sig, message m esk nonce tag ct sig -> open_envelope m = Ok (esk, nonce, tag, ct, sig).
Proof. intros. now apply open_exact. Qed.

Theorem decrypt_errors : forall b m pk e, decrypt b m pk = Err e <-> decrypt_fails b m pk e.
Proof.
  intros b m pk e. split.
  - intros E. unfold decrypt in E. destruct (kp_cls b) eqn:B.
    + destruct (open_envelope m) as [[[[[esk nonce] tag] ct] sig]|e'] eqn:O; cbn [bind] in E.
      2: { assert (e' = e) by congruence. subst. apply d_unreadable; [congruence|]. now apply open_bad. }
      apply open_exact in O. unfold signature_valid in E. rewrite B in E. cbn [bind] in E.
      destruct (rsa_import pk None) as [k|e'] eqn:I; cbn [bind] in E.
      2: { assert (e' = e) by congruence. subst. now apply d_sender with esk nonce tag ct sig. }
      destruct (pkcs_verify k (sha256d ct) sig) as [[]|e'] eqn:V; cbn [bind] in E.
      * unfold key_of in E. destruct (kp_key b) as [kb|] eqn:K; cbn [bind] in E.
        2: { assert (e = AttributeError) by congruence. subst. now apply d_no_key with esk nonce tag ct sig k. }
        destruct (oaep_dec kb esk) as [sk|e'] eqn:D; cbn [bind] in E.
        -- now apply d_text with esk nonce tag ct sig k kb sk.
        -- assert (e' = e) by congruence. subst. now apply d_session_key with esk nonce tag ct sig k kb.
      * destruct (value_error e') eqn:W.
        -- assert (e = ValueError) by (destruct e'; cbn [bind] in E; congruence). subst. apply d_signature with esk nonce tag ct sig k e'; auto.
           right. now apply value_error_in.
        -- assert (X : e' = TypeError \/ e' <> TypeError) by (destruct e'; auto; right; discriminate). destruct X as [->|X].
           ++ cbn [bind] in E. assert (e = ValueError) by congruence. subst. apply d_signature with esk nonce tag ct sig k TypeError; auto. now left.
           ++ assert (e = e'). { destruct e'; cbn [value_error bind] in W, E; congruence. } subst. apply d_verify_raises with esk nonce tag ct sig k; auto.
              intros [<-|J]; [now apply X|]. apply value_error_in in J. congruence.
    + assert (e = NotImplementedError) by congruence. subst. now apply d_auth.
    + destruct (open_envelope m) as [[[[[esk nonce] tag] ct] sig]|e'] eqn:O; cbn [bind] in E.
      * unfold signature_valid in E. rewrite B in E. cbn [bind] in E. assert (e = NotImplementedError) by congruence. subst. apply open_exact in O. now apply d_enc with esk nonce tag ct sig.
      * assert (e' = e) by congruence. subst. apply d_unreadable; [congruence|]. now apply open_bad.
  - intros D. unfold decrypt. destruct D as [A|e A U|esk nonce tag ct sig A M|esk nonce tag ct sig e A M I|esk nonce tag ct sig k e A M I V J|esk nonce tag ct sig k e A M I V J
      |esk nonce tag ct sig k A M I V K|esk nonce tag ct sig k kb e A M I V K D|esk nonce tag ct sig k kb sk e A M I V K D X]; try apply message_open in M.
    + now rewrite A.
    + apply open_bad in U. destruct (kp_cls b); [|congruence|]; rewrite U; reflexivity.
    + unfold signature_valid. rewrite A, M. reflexivity.
    + unfold signature_valid. rewrite A, M. cbn [bind]. rewrite I. reflexivity.
    + unfold signature_valid. rewrite A, M. cbn [bind]. rewrite I. cbn [bind]. rewrite V. destruct J as [<-|J]; [reflexivity|]. apply value_error_in in J. rewrite J. destruct e; try discriminate; reflexivity.
    + unfold signature_valid. rewrite A, M. cbn [bind]. rewrite I. cbn [bind]. rewrite V.
      assert (W : value_error e = false). { destruct (value_error e) eqn:W; [|reflexivity]. apply value_error_in in W. contradiction J. now right. }
      rewrite W. destruct e; try reflexivity. contradiction J. now left.
    + unfold signature_valid, key_of. rewrite A, M. cbn [bind]. rewrite I. cbn [bind]. rewrite V. cbn [bind]. now rewrite K.
    + unfold signature_valid, key_of. rewrite A, M. cbn [bind]. rewrite I. cbn [bind]. rewrite V. cbn [bind]. rewrite K. cbn [bind]. now rewrite D.
    + unfold signature_valid, key_of. rewrite A, M. cbn [bind]. rewrite I. cbn [bind]. rewrite V. cbn [bind]. rewrite K. cbn [bind]. rewrite D. exact X.
Qed.

Theorem key_string_errors : forall c s pass e, from_key_string c s pass = Err e <-> key_string_fails s pass e.
Proof.
  intros c s pass e. assert (Q : from_key_string c s pass = bind (loads s) (fun v => bind (jindex v (txt "nickname")) (fun n => bind (take v [(txt "private_key", true)]) (fun l =>
      match l with [priv] => bind (rsa_import priv (Some pass)) (fun k => Ok (mkKp c n (Some k))) | _ => Err RuntimeError end)))).
  { unfold from_key_string. destruct (loads s) as [v|]; [|reflexivity]. cbn [bind]. change k_nick with (txt "nickname"). change k_priv with (txt "private_key").
    destruct (jindex v (txt "nickname")) as [n|]; [|reflexivity]. cbn [bind take]. destruct (jindex v (txt "private_key")) as [x|]; [|reflexivity]. cbn [bind].
    destruct (unhex_json x); reflexivity. }
  rewrite Q. clear Q. split.
  - intros E. destruct (bind (loads s) (fun v => take v [(txt "nickname", false); (txt "private_key", true)])) as [l|e'] eqn:T.
    + destruct (loads s) as [v|] eqn:L; [|discriminate]. cbn [bind] in T, E. cbn [take] in T, E. destruct (jindex v (txt "nickname")) as [n|] eqn:J1; [|discriminate]. cbn [bind] in T, E.
      destruct (jindex v (txt "private_key")) as [x|] eqn:J2; [|discriminate]. cbn [bind] in T, E. destruct (unhex_json x) as [y|] eqn:U; [|discriminate]. cbn [bind] in T, E.
      destruct (rsa_import y (Some pass)) as [k|e'] eqn:I; [discriminate|]. cbn [bind] in E. assert (e' = e) by congruence. subst e'.
      apply jindex_entry in J1 as [d [-> J1]]. apply jindex_entry in J2 as [d' [X J2]]. injection X as <-. apply unhex_exact in U as [h [-> U]]. apply loads_exact in L.
      apply k_import with d h y; eauto.
    + apply k_bad_text, read_bad. rewrite T. f_equal. destruct (loads s) as [v|e''] eqn:L; [|cbn [bind] in T, E; congruence]. cbn [bind] in T, E. cbn [take] in T, E.
      destruct (jindex v (txt "nickname")) as [n|]; [|cbn [bind] in T, E; congruence]. cbn [bind] in T, E.
      destruct (jindex v (txt "private_key")) as [x|]; [|cbn [bind] in T, E; congruence]. cbn [bind] in T, E.
      destruct (unhex_json x) as [y|]; [discriminate|]. cbn [bind] in T, E. congruence.
  - intros [e' B|d h priv e' L [n J1] J2 T I].
    + apply read_bad in B. destruct (loads s) as [v|e'']; [|cbn [bind] in B |- *; congruence]. cbn [bind] in B |- *. cbn [take] in B |- *.
      destruct (jindex v (txt "nickname")) as [n|]; [|cbn [bind] in B |- *; congruence]. cbn [bind] in B |- *.
      destruct (jindex v (txt "private_key")) as [x|]; [|cbn [bind] in B |- *; congruence]. cbn [bind] in B |- *.
      destruct (unhex_json x) as [y|]; [discriminate|]. cbn [bind] in B |- *. congruence.
    + apply loads_exact in L. rewrite L. cbn [bind]. rewrite (entry_ix _ _ _ J1). cbn [bind take]. rewrite (entry_ix _ _ _ J2). cbn [bind]. rewrite (hex_ok _ _ T). cbn [bind]. now rewrite I.
Qed.

(** One exception, and one of these, for every message that cannot be read. *)
Lemma bad_entry_errors : forall d l e, bad_entry d l e -> In e [KeyError; TypeError; ValueError].
Proof. intros d l e B. induction B; cbn; tauto. Qed.
Theorem unreadable_errors : forall m e, unreadable m e -> In e [UnicodeDecodeError; JSONDecodeError; TypeError; KeyError; ValueError].
Proof.
  intros m e [N|s e' U [N|v L N|d e'' L B]]; try (cbn; tauto). apply bad_entry_errors in B. cbn in B |- *. tauto.
Qed.
Theorem readable_or_not : forall m, (exists esk nonce tag ct sig, message m esk nonce tag ct sig) \/ (exists e, unreadable m e).
Proof.
  intros m. destruct (open_envelope m) as [[[[[esk nonce] tag] ct] sig]|e] eqn:O.
  - left. exists esk, nonce, tag, ct, sig. now apply open_exact.
  - right. exists e. now apply open_bad.
Qed.
Theorem readable_not_both : forall m esk nonce tag ct sig e, message m esk nonce tag ct sig -> ~ unreadable m e.
Proof. intros m esk nonce tag ct sig e M U. apply message_open in M. apply open_bad in U. congruence. Qed.
End WithCrypto.

Section Files.
Context {C : Crypto}.
Theorem key_file_errors : forall fs c file pass e, from_key_file fs c file pass = Err e <->
  (fget fs file = None /\ e = FileNotFoundError) \/ exists s, fget fs file = Some s /\ key_string_fails s pass e.
Proof.
  intros fs c file pass e. unfold from_key_file. destruct (fget fs file) as [s|]; split.
  - intros E. right. exists s. split; [reflexivity|]. now apply key_string_errors in E.
  - intros [[X _]|[s' [X K]]]; [discriminate|]. injection X as <-. now apply key_string_errors.
  - intros E. left. split; congruence.
  - intros [[_ ->]|[s' [X _]]]; [reflexivity|discriminate].
Qed.

(** Messages that are refused with other exceptions than ValueError. *)
Theorem decrypt_other_errors : forall b pk, kp_cls b <> Auth -> decrypt b (bs "{}") pk = Err KeyError /\ decrypt b (bs "[]") pk = Err TypeError /\
  decrypt b (bs "{""enc_session_key"": 1}") pk = Err TypeError.
Proof.
  intros b pk N. assert (X : forall m e, open_envelope m = Err e -> decrypt b m pk = Err e).
  { intros m e O. apply decrypt_errors, d_unreadable; [exact N|]. now apply open_bad. }
  repeat split; apply X; vm_compute; reflexivity.
Qed.
Theorem decrypt_malformed : forall b m pk e, kp_cls b <> Auth -> unreadable m e -> decrypt b m pk = Err e /\ In e [UnicodeDecodeError; JSONDecodeError; TypeError; KeyError; ValueError].
Proof. intros b m pk e N U. split; [now apply decrypt_errors, d_unreadable|now apply unreadable_errors in U]. Qed.
End Files.
