(** Properties of programs with key pairs (C185-C189). Theorem statements only; proofs are in KeyCallsProofs.v. *)
From Coq Require Import String List Bool Arith NArith ZArith Lia.
From Verif Require Import Base Json JsonProofs ProofJson Keypairs SpecKeys KeysExamples KeyCalls SpecKeyCalls KeyCallsProofs.
Import ListNotations.

(** C185: after any calls a key pair has its class, the nickname set last and the keys generated last for it.  Files change by to_key_file only.
    A call that raises changes no key pair. *)
Theorem C185_key_pairs_after_calls : forall (C : Crypto) cs w i o, nth_error (w_objs w) i = Some o ->
  nth_error (w_objs (krun w cs)) i = Some (mkObj (ko_cls o) (last_nick i cs (ko_nick o)) (last_key i cs (ko_key o))).
Proof. exact @krun_obj. Qed.
Print Assumptions C185_key_pairs_after_calls.
Theorem C185_files_after_calls : forall (C : Crypto) cs w f, (forall c, In c cs -> ~ saves_to f c) -> fget (w_files (krun w cs)) f = fget (w_files w) f.
Proof. exact @krun_file. Qed.
Print Assumptions C185_files_after_calls.
Theorem C185_raising_call : forall (C : Crypto) w c e, ksay w c = RErr e -> w_objs (snd (kstep w c)) = w_objs w.
Proof. exact @raising_keeps. Qed.
Print Assumptions C185_raising_call.

#[local] Instance TC : Crypto := toyc.
Definition ex_new (c : cls) (s : string) (k : comparison) : call := KNew c (NJson (JStr (txt s))) true (txt "u") (Ok ((k, true) : rsa)).
Definition ex_world : world := krun (mkWorld [] [(txt "old", txt "x")]) [ex_new Base "alice" Eq; ex_new Base "bob" Lt; ex_new Auth "carol" Gt; ex_new Enc "dave" Gt].
Definition ex_calls : list call :=
  [KSetNick 0 (NBad [] TypeError); KToFile 1 [] DFine (AStr (txt "f")) (AStr (txt "pw")); KGenerate 2 (AInt 2048) (Ok ((Eq, true) : rsa));
   KGenerate 1 ANone (Ok ((Gt, true) : rsa)); KGenerate 1 (AInt 5) (Err ValueError); KSetPublic 1 (ABytes []); KDelNick 1; KSign 3 (ABytes []);
   KFromFile Auth (AStr (txt "f")) (AStr (txt "pw")); KFromFile Auth (AStr (txt "f")) (AStr (txt "px")); KFromFile Base (AStr (txt "g")) (AStr [])].
Fixpoint says (w : world) (cs : list call) : list answer := match cs with [] => [] | c :: r => ksay w c :: says (snd (kstep w c)) r end.
Example C185_example :
  says ex_world ex_calls = [RNone; RNone; RNone; RErr ValueError; RErr ValueError; RErr ValueError; RErr ValueError; RErr NotImplementedError; RNew 4; RErr ValueError; RErr FileNotFoundError] /\
  map (fun o => (ko_nick o, ko_key o)) (w_objs (krun ex_world ex_calls)) =
    [(NBad [] TypeError, Some (Eq, true)); (NJson (JStr (txt "bob")), Some (Lt, true)); (NJson (JStr (txt "carol")), Some (Eq, true));
     (NJson (JStr (txt "dave")), Some (Gt, true)); (NJson (JStr (txt "bob")), Some (Lt, true))] /\
  last_key 2 ex_calls (Some (Gt, true)) = Some (Eq, true) /\ fget (w_files (krun ex_world ex_calls)) (txt "old") = Some (txt "x").
Proof. repeat split; vm_compute; reflexivity. Qed.

(** C186: an argument of a wrong type, and setting or deleting the public key or deleting the nickname, raise ValueError and change nothing. *)
Theorem C186_unfit_arguments : forall (C : Crypto) w i o c, nth_error (w_objs w) i = Some o -> unfit (ko_cls o) i c -> kstep w c = (RErr ValueError, w).
Proof. exact @unfit_raises. Qed.
Print Assumptions C186_unfit_arguments.
Theorem C186_unfit_class_arguments : forall (C : Crypto) w c, unfit_class c -> kstep w c = (RErr ValueError, w).
Proof. exact @unfit_class_raises. Qed.
Print Assumptions C186_unfit_class_arguments.
Example C186_example : unfit Auth 2 (KValid 2 (ABytes []) (ABytes []) (AStr [])) /\ unfit Base 1 (KDecrypt 1 (AStr []) (ABytes [])) /\
  unfit_class (KNew Enc (NJson JTrue) false [] (Err ValueError)) /\
  says ex_world [KValid 2 (ABytes []) (ABytes []) (AStr []); KDecrypt 1 (AStr []) (ABytes []); KNew Enc (NJson JTrue) false [] (Err ValueError)] =
    [RErr ValueError; RErr ValueError; RErr ValueError] /\
  says ex_world [KValid 3 AObj ANone ANone; KEncrypt 2 [] [] [] AObj ANone] = [RErr NotImplementedError; RErr NotImplementedError].
Proof.
  split; [|split; [|split; [|split; vm_compute; reflexivity]]].
  - apply unfit_valid; [discriminate|]. right. right. split; [intros [b E]; discriminate|discriminate].
  - apply unfit_decrypt; [discriminate|]. left. intros [b E]; discriminate.
  - apply unfit_new; [discriminate|intros s; discriminate].
Qed.

(** C187: signatures, messages and saved keys stay good through any calls: until the key pair gets new keys, or the file is written again. *)
Theorem C187_signature_lasts : forall (C : Crypto), crypto_ok -> forall w i o k d, nth_error (w_objs w) i = Some o -> ko_cls o <> Enc -> ko_key o = Some k -> good_key k ->
  exists s, ksay w (KSign i (ABytes d)) = RBytes s /\ forall cs, (forall c, In c cs -> ~ regenerates i c) ->
  ksay (krun w cs) (KValid i (ABytes d) (ABytes s) ANone) = RBool true.
Proof. exact @signature_lasts. Qed.
Print Assumptions C187_signature_lasts.
Theorem C187_signature_for_others : forall (C : Crypto), crypto_ok -> forall w i o k d s pk, nth_error (w_objs w) i = Some o -> ko_key o = Some k -> good_key k ->
  ksay w (KPublic i) = RBytes pk -> ksay w (KSign i (ABytes d)) = RBytes s ->
  forall cs j o', nth_error (w_objs (krun w cs)) j = Some o' -> ko_cls o' <> Enc ->
  ksay (krun w cs) (KValid j (ABytes d) (ABytes s) (ABytes pk)) = RBool true.
Proof. exact @signature_for_others. Qed.
Print Assumptions C187_signature_for_others.
Theorem C187_message_lasts : forall (C : Crypto), crypto_ok -> forall w i j a b ka kb pka pkb sk seed nonce m,
  nth_error (w_objs w) i = Some a -> nth_error (w_objs w) j = Some b ->
  ko_cls a = Base -> ko_cls b = Base -> ko_key a = Some ka -> ko_key b = Some kb -> good_key ka -> good_key kb ->
  ksay w (KPublic i) = RBytes pka -> ksay w (KPublic j) = RBytes pkb ->
  length sk = 16 -> length seed = 20 -> length nonce = 16 ->
  exists e, ksay w (KEncrypt i sk seed nonce (ABytes m) (ABytes pkb)) = RBytes e /\
  forall cs, (forall c, In c cs -> ~ regenerates j c) -> ksay (krun w cs) (KDecrypt j (ABytes e) (ABytes pka)) = RBytes m.
Proof. exact @message_lasts. Qed.
Print Assumptions C187_message_lasts.
Theorem C187_file_lasts : forall (C : Crypto), crypto_ok -> forall w i o k n salt d f p, nth_error (w_objs w) i = Some o -> ko_key o = Some k -> rsa_private k = true ->
  ko_nick o = NJson n -> jok n -> ksay w (KToFile i salt d (AStr f) (AStr p)) = RNone ->
  forall cs c, (forall x, In x cs -> ~ saves_to f x) ->
  let w' := krun (snd (kstep w (KToFile i salt d (AStr f) (AStr p)))) cs in
  kstep w' (KFromFile c (AStr f) (AStr p)) =
  (RNew (length (w_objs w')), mkWorld (w_objs w' ++ [mkObj c (NJson n) (Some k)]) (w_files w')).
Proof. exact @file_lasts. Qed.
Print Assumptions C187_file_lasts.
Theorem C187_string_lasts : forall (C : Crypto), crypto_ok -> forall w i o k n salt p s, nth_error (w_objs w) i = Some o -> ko_key o = Some k -> rsa_private k = true ->
  ko_nick o = NJson n -> jok n -> ksay w (KToString i salt (AStr p)) = RText s ->
  forall w' c, kstep w' (KFromString c (AStr s) (AStr p)) = (RNew (length (w_objs w')), mkWorld (w_objs w' ++ [mkObj c (NJson n) (Some k)]) (w_files w')).
Proof. exact @string_lasts. Qed.
Print Assumptions C187_string_lasts.
Theorem C187_public_key : forall (C : Crypto), crypto_ok -> forall w i o k, nth_error (w_objs w) i = Some o -> ko_key o = Some k ->
  exists b t, ksay w (KPublic i) = RBytes b /\ ksay w (KPublicText i) = RText t /\ utf8_decode b = Ok t /\ rsa_import b None = Ok (rsa_public k).
Proof. exact @public_forms. Qed.
Print Assumptions C187_public_key.
(** Alice signs, writes to Bob and is saved; then there are other calls, and new keys for Alice. *)
Definition ex_letter : bytes := match ksay ex_world (KEncrypt 0 ex_sk ex_seed ex_nonce (ABytes ex_msg) (ABytes (pk_of bob))) with RBytes e => e | _ => [] end.
Definition ex_sig : bytes := match ksay ex_world (KSign 0 (ABytes ex_msg)) with RBytes e => e | _ => [] end.
Definition ex_later : world := krun ex_world (KToFile 0 [] DFine (AStr (txt "a")) (AStr (txt "pw")) :: ex_calls ++ [KGenerate 0 (AInt 2048) (Ok ((Gt, true) : rsa))]).
Example C187_example : 
  says ex_later [KDecrypt 1 (ABytes ex_letter) (ABytes (pk_of alice)); KValid 2 (ABytes ex_msg) (ABytes ex_sig) (ABytes (pk_of alice));
                 KValid 0 (ABytes ex_msg) (ABytes ex_sig) ANone; KFromFile Base (AStr (txt "a")) (AStr (txt "pw")); KNick 5; KPublic 5] =
  [RBytes ex_msg; RBool true; RBool false; RNew 5; RNick (NJson (JStr (txt "alice"))); RBytes (pk_of alice)] /\ @crypto_ok toyc.
Proof. split; [vm_compute; reflexivity|exact toyc_ok]. Qed.

(** C188, refuted: a nickname that JSON cannot write, which the setter accepts, makes to_key_file raise after the old file was emptied.
    What a failing save leaves, exactly; with other nicknames and room on the disk it changes nothing. *)
Theorem C188_failing_save_keeps_the_file_refuted : forall (C : Crypto) w i o k e salt f p priv, nth_error (w_objs w) i = Some o -> ko_key o = Some k -> ko_nick o = NBad [] e ->
  (exists t, public_text o = Ok t) -> rsa_export k salt (Some p) = Ok priv ->
  ksay w (KToFile i salt DFine (AStr f) (AStr p)) = RErr e /\
  forall cs c q, (forall x, In x cs -> ~ saves_to f x) ->
  ksay (krun (snd (kstep w (KToFile i salt DFine (AStr f) (AStr p)))) cs) (KFromFile c (AStr f) (AStr q)) = RErr JSONDecodeError.
Proof. exact @nickname_loses_file. Qed.
Print Assumptions C188_failing_save_keeps_the_file_refuted.
Theorem C188_what_a_failing_save_leaves : forall (C : Crypto) w i o salt d f p e, nth_error (w_objs w) i = Some o -> ksay w (KToFile i salt d (AStr f) (AStr p)) = RErr e ->
  let now := fget (w_files (snd (kstep w (KToFile i salt d (AStr f) (AStr p))))) f in
  now = fget (w_files w) f \/ (exists n t, d = DFull n /\ n < length t /\ now = Some (firstn n t)) \/
  (exists t, ko_nick o = NBad t e /\ now = Some (txt "{""nickname"": " ++ t)).
Proof. exact @failing_save. Qed.
Print Assumptions C188_what_a_failing_save_leaves.
Theorem C188_with_json_nicknames : forall (C : Crypto) w i o n salt d f p e, nth_error (w_objs w) i = Some o -> ko_nick o = NJson n -> (forall m, d <> DFull m) ->
  ksay w (KToFile i salt d (AStr f) (AStr p)) = RErr e ->
  forall g, fget (w_files (snd (kstep w (KToFile i salt d (AStr f) (AStr p))))) g = fget (w_files w) g.
Proof. exact @json_nickname_keeps_file. Qed.
Print Assumptions C188_with_json_nicknames.
Example C188_example :
  let save := KToFile 0 [] DFine (AStr (txt "a")) (AStr (txt "pw")) in let load := KFromFile Base (AStr (txt "a")) (AStr (txt "pw")) in
  says ex_world [save; load; KSetNick 0 (NBad [] TypeError); save; load; KToFile 1 [] DNoOpen (AStr (txt "a")) (AStr []); KToFile 1 [] (DFull 3) (AStr (txt "b")) (AStr []); load] =
  [RNone; RNew 4; RNone; RErr TypeError; RErr JSONDecodeError; RErr StorageFault; RErr StorageFault; RErr JSONDecodeError].
Proof. vm_compute. reflexivity. Qed.

(** C189, refuted: the nickname of a new key pair is a str, but the setter takes anything. *)
Theorem C189_nickname_is_a_string_refuted : forall (C : Crypto) w i o v, nth_error (w_objs w) i = Some o -> ksay w (KSetNick i v) = RNone /\
  ksay (snd (kstep w (KSetNick i v))) (KNick i) = RNick v.
Proof. exact @any_nickname. Qed.
Print Assumptions C189_nickname_is_a_string_refuted.
Theorem C189_new_key_pair : forall (C : Crypto) w c nick g uuid gen i, ksay w (KNew c nick g uuid gen) = RNew i ->
  exists s, ksay (snd (kstep w (KNew c nick g uuid gen))) (KNick i) = RNick (NJson (JStr s)).
Proof. exact @created_nickname. Qed.
Print Assumptions C189_new_key_pair.
Theorem C189_no_text_of_such_a_key_pair : forall (C : Crypto) w i o e salt p t, nth_error (w_objs w) i = Some o -> ko_nick o = NBad t e ->
  exists e', kstep w (KToString i salt (AStr p)) = (RErr e', w).
Proof. exact @nickname_no_string. Qed.
Print Assumptions C189_no_text_of_such_a_key_pair.
Example C189_example : says ex_world [KNew Base (NBad [] TypeError) false [] (Err ValueError); KNew Base (NJson JNull) false (txt "id") (Err ValueError); KNick 4;
    KSetNick 4 (NJson (JArr [])); KNick 4; KPublic 4] =
  [RErr ValueError; RNew 4; RNick (NJson (JStr (txt "id"))); RNone; RNick (NJson (JArr [])); RErr AttributeError].
Proof. vm_compute. reflexivity. Qed.
