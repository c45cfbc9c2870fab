(** Model of programs with key pairs: /repo/src/pymt/keypairs.py with its tests of argument types, its properties and the files.
    Any number of key pairs, numbered in the order of their creation, and one file system. *)
From Coq Require Import String List Bool Arith NArith ZArith.
From Verif Require Import Base ProofObj Json ProofJson MerkleTree Keypairs.
Import ListNotations.
Local Open Scope res_scope.

(** A Python argument, as far as the tests of types go. *)
Inductive parg := ABytes (b : bytes) | AStr (s : list N) | AInt (z : Z) | ANone | AObj.

(** A nickname: a value that [json.dump] writes, or one at which it raises [e] after writing the text [written]
    (a [bytes] object or a set: TypeError after nothing). *)
Inductive nickv := NJson (j : json) | NBad (written : list N) (e : exn).

(** The disk while a file is written: nothing happens; [open] fails; there is room for [n] characters. *)
Inductive disk := DFine | DNoOpen | DFull (n : nat).

Section WithCrypto.
Context {C : Crypto}.

(** keypairs.py:20-50. *)
Record kobj := mkObj { ko_cls : cls; ko_nick : nickv; ko_key : option rsa }.
Record world := mkWorld { w_objs : list kobj; w_files : files }.

(** The parts of a key pair that do not look at the nickname. *)
Definition plain (o : kobj) : kp := mkKp (ko_cls o) JNull (ko_key o).

(** keypairs.py:70-72 [public_key_string]. *)
Definition public_text (o : kobj) : result (list N) := p <- public_key (plain o) ;; utf8_decode p.

(** keypairs.py:392-400, 334-338: the text to write; when [json.dump] raises, what was written and the exception. *)
Definition key_text (salt : bytes) (o : kobj) (pass : list N) : result (list N * option exn) :=
  match ko_nick o with
  | NJson j => t <- to_key_string salt (mkKp (ko_cls o) j (ko_key o)) pass ;; Ok (t, None)
  | NBad written e =>
      k <- key_of (plain o) ;;
      _ <- public_text o ;;
      _ <- rsa_export k salt (Some pass) ;;
      Ok (txt "{""nickname"": " ++ written, Some e)
  end.

(** keypairs.py:315-343 [to_key_file] on strings: the text is written in pieces after the file was opened, which empties it. *)
Definition save (salt : bytes) (d : disk) (fs : files) (o : kobj) (file pass : list N) : result unit * files :=
  match key_text salt o pass with
  | Err e => (Err e, fs)
  | Ok (t, raised) =>
      let r := match raised with None => Ok tt | Some e => Err e end in
      match d with
      | DNoOpen => (Err StorageFault, fs)
      | DFine => (r, fset fs file t)
      | DFull n => if length t <=? n then (r, fset fs file t) else (Err StorageFault, fset fs file (firstn n t))
      end
  end.

(** The calls: constructors, class methods and methods of the key pairs (keypairs.py:20-432), with the random choices they make. *)
Inductive call :=
  | KNew (c : cls) (nick : nickv) (generate : bool) (uuid : list N) (gen : result rsa)
  | KFromString (c : cls) (s pass : parg)
  | KFromFile (c : cls) (file pass : parg)
  | KNick (i : nat)
  | KSetNick (i : nat) (v : nickv)
  | KDelNick (i : nat)
  | KPublic (i : nat)
  | KPublicText (i : nat)
  | KSetPublic (i : nat) (v : parg)
  | KDelPublic (i : nat)
  | KSetPublicText (i : nat) (v : parg)
  | KDelPublicText (i : nat)
  | KGenerate (i : nat) (len : parg) (gen : result rsa)
  | KSign (i : nat) (data : parg)
  | KValid (i : nat) (data sig pub : parg)
  | KEncrypt (i : nat) (sk seed nonce : bytes) (data receiver : parg)
  | KDecrypt (i : nat) (data sender : parg)
  | KToString (i : nat) (salt : bytes) (pass : parg)
  | KToFile (i : nat) (salt : bytes) (d : disk) (file pass : parg).

(** What a call returns or raises. *)
Inductive answer :=
  | RNone | RNew (i : nat) | RBytes (b : bytes) | RText (t : list N) | RBool (b : bool) | RNick (v : nickv) | RErr (e : exn)
  | RNoSuch   (* no key pair has this number *).

(** A result as an answer; replacing an object; a new object. *)
Definition of_result {A} (f : A -> answer) (r : result A) : answer := match r with Ok a => f a | Err e => RErr e end.

Fixpoint put_at (l : list kobj) (i : nat) (o : kobj) : list kobj :=
  match l, i with [], _ => [] | _ :: r, O => o :: r | x :: r, S j => x :: put_at r j o end.

Definition add_obj (w : world) (r : result kobj) : answer * world :=
  match r with
  | Ok o => (RNew (length (w_objs w)), mkWorld (w_objs w ++ [o]) (w_files w))
  | Err e => (RErr e, w)
  end.

(** keypairs.py:20-50 with 119-129; 406-407, 425-426.  [uuid], [gen]: the random choices, [gen] is RSA.generate(4096). *)
Definition create (c : cls) (nick : nickv) (generate : bool) (uuid : list N) (gen : result rsa) : result kobj :=
  n <- match nick with
       | NJson (JStr s) => Ok (JStr s)
       | NJson JNull => Ok (JStr uuid)
       | _ => Err ValueError
       end ;;
  if generate then k <- gen ;; Ok (mkObj c (NJson n) (Some k)) else Ok (mkObj c (NJson n) None).

(** The key pair of Keypairs.v as an object. *)
Definition of_kp (a : kp) : kobj := mkObj (kp_cls a) (NJson (kp_nick a)) (kp_key a).

(** keypairs.py:345-375, 279-313: class methods. *)
Definition py_from_string (c : cls) (s pass : parg) : result kobj :=
  match s, pass with AStr s, AStr p => a <- from_key_string c s p ;; Ok (of_kp a) | _, _ => Err ValueError end.
Definition py_from_file (fs : files) (c : cls) (file pass : parg) : result kobj :=
  match file, pass with AStr f, AStr p => a <- from_key_file fs c f p ;; Ok (of_kp a) | _, _ => Err ValueError end.

(** keypairs.py:132-149, 434-435. *)
Definition py_sign (o : kobj) (data : parg) : result bytes :=
  match ko_cls o, data with Enc, _ => Err NotImplementedError | _, ABytes d => sign (plain o) d | _, _ => Err ValueError end.
(** keypairs.py:151-187, 437-440. *)
Definition py_valid (o : kobj) (data sig pub : parg) : result bool :=
  match ko_cls o, data, sig, pub with
  | Enc, _, _, _ => Err NotImplementedError
  | _, ABytes d, ABytes s, ABytes p => signature_valid (plain o) d s (Some p)
  | _, ABytes d, ABytes s, ANone => signature_valid (plain o) d s None
  | _, _, _, _ => Err ValueError
  end.
(** keypairs.py:189-231, 415-416. *)
Definition py_encrypt (sk seed nonce : bytes) (o : kobj) (data receiver : parg) : result bytes :=
  match ko_cls o, data, receiver with
  | Auth, _, _ => Err NotImplementedError
  | _, ABytes d, ABytes p => encrypt sk seed nonce (plain o) d p
  | _, _, _ => Err ValueError
  end.
(** keypairs.py:233-277, 418-419. *)
Definition py_decrypt (o : kobj) (data sender : parg) : result bytes :=
  match ko_cls o, data, sender with
  | Auth, _, _ => Err NotImplementedError
  | _, ABytes d, ABytes p => decrypt (plain o) d p
  | _, _, _ => Err ValueError
  end.
(** keypairs.py:377-400. *)
Definition py_to_string (salt : bytes) (o : kobj) (pass : parg) : result (list N) :=
  match pass with
  | AStr p => '(t, raised) <- key_text salt o p ;; match raised with None => Ok t | Some e => Err e end
  | _ => Err ValueError
  end.

(** keypairs.py:119-129 [generate_keypair]; [gen]: what RSA.generate(length) does. *)
Definition py_generate (o : kobj) (len : parg) (gen : result rsa) : result kobj :=
  match len with AInt _ => k <- gen ;; Ok (mkObj (ko_cls o) (ko_nick o) (Some k)) | _ => Err ValueError end.

(** One call.  Setting or deleting the public key (74-80, 86-92) and deleting the nickname (114-116) raise; setting the nickname
    (110-112) tests nothing. *)
Definition kstep (w : world) (c : call) : answer * world :=
  let on i (f : kobj -> answer * world) := match nth_error (w_objs w) i with Some o => f o | None => (RNoSuch, w) end in
  let upd i o := mkWorld (put_at (w_objs w) i o) (w_files w) in
  match c with
  | KNew c nick g uuid gen => add_obj w (create c nick g uuid gen)
  | KFromString c s p => add_obj w (py_from_string c s p)
  | KFromFile c f p => add_obj w (py_from_file (w_files w) c f p)
  | KNick i => on i (fun o => (RNick (ko_nick o), w))
  | KSetNick i v => on i (fun o => (RNone, upd i (mkObj (ko_cls o) v (ko_key o))))
  | KDelNick i => on i (fun _ => (RErr ValueError, w))
  | KPublic i => on i (fun o => (of_result RBytes (public_key (plain o)), w))
  | KPublicText i => on i (fun o => (of_result RText (public_text o), w))
  | KSetPublic i _ | KDelPublic i | KSetPublicText i _ | KDelPublicText i => on i (fun _ => (RErr ValueError, w))
  | KGenerate i len gen => on i (fun o => match py_generate o len gen with Ok o' => (RNone, upd i o') | Err e => (RErr e, w) end)
  | KSign i d => on i (fun o => (of_result RBytes (py_sign o d), w))
  | KValid i d s p => on i (fun o => (of_result RBool (py_valid o d s p), w))
  | KEncrypt i sk seed nonce d p => on i (fun o => (of_result RBytes (py_encrypt sk seed nonce o d p), w))
  | KDecrypt i d p => on i (fun o => (of_result RBytes (py_decrypt o d p), w))
  | KToString i salt p => on i (fun o => (of_result RText (py_to_string salt o p), w))
  | KToFile i salt d f p => on i (fun o =>
      match f, p with
      | AStr f, AStr p => let '(r, fs) := save salt d (w_files w) o f p in (of_result (fun _ => RNone) r, mkWorld (w_objs w) fs)
      | _, _ => (RErr ValueError, w)
      end)
  end.

(** A program: calls one after the other.  [ksays w cs]: the answers. *)
Fixpoint krun (w : world) (cs : list call) : world := match cs with [] => w | c :: r => krun (snd (kstep w c)) r end.
Definition ksay (w : world) (c : call) : answer := fst (kstep w c).
End WithCrypto.
