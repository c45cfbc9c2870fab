(** What the claims about programs with key pairs talk about: the key and the nickname that a list of calls leaves, arguments of wrong types. *)
From Coq Require Import List Bool Arith NArith ZArith.
From Verif Require Import Base Json Keypairs KeyCalls.
Import ListNotations.

Section WithCrypto.
Context {C : Crypto}.

(** The key that was generated last for key pair [i] during the calls, or else the one it had. *)
Fixpoint last_key (i : nat) (cs : list call) (had : option rsa) : option rsa :=
  match cs with
  | [] => had
  | KGenerate j (AInt _) (Ok k) :: r => last_key i r (if j =? i then Some k else had)
  | _ :: r => last_key i r had
  end.
(** The nickname that was set last. *)
Fixpoint last_nick (i : nat) (cs : list call) (had : nickv) : nickv :=
  match cs with
  | [] => had
  | KSetNick j v :: r => last_nick i r (if j =? i then v else had)
  | _ :: r => last_nick i r had
  end.

(** The call writes to the file [f]. *)
Definition saves_to (f : list N) (c : call) : Prop := exists i salt d p, c = KToFile i salt d (AStr f) p.
(** The call gives key pair [i] new keys. *)
Definition regenerates (i : nat) (c : call) : Prop := exists len gen, c = KGenerate i len gen.

Definition is_bytes (a : parg) : Prop := exists b, a = ABytes b.
Definition is_str (a : parg) : Prop := exists s, a = AStr s.
Definition is_int (a : parg) : Prop := exists z, a = AInt z.

(** A call on key pair [i] of class [k] with an argument of a type that the method does not accept, and calls that are never allowed. *)
Inductive unfit (k : cls) (i : nat) : call -> Prop :=
  | unfit_len len gen : ~ is_int len -> unfit k i (KGenerate i len gen)
  | unfit_sign d : k <> Enc -> ~ is_bytes d -> unfit k i (KSign i d)
  | unfit_valid d s p : k <> Enc -> ~ is_bytes d \/ ~ is_bytes s \/ (~ is_bytes p /\ p <> ANone) -> unfit k i (KValid i d s p)
  | unfit_encrypt sk seed nonce d p : k <> Auth -> ~ is_bytes d \/ ~ is_bytes p -> unfit k i (KEncrypt i sk seed nonce d p)
  | unfit_decrypt d p : k <> Auth -> ~ is_bytes d \/ ~ is_bytes p -> unfit k i (KDecrypt i d p)
  | unfit_to_string salt p : ~ is_str p -> unfit k i (KToString i salt p)
  | unfit_to_file salt d f p : ~ is_str f \/ ~ is_str p -> unfit k i (KToFile i salt d f p)
  | unfit_set_public v : unfit k i (KSetPublic i v)
  | unfit_del_public : unfit k i (KDelPublic i)
  | unfit_set_text v : unfit k i (KSetPublicText i v)
  | unfit_del_text : unfit k i (KDelPublicText i)
  | unfit_del_nick : unfit k i (KDelNick i).

(** The same for the class methods and the constructor. *)
Inductive unfit_class : call -> Prop :=
  | unfit_from_string c s p : ~ is_str s \/ ~ is_str p -> unfit_class (KFromString c s p)
  | unfit_from_file c f p : ~ is_str f \/ ~ is_str p -> unfit_class (KFromFile c f p)
  | unfit_new c nick g uuid gen : nick <> NJson JNull -> (forall s, nick <> NJson (JStr s)) -> unfit_class (KNew c nick g uuid gen).
End WithCrypto.
