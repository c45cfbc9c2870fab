(** Toy primitives that meet the assumptions of SpecKeys.v, and key pairs for the examples. Tests, not proofs. *)
From Coq Require Import String List Bool Arith NArith Lia.
From Verif Require Import Base BaseProofs ProofObj Json JsonProofs Keccak ProofJson MerkleTree Examples Keypairs SpecKeys.
Import ListNotations.
Local Open Scope res_scope.

(** Three owners; private or public. *)
Definition key_id (c : comparison) : byte := match c with Eq => x61 | Lt => x62 | Gt => x63 end.
Definition key_of_id (b : byte) : option comparison :=
  match b with x61 => Some Eq | x62 => Some Lt | x63 => Some Gt | _ => None end.
Lemma key_id_of : forall c, key_of_id (key_id c) = Some c.
Proof. destruct c; reflexivity. Qed.

Definition t_export (k : comparison * bool) (salt : bytes) (pass : option (list N)) : result bytes :=
  if snd k then match pass with None => Ok [x51; key_id (fst k)] | Some p => b <- utf8_encode p ;; Ok (x50 :: key_id (fst k) :: b) end
  else Ok [x70; key_id (fst k)].
Definition t_import (b : bytes) (pass : option (list N)) : result (comparison * bool) :=
  match b with
  | t :: i :: r =>
      match key_of_id i with
      | None => Err ValueError
      | Some c =>
          if byte_eqb t x70 then Ok (c, false)
          else if byte_eqb t x51 then Ok (c, true)
          else match pass with
               | Some p => b <- utf8_encode p ;; if byte_eqb t x50 && bytes_eqb b r then Ok (c, true) else Err ValueError
               | None => Err ValueError
               end
      end
  | _ => Err ValueError
  end.
Definition t_sign (k : comparison * bool) (h : bytes) : result bytes := if snd k then Ok (key_id (fst k) :: h) else Err TypeError.
Definition t_verify (k : comparison * bool) (h s : bytes) : result unit := if bytes_eqb s (key_id (fst k) :: h) then Ok tt else Err ValueError.
Definition t_oaep (k : comparison * bool) (seed m : bytes) : result bytes := Ok (key_id (fst k) :: m).
Definition t_unoaep (k : comparison * bool) (c : bytes) : result bytes :=
  match c with i :: m => if snd k && byte_eqb i (key_id (fst k)) then Ok m else Err ValueError | [] => Err ValueError end.
Definition xor (k : byte) (m : bytes) : bytes := map (fun x => nB (N.lxor (bN k) (bN x))) m.
Definition t_tag (key nonce m : bytes) : bytes := firstn 16 (toy (key ++ nonce ++ m)).
Definition t_eax (key nonce m : bytes) : result (bytes * bytes) :=
  match key with k :: _ => Ok (xor k m, t_tag key nonce m) | [] => Err ValueError end.
Definition t_uneax (key nonce c t : bytes) : result bytes :=
  match key with k :: _ => if bytes_eqb t (t_tag key nonce (xor k c)) then Ok (xor k c) else Err ValueError | [] => Err ValueError end.

Definition toyc : Crypto := {|
  rsa := comparison * bool; rsa_public k := (fst k, false); rsa_private := snd; rsa_bits _ := 2048%N;
  rsa_export := t_export; rsa_import := t_import; pkcs_sign := t_sign; pkcs_verify := t_verify;
  oaep_enc := t_oaep; oaep_dec := t_unoaep; eax_enc := t_eax; eax_dec := t_uneax;
  sha256d := toy; sha512d b := toy b ++ toy b |}.

Lemma xor_lt : forall a b : byte, (N.lxor (bN a) (bN b) < 256)%N.
Proof.
  intros a b. pose proof (bN_lt a). pose proof (bN_lt b).
  destruct (N.eq_dec (N.lxor (bN a) (bN b)) 0) as [->|Nz]; [lia|]. apply N.log2_lt_pow2 with (b := 8%N); [lia|].
  eapply N.le_lt_trans; [apply N.log2_lxor|]. 
  assert (L : forall n, (n < 256)%N -> (N.log2 n < 8)%N).
  { intros n Hn. destruct (N.eq_dec n 0) as [->|Z]; [cbn; lia|]. apply N.log2_lt_pow2; [lia|exact Hn]. }
  apply N.max_lub_lt; apply L; assumption.
Qed.
Lemma xor_xor : forall k m, xor k (xor k m) = m.
Proof.
  intros k m. unfold xor. rewrite map_map. rewrite <- (map_id m) at 2. apply map_ext. intros x.
  rewrite bN_nB by apply xor_lt. rewrite <- N.lxor_assoc, N.lxor_nilpotent, N.lxor_0_l. apply nB_bN.
Qed.
Lemma xor_len : forall k m, length (xor k m) = length m.
Proof. intros. apply map_length. Qed.

Lemma toyc_ok : @crypto_ok toyc.
Proof.
  constructor; cbn [toyc rsa rsa_public rsa_private rsa_bits rsa_export rsa_import pkcs_sign pkcs_verify oaep_enc oaep_dec eax_enc eax_dec sha256d].
  - intros k. eexists. reflexivity.
  - intros [c p] b E. injection E as <-. destruct c; eexists; reflexivity.
  - intros [c p] b E. injection E as <-. unfold t_import. cbn [fst]. rewrite key_id_of. reflexivity.
  - intros [c p] salt pass b P E. cbn [snd] in P. subst p. unfold t_export in E. cbn [fst snd] in E.
    destruct (utf8_encode pass) as [x|] eqn:X; [|discriminate]. cbn [bind] in E. injection E as <-.
    unfold t_import. rewrite key_id_of, X. cbn [bind]. rewrite bytes_eqb_refl. reflexivity.
  - intros [c p] h [P _] _. cbn in P. subst p. eexists. reflexivity.
  - intros [c p] h s E. unfold t_sign in E. cbn [fst snd] in E. destruct p; [|discriminate]. injection E as <-.
    unfold t_verify. cbn [fst]. rewrite bytes_eqb_refl. reflexivity.
  - intros [c p] seed m [P _] _ _. cbn in P. subst p. eexists. split; [reflexivity|]. unfold t_unoaep. cbn [fst snd].
    destruct c; reflexivity.
  - intros [|k key] nonce m L _; [cbn in L; lia|]. do 2 eexists. reflexivity.
  - intros [|k key] nonce m c t E; [discriminate|]. injection E as <- <-. split; [|apply xor_len].
    unfold t_tag. rewrite firstn_length, toy_len. reflexivity.
  - intros [|k key] nonce m c t; [split; discriminate|]. unfold t_uneax, t_eax. split.
    + destruct (bytes_eqb t _) eqn:B; [|discriminate]. intros E. injection E as <-. apply bytes_eqb_eq in B. rewrite xor_xor. subst t. reflexivity.
    + intros E. injection E as <- <-. rewrite xor_xor, bytes_eqb_refl. reflexivity.
  - exact toy_len.
Qed.
Lemma toyc_onto : @eax_onto toyc.
Proof.
  intros [|k key] nonce c L _; [discriminate|]. exists (xor k c), (t_tag (k :: key) nonce (xor k c)).
  cbn [toyc eax_enc t_eax]. rewrite xor_xor. reflexivity.
Qed.

#[local] Instance TC : Crypto := toyc.
Definition alice : kp := mkKp Base (JStr (txt "alice")) (Some (Eq, true) : option rsa).
Definition bob : kp := mkKp Base (JStr (txt "bob")) (Some (Lt, true) : option rsa).
Definition carol : kp := mkKp Base (JStr (txt "carol")) (Some (Gt, true) : option rsa).
Definition as_cls (c : cls) (a : kp) : kp := mkKp c (kp_nick a) (kp_key a).
Definition pk_of (a : kp) : bytes := match public_key a with Ok b => b | Err _ => [] end.
Definition ex_sk : bytes := repeat x11 16.
Definition ex_seed : bytes := repeat x22 20.
Definition ex_nonce : bytes := repeat x33 16.
Definition ex_msg : bytes := bs "meet me at noon".
Definition ex_env : bytes := match encrypt ex_sk ex_seed ex_nonce alice ex_msg (pk_of bob) with Ok e => e | Err _ => [] end.
Lemma good_all : forall c n i, c = Base -> can_all (mkKp c n (Some (i, true) : option rsa)) (i, true).
Proof. intros c n i ->. repeat split. cbn. lia. Qed.
Definition okb (r : result bytes) (m : bytes) : bool := match r with Ok x => bytes_eqb x m | Err _ => false end.
