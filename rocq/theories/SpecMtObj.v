(** What every call on a MerkleTree object does, after any calls before it. *)
From Coq Require Import String List Bool Arith NArith ZArith.
From Verif Require Import Base Keccak ProofObj SpecJson MerkleTree SpecMt SpecText SpecAudit.
Import ListNotations.

(** ** Creating a tree *)

(** The hash functions of hashlib that a tree may have. *)
Definition known_hashes : list bytes :=
  map bs ["md5"; "sha224"; "sha256"; "sha384"; "sha512"; "sha3_224"; "sha3_256"; "sha3_384"; "sha3_512"]%string.
(** The same character, or the same letter but in upper case. *)
Definition same_letter (c d : byte) : Prop := c = d \/ (97 <= bN d <= 122 /\ bN c + 32 = bN d)%N.

(** ** Checking a proof *)

(** The bytes are the UTF-8 form of a text. *)
Definition is_str (b : bytes) : Prop := exists s, utf8_form s b.
(** The bytes are hexadecimal text, as [bytes.fromhex] reads it, of [x]. *)
Definition hex_of (b x : bytes) : Prop := hex_text (map bN b) x.
Definition no_hex (b : bytes) : Prop := forall x, ~ hex_of b x.
Definition left_text : bytes := [x6c; x65; x66; x74].
Definition right_text : bytes := [x72; x69; x67; x68; x74].

Definition pair_ok (e : pelem) : Prop := exists a b, e = PPair a b /\ is_str a /\ is_str b.
(** What reading an element raises. *)
Inductive bad_elem : pelem -> exn -> Prop :=
| bad_empty : bad_elem (PB []) IndexError
| bad_bytes : forall c b, bad_elem (PB (c :: b)) AttributeError
| bad_text : forall a b, ~ (is_str a /\ is_str b) -> bad_elem (PPair a b) UnicodeDecodeError.
(** An element that is a sibling on one side. *)
Inductive step_of : pelem -> bool * bytes -> Prop :=
| step_left : forall b x, hex_of b x -> step_of (PPair left_text b) (true, x)
| step_right : forall b x, hex_of b x -> step_of (PPair right_text b) (false, x).

Section WithHash.
Context {H : Hash}.

(** What verification answers or raises, where [root] is the root of the tree, if it has one; the last argument tells whether the
    tree was asked for its root. *)
Inductive verdict (root : option bytes) (p : proof) : result bool -> bool -> Prop :=
| ver_elem : forall l1 e l2 x, pf_proof p = l1 ++ e :: l2 -> Forall pair_ok l1 -> bad_elem e x -> verdict root p (Err x) false
| ver_text : Forall pair_ok (pf_proof p) -> ~ is_str (pf_root p) -> verdict root p (Err UnicodeDecodeError) false
| ver_hex : Forall pair_ok (pf_proof p) -> is_str (pf_root p) -> no_hex (pf_root p) -> verdict root p (Err ValueError) false
| ver_side : forall r l1 l2 a b pa, Forall pair_ok (pf_proof p) -> hex_of (pf_root p) r ->
    pf_proof p = l1 ++ PPair a b :: l2 -> Forall2 step_of l1 pa -> a <> right_text -> (a = left_text -> no_hex b) ->
    verdict root p (Err KeyError) false
| ver_right : forall r l1 l2 b pa, Forall pair_ok (pf_proof p) -> hex_of (pf_root p) r ->
    pf_proof p = l1 ++ PPair right_text b :: l2 -> Forall2 step_of l1 pa -> no_hex b -> verdict root p (Ok false) false
| ver_path : forall pa r, Forall2 step_of (pf_proof p) pa -> hex_of (pf_root p) r -> path_root (pf_key p) pa <> r ->
    verdict root p (Ok false) false
| ver_void : forall pa, Forall2 step_of (pf_proof p) pa -> hex_of (pf_root p) (path_root (pf_key p) pa) -> root = None ->
    verdict root p (Err ValueError) true
| ver_yes : forall pa r, Forall2 step_of (pf_proof p) pa -> hex_of (pf_root p) (path_root (pf_key p) pa) -> root = Some r ->
    lower_hex (pf_root p) r -> verdict root p (Ok true) true
| ver_no : forall pa r, Forall2 step_of (pf_proof p) pa -> hex_of (pf_root p) (path_root (pf_key p) pa) -> root = Some r ->
    ~ lower_hex (pf_root p) r -> verdict root p (Ok false) true.

(** ** Making a proof *)

(** The entry [k] of level [j], counted from the bottom: at the bottom are all leaves, above it the hashes over 2^j of the first [m]
    leaves, fewer at the end. *)
Definition entry_at (l : list bytes) (m j k : nat) : option bytes :=
  if j =? 0 then nth_error l k
  else if k * 2 ^ j <? m then Some (merkle_root (firstn (2 ^ j) (skipn (k * 2 ^ j) (firstn m l)))) else None.
Definition sibling (i : nat) : nat := if Nat.even i then i + 1 else i - 1.
Definition on_top (s : bool * bytes) (r : result path) : result path := match r with Ok pa => Ok (s :: pa) | Err e => Err e end.
(** The path from entry [i] of level [j] up to the level with one entry. *)
Inductive climb (E : nat -> nat -> option bytes) (m : nat) : nat -> nat -> result path -> Prop :=
| climb_top : forall j i, m <= 2 ^ j -> climb E m j i (Ok [])
| climb_alone : forall j i r, 2 ^ j < m -> Nat.even i = true -> E j i <> None -> E j (i + 1) = None -> climb E m (S j) (i / 2) r ->
    climb E m j i r
| climb_lost : forall j i, 2 ^ j < m -> E j (sibling i) = None -> (Nat.even i = true -> E j i = None) -> climb E m j i (Err IndexError)
| climb_step : forall j i x r, 2 ^ j < m -> E j (sibling i) = Some x -> climb E m (S j) (i / 2) r ->
    climb E m j i (on_top (Nat.odd i, x) r).

(** ** The object *)

(** Never built; built without values; built over the first [m] values. *)
Inductive stage := Fresh | Void | Made (m : nat).
Record view := View { v_vals : list bytes; v_stage : stage }.
(** After the tree was asked for its root. *)
Definition settled (g : view) : view :=
  View (v_vals g) (match v_stage g with
                   | Fresh => match v_vals g with [] => Void | _ => Made (length (v_vals g)) end
                   | x => x
                   end).
Section Mode.
Variable s : bool.
Definition root_of (g : view) : option bytes :=
  match v_stage (settled g) with Made m => Some (merkle_root (leaves_of s (firstn m (v_vals g)))) | _ => None end.
Definition digest (v : bytes) : bytes := if s then keccak v else v.
(** The number with these digits to base 256. *)
Definition number_of (b : bytes) : Z := fold_left (fun a c => 256 * a + Z.of_N (bN c))%Z b 0%Z.

Inductive does (g : view) : mop -> mout -> view -> Prop :=
| does_put : forall b, does g (OPut (VBytes b)) (RUnit (Ok tt)) (View (v_vals g ++ [b]) (v_stage g))
| does_put_other : does g (OPut VOther) (RUnit (Err TypeError)) g
| does_list : forall l, does g (OPutList (map VBytes l)) (RUnit (Ok tt)) (View (v_vals g ++ l) (v_stage g))
| does_list_other : forall l r, does g (OPutList (map VBytes l ++ VOther :: r)) (RUnit (Err TypeError)) (View (v_vals g ++ l) (v_stage g))
| does_make : does g OMake (RUnit (Ok tt)) (View (v_vals g) (match v_vals g with [] => Void | _ => Made (length (v_vals g)) end))
| does_reset : does g OReset (RUnit (Ok tt)) (View [] Fresh)
| does_root : forall r h, root_of g = Some r -> lower_hex h r -> does g ORoot (RBytes (Ok h)) (settled g)
| does_root_none : root_of g = None -> does g ORoot (RBytes (Err ValueError)) (settled g)
| does_prove_other : forall time, does g (OProve time VOther) (RProof (Err TypeError)) g
| does_prove_none : forall time v, (v_stage g = Fresh \/ v_stage g = Void \/ ~ In (digest v) (leaves_of s (v_vals g))) ->
    does g (OProve time (VBytes v)) (RProof (Err ValueError)) g
| does_prove : forall time v m i pa r h l, v_stage g = Made m -> first_at (leaves_of s (v_vals g)) i (digest v) ->
    climb (entry_at (leaves_of s (v_vals g)) m) m 0 i (Ok pa) -> root_of g = Some r -> lower_hex h r -> written pa l ->
    does g (OProve time (VBytes v)) (RProof (Ok (mkProof [x4d; x54; x2d; x50; x4f; x49] time v h l))) g
| does_prove_fail : forall time v m i e, v_stage g = Made m -> first_at (leaves_of s (v_vals g)) i (digest v) ->
    climb (entry_at (leaves_of s (v_vals g)) m) m 0 i (Err e) -> does g (OProve time (VBytes v)) (RProof (Err e)) g
| does_verify : forall p r (asked : bool), verdict (root_of g) p r asked ->
    does g (OVerify p) (RBool r) (if asked then settled g else g)
| does_get : forall i v h, (0 <= i)%Z -> nth_error (v_vals g) (Z.to_nat i) = Some v -> lower_hex h (digest v) ->
    does g (OGet i) (RBytes (Ok h)) g
| does_get_end : forall i v h, (0 < i)%Z -> (i <= Z.of_nat (length (v_vals g)))%Z ->
    nth_error (v_vals g) (length (v_vals g) - Z.to_nat i) = Some v -> lower_hex h (digest v) -> does g (OGet (- i)) (RBytes (Ok h)) g
| does_get_none : forall i, (i < - Z.of_nat (length (v_vals g)) \/ Z.of_nat (length (v_vals g)) <= i)%Z ->
    does g (OGet i) (RBytes (Err IndexError)) g
| does_hash : forall r, root_of g = Some r -> r <> [] -> does g OHash (RInt (Ok (number_of r))) (settled g)
| does_hash_none : (root_of g = None \/ root_of g = Some []) -> does g OHash (RInt (Err ValueError)) (settled g).

Inductive follows : view -> list mop -> list mout -> view -> Prop :=
| follows_nil : forall g, follows g [] [] g
| follows_cons : forall g o r g1 h outs g2, does g o r g1 -> follows g1 h outs g2 -> follows g (o :: h) (r :: outs) g2.
End Mode.
End WithHash.
