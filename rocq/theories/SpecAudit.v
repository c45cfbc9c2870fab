(** Audit paths of hash trees, as in RFC 6962, section 2.1.1. *)
From Coq Require Import List Bool Arith NArith.
From Verif Require Import Base ProofObj MerkleTree SpecMt SpecText.
Import ListNotations.

Section WithHash.
Context {H : Hash}.
(** The siblings on the way from leaf number [i] up to the root, lowest first. *)
Fixpoint audit (t : mtree) (i : nat) : path :=
  match t with
  | Leaf _ => []
  | Node l r => let n := length (fringe l) in
      if i <? n then audit l i ++ [(false, thash r)] else audit r (i - n) ++ [(true, thash l)]
  end.
End WithHash.
(** Position [i] is the first that holds [v]. *)
Definition first_at (l : list bytes) (i : nat) (v : bytes) : Prop :=
  nth_error l i = Some v /\ forall j, j < i -> nth_error l j <> Some v.
(** [h] is [b] in hexadecimal: two digits for each byte, in lower case. *)
Inductive lower_hex : bytes -> bytes -> Prop :=
| lower_nil : lower_hex [] []
| lower_byte : forall (p q : byte) (n m : N) (c : byte) h b, hex_value p n -> hex_value q m -> bN c = (16 * n + m)%N -> lower_hex h b -> lower_hex (p :: q :: h) (c :: b).
(** The path as the entries of a proof: for each sibling the side it is on and its digest. *)
Definition written (pa : path) (l : list pelem) : Prop := Forall2 (fun (s : bool * bytes) e => exists h, lower_hex h (snd s) /\
  e = PPair (if fst s then [x6c; x65; x66; x74] else [x72; x69; x67; x68; x74]) h) pa l.
