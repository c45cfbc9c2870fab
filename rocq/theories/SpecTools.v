(** What every call on a MerkleTools object does, and what its text says. *)
From Coq Require Import String List Bool Arith NArith ZArith.
From Verif Require Import Base Keccak ProofObj SpecJson MerkleTree SpecMt SpecText SpecAudit SpecMtObj MerkleTools.
Import ListNotations.

(** The bytes that an argument stands for; with secure=True only buffers do. *)
Inductive means (s : bool) : anyval -> bytes -> Prop :=
| means_buf : forall b, means s (YBuf b) b
| means_int : forall n, s = false -> means s (YInt (Z.of_nat n)) (repeat x00 n)
| means_ints : forall b, s = false -> means s (YInts (map (fun c => Some (Z.of_N (bN c))) b)) b.
(** What an argument raises. *)
Inductive refused (s : bool) : anyval -> exn -> Prop :=
| refused_str : refused s YStr TypeError
| refused_other : refused s YOther TypeError
| refused_int : forall z, s = true -> refused s (YInt z) TypeError
| refused_ints : forall l, s = true -> refused s (YInts l) TypeError
| refused_negative : forall z, s = false -> (z < 0)%Z -> refused s (YInt z) ValueError
| refused_element : forall b l, s = false -> refused s (YInts (map (fun c => Some (Z.of_N (bN c))) b ++ None :: l)) TypeError
| refused_range : forall b z l, s = false -> (z < 0 \/ 255 < z)%Z -> refused s (YInts (map (fun c => Some (Z.of_N (bN c))) b ++ Some z :: l)) ValueError.

(** The item of that name is hexadecimal text of [x]. *)
Definition item (p : dict (option bytes)) (name x : bytes) : Prop := exists h, dget p name = Some (Some h) /\ hex_of h x.
Definition no_item (p : dict (option bytes)) (name : bytes) : Prop := forall x, ~ item p name x.
(** What an item raises. *)
Inductive bad_item (p : dict (option bytes)) (name : bytes) : exn -> Prop :=
| bad_missing : dget p name = None -> bad_item p name KeyError
| bad_type : dget p name = Some None -> bad_item p name TypeError
| bad_hex : forall h, dget p name = Some (Some h) -> no_hex h -> bad_item p name ValueError.
(** An element of a proof is a sibling on the left, or else one on the right. *)
Inductive sibling_of (p : dict (option bytes)) : bool * bytes -> Prop :=
| sib_left : forall x, item p left_text x -> sibling_of p (true, x)
| sib_right : forall x, no_item p left_text -> item p right_text x -> sibling_of p (false, x).

Section WithHash.
Context {H : Hash}.

(** What [verify_proof_of_inclusion] answers or raises. *)
Inductive checked : list (dict (option bytes)) -> target -> target -> result bool -> Prop :=
| checked_same : forall t, checked [] t t (Ok true)
| checked_other : forall t u, t <> u -> checked [] t u (Ok false)
| checked_yes : forall p l b pa, Forall2 sibling_of (p :: l) pa -> checked (p :: l) (TBuf b) (TBuf (path_root b pa)) (Ok true)
| checked_no : forall p l b pa u, Forall2 sibling_of (p :: l) pa -> u <> TBuf (path_root b pa) -> checked (p :: l) (TBuf b) u (Ok false)
| checked_bad : forall l1 p l2 b pa u x, Forall2 sibling_of l1 pa -> no_item p left_text -> bad_item p right_text x ->
    checked (l1 ++ p :: l2) (TBuf b) u (Err x)
| checked_type : forall p l t u x, (forall b, t <> TBuf b) -> item p right_text x -> checked (p :: l) t u (Err TypeError)
| checked_type_bad : forall p l t u x, (forall b, t <> TBuf b) -> bad_item p right_text x -> checked (p :: l) t u (Err x).

Section Mode.
Variable s : bool.
(** The root is known after a build only. *)
Definition known_root (g : view) : option bytes :=
  match v_stage g with Made m => Some (merkle_root (leaves_of s (firstn m (v_vals g)))) | _ => None end.
(** The path as dicts with one item, here pairs. *)
Definition spelled (pa : path) (l : list (bytes * bytes)) : Prop :=
  Forall2 (fun (st : bool * bytes) (e : bytes * bytes) => fst e = (if fst st then left_text else right_text) /\ lower_hex (snd e) (snd st)) pa l.

Inductive acts (g : view) : tcall -> tanswer -> view -> Prop :=
| acts_add : forall v b, means s v b -> acts g (JAdd v) (WUnit (Ok tt)) (View (v_vals g ++ [b]) (v_stage g))
| acts_add_bad : forall v e, refused s v e -> acts g (JAdd v) (WUnit (Err e)) g
| acts_leaf : forall i v h, (0 <= i)%Z -> nth_error (v_vals g) (Z.to_nat i) = Some v -> lower_hex h (digest s v) ->
    acts g (JLeaf i) (WText (Ok h)) g
| acts_leaf_end : forall i v h, (0 < i)%Z -> (i <= Z.of_nat (length (v_vals g)))%Z ->
    nth_error (v_vals g) (length (v_vals g) - Z.to_nat i) = Some v -> lower_hex h (digest s v) -> acts g (JLeaf (- i)) (WText (Ok h)) g
| acts_leaf_none : forall i, (i < - Z.of_nat (length (v_vals g)) \/ Z.of_nat (length (v_vals g)) <= i)%Z ->
    acts g (JLeaf i) (WText (Err IndexError)) g
| acts_count : acts g JCount (WCount (length (v_vals g))) g
| acts_ready : acts g JReady (WBool (Ok (match v_stage g with Fresh => false | _ => true end))) g
| acts_make : acts g JMake (WUnit (Ok tt)) (View (v_vals g) (match v_vals g with [] => Void | _ => Made (length (v_vals g)) end))
| acts_reset : acts g JReset (WUnit (Ok tt)) (View [] Fresh)
| acts_root : forall r h, known_root g = Some r -> lower_hex h r -> acts g JRoot (WText (Ok h)) g
| acts_root_none : known_root g = None -> acts g JRoot (WText (Err ValueError)) g
| acts_prove_bad : forall v e, refused s v e -> acts g (JProve v) (WPath (Err e)) g
| acts_prove_none : forall v b, means s v b -> (known_root g = None \/ ~ In (digest s b) (leaves_of s (v_vals g))) ->
    acts g (JProve v) (WPath (Err ValueError)) g
| acts_prove : forall v b m i pa l, means s v b -> v_stage g = Made m -> first_at (leaves_of s (v_vals g)) i (digest s b) ->
    climb (entry_at (leaves_of s (v_vals g)) m) m 0 i (Ok pa) -> spelled pa l -> acts g (JProve v) (WPath (Ok l)) g
| acts_prove_fail : forall v b m i e, means s v b -> v_stage g = Made m -> first_at (leaves_of s (v_vals g)) i (digest s b) ->
    climb (entry_at (leaves_of s (v_vals g)) m) m 0 i (Err e) -> acts g (JProve v) (WPath (Err e)) g
| acts_verify : forall l t u r, checked l t u r -> acts g (JVerify l t u) (WBool r) g
| acts_number : forall r, known_root g = Some r -> r <> [] -> acts g JNumber (WInt (Ok (number_of r))) g
| acts_number_none : (known_root g = None \/ known_root g = Some []) -> acts g JNumber (WInt (Err ValueError)) g.

Inductive performs : view -> list tcall -> list tanswer -> view -> Prop :=
| performs_nil : forall g, performs g [] [] g
| performs_cons : forall g c a g1 h l g2, acts g c a g1 -> performs g1 h l g2 -> performs g (c :: h) (a :: l) g2.
End Mode.

(** ** Text *)
(** The text of one entry: a printable literal, or one inside "bytearray(...)".  It is in double quotes if the bytes have a single
    quote and no double quote. *)
Definition entry_text (array : bool) (b t : bytes) : Prop :=
  exists l, t = (if array then bs "bytearray(" ++ l ++ bs ")" else l) /\ bytes_literal l b /\ Forall printable l /\
    (nth 1 l x00 = x22 <-> In x27 b /\ ~ In x22 b).
(** A list in brackets, with ", " between its elements. *)
Inductive items_text {A} (P : A -> bytes -> Prop) : list A -> bytes -> Prop :=
| items_one : forall a t, P a t -> items_text P [a] t
| items_more : forall a t l u, P a t -> items_text P l u -> items_text P (a :: l) (t ++ bs ", " ++ u).
Definition list_text {A} (P : A -> bytes -> Prop) (l : list A) (t : bytes) : Prop :=
  exists u, t = bs "[" ++ u ++ bs "]" /\ (l = [] /\ u = [] \/ items_text P l u).
(** Level [j] of a tree over the first [m] of the leaves [l], counted from the bottom: all leaves, or the hashes over 2^j of the [m]
    leaves.  Leaves are bytearrays, also where one stands alone higher up. *)
Definition level_at (l : list bytes) (m j : nat) (row : list (bool * bytes)) : Prop :=
  forall k, nth_error row k = option_map (fun b => (if (j =? 0) then true else (k * 2 ^ j =? m - 1), b)) (entry_at l m j k).
Definition levels_text (l : list bytes) (m : nat) (t : bytes) : Prop :=
  exists rows, rows <> [] /\ (forall j row, nth_error (rev rows) j = Some row -> level_at l m j row) /\ 2 ^ (length rows - 1) >= m /\
    (1 < length rows -> 2 ^ (length rows - 2) < m) /\ list_text (list_text (fun e => entry_text (fst e) (snd e))) rows t.
(** The text of an object. *)
Definition text_of (s : bool) (g : view) (t : bytes) : Prop :=
  match v_stage g with
  | Fresh => t = bs "Tree not ready"
  | Void => t = bs "None"
  | Made m => levels_text (leaves_of s (v_vals g)) m t
  end.
(** When two objects have the same text. *)
Definition same_text (s : bool) (g : view) (s' : bool) (g' : view) : Prop :=
  match v_stage g, v_stage g' with
  | Fresh, Fresh | Void, Void => True
  | Made m, Made m' => leaves_of s (v_vals g) = leaves_of s' (v_vals g') /\ m = m'
  | _, _ => False
  end.
(** What == between two objects answers or raises: it compares the numbers that the roots write. *)
Inductive compared (s : bool) (g : view) (s' : bool) (g' : view) : result bool -> Prop :=
| compared_yes : forall r r', known_root s g = Some r -> known_root s' g' = Some r' -> r <> [] -> r' <> [] -> number_of r = number_of r' ->
    compared s g s' g' (Ok true)
| compared_no : forall r r', known_root s g = Some r -> known_root s' g' = Some r' -> r <> [] -> r' <> [] -> number_of r <> number_of r' ->
    compared s g s' g' (Ok false)
| compared_none : ((known_root s g = None \/ known_root s g = Some []) \/ (known_root s' g' = None \/ known_root s' g' = Some [])) ->
    compared s g s' g' (Err ValueError).
End WithHash.
