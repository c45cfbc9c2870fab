(** Python's bytes literals, the order of byte strings and of times, names of files. *)
From Coq Require Import List Bool Arith NArith.
From Verif Require Import Base Json ProofJson Texts UtilsMisc.
Import ListNotations.

(** The text [t], up to the closing quote [q], stands for the bytes [b]; only printable ASCII. *)
Definition printable (c : byte) : Prop := (32 <= bN c <= 126)%N.
Definition hex_value (c : byte) (n : N) : Prop := (n < 10 /\ bN c = 48 + n)%N \/ (10 <= n < 16 /\ bN c = 87 + n)%N.
Inductive literal_body (q : byte) : bytes -> bytes -> Prop :=
| lit_end : literal_body q [q] []
| lit_plain : forall c t b, printable c -> c <> q -> c <> x5c -> literal_body q t b -> literal_body q (c :: t) (c :: b)
| lit_self : forall c t b, c = x5c \/ c = x27 \/ c = x22 -> literal_body q t b -> literal_body q (x5c :: c :: t) (c :: b)
| lit_tab : forall t b, literal_body q t b -> literal_body q (x5c :: x74 :: t) (x09 :: b)
| lit_newline : forall t b, literal_body q t b -> literal_body q (x5c :: x6e :: t) (x0a :: b)
| lit_return : forall t b, literal_body q t b -> literal_body q (x5c :: x72 :: t) (x0d :: b)
| lit_hex : forall h l n m c t b, hex_value h n -> hex_value l m -> bN c = (16 * n + m)%N -> literal_body q t b ->
    literal_body q (x5c :: x78 :: h :: l :: t) (c :: b).
Definition bytes_literal (t b : bytes) : Prop := exists q t', (q = x27 \/ q = x22) /\ t = x62 :: q :: t' /\ literal_body q t' b.

(** The lexicographic order. *)
Inductive first_less {A} (less : A -> A -> Prop) : list A -> list A -> Prop :=
| fl_shorter : forall y l, first_less less [] (y :: l)
| fl_less : forall x y l m, less x y -> first_less less (x :: l) (y :: m)
| fl_same : forall x l m, first_less less l m -> first_less less (x :: l) (x :: m).
Definition bytes_less : bytes -> bytes -> Prop := first_less (fun x y => bN x < bN y)%N.
Definition parts (t : datetime) : list N := [t_year t; t_month t; t_day t; t_hour t; t_min t; t_sec t; t_us t].
Definition earlier (t u : datetime) : Prop := first_less N.lt (parts t) (parts u).
Definition valid_time (t : datetime) : Prop :=
  (t_year t < 10000 /\ t_month t < 100 /\ t_day t < 100 /\ t_hour t < 100 /\ t_min t < 100 /\ t_sec t < 100 /\ t_us t < 1000000)%N.

(** Where the operating system looks for a name: the components that count, and whether it must be a directory. *)
Fixpoint components (s : list N) : list (list N) :=
  match s with
  | [] => [[]]
  | c :: r => if N.eqb c slash then [] :: components r else match components r with w :: t => (c :: w) :: t | [] => [[c]] end
  end.
Definition counts (w : list N) : bool := negb (ustr_eqb w []) && negb (ustr_eqb w [dot]).
Definition place (cwd name : list N) : list (list N) * bool :=
  (match name with c :: _ => if N.eqb c slash then [] else filter counts (components cwd) | [] => filter counts (components cwd) end ++
   filter counts (components name), negb (counts (last (components name) []))).

(** Python's [sub in v] holds: part of a string, element of a list, key of an object. *)
Inductive contains (sub : list N) : json -> Prop :=
| con_str : forall a b, contains sub (JStr (a ++ sub ++ b))
| con_arr : forall l, In (JStr sub) l -> contains sub (JArr l)
| con_obj : forall d x, In (sub, x) d -> contains sub (JObj d).

(** What [Proof.decode_json] may raise. *)
Definition json_errors : list exn := [JSONDecodeError; KeyError; TypeError; AttributeError; UnicodeEncodeError; NotImplementedError].

(** The answers of [n] calls of [next]. *)
Fixpoint nexts (n : nat) (c : cursor) : list (result (option (list N * field))) * cursor :=
  match n with O => ([], c) | S n' => let (r, c') := proof_next c in let (rs, c'') := nexts n' c' in (r :: rs, c'') end.
