(** What UTF-8 and JSON texts are, independently of the coders in Json.v: the table of RFC 3629 and the grammar of RFC 8259,
    with the three constants that Python adds. *)
From Coq Require Import List NArith.
From Verif Require Import Base Json.
Import ListNotations.
Local Open Scope N_scope.

(** ** UTF-8 *)

(** The bytes of one character: 0xxxxxxx, 110xxxxx 10yyyyyy, 1110xxxx 10yyyyyy 10zzzzzz, 11110xxx 10yyyyyy 10zzzzzz 10wwwwww,
    the shortest one, and not for surrogates or beyond U+10FFFF. *)
Inductive utf8_bytes : N -> bytes -> Prop :=
| utf8_1 : forall a, bN a < 128 -> utf8_bytes (bN a) [a]
| utf8_2 : forall a b x y, bN a = 192 + x -> x < 32 -> bN b = 128 + y -> y < 64 ->
    128 <= x * 64 + y -> utf8_bytes (x * 64 + y) [a; b]
| utf8_3 : forall a b c x y z, bN a = 224 + x -> x < 16 -> bN b = 128 + y -> y < 64 -> bN c = 128 + z -> z < 64 ->
    2048 <= x * 4096 + y * 64 + z -> ~ 55296 <= x * 4096 + y * 64 + z <= 57343 -> utf8_bytes (x * 4096 + y * 64 + z) [a; b; c]
| utf8_4 : forall a b c d x y z w, bN a = 240 + x -> x < 8 -> bN b = 128 + y -> y < 64 -> bN c = 128 + z -> z < 64 ->
    bN d = 128 + w -> w < 64 ->
    65536 <= x * 262144 + y * 4096 + z * 64 + w <= 1114111 -> utf8_bytes (x * 262144 + y * 4096 + z * 64 + w) [a; b; c; d].
(** [b] is the UTF-8 form of the text [s]. *)
Inductive utf8_form : list N -> bytes -> Prop :=
| utf8_nil : utf8_form [] []
| utf8_cons : forall c x s b, utf8_bytes c x -> utf8_form s b -> utf8_form (c :: s) (x ++ b).

(** ** JSON *)

(** Space, tab, line feed, carriage return. *)
Definition blank (w : list N) : Prop := Forall (fun c => In c [32; 9; 10; 13]) w.

Inductive hex_digit : N -> N -> Prop :=
| hex_09 : forall n, n < 10 -> hex_digit (48 + n) n
| hex_af : forall n, n < 6 -> hex_digit (97 + n) (10 + n)
| hex_AF : forall n, n < 6 -> hex_digit (65 + n) (10 + n).
(** \uXXXX. *)
Inductive u_escape : list N -> N -> Prop :=
| u_esc4 : forall p q r s a b c d, hex_digit p a -> hex_digit q b -> hex_digit r c -> hex_digit s d ->
    u_escape [92; 117; p; q; r; s] (a * 4096 + b * 256 + c * 16 + d).
(** Backslash and one of: quote, backslash, slash, b, f, n, r, t. *)
Definition short_escapes : list (N * N) := [(34, 34); (92, 92); (47, 47); (98, 8); (102, 12); (110, 10); (114, 13); (116, 9)].

Definition high (u : N) : Prop := 55296 <= u <= 56319.
Definition low (u : N) : Prop := 56320 <= u <= 57343.
Definition low_follows (r : list N) : Prop := exists x w r', r = x ++ r' /\ u_escape x w /\ low w.

(** What stands between the quotes, and the characters it means.  An escaped high surrogate and an escaped low one after it are
    one character. *)
Inductive str_body : list N -> list N -> Prop :=
| body_nil : str_body [] []
| body_char : forall c r s, 32 <= c -> c <> 34 -> c <> 92 -> str_body r s -> str_body (c :: r) (c :: s)
| body_short : forall e c r s, In (e, c) short_escapes -> str_body r s -> str_body (92 :: e :: r) (c :: s)
| body_u : forall x u r s, u_escape x u -> ~ (high u /\ low_follows r) -> str_body r s -> str_body (x ++ r) (u :: s)
| body_pair : forall x u y w r s, u_escape x u -> high u -> u_escape y w -> low w -> str_body r s ->
    str_body (x ++ y ++ r) (65536 + (u - 55296) * 1024 + (w - 56320) :: s).

Definition digit (c : N) : Prop := 48 <= c <= 57.
Definition digits (d : list N) : Prop := d <> [] /\ Forall digit d.
Definition integer (i : list N) : Prop := i = [48] \/ exists c d, i = c :: d /\ 49 <= c <= 57 /\ Forall digit d.
Definition fraction (f : list N) : Prop := f = [] \/ exists d, f = 46 :: d /\ digits d.
Definition exponent (e : list N) : Prop :=
  e = [] \/ exists c g d, e = c :: g ++ d /\ (c = 101 \/ c = 69) /\ (g = [] \/ g = [43] \/ g = [45]) /\ digits d.
Definition number (t : list N) : Prop :=
  exists g i f e, t = g ++ i ++ f ++ e /\ (g = [] \/ g = [45]) /\ integer i /\ fraction f /\ exponent e.
(** NaN, Infinity, -Infinity. *)
Definition extra_numbers : list (list N) :=
  [[78; 97; 78]; [73; 110; 102; 105; 110; 105; 116; 121]; [45; 73; 110; 102; 105; 110; 105; 116; 121]].

Inductive value_text : list N -> json -> Prop :=
| v_str : forall b s, str_body b s -> value_text (34 :: b ++ [34]) (JStr s)
| v_num : forall t, number t -> value_text t (JNum t)
| v_extra : forall t, In t extra_numbers -> value_text t (JNum t)
| v_true : value_text [116; 114; 117; 101] JTrue
| v_false : value_text [102; 97; 108; 115; 101] JFalse
| v_null : value_text [110; 117; 108; 108] JNull
| v_arr0 : forall w, blank w -> value_text (91 :: w ++ [93]) (JArr [])
| v_arr : forall x l, elems_text x l -> value_text (91 :: x ++ [93]) (JArr l)
| v_obj0 : forall w, blank w -> value_text (123 :: w ++ [125]) (JObj [])
| v_obj : forall x d, members_text x d -> value_text (123 :: x ++ [125]) (JObj d)
with elems_text : list N -> list json -> Prop :=
| e_one : forall w x w' v, blank w -> value_text x v -> blank w' -> elems_text (w ++ x ++ w') [v]
| e_more : forall w x w' v r l, blank w -> value_text x v -> blank w' -> elems_text r l ->
    elems_text (w ++ x ++ w' ++ 44 :: r) (v :: l)
with members_text : list N -> list (list N * json) -> Prop :=
| m_one : forall w b k w1 w2 x w3 v, blank w -> str_body b k -> blank w1 -> blank w2 -> value_text x v -> blank w3 ->
    members_text (w ++ 34 :: b ++ 34 :: w1 ++ 58 :: w2 ++ x ++ w3) [(k, v)]
| m_more : forall w b k w1 w2 x w3 v r d, blank w -> str_body b k -> blank w1 -> blank w2 -> value_text x v -> blank w3 ->
    members_text r d -> members_text (w ++ 34 :: b ++ 34 :: w1 ++ 58 :: w2 ++ x ++ w3 ++ 44 :: r) ((k, v) :: d).

(** The text [s] is the JSON value [v]. *)
Definition json_text (s : list N) (v : json) : Prop := exists w x w', s = w ++ x ++ w' /\ blank w /\ value_text x v /\ blank w'.

(** The value of a key of an object: the last entry counts. *)
Definition entry (d : list (list N * json)) (k : list N) (v : json) : Prop :=
  exists l r, d = l ++ (k, v) :: r /\ forall v', ~ In (k, v') r.

(** ** Hexadecimal text, as [bytes.fromhex] reads it: two digits per byte, white space around the pairs. *)
Inductive hex_text : list N -> bytes -> Prop :=
| hex_nil : hex_text [] []
| hex_space : forall c s b, In c [9; 10; 11; 12; 13; 32] -> hex_text s b -> hex_text (c :: s) b
| hex_byte : forall p q h l x s b, hex_digit p h -> hex_digit q l -> bN x = h * 16 + l -> hex_text s b -> hex_text (p :: q :: s) (x :: b).

(** ** The strings that a [for] loop over a loaded value meets *)

(** The different elements of a list, in the order of their first occurrence. *)
Inductive firsts : list (list N) -> list (list N) -> Prop :=
| firsts_nil : firsts [] []
| firsts_new : forall l m x, firsts l m -> ~ In x l -> firsts (l ++ [x]) (m ++ [x])
| firsts_old : forall l m x, firsts l m -> In x l -> firsts (l ++ [x]) m.
(** The characters of a string, the elements of a list of strings, the keys of an object. *)
Inductive loop_strings : json -> list (list N) -> Prop :=
| loop_str : forall s, loop_strings (JStr s) (map (fun c => [c]) s)
| loop_arr : forall l, loop_strings (JArr (map JStr l)) l
| loop_obj : forall d m, firsts (map fst d) m -> loop_strings (JObj d) m.

(** ** Surrogates: a [str] may hold them one by one, but after a high one a low one is read back as one character. *)
Definition python_str (s : list N) : Prop := Forall (fun c => c < 1114112) s.
Definition low_next (r : list N) : Prop := exists w r', r = w :: r' /\ low w.
Inductive joined : list N -> list N -> Prop :=
| joined_nil : joined [] []
| joined_one : forall c r s, ~ (high c /\ low_next r) -> joined r s -> joined (c :: r) (c :: s)
| joined_pair : forall u w r s, high u -> low w -> joined r s -> joined (u :: w :: r) (65536 + (u - 55296) * 1024 + (w - 56320) :: s).
