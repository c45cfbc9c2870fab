(** The texts of bytes, tuples, proofs and times, character by character. *)
From Coq Require Import String List Bool Arith NArith.
From Verif Require Import Base ProofObj Keccak Texts SpecText.
Import ListNotations.
Local Open Scope list_scope.

(** How [repr] shows the byte [c] between the quotes [q]. *)
Inductive shown (q c : byte) : bytes -> Prop :=
| sh_self : c = q \/ c = x5c -> shown q c [x5c; c]
| sh_tab : c = x09 -> shown q c [x5c; x74]
| sh_newline : c = x0a -> shown q c [x5c; x6e]
| sh_return : c = x0d -> shown q c [x5c; x72]
| sh_plain : printable c -> c <> q -> c <> x5c -> shown q c [c]
| sh_hex : forall h l n m, ~ printable c -> c <> x09 -> c <> x0a -> c <> x0d -> hex_value h n -> hex_value l m -> bN c = (16 * n + m)%N -> shown q c [x5c; x78; h; l].
(** The text of the bytes [b]. *)
Definition bytes_text (b t : bytes) : Prop := exists q ts, Forall2 (shown q) b ts /\ t = [x62; q] ++ List.concat ts ++ [q] /\
  ((q = x22 /\ In x27 b /\ ~ In x22 b) \/ (q = x27 /\ ~ (In x27 b /\ ~ In x22 b))).
Inductive elem_text : pelem -> bytes -> Prop :=
| et_bytes : forall b t, bytes_text b t -> elem_text (PB b) t
| et_pair : forall a b t u, bytes_text a t -> bytes_text b u -> elem_text (PPair a b) (bs "(" ++ t ++ bs ", " ++ u ++ bs ")").
(** Texts in a row, [sep] between them. *)
Inductive joined (sep : bytes) : list bytes -> bytes -> Prop :=
| jo_one : forall t, joined sep [t] t
| jo_more : forall t ts u, joined sep ts u -> joined sep (t :: ts) (t ++ sep ++ u).
Inductive tuple_text : list pelem -> bytes -> Prop :=
| tu_none : tuple_text [] (bs "()")
| tu_one : forall e t, elem_text e t -> tuple_text [e] (bs "(" ++ t ++ bs ",)")
| tu_more : forall l ts t, 2 <= List.length l -> Forall2 elem_text l ts -> joined (bs ", ") ts t -> tuple_text l (bs "(" ++ t ++ bs ")").
(** Five fields with names, each followed by its text. *)
Inductive fields_text (names : list string) (p : proof) : bytes -> Prop :=
| ft_all : forall ts t, Forall2 bytes_text [pf_type p; pf_time p; pf_key p; pf_root p] ts -> tuple_text (pf_proof p) t ->
    fields_text names p (List.concat (map (fun nt => bs (fst nt) ++ snd nt) (combine names (ts ++ [t])))).
Definition repr_names : list string := ["Proof(type="; ", timestamp="; ", target_key="; ", root_hash="; ", proof="]%string.
Definition dict_names : list string := ["{'proof_type': "; ", 'timestamp': "; ", 'target_key': "; ", 'root_hash': "; ", 'proof': "]%string.

(** [t] is the number [n] in [w] decimal digits. *)
Definition decimal_value (t : bytes) : N := fold_left (fun a c => 10 * a + (bN c - 48))%N t 0%N.
Definition decimals (w : nat) (n : N) (t : bytes) : Prop := List.length t = w /\ Forall (fun c => 48 <= bN c <= 57)%N t /\ decimal_value t = n.
(** YYYY-MM-DD hh:mm:ss, and the microseconds where there are some. *)
Inductive time_text (t : datetime) : bytes -> Prop :=
| ti_text : forall a b c d e f g, decimals 4 (t_year t) a -> decimals 2 (t_month t) b -> decimals 2 (t_day t) c -> decimals 2 (t_hour t) d -> decimals 2 (t_min t) e ->
    decimals 2 (t_sec t) f -> (t_us t = 0%N /\ g = []) \/ (t_us t <> 0%N /\ exists u, decimals 6 (t_us t) u /\ g = bs "." ++ u) ->
    time_text t (a ++ bs "-" ++ b ++ bs "-" ++ c ++ bs " " ++ d ++ bs ":" ++ e ++ bs ":" ++ f ++ g).
