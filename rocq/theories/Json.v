(** Model of Python's [str], UTF-8 and the standard library's [json] as used by /repo (proof.py:169,180,
    keypairs.py:221,261,307,343,369,394): [json.dumps] with default options on nested dicts, lists and strings, and
    [json.loads] on any text. *)
From Coq Require Import List Bool Arith NArith.
From Verif Require Import Base.
Import ListNotations.
Local Open Scope N_scope.

(** A Python [str]: its code points (surrogates included). *)
Notation ustr := (list N) (only parsing).

(** [==] on [str]. *)
Fixpoint ustr_eqb (a b : ustr) : bool :=
  match a, b with
  | [], [] => true
  | x :: a', y :: b' => (x =? y) && ustr_eqb a' b'
  | _, _ => false
  end.

(** ** UTF-8 *)

(** [str.encode()] on one character; [None] is the UnicodeEncodeError on surrogates. *)
Definition utf8_char (c : N) : option bytes :=
  if c <? 128 then Some [nB c]
  else if c <? 2048 then Some [nB (192 + c / 64); nB (128 + c mod 64)]
  else if (55296 <=? c) && (c <=? 57343) then None
  else if c <? 65536 then Some [nB (224 + c / 4096); nB (128 + c / 64 mod 64); nB (128 + c mod 64)]
  else if c <? 1114112 then
    Some [nB (240 + c / 262144); nB (128 + c / 4096 mod 64); nB (128 + c / 64 mod 64); nB (128 + c mod 64)]
  else None.

(** [str.encode()]. *)
Fixpoint utf8_encode (s : ustr) : result bytes :=
  match s with
  | [] => Ok []
  | c :: r => match utf8_char c, utf8_encode r with
              | Some b, Ok rest => Ok (b ++ rest)
              | _, _ => Err UnicodeEncodeError
              end
  end.

(** [bytes.decode()], strict: shortest forms only, no surrogates, nothing above U+10FFFF. *)
Definition cbits (b : byte) : option N := if (128 <=? bN b) && (bN b <? 192) then Some (bN b - 128) else None.
Definition in_plane (lo : N) (c : N) : bool := (lo <=? c) && (c <? 1114112) && negb ((55296 <=? c) && (c <=? 57343)).
Fixpoint utf8_dec (s : bytes) : option ustr :=
  match s with
  | [] => Some []
  | a :: r =>
      if bN a <? 128 then option_map (cons (bN a)) (utf8_dec r)
      else if bN a <? 192 then None
      else match r with
      | [] => None
      | b :: r =>
          match cbits b with
          | None => None
          | Some y =>
              if bN a <? 224 then
                let c := (bN a - 192) * 64 + y in
                if in_plane 128 c then option_map (cons c) (utf8_dec r) else None
              else match r with
              | [] => None
              | d :: r =>
                  match cbits d with
                  | None => None
                  | Some z =>
                      if bN a <? 240 then
                        let c := (bN a - 224) * 4096 + y * 64 + z in
                        if in_plane 2048 c then option_map (cons c) (utf8_dec r) else None
                      else match r with
                      | [] => None
                      | e :: r =>
                          match cbits e with
                          | None => None
                          | Some w =>
                              if bN a <? 248 then
                                let c := (bN a - 240) * 262144 + y * 4096 + z * 64 + w in
                                if in_plane 65536 c then option_map (cons c) (utf8_dec r) else None
                              else None
                          end
                      end
                  end
              end
          end
      end
  end.
Definition utf8_decode (b : bytes) : result ustr :=
  match utf8_dec b with Some s => Ok s | None => Err UnicodeDecodeError end.

(** ** json.dumps *)

(** Values: numbers keep their text. *)
Inductive json :=
  | JStr (s : ustr)
  | JArr (l : list json)
  | JObj (d : list (ustr * json))
  | JNum (text : ustr)
  | JTrue | JFalse | JNull.

(** Lower-case hexadecimal digit. *)
Definition hexd (n : N) : N := if n <? 10 then n + 48 else n + 87.
Definition u_esc (n : N) : ustr := [92; 117; hexd (n / 4096 mod 16); hexd (n / 256 mod 16); hexd (n / 16 mod 16); hexd (n mod 16)].

(** json.encoder.py_encode_basestring_ascii: everything outside space .. ~ is escaped. *)
Definition esc_char (c : N) : ustr :=
  if c =? 34 then [92; 34]
  else if c =? 92 then [92; 92]
  else if c =? 10 then [92; 110]
  else if c =? 13 then [92; 114]
  else if c =? 9 then [92; 116]
  else if c =? 12 then [92; 102]
  else if c =? 8 then [92; 98]
  else if (32 <=? c) && (c <=? 126) then [c]
  else if c <? 65536 then u_esc c
  else let n := c - 65536 in u_esc (55296 + n / 1024) ++ u_esc (56320 + n mod 1024).
Definition dump_str (s : ustr) : ustr := 34 :: flat_map esc_char s ++ [34].

(** [sep.join(l)], and the literals. *)
Fixpoint join (sep : ustr) (l : list ustr) : ustr :=
  match l with [] => [] | [x] => x | x :: r => x ++ sep ++ join sep r end.

Definition lit_true : ustr := [116; 114; 117; 101].
Definition lit_false : ustr := [102; 97; 108; 115; 101].
Definition lit_null : ustr := [110; 117; 108; 108].

(** json.dumps with the default separators. *)
Fixpoint dumps (v : json) : ustr :=
  match v with
  | JStr s => dump_str s
  | JArr l => 91 :: join [44; 32] (map dumps l) ++ [93]
  | JObj d => 123 :: join [44; 32] (map (fun kv => dump_str (fst kv) ++ [58; 32] ++ dumps (snd kv)) d) ++ [125]
  | JNum t => t
  | JTrue => lit_true
  | JFalse => lit_false
  | JNull => lit_null
  end.

(** ** json.loads *)
Definition is_ws (c : N) : bool := (c =? 32) || (c =? 9) || (c =? 10) || (c =? 13).
Fixpoint ws (s : ustr) : ustr := match s with c :: r => if is_ws c then ws r else s | [] => [] end.

(** The four digits of an escape; surrogates. *)
Definition unhexd (c : N) : option N :=
  if (48 <=? c) && (c <=? 57) then Some (c - 48)
  else if (97 <=? c) && (c <=? 102) then Some (c - 87)
  else if (65 <=? c) && (c <=? 70) then Some (c - 55)
  else None.
Definition hex4 (a b c d : N) : option N :=
  match unhexd a, unhexd b, unhexd c, unhexd d with
  | Some a, Some b, Some c, Some d => Some (a * 4096 + b * 256 + c * 16 + d)
  | _, _, _, _ => None
  end.
Definition is_high (u : N) : bool := (55296 <=? u) && (u <=? 56319).
Definition is_low (u : N) : bool := (56320 <=? u) && (u <=? 57343).

(** The characters after a backslash other than u. *)
Definition simple_esc (e : N) : option N :=
  if e =? 34 then Some 34 else if e =? 92 then Some 92 else if e =? 47 then Some 47 else if e =? 98 then Some 8
  else if e =? 102 then Some 12 else if e =? 110 then Some 10 else if e =? 114 then Some 13 else if e =? 116 then Some 9
  else None.

Definition pcons (c : N) (o : option (ustr * ustr)) : option (ustr * ustr) :=
  match o with Some (s, r) => Some (c :: s, r) | None => None end.

(** Modules/_json.c scanstring_unicode, strict: the string up to the closing quote, and the rest. *)
Fixpoint pstr (s : ustr) : option (ustr * ustr) :=
  match s with
  | [] => None
  | c :: r =>
      if c =? 34 then Some ([], r)
      else if c =? 92 then
        match r with
        | [] => None
        | e :: r1 =>
            if e =? 117 then
              match r1 with
              | h1 :: h2 :: h3 :: h4 :: r2 =>
                  match hex4 h1 h2 h3 h4 with
                  | None => None
                  | Some u =>
                      if is_high u then
                        match r2 with
                        | b :: v :: k1 :: k2 :: k3 :: k4 :: r3 =>
                            if (b =? 92) && (v =? 117) then
                              match hex4 k1 k2 k3 k4 with
                              | Some w => if is_low w then pcons (65536 + (u - 55296) * 1024 + (w - 56320)) (pstr r3)
                                          else pcons u (pstr r2)
                              | None => None
                              end
                            else pcons u (pstr r2)
                        | _ => pcons u (pstr r2)
                        end
                      else pcons u (pstr r2)
                  end
              | _ => None
              end
            else match simple_esc e with Some x => pcons x (pstr r1) | None => None end
        end
      else if c <? 32 then None
      else pcons c (pstr r)
  end.

(** Numbers, kept as text: a sign, an integer without leading zeros, optionally a fraction and an exponent, which are taken
    only if complete. *)
Definition is_digit (c : N) : bool := (48 <=? c) && (c <=? 57).
Fixpoint pdigits (s : ustr) : ustr * ustr :=
  match s with
  | c :: r => if is_digit c then let (d, r') := pdigits r in (c :: d, r') else ([], s)
  | [] => ([], [])
  end.
Definition pfrac (s : ustr) : ustr * ustr :=
  match s with
  | c :: r => if c =? 46 then match pdigits r with ([], _) => ([], s) | (d, r') => (c :: d, r') end else ([], s)
  | [] => ([], [])
  end.
Definition pexp (s : ustr) : ustr * ustr :=
  match s with
  | c :: r =>
      if (c =? 101) || (c =? 69) then
        let (sg, r1) := match r with g :: r' => if (g =? 43) || (g =? 45) then ([g], r') else ([], r) | [] => ([], r) end in
        match pdigits r1 with ([], _) => ([], s) | (d, r2) => (c :: sg ++ d, r2) end
      else ([], s)
  | [] => ([], [])
  end.
Definition pnum (s : ustr) : option (ustr * ustr) :=
  let (sg, s1) := match s with c :: r => if c =? 45 then ([c], r) else ([], s) | [] => ([], s) end in
  let ip := match s1 with
            | c :: r => if c =? 48 then Some ([c], r) else if is_digit c then Some (pdigits s1) else None
            | [] => None
            end in
  match ip with
  | None => None
  | Some (i, s2) =>
      let (f, s3) := pfrac s2 in
      let (e, s4) := pexp s3 in
      Some (sg ++ i ++ f ++ e, s4)
  end.

Fixpoint strip (lit s : ustr) : option ustr :=
  match lit, s with
  | [], _ => Some s
  | a :: l, b :: r => if a =? b then strip l r else None
  | _, [] => None
  end.
Definition lit_nan : ustr := [78; 97; 78].
Definition lit_inf : ustr := [73; 110; 102; 105; 110; 105; 116; 121].
(** Literals and numbers. *)
Definition patom (s : ustr) : option (json * ustr) :=
  match strip lit_null s with Some r => Some (JNull, r) | None =>
  match strip lit_true s with Some r => Some (JTrue, r) | None =>
  match strip lit_false s with Some r => Some (JFalse, r) | None =>
  match strip lit_nan s with Some r => Some (JNum lit_nan, r) | None =>
  match strip lit_inf s with Some r => Some (JNum lit_inf, r) | None =>
  match strip (45 :: lit_inf) s with Some r => Some (JNum (45 :: lit_inf), r) | None =>
  match pnum s with Some (t, r) => Some (JNum t, r) | None => None end end end end end end end.

(** Modules/_json.c scan_once, _parse_array, _parse_object.  [fuel] is used up by characters read, the length of the
    text suffices; Python's recursion limit is not modelled. *)
Fixpoint pval (fuel : nat) (s : ustr) : option (json * ustr) :=
  match fuel with
  | O => None
  | S f =>
      match s with
      | [] => None
      | c :: r =>
          if c =? 34 then match pstr r with Some (x, r') => Some (JStr x, r') | None => None end
          else if c =? 91 then
            match ws r with
            | [] => None
            | d :: r' => if d =? 93 then Some (JArr [], r')
                         else match pelems f (ws r) with Some (l, r2) => Some (JArr l, r2) | None => None end
            end
          else if c =? 123 then
            match ws r with
            | [] => None
            | d :: r' => if d =? 125 then Some (JObj [], r')
                         else match pmembers f (ws r) with Some (l, r2) => Some (JObj l, r2) | None => None end
            end
          else patom s
      end
  end
with pelems (fuel : nat) (s : ustr) : option (list json * ustr) :=
  match fuel with
  | O => None
  | S f =>
      match pval f s with
      | None => None
      | Some (v, r) =>
          match ws r with
          | [] => None
          | c :: r1 =>
              if c =? 93 then Some ([v], r1)
              else if c =? 44 then
                match pelems f (ws r1) with Some (l, r2) => Some (v :: l, r2) | None => None end
              else None
          end
      end
  end
with pmembers (fuel : nat) (s : ustr) : option (list (ustr * json) * ustr) :=
  match fuel with
  | O => None
  | S f =>
      match s with
      | q :: s1 =>
          if q =? 34 then
            match pstr s1 with
            | None => None
            | Some (k, s2) =>
                match ws s2 with
                | c :: s3 =>
                    if c =? 58 then
                      match pval f (ws s3) with
                      | None => None
                      | Some (v, s4) =>
                          match ws s4 with
                          | c :: s5 =>
                              if c =? 125 then Some ([(k, v)], s5)
                              else if c =? 44 then
                                match pmembers f (ws s5) with Some (l, s6) => Some ((k, v) :: l, s6) | None => None end
                              else None
                          | [] => None
                          end
                      end
                    else None
                | [] => None
                end
            end
          else None
      | [] => None
      end
  end.

(** json.loads on a [str]. *)
Definition loads (s : ustr) : result json :=
  if match s with c :: _ => c =? 65279 | [] => false end then Err JSONDecodeError
  else match pval (2 * length s + 2) (ws s) with
       | Some (v, r) => match ws r with [] => Ok v | _ => Err JSONDecodeError end
       | None => Err JSONDecodeError
       end.

(** [d[k]] on a loaded object: of several entries with one key the last counts. *)
Fixpoint jget (d : list (ustr * json)) (k : ustr) : option json :=
  match d with
  | [] => None
  | (k', v) :: d' => match jget d' k with Some x => Some x | None => if ustr_eqb k k' then Some v else None end
  end.
(** [v[k]] with a [str] index: a list or a string wants an integer, other values cannot be indexed. *)
Definition jindex (v : json) (k : ustr) : result json :=
  match v with
  | JObj d => match jget d k with Some x => Ok x | None => Err KeyError end
  | _ => Err TypeError
  end.

(** A [str] written as a list of ASCII bytes. *)
Definition ascii (b : bytes) : ustr := map bN b.
