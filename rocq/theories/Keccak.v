(** Executable Keccak-256 (padding 0x01, as Crypto.Hash.keccak) and SHA-256.
    Used for concrete examples and test vectors only; theorems quantify over
    the hash function. *)
From Coq Require Import List Bool Arith NArith.
From Verif Require Import Base.
Import ListNotations.
Local Open Scope N_scope.

Definition mask64 : N := 18446744073709551615.
Definition rotl (x : N) (n : N) : N :=
  N.lor (N.land (N.shiftl x n) mask64) (N.shiftr x (64 - n)).

Definition rc : list N := [
  0x1; 0x8082; 0x800000000000808A; 0x8000000080008000;
  0x808B; 0x80000001; 0x8000000080008081; 0x8000000000008009;
  0x8A; 0x88; 0x80008009; 0x8000000A;
  0x8000808B; 0x800000000000008B; 0x8000000000008089; 0x8000000000008003;
  0x8000000000008002; 0x8000000000000080; 0x800A; 0x800000008000000A;
  0x8000000080008081; 0x8000000000008080; 0x80000001; 0x8000000080008008].

(** rotation offsets, index x + 5*y *)
Definition rot : list N := [0;1;62;28;27; 36;44;6;55;20; 3;10;43;25;39; 41;45;15;21;8; 18;2;61;56;14].

Definition lane (s : list N) (i : nat) : N := nth i s 0.
Definition idx5 : list nat := [0;1;2;3;4]%nat.
Definition idx25 : list nat := seq 0 25.

Definition keccak_round (s : list N) (k : N) : list N :=
  let c := map (fun x => fold_left N.lxor (map (fun y => lane s (x + 5 * y)%nat) idx5) 0) idx5 in
  let d := map (fun x => N.lxor (lane c ((x + 4) mod 5)%nat) (rotl (lane c ((x + 1) mod 5)%nat) 1)) idx5 in
  let s1 := map (fun i => N.lxor (lane s i) (lane d (i mod 5)%nat)) idx25 in
  (* b[y, 2x+3y] = rot(s1[x,y]);  for target (X,Y): x = (X + 3Y) mod 5, y = X *)
  let b := map (fun i => let X := (i mod 5)%nat in let Y := (i / 5)%nat in
                         let src := (((X + 3 * Y) mod 5) + 5 * X)%nat in
                         rotl (lane s1 src) (lane rot src)) idx25 in
  let s2 := map (fun i => let X := (i mod 5)%nat in let Y := (i / 5)%nat in
                          N.lxor (lane b i)
                                 (N.land (N.lxor (lane b ((X + 1) mod 5 + 5 * Y)%nat) mask64)
                                         (lane b ((X + 2) mod 5 + 5 * Y)%nat))) idx25 in
  match s2 with a :: r => N.lxor a k :: r | [] => [] end.

Definition keccak_f (s : list N) : list N := fold_left keccak_round rc s.

Fixpoint le_lane (b : bytes) : N :=
  match b with [] => 0 | x :: r => bN x + 256 * le_lane r end.

Fixpoint lanes (n : nat) (b : bytes) : list N :=
  match n with O => [] | S n' => le_lane (firstn 8 b) :: lanes n' (skipn 8 b) end.

Fixpoint xor_into (s l : list N) : list N :=
  match s, l with
  | a :: s', b :: l' => N.lxor a b :: xor_into s' l'
  | s, [] => s
  | [], _ => []
  end.

Fixpoint absorb (fuel : nat) (s : list N) (b : bytes) : list N :=
  match fuel with
  | O => s
  | S f =>
      let n := length b in
      if (n <? 136)%nat then
        let pad := if (n =? 135)%nat then [x81] else x01 :: repeat x00 (134 - n) ++ [x80] in
        keccak_f (xor_into s (lanes 17 (b ++ pad)))
      else absorb f (keccak_f (xor_into s (lanes 17 (firstn 136 b)))) (skipn 136 b)
  end.

Fixpoint le_bytes (n : nat) (x : N) : bytes :=
  match n with O => [] | S n' => nB (x mod 256) :: le_bytes n' (x / 256) end.

Definition keccak256 (b : bytes) : bytes :=
  let s := absorb (S (length b / 136)) (repeat 0 25) b in
  flat_map (le_bytes 8) (firstn 4 s).

(** SHA-256 *)
Definition mask32 : N := 4294967295.
Definition rotr (x n : N) : N := N.lor (N.shiftr x n) (N.land (N.shiftl x (32 - n)) mask32).
Definition add32 (a b : N) : N := N.land (a + b) mask32.

Definition sha_k : list N := [
 0x428a2f98;0x71374491;0xb5c0fbcf;0xe9b5dba5;0x3956c25b;0x59f111f1;0x923f82a4;0xab1c5ed5;
 0xd807aa98;0x12835b01;0x243185be;0x550c7dc3;0x72be5d74;0x80deb1fe;0x9bdc06a7;0xc19bf174;
 0xe49b69c1;0xefbe4786;0x0fc19dc6;0x240ca1cc;0x2de92c6f;0x4a7484aa;0x5cb0a9dc;0x76f988da;
 0x983e5152;0xa831c66d;0xb00327c8;0xbf597fc7;0xc6e00bf3;0xd5a79147;0x06ca6351;0x14292967;
 0x27b70a85;0x2e1b2138;0x4d2c6dfc;0x53380d13;0x650a7354;0x766a0abb;0x81c2c92e;0x92722c85;
 0xa2bfe8a1;0xa81a664b;0xc24b8b70;0xc76c51a3;0xd192e819;0xd6990624;0xf40e3585;0x106aa070;
 0x19a4c116;0x1e376c08;0x2748774c;0x34b0bcb5;0x391c0cb3;0x4ed8aa4a;0x5b9cca4f;0x682e6ff3;
 0x748f82ee;0x78a5636f;0x84c87814;0x8cc70208;0x90befffa;0xa4506ceb;0xbef9a3f7;0xc67178f2].
Definition sha_init : list N := [
 0x6a09e667;0xbb67ae85;0x3c6ef372;0xa54ff53a;0x510e527f;0x9b05688c;0x1f83d9ab;0x5be0cd19].

Fixpoint be_words (n : nat) (b : bytes) : list N :=
  match n with O => [] | S n' => unbe (firstn 4 b) :: be_words n' (skipn 4 b) end.

(** message schedule, most recent word first *)
Fixpoint sched (n : nat) (w : list N) : list N :=
  match n with
  | O => w
  | S n' =>
      let s0 := let x := nth 14 w 0 in N.lxor (N.lxor (rotr x 7) (rotr x 18)) (N.shiftr x 3) in
      let s1 := let x := nth 1 w 0 in N.lxor (N.lxor (rotr x 17) (rotr x 19)) (N.shiftr x 10) in
      sched n' (add32 (add32 (nth 15 w 0) s0) (add32 (nth 6 w 0) s1) :: w)
  end.

Definition sha_round (st : list N) (kw : N * N) : list N :=
  match st with
  | [a;b;c;d;e;f;g;h] =>
      let S1 := N.lxor (N.lxor (rotr e 6) (rotr e 11)) (rotr e 25) in
      let ch := N.lxor (N.land e f) (N.land (N.lxor e mask32) g) in
      let t1 := add32 (add32 h S1) (add32 ch (add32 (fst kw) (snd kw))) in
      let S0 := N.lxor (N.lxor (rotr a 2) (rotr a 13)) (rotr a 22) in
      let mj := N.lxor (N.lxor (N.land a b) (N.land a c)) (N.land b c) in
      [add32 t1 (add32 S0 mj); a; b; c; add32 d t1; e; f; g]
  | _ => st
  end.

Definition sha_block (st : list N) (blk : bytes) : list N :=
  let w := rev (sched 48 (rev (be_words 16 blk))) in
  let st' := fold_left sha_round (combine sha_k w) st in
  map (fun p => add32 (fst p) (snd p)) (combine st st').

Fixpoint sha_blocks (fuel : nat) (st : list N) (b : bytes) : list N :=
  match fuel with
  | O => st
  | S f => match b with [] => st | _ => sha_blocks f (sha_block st (firstn 64 b)) (skipn 64 b) end
  end.

Definition be_fixed (n : nat) (x : N) : bytes := rev (le_bytes n x).

Definition sha256 (b : bytes) : bytes :=
  let n := length b in
  let zeros := ((119 - (n mod 64)) mod 64)%nat in
  let m := b ++ x80 :: repeat x00 zeros ++ be_fixed 8 (8 * N.of_nat n) in
  flat_map (be_fixed 4) (sha_blocks (length m) sha_init m).

(** ASCII helpers for examples *)
From Coq Require Import Strings.String Strings.Ascii.
Definition bs (s : string) : bytes := list_byte_of_string s.

Definition hexval (c : ascii) : N :=
  let n := N_of_ascii c in
  if (n <? 58) then n - 48 else n - 87.
Fixpoint unhex (s : string) : bytes :=
  match s with
  | String a (String b r) => nB (hexval a * 16 + hexval b) :: unhex r
  | _ => []
  end.
