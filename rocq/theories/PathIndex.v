(** NibblePath.at for every integer. *)
From Coq Require Import List Bool Arith NArith ZArith Lia ZifyN ZifyNat ZifyBool.
From Verif Require Import Base BaseProofs NibblePath SpecCodec.
Import ListNotations.

Lemma nibbles_len : forall b, length (nibbles b) = 2 * length b.
Proof. induction b as [|x b IH]; [reflexivity|]. unfold nibbles in *. cbn [flat_map app length]. rewrite IH. lia. Qed.
Lemma nibbles_nth : forall b i, nth i (nibbles b) 0 = let x := nth (i / 2) b x00 in if i mod 2 =? 0 then hi x else lo x.
Proof.
  induction b as [|x b IH]; intros i.
  - cbn [nibbles flat_map]. replace (nth i [] 0) with 0 by (now destruct i). replace (nth (i / 2) (@nil byte) x00) with x00 by (now destruct (i / 2)).
    destruct (i mod 2 =? 0); reflexivity.
  - destruct i as [|[|i]]; [reflexivity|reflexivity|].
    change (nth (S (S i)) (nibbles (x :: b)) 0) with (nth i (nibbles b) 0). rewrite IH.
    replace (S (S i) / 2) with (S (i / 2)) by lia. replace (S (S i) mod 2) with (i mod 2) by lia. reflexivity.
Qed.
Lemma at_exact : forall p i, np_at_py p i =
  let j := (i + Z.of_nat (np_off p))%Z in let n := Z.of_nat (length (nibbles (np_data p))) in
  if ((0 <=? j) && (j <? n))%Z then Ok (nth (Z.to_nat j) (nibbles (np_data p)) 0)
  else if ((- n <=? j) && (j <? 0))%Z then Ok (nth (Z.to_nat (j + n)) (nibbles (np_data p)) 0)
  else Err IndexError.
Proof.
  intros p i. cbv zeta. rewrite nibbles_len. unfold np_at_py. set (j := (i + Z.of_nat (np_off p))%Z). set (n := length (np_data p)).
  assert (N : forall k, nth k (nibbles (np_data p)) 0 = let x := nth (k / 2) (np_data p) x00 in if k mod 2 =? 0 then hi x else lo x) by apply nibbles_nth.
  cbv zeta in *.
  destruct ((0 <=? j) && (j <? Z.of_nat (2 * n)))%Z eqn:A.
  - replace (j / 2 <? 0)%Z with false by lia. replace ((j / 2 <? 0)%Z || (Z.of_nat n <=? j / 2)%Z) with false by lia.
    rewrite N. replace (Z.to_nat (j / 2)) with (Z.to_nat j / 2) by lia.
    replace (Z.to_nat j mod 2 =? 0) with (j mod 2 =? 0)%Z by lia. reflexivity.
  - destruct ((- Z.of_nat (2 * n) <=? j) && (j <? 0))%Z eqn:B.
    + replace (j / 2 <? 0)%Z with true by lia.
      replace ((j / 2 + Z.of_nat n <? 0)%Z || (Z.of_nat n <=? j / 2 + Z.of_nat n)%Z) with false by lia.
      rewrite N. replace (Z.to_nat (j / 2 + Z.of_nat n)) with (Z.to_nat (j + Z.of_nat (2 * n)) / 2) by lia.
      replace (Z.to_nat (j + Z.of_nat (2 * n)) mod 2 =? 0) with (j mod 2 =? 0)%Z by lia. reflexivity.
    + destruct (j / 2 <? 0)%Z eqn:S.
      * replace ((j / 2 + Z.of_nat n <? 0)%Z || (Z.of_nat n <=? j / 2 + Z.of_nat n)%Z) with true by lia. reflexivity.
      * replace ((j / 2 <? 0)%Z || (Z.of_nat n <=? j / 2)%Z) with true by lia. reflexivity.
Qed.
Lemma at_consumed : forall p i, 0 < i <= np_off p -> np_off p <= length (nibbles (np_data p)) ->
  np_at_py p (- Z.of_nat i) = Ok (nth (np_off p - i) (nibbles (np_data p)) 0).
Proof.
  intros p i I L. rewrite at_exact. cbv zeta. set (n := length (nibbles (np_data p))) in *.
  replace ((0 <=? - Z.of_nat i + Z.of_nat (np_off p)) && (- Z.of_nat i + Z.of_nat (np_off p) <? Z.of_nat n))%Z with true by lia.
  do 2 f_equal. lia.
Qed.
Lemma at_cases : forall p i,
  let all := nibbles (np_data p) in let j := (i + Z.of_nat (np_off p))%Z in let n := Z.of_nat (length all) in
  ((0 <= j < n)%Z -> np_at_py p i = Ok (nth (Z.to_nat j) all 0)) /\
  ((- n <= j < 0)%Z -> np_at_py p i = Ok (nth (Z.to_nat (j + n)) all 0)) /\
  ((j < - n \/ n <= j)%Z -> np_at_py p i = Err IndexError).
Proof.
  intros p i. cbv zeta. rewrite at_exact. cbv zeta. set (n := length (nibbles (np_data p))). set (j := (i + Z.of_nat (np_off p))%Z).
  repeat split; intros H.
  - now replace ((0 <=? j) && (j <? Z.of_nat n))%Z with true by lia.
  - replace ((0 <=? j) && (j <? Z.of_nat n))%Z with false by lia. now replace ((- Z.of_nat n <=? j) && (j <? 0))%Z with true by lia.
  - replace ((0 <=? j) && (j <? Z.of_nat n))%Z with false by lia. now replace ((- Z.of_nat n <=? j) && (j <? 0))%Z with false by lia.
Qed.
