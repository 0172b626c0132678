(* Property C75: the accuracy of the constants (the rest of C75 is in Props_Trig) *)
From Coq Require Import Reals Lra Lia List.
From Flocq Require Import Core.
From Verif Require Import M_Const P_Const.
Set Implicit Arguments. Unset Strict Implicit. Unset Printing Implicit Defensive.
Import ListNotations.
Local Open Scope R_scope.

(* the IEEE-754 formats, and the 80-bit format of the x87 unit: precision and least exponent *)
Definition format := (Z * Z)%type.
Definition binary32 : format := (24, -149)%Z.
Definition binary64 : format := (53, -1074)%Z.
Definition x87 : format := (64, -16445)%Z.
Definition binary128 : format := (113, -16494)%Z.
(* rounding to nearest, ties to even *)
Definition rnd (f : format) (x : R) : R := round radix2 (FLT_exp (snd f) (fst f)) ZnearestE x.
(* the platforms: long double is binary64, x87 or binary128; the scalar type is float, double or long double *)
Definition platforms : list (format * format) :=
  [(binary64, binary32); (binary64, binary64); (x87, binary32); (x87, binary64); (x87, x87);
   (binary128, binary32); (binary128, binary64); (binary128, binary128)].

Ltac rn m e := unfold rnd; simpl fst; simpl snd; apply (@round_near _ _ m e); [lia|lia|split; reflexivity|simpl; apply Rabs_def1; lra].
Lemma sqrt_half_bounds : 0.70710678118654752440084436210484903928483593768847 - / IZR (10 ^ 45) <= sqrt (1 / 2) <= 0.70710678118654752440084436210484903928483593768847 + / IZR (10 ^ 45).
Proof.
assert (e : sqrt (1 / 2) = sqrt 2 / 2).
  replace (1 / 2) with (2 / (2 * 2)) by lra; rewrite sqrt_div_alt, sqrt_square by lra; reflexivity.
rewrite e; pose proof sqrt2_bounds as h; simpl Z.pow in *; lra.
Qed.
Lemma pi_binary32 : rnd binary32 PI = IZR 13176795 * bpow radix2 (-22).
Proof. pose proof pi_bounds as h; simpl Z.pow in h; rn (13176795)%Z (-22)%Z. Qed.
Lemma pi_binary64 : rnd binary64 PI = IZR 7074237752028440 * bpow radix2 (-51).
Proof. pose proof pi_bounds as h; simpl Z.pow in h; rn (7074237752028440)%Z (-51)%Z. Qed.
Lemma pi_lit_binary64 : rnd binary64 3.1415926535897932384626433832795028841971693993751 = IZR 7074237752028440 * bpow radix2 (-51).
Proof. rn (7074237752028440)%Z (-51)%Z. Qed.
Lemma pi_x87 : rnd x87 PI = IZR 14488038916154245685 * bpow radix2 (-62).
Proof. pose proof pi_bounds as h; simpl Z.pow in h; rn (14488038916154245685)%Z (-62)%Z. Qed.
Lemma pi_lit_x87 : rnd x87 3.1415926535897932384626433832795028841971693993751 = IZR 14488038916154245685 * bpow radix2 (-62).
Proof. rn (14488038916154245685)%Z (-62)%Z. Qed.
Lemma pi_binary128 : rnd binary128 PI = IZR 8156040833015188200833743081374136 * bpow radix2 (-111).
Proof. pose proof pi_bounds as h; simpl Z.pow in h; rn (8156040833015188200833743081374136)%Z (-111)%Z. Qed.
Lemma pi_lit_binary128 : rnd binary128 3.1415926535897932384626433832795028841971693993751 = IZR 8156040833015188200833743081374136 * bpow radix2 (-111).
Proof. rn (8156040833015188200833743081374136)%Z (-111)%Z. Qed.
Lemma pi_binary64_binary32 : rnd binary32 (rnd binary64 3.1415926535897932384626433832795028841971693993751) = rnd binary32 PI.
Proof. rewrite pi_lit_binary64, pi_binary32; rn (13176795)%Z (-22)%Z. Qed.
Lemma pi_binary64_binary64 : rnd binary64 (rnd binary64 3.1415926535897932384626433832795028841971693993751) = rnd binary64 PI.
Proof. rewrite pi_lit_binary64, pi_binary64; rn (7074237752028440)%Z (-51)%Z. Qed.
Lemma pi_x87_binary32 : rnd binary32 (rnd x87 3.1415926535897932384626433832795028841971693993751) = rnd binary32 PI.
Proof. rewrite pi_lit_x87, pi_binary32; rn (13176795)%Z (-22)%Z. Qed.
Lemma pi_x87_binary64 : rnd binary64 (rnd x87 3.1415926535897932384626433832795028841971693993751) = rnd binary64 PI.
Proof. rewrite pi_lit_x87, pi_binary64; rn (7074237752028440)%Z (-51)%Z. Qed.
Lemma pi_x87_x87 : rnd x87 (rnd x87 3.1415926535897932384626433832795028841971693993751) = rnd x87 PI.
Proof. rewrite pi_lit_x87, pi_x87; rn (14488038916154245685)%Z (-62)%Z. Qed.
Lemma pi_binary128_binary32 : rnd binary32 (rnd binary128 3.1415926535897932384626433832795028841971693993751) = rnd binary32 PI.
Proof. rewrite pi_lit_binary128, pi_binary32; rn (13176795)%Z (-22)%Z. Qed.
Lemma pi_binary128_binary64 : rnd binary64 (rnd binary128 3.1415926535897932384626433832795028841971693993751) = rnd binary64 PI.
Proof. rewrite pi_lit_binary128, pi_binary64; rn (7074237752028440)%Z (-51)%Z. Qed.
Lemma pi_binary128_binary128 : rnd binary128 (rnd binary128 3.1415926535897932384626433832795028841971693993751) = rnd binary128 PI.
Proof. rewrite pi_lit_binary128, pi_binary128; rn (8156040833015188200833743081374136)%Z (-111)%Z. Qed.
Lemma pi_half_binary32 : rnd binary32 (PI / 2) = IZR 13176795 * bpow radix2 (-23).
Proof. pose proof pi_bounds as h; simpl Z.pow in h; rn (13176795)%Z (-23)%Z. Qed.
Lemma pi_half_binary64 : rnd binary64 (PI / 2) = IZR 7074237752028440 * bpow radix2 (-52).
Proof. pose proof pi_bounds as h; simpl Z.pow in h; rn (7074237752028440)%Z (-52)%Z. Qed.
Lemma pi_half_lit_binary64 : rnd binary64 1.5707963267948966192313216916397514420985846996876 = IZR 7074237752028440 * bpow radix2 (-52).
Proof. rn (7074237752028440)%Z (-52)%Z. Qed.
Lemma pi_half_x87 : rnd x87 (PI / 2) = IZR 14488038916154245685 * bpow radix2 (-63).
Proof. pose proof pi_bounds as h; simpl Z.pow in h; rn (14488038916154245685)%Z (-63)%Z. Qed.
Lemma pi_half_lit_x87 : rnd x87 1.5707963267948966192313216916397514420985846996876 = IZR 14488038916154245685 * bpow radix2 (-63).
Proof. rn (14488038916154245685)%Z (-63)%Z. Qed.
Lemma pi_half_binary128 : rnd binary128 (PI / 2) = IZR 8156040833015188200833743081374136 * bpow radix2 (-112).
Proof. pose proof pi_bounds as h; simpl Z.pow in h; rn (8156040833015188200833743081374136)%Z (-112)%Z. Qed.
Lemma pi_half_lit_binary128 : rnd binary128 1.5707963267948966192313216916397514420985846996876 = IZR 8156040833015188200833743081374136 * bpow radix2 (-112).
Proof. rn (8156040833015188200833743081374136)%Z (-112)%Z. Qed.
Lemma pi_half_binary64_binary32 : rnd binary32 (rnd binary64 1.5707963267948966192313216916397514420985846996876) = rnd binary32 (PI / 2).
Proof. rewrite pi_half_lit_binary64, pi_half_binary32; rn (13176795)%Z (-23)%Z. Qed.
Lemma pi_half_binary64_binary64 : rnd binary64 (rnd binary64 1.5707963267948966192313216916397514420985846996876) = rnd binary64 (PI / 2).
Proof. rewrite pi_half_lit_binary64, pi_half_binary64; rn (7074237752028440)%Z (-52)%Z. Qed.
Lemma pi_half_x87_binary32 : rnd binary32 (rnd x87 1.5707963267948966192313216916397514420985846996876) = rnd binary32 (PI / 2).
Proof. rewrite pi_half_lit_x87, pi_half_binary32; rn (13176795)%Z (-23)%Z. Qed.
Lemma pi_half_x87_binary64 : rnd binary64 (rnd x87 1.5707963267948966192313216916397514420985846996876) = rnd binary64 (PI / 2).
Proof. rewrite pi_half_lit_x87, pi_half_binary64; rn (7074237752028440)%Z (-52)%Z. Qed.
Lemma pi_half_x87_x87 : rnd x87 (rnd x87 1.5707963267948966192313216916397514420985846996876) = rnd x87 (PI / 2).
Proof. rewrite pi_half_lit_x87, pi_half_x87; rn (14488038916154245685)%Z (-63)%Z. Qed.
Lemma pi_half_binary128_binary32 : rnd binary32 (rnd binary128 1.5707963267948966192313216916397514420985846996876) = rnd binary32 (PI / 2).
Proof. rewrite pi_half_lit_binary128, pi_half_binary32; rn (13176795)%Z (-23)%Z. Qed.
Lemma pi_half_binary128_binary64 : rnd binary64 (rnd binary128 1.5707963267948966192313216916397514420985846996876) = rnd binary64 (PI / 2).
Proof. rewrite pi_half_lit_binary128, pi_half_binary64; rn (7074237752028440)%Z (-52)%Z. Qed.
Lemma pi_half_binary128_binary128 : rnd binary128 (rnd binary128 1.5707963267948966192313216916397514420985846996876) = rnd binary128 (PI / 2).
Proof. rewrite pi_half_lit_binary128, pi_half_binary128; rn (8156040833015188200833743081374136)%Z (-112)%Z. Qed.
Lemma pi_fourth_binary32 : rnd binary32 (PI / 4) = IZR 13176795 * bpow radix2 (-24).
Proof. pose proof pi_bounds as h; simpl Z.pow in h; rn (13176795)%Z (-24)%Z. Qed.
Lemma pi_fourth_binary64 : rnd binary64 (PI / 4) = IZR 7074237752028440 * bpow radix2 (-53).
Proof. pose proof pi_bounds as h; simpl Z.pow in h; rn (7074237752028440)%Z (-53)%Z. Qed.
Lemma pi_fourth_lit_binary64 : rnd binary64 0.78539816339744830961566084581987572104929234984378 = IZR 7074237752028440 * bpow radix2 (-53).
Proof. rn (7074237752028440)%Z (-53)%Z. Qed.
Lemma pi_fourth_x87 : rnd x87 (PI / 4) = IZR 14488038916154245685 * bpow radix2 (-64).
Proof. pose proof pi_bounds as h; simpl Z.pow in h; rn (14488038916154245685)%Z (-64)%Z. Qed.
Lemma pi_fourth_lit_x87 : rnd x87 0.78539816339744830961566084581987572104929234984378 = IZR 14488038916154245685 * bpow radix2 (-64).
Proof. rn (14488038916154245685)%Z (-64)%Z. Qed.
Lemma pi_fourth_binary128 : rnd binary128 (PI / 4) = IZR 8156040833015188200833743081374136 * bpow radix2 (-113).
Proof. pose proof pi_bounds as h; simpl Z.pow in h; rn (8156040833015188200833743081374136)%Z (-113)%Z. Qed.
Lemma pi_fourth_lit_binary128 : rnd binary128 0.78539816339744830961566084581987572104929234984378 = IZR 8156040833015188200833743081374136 * bpow radix2 (-113).
Proof. rn (8156040833015188200833743081374136)%Z (-113)%Z. Qed.
Lemma pi_fourth_binary64_binary32 : rnd binary32 (rnd binary64 0.78539816339744830961566084581987572104929234984378) = rnd binary32 (PI / 4).
Proof. rewrite pi_fourth_lit_binary64, pi_fourth_binary32; rn (13176795)%Z (-24)%Z. Qed.
Lemma pi_fourth_binary64_binary64 : rnd binary64 (rnd binary64 0.78539816339744830961566084581987572104929234984378) = rnd binary64 (PI / 4).
Proof. rewrite pi_fourth_lit_binary64, pi_fourth_binary64; rn (7074237752028440)%Z (-53)%Z. Qed.
Lemma pi_fourth_x87_binary32 : rnd binary32 (rnd x87 0.78539816339744830961566084581987572104929234984378) = rnd binary32 (PI / 4).
Proof. rewrite pi_fourth_lit_x87, pi_fourth_binary32; rn (13176795)%Z (-24)%Z. Qed.
Lemma pi_fourth_x87_binary64 : rnd binary64 (rnd x87 0.78539816339744830961566084581987572104929234984378) = rnd binary64 (PI / 4).
Proof. rewrite pi_fourth_lit_x87, pi_fourth_binary64; rn (7074237752028440)%Z (-53)%Z. Qed.
Lemma pi_fourth_x87_x87 : rnd x87 (rnd x87 0.78539816339744830961566084581987572104929234984378) = rnd x87 (PI / 4).
Proof. rewrite pi_fourth_lit_x87, pi_fourth_x87; rn (14488038916154245685)%Z (-64)%Z. Qed.
Lemma pi_fourth_binary128_binary32 : rnd binary32 (rnd binary128 0.78539816339744830961566084581987572104929234984378) = rnd binary32 (PI / 4).
Proof. rewrite pi_fourth_lit_binary128, pi_fourth_binary32; rn (13176795)%Z (-24)%Z. Qed.
Lemma pi_fourth_binary128_binary64 : rnd binary64 (rnd binary128 0.78539816339744830961566084581987572104929234984378) = rnd binary64 (PI / 4).
Proof. rewrite pi_fourth_lit_binary128, pi_fourth_binary64; rn (7074237752028440)%Z (-53)%Z. Qed.
Lemma pi_fourth_binary128_binary128 : rnd binary128 (rnd binary128 0.78539816339744830961566084581987572104929234984378) = rnd binary128 (PI / 4).
Proof. rewrite pi_fourth_lit_binary128, pi_fourth_binary128; rn (8156040833015188200833743081374136)%Z (-113)%Z. Qed.
Lemma e_binary32 : rnd binary32 (exp 1) = IZR 11401300 * bpow radix2 (-22).
Proof. pose proof e_bounds as h; simpl Z.pow in h; rn (11401300)%Z (-22)%Z. Qed.
Lemma e_binary64 : rnd binary64 (exp 1) = IZR 6121026514868073 * bpow radix2 (-51).
Proof. pose proof e_bounds as h; simpl Z.pow in h; rn (6121026514868073)%Z (-51)%Z. Qed.
Lemma e_lit_binary64 : rnd binary64 2.7182818284590452353602874713526624977572470937 = IZR 6121026514868073 * bpow radix2 (-51).
Proof. rn (6121026514868073)%Z (-51)%Z. Qed.
Lemma e_x87 : rnd x87 (exp 1) = IZR 12535862302449814171 * bpow radix2 (-62).
Proof. pose proof e_bounds as h; simpl Z.pow in h; rn (12535862302449814171)%Z (-62)%Z. Qed.
Lemma e_lit_x87 : rnd x87 2.7182818284590452353602874713526624977572470937 = IZR 12535862302449814171 * bpow radix2 (-62).
Proof. rn (12535862302449814171)%Z (-62)%Z. Qed.
Lemma e_binary128 : rnd binary128 (exp 1) = IZR 7057063099260103890616691862818426 * bpow radix2 (-111).
Proof. pose proof e_bounds as h; simpl Z.pow in h; rn (7057063099260103890616691862818426)%Z (-111)%Z. Qed.
Lemma e_lit_binary128 : rnd binary128 2.7182818284590452353602874713526624977572470937 = IZR 7057063099260103890616691862818426 * bpow radix2 (-111).
Proof. rn (7057063099260103890616691862818426)%Z (-111)%Z. Qed.
Lemma e_binary64_binary32 : rnd binary32 (rnd binary64 2.7182818284590452353602874713526624977572470937) = rnd binary32 (exp 1).
Proof. rewrite e_lit_binary64, e_binary32; rn (11401300)%Z (-22)%Z. Qed.
Lemma e_binary64_binary64 : rnd binary64 (rnd binary64 2.7182818284590452353602874713526624977572470937) = rnd binary64 (exp 1).
Proof. rewrite e_lit_binary64, e_binary64; rn (6121026514868073)%Z (-51)%Z. Qed.
Lemma e_x87_binary32 : rnd binary32 (rnd x87 2.7182818284590452353602874713526624977572470937) = rnd binary32 (exp 1).
Proof. rewrite e_lit_x87, e_binary32; rn (11401300)%Z (-22)%Z. Qed.
Lemma e_x87_binary64 : rnd binary64 (rnd x87 2.7182818284590452353602874713526624977572470937) = rnd binary64 (exp 1).
Proof. rewrite e_lit_x87, e_binary64; rn (6121026514868073)%Z (-51)%Z. Qed.
Lemma e_x87_x87 : rnd x87 (rnd x87 2.7182818284590452353602874713526624977572470937) = rnd x87 (exp 1).
Proof. rewrite e_lit_x87, e_x87; rn (12535862302449814171)%Z (-62)%Z. Qed.
Lemma e_binary128_binary32 : rnd binary32 (rnd binary128 2.7182818284590452353602874713526624977572470937) = rnd binary32 (exp 1).
Proof. rewrite e_lit_binary128, e_binary32; rn (11401300)%Z (-22)%Z. Qed.
Lemma e_binary128_binary64 : rnd binary64 (rnd binary128 2.7182818284590452353602874713526624977572470937) = rnd binary64 (exp 1).
Proof. rewrite e_lit_binary128, e_binary64; rn (6121026514868073)%Z (-51)%Z. Qed.
Lemma e_binary128_binary128 : rnd binary128 (rnd binary128 2.7182818284590452353602874713526624977572470937) = rnd binary128 (exp 1).
Proof. rewrite e_lit_binary128, e_binary128; rn (7057063099260103890616691862818426)%Z (-111)%Z. Qed.
Lemma sqrt2_binary32 : rnd binary32 (sqrt 2) = IZR 11863283 * bpow radix2 (-23).
Proof. pose proof sqrt2_bounds as h; simpl Z.pow in h; rn (11863283)%Z (-23)%Z. Qed.
Lemma sqrt2_binary64 : rnd binary64 (sqrt 2) = IZR 6369051672525773 * bpow radix2 (-52).
Proof. pose proof sqrt2_bounds as h; simpl Z.pow in h; rn (6369051672525773)%Z (-52)%Z. Qed.
Lemma sqrt2_lit_binary64 : rnd binary64 1.4142135623730950488016887242096980785696718753769 = IZR 6369051672525773 * bpow radix2 (-52).
Proof. rn (6369051672525773)%Z (-52)%Z. Qed.
Lemma sqrt2_x87 : rnd x87 (sqrt 2) = IZR 13043817825332782212 * bpow radix2 (-63).
Proof. pose proof sqrt2_bounds as h; simpl Z.pow in h; rn (13043817825332782212)%Z (-63)%Z. Qed.
Lemma sqrt2_lit_x87 : rnd x87 1.4142135623730950488016887242096980785696718753769 = IZR 13043817825332782212 * bpow radix2 (-63).
Proof. rn (13043817825332782212)%Z (-63)%Z. Qed.
Lemma sqrt2_binary128 : rnd binary128 (sqrt 2) = IZR 7343016637207168931428032607349397 * bpow radix2 (-112).
Proof. pose proof sqrt2_bounds as h; simpl Z.pow in h; rn (7343016637207168931428032607349397)%Z (-112)%Z. Qed.
Lemma sqrt2_lit_binary128 : rnd binary128 1.4142135623730950488016887242096980785696718753769 = IZR 7343016637207168931428032607349397 * bpow radix2 (-112).
Proof. rn (7343016637207168931428032607349397)%Z (-112)%Z. Qed.
Lemma sqrt2_binary64_binary32 : rnd binary32 (rnd binary64 1.4142135623730950488016887242096980785696718753769) = rnd binary32 (sqrt 2).
Proof. rewrite sqrt2_lit_binary64, sqrt2_binary32; rn (11863283)%Z (-23)%Z. Qed.
Lemma sqrt2_binary64_binary64 : rnd binary64 (rnd binary64 1.4142135623730950488016887242096980785696718753769) = rnd binary64 (sqrt 2).
Proof. rewrite sqrt2_lit_binary64, sqrt2_binary64; rn (6369051672525773)%Z (-52)%Z. Qed.
Lemma sqrt2_x87_binary32 : rnd binary32 (rnd x87 1.4142135623730950488016887242096980785696718753769) = rnd binary32 (sqrt 2).
Proof. rewrite sqrt2_lit_x87, sqrt2_binary32; rn (11863283)%Z (-23)%Z. Qed.
Lemma sqrt2_x87_binary64 : rnd binary64 (rnd x87 1.4142135623730950488016887242096980785696718753769) = rnd binary64 (sqrt 2).
Proof. rewrite sqrt2_lit_x87, sqrt2_binary64; rn (6369051672525773)%Z (-52)%Z. Qed.
Lemma sqrt2_x87_x87 : rnd x87 (rnd x87 1.4142135623730950488016887242096980785696718753769) = rnd x87 (sqrt 2).
Proof. rewrite sqrt2_lit_x87, sqrt2_x87; rn (13043817825332782212)%Z (-63)%Z. Qed.
Lemma sqrt2_binary128_binary32 : rnd binary32 (rnd binary128 1.4142135623730950488016887242096980785696718753769) = rnd binary32 (sqrt 2).
Proof. rewrite sqrt2_lit_binary128, sqrt2_binary32; rn (11863283)%Z (-23)%Z. Qed.
Lemma sqrt2_binary128_binary64 : rnd binary64 (rnd binary128 1.4142135623730950488016887242096980785696718753769) = rnd binary64 (sqrt 2).
Proof. rewrite sqrt2_lit_binary128, sqrt2_binary64; rn (6369051672525773)%Z (-52)%Z. Qed.
Lemma sqrt2_binary128_binary128 : rnd binary128 (rnd binary128 1.4142135623730950488016887242096980785696718753769) = rnd binary128 (sqrt 2).
Proof. rewrite sqrt2_lit_binary128, sqrt2_binary128; rn (7343016637207168931428032607349397)%Z (-112)%Z. Qed.
Lemma sqrt_half_binary32 : rnd binary32 (sqrt (1 / 2)) = IZR 11863283 * bpow radix2 (-24).
Proof. pose proof sqrt_half_bounds as h; simpl Z.pow in h; rn (11863283)%Z (-24)%Z. Qed.
Lemma sqrt_half_binary64 : rnd binary64 (sqrt (1 / 2)) = IZR 6369051672525773 * bpow radix2 (-53).
Proof. pose proof sqrt_half_bounds as h; simpl Z.pow in h; rn (6369051672525773)%Z (-53)%Z. Qed.
Lemma sqrt_half_lit_binary64 : rnd binary64 0.70710678118654752440084436210484903928483593768847 = IZR 6369051672525773 * bpow radix2 (-53).
Proof. rn (6369051672525773)%Z (-53)%Z. Qed.
Lemma sqrt_half_x87 : rnd x87 (sqrt (1 / 2)) = IZR 13043817825332782212 * bpow radix2 (-64).
Proof. pose proof sqrt_half_bounds as h; simpl Z.pow in h; rn (13043817825332782212)%Z (-64)%Z. Qed.
Lemma sqrt_half_lit_x87 : rnd x87 0.70710678118654752440084436210484903928483593768847 = IZR 13043817825332782212 * bpow radix2 (-64).
Proof. rn (13043817825332782212)%Z (-64)%Z. Qed.
Lemma sqrt_half_binary128 : rnd binary128 (sqrt (1 / 2)) = IZR 7343016637207168931428032607349397 * bpow radix2 (-113).
Proof. pose proof sqrt_half_bounds as h; simpl Z.pow in h; rn (7343016637207168931428032607349397)%Z (-113)%Z. Qed.
Lemma sqrt_half_lit_binary128 : rnd binary128 0.70710678118654752440084436210484903928483593768847 = IZR 7343016637207168931428032607349397 * bpow radix2 (-113).
Proof. rn (7343016637207168931428032607349397)%Z (-113)%Z. Qed.
Lemma sqrt_half_binary64_binary32 : rnd binary32 (rnd binary64 0.70710678118654752440084436210484903928483593768847) = rnd binary32 (sqrt (1 / 2)).
Proof. rewrite sqrt_half_lit_binary64, sqrt_half_binary32; rn (11863283)%Z (-24)%Z. Qed.
Lemma sqrt_half_binary64_binary64 : rnd binary64 (rnd binary64 0.70710678118654752440084436210484903928483593768847) = rnd binary64 (sqrt (1 / 2)).
Proof. rewrite sqrt_half_lit_binary64, sqrt_half_binary64; rn (6369051672525773)%Z (-53)%Z. Qed.
Lemma sqrt_half_x87_binary32 : rnd binary32 (rnd x87 0.70710678118654752440084436210484903928483593768847) = rnd binary32 (sqrt (1 / 2)).
Proof. rewrite sqrt_half_lit_x87, sqrt_half_binary32; rn (11863283)%Z (-24)%Z. Qed.
Lemma sqrt_half_x87_binary64 : rnd binary64 (rnd x87 0.70710678118654752440084436210484903928483593768847) = rnd binary64 (sqrt (1 / 2)).
Proof. rewrite sqrt_half_lit_x87, sqrt_half_binary64; rn (6369051672525773)%Z (-53)%Z. Qed.
Lemma sqrt_half_x87_x87 : rnd x87 (rnd x87 0.70710678118654752440084436210484903928483593768847) = rnd x87 (sqrt (1 / 2)).
Proof. rewrite sqrt_half_lit_x87, sqrt_half_x87; rn (13043817825332782212)%Z (-64)%Z. Qed.
Lemma sqrt_half_binary128_binary32 : rnd binary32 (rnd binary128 0.70710678118654752440084436210484903928483593768847) = rnd binary32 (sqrt (1 / 2)).
Proof. rewrite sqrt_half_lit_binary128, sqrt_half_binary32; rn (11863283)%Z (-24)%Z. Qed.
Lemma sqrt_half_binary128_binary64 : rnd binary64 (rnd binary128 0.70710678118654752440084436210484903928483593768847) = rnd binary64 (sqrt (1 / 2)).
Proof. rewrite sqrt_half_lit_binary128, sqrt_half_binary64; rn (6369051672525773)%Z (-53)%Z. Qed.
Lemma sqrt_half_binary128_binary128 : rnd binary128 (rnd binary128 0.70710678118654752440084436210484903928483593768847) = rnd binary128 (sqrt (1 / 2)).
Proof. rewrite sqrt_half_lit_binary128, sqrt_half_binary128; rn (7343016637207168931428032607349397)%Z (-113)%Z. Qed.
#[local] Hint Resolve pi_binary64_binary32 pi_binary64_binary64 pi_x87_binary32 pi_x87_binary64 pi_x87_x87 pi_binary128_binary32 pi_binary128_binary64 pi_binary128_binary128 pi_half_binary64_binary32 pi_half_binary64_binary64 pi_half_x87_binary32 pi_half_x87_binary64 pi_half_x87_x87 pi_half_binary128_binary32 pi_half_binary128_binary64 pi_half_binary128_binary128 pi_fourth_binary64_binary32 pi_fourth_binary64_binary64 pi_fourth_x87_binary32 pi_fourth_x87_binary64 pi_fourth_x87_x87 pi_fourth_binary128_binary32 pi_fourth_binary128_binary64 pi_fourth_binary128_binary128 e_binary64_binary32 e_binary64_binary64 e_x87_binary32 e_x87_binary64 e_x87_x87 e_binary128_binary32 e_binary128_binary64 e_binary128_binary128 sqrt2_binary64_binary32 sqrt2_binary64_binary64 sqrt2_x87_binary32 sqrt2_x87_binary64 sqrt2_x87_x87 sqrt2_binary128_binary32 sqrt2_binary128_binary64 sqrt2_binary128_binary128 sqrt_half_binary64_binary32 sqrt_half_binary64_binary64 sqrt_half_x87_binary32 sqrt_half_x87_binary64 sqrt_half_x87_x87 sqrt_half_binary128_binary32 sqrt_half_binary128_binary64 sqrt_half_binary128_binary128 : c75.

(** * C75 *)
(* every constant is the correctly rounded value of the mathematical constant, in spite of the double rounding *)
Theorem C75_constants (ldouble scalar : format) : In (ldouble, scalar) platforms ->
  const_pi (rnd ldouble) (rnd scalar) = rnd scalar PI /\
  const_pi_half (rnd ldouble) (rnd scalar) = rnd scalar (PI / 2) /\
  const_pi_fourth (rnd ldouble) (rnd scalar) = rnd scalar (PI / 4) /\
  const_e (rnd ldouble) (rnd scalar) = rnd scalar (exp 1) /\
  const_sqrt2 (rnd ldouble) (rnd scalar) = rnd scalar (sqrt 2) /\
  const_sqrt_half (rnd ldouble) (rnd scalar) = rnd scalar (sqrt (1 / 2)).
Proof.
intro h; unfold const_pi, const_pi_half, const_pi_fourth, const_e, const_sqrt2, const_sqrt_half.
repeat (destruct h as [h|h]; [injection h as <- <-; repeat split; auto with c75|]); destruct h.
Qed.
Print Assumptions C75_constants.
(* for instance, with the 80-bit long double, Constants<float>::Pi is 13176795 / 2^22 *)
Example C75_constants_example : In (x87, binary32) platforms /\ const_pi (rnd x87) (rnd binary32) = 13176795 * bpow radix2 (-22).
Proof. split; [simpl; tauto|unfold const_pi; rewrite pi_x87_binary32; exact pi_binary32]. Qed.
