(** The numbers the code of /repo really computes with: numpy's [float64], i.e. the binary64
    format of IEEE 754 (Flocq's formalisation, without the payload of NaN), with rounding
    to nearest even for [+], [-], [*] and the IEEE comparison [<].  With this instance the
    generic models (NDSModel: utils.py 303-752; HVModel: hypervolume.py 6-267; HVDModel: hypervolume_derivatives.py 27-31, 161-297, 337-373; UtilsModel:
    utils.py 224-246) become models of the code WITH rounding, overflow, signed zeros and
    infinities.  [nleb x y] is [not (y < x)] and so agrees with Python's [x <= y] unless one
    of the two is NaN; the theorems about doubles exclude NaN in the data (except where they
    say otherwise, and there only [<] is used). *)
From Coq Require Import ZArith Reals List.
From Flocq Require Import Core IEEE754.BinarySingleNaN.
From Verif Require Import Num.

Definition double := binary_float 53 1024.
#[global] Instance dprec : FLX.Prec_gt_0 53 := eq_refl.
#[global] Instance dmax : Prec_lt_emax 53 1024 := eq_refl.

#[global] Instance NumD : Num double :=
  mkNum double (B754_zero false) Bone (Bplus mode_NE) (Bminus mode_NE) (Bmult mode_NE)
    Bopp Bltb.

Definition isnan (x : double) : bool := is_nan x.

(** the double nearest to [m * 2^e] (how numeric literals and data arrive) *)
Definition dbl (m e : Z) : double := binary_normalize 53 1024 _ _ mode_NE m e false.

(** hypervolume.py 58: the initial bound [-1.0e308] *)
Definition minus_1e308 : double := dbl (- 10 ^ 308) 0.
