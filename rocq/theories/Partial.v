(** * Exact arithmetic with an unknown logarithm outside its domain.

    Coq's [ln] and [/] are total functions ([ln x = 0] for [x <= 0]). In this instance the
    logarithm of a number that is not positive and the quotient by zero are arbitrary:
    what is proved for every choice does not depend on them. *)
From Verif Require Import NumPy BP.
From Coq Require Import Reals.
Local Open Scope R_scope.

Definition PartialNum (lg dv : R -> R) : Num R := {|
  nofZ := IZR;
  nadd := Rplus; nsub := Rminus; nmul := Rmult;
  ndiv x y := if Req_EM_T y 0 then dv x else x / y;
  nltb x y := if Rlt_dec x y then true else false;
  neqb x y := if Req_EM_T x y then true else false;
  nexp := exp;
  nln x := if Rlt_dec 0 x then ln x else lg x
|}.
