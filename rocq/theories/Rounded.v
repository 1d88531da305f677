(** * Rounded arithmetic.

    The message passing code of BP.v is written once for any arithmetic ([Num]). The other
    theorems about real numbers use exact arithmetic; here every addition, subtraction,
    multiplication and division is followed by a rounding function, as in floating point
    without overflow. Comparisons are exact. The exponential and the logarithm are
    arbitrary functions. The integers the code converts (0, 1, -1000 and NEG_INF) are
    taken as they are: they are numbers of the format. *)
From Verif Require Import NumPy BP.
From Coq Require Import Reals.
Local Open Scope R_scope.

Definition RoundNum (rnd ex lg : R -> R) : Num R := {|
  nofZ := IZR;
  nadd x y := rnd (x + y);
  nsub x y := rnd (x - y);
  nmul x y := rnd (x * y);
  ndiv x y := rnd (x / y);
  nltb x y := if Rlt_dec x y then true else false;
  neqb x y := if Req_EM_T x y then true else false;
  nexp := ex;
  nln := lg
|}.
