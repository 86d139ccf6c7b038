(** Specification vocabulary for the symbols and stencils of differential operators. *)
From Coq Require Import Reals ZArith List.
From Verif Require Import Base.
Import ListNotations.
Open Scope R_scope.

(** the value at (x, y) of the homogeneous polynomial c_0 x^n + c_1 x^(n-1) y + ... + c_n y^n *)
Fixpoint hom_value (c : list R) (x y : R) : R :=
  match c with
  | [] => 0
  | a :: c' => a * x ^ length c' + y * hom_value c' x y
  end.
