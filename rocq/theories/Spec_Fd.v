(** What a finite-difference stencil should do. *)
From Coq Require Import Reals List Arith.
From Verif Require Import Base.
Open Scope R_scope.

(** The weights [w] at the points [ps] give the [o]-th derivative at 0 of every polynomial of degree less than [d]: it is enough
    to say it for the monomials x^j, whose o-th derivative at 0 is o! if j = o and 0 otherwise.  A stencil for the o-th derivative
    has accuracy a (its error on a smooth function is of order h^a when the grid spacing h goes to 0) iff this holds for
    d = o + a. *)
Definition derives (o d : nat) (ps w : list R) : Prop :=
  forall j, (j < d)%nat ->
    rsum (length ps) (fun i => nth i w 0 * nth i ps 0 ^ j) = if (j =? o)%nat then INR (fact o) else 0.

(** N points at distance [dil], symmetric around 0 *)
Definition centred (N : nat) (dil : R) (ps : list R) : Prop :=
  length ps = N /\ forall i, (i < N)%nat -> nth i ps 0 = (INR i - (INR N - 1) / 2) * dil.
