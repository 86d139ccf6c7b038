(** Specification vocabulary for steerable kernels. *)
From Coq Require Import Reals ZArith List.
From Verif Require Import Base Model_Groups Model_GSpace Spec_GSpace.
Open Scope R_scope.

(** the group element moves the direction with angle a to the direction with angle a' *)
Definition moves_angle (s : gspace) (g : gelt) (a a' : R) : Prop :=
  plane_action s g (cos a, sin a) = (cos a', sin a').

(** The kernel constraint K(g.x) = rho_out(g) K(x) rho_in(g)^-1, for a kernel on the circle of directions ... *)
Definition angular_constraint {G : Type} (s : gspace) (code : G -> gelt) (el : G -> Prop) (inv : G -> G)
           (no ni : nat) (rho_out rho_in : G -> mat) (K : R -> mat) : Prop :=
  forall g a a', el g -> moves_angle s (code g) a a' ->
    meq no ni (K a') (mmul ni (mmul no (rho_out g) (K a)) (rho_in (inv g))).
(** ... at a fixed point of the action (the origin) ... *)
Definition fixed_constraint {G : Type} (el : G -> Prop) (inv : G -> G)
           (no ni : nat) (rho_out rho_in : G -> mat) (K : mat) : Prop :=
  forall g, el g -> meq no ni K (mmul ni (mmul no (rho_out g) K) (rho_in (inv g))).
(** ... and for a kernel on the plane *)
Definition planar_constraint {G : Type} (s : gspace) (code : G -> gelt) (el : G -> Prop) (inv : G -> G)
           (no ni : nat) (rho_out rho_in : G -> mat) (K : point -> mat) : Prop :=
  forall g p, el g ->
    meq no ni (K (plane_action s (code g) p)) (mmul ni (mmul no (rho_out g) (K p)) (rho_in (inv g))).

(** linear independence of [dim] matrix-valued functions, and being a combination of them *)
Definition independent (dim no ni : nat) (B : nat -> R -> mat) : Prop :=
  forall c : nat -> R,
    (forall a i j, (i < no)%nat -> (j < ni)%nat -> rsum dim (fun b => c b * B b a i j) = 0) ->
    forall b, (b < dim)%nat -> c b = 0.
Definition in_span (dim no ni : nat) (B : nat -> R -> mat) (K : R -> mat) : Prop :=
  exists c : nat -> R, forall a, meq no ni (K a) (fun i j => rsum dim (fun b => c b * B b a i j)).

(** real trigonometric polynomials of degree at most F *)
Definition trig_poly (F : nat) (f : R -> R) : Prop :=
  exists a b : nat -> R, forall x,
    f x = rsum (F + 1) (fun k => a k * cos (INR k * x) + b k * sin (INR k * x)).
Definition trig_poly_mat (F no ni : nat) (K : R -> mat) : Prop :=
  forall i j, (i < no)%nat -> (j < ni)%nat -> trig_poly F (fun x => K x i j).

(** the matrix M placed with its upper left corner at row r0 and column c0 in a matrix of zeros *)
Definition embed (r0 c0 nr nc : nat) (M : mat) : mat := fun i j =>
  if (Nat.leb r0 i && Nat.ltb i (r0 + nr) && (Nat.leb c0 j && Nat.ltb j (c0 + nc)))%bool
  then M (i - r0)%nat (j - c0)%nat else 0.
