(** Specification for C59: irreducible representations, equivariant linear maps, equivalence. *)
From Coq Require Import Reals List.
From Verif Require Import Base.
Open Scope R_scope.

Section Reps.
Context {G : Type} (el : G -> Prop).
(** the linear subspaces of R^n (only the first n entries of a vector count) *)
Definition subspace (n : nat) (W : vec -> Prop) : Prop :=
  W (fun _ => 0) /\ (forall a b u v, W u -> W v -> W (fun i => a * u i + b * v i)) /\ (forall u v, veq n u v -> W u -> W v).
(** rho has no invariant subspace but 0 and R^n *)
Definition irreducible (n : nat) (rho : G -> mat) : Prop :=
  (0 < n)%nat /\ forall W, subspace n W -> (forall g v, el g -> W v -> W (mvec n (rho g) v)) -> (forall v, W v -> veq n v (fun _ => 0)) \/ (forall v, W v).
(** A (m rows, n columns) is an equivariant map from rho to sigma *)
Definition intertwines (n : nat) (rho : G -> mat) (m : nat) (sigma : G -> mat) (A : mat) : Prop :=
  forall g, el g -> meq m n (mmul n A (rho g)) (mmul m (sigma g) A).
(** rho and sigma are the same up to a change of basis *)
Definition equivalent (n : nat) (rho : G -> mat) (m : nat) (sigma : G -> mat) : Prop :=
  n = m /\ exists A B, inverse_pair n A B /\ forall g, el g -> meq n n (sigma g) (mmul n (mmul n A (rho g)) B).
(** the matrices that commute with rho have dimension d: a basis of d matrices *)
Definition commutant_dim (n : nat) (rho : G -> mat) (d : nat) : Prop :=
  exists E : nat -> mat,
    (forall k, (k < d)%nat -> intertwines n rho n rho (E k)) /\
    (forall c : vec, meq n n (fun i j => rsum d (fun k => c k * E k i j)) mzero -> forall k, (k < d)%nat -> c k = 0) /\
    (forall A, intertwines n rho n rho A -> exists c : vec, meq n n A (fun i j => rsum d (fun k => c k * E k i j))).
End Reps.
