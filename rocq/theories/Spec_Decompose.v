(** Specification for C67: decomposing a dictionary of matrices. *)
From Coq Require Import Reals ZArith String List Bool Sorted.
From Verif Require Import Base Model_Groups.
Import ListNotations.
Open Scope R_scope.

(** numpy's tolerance between two matrices *)
Definition nearly (n : nat) (a b : mat) : Prop := forall i j, (i < n)%nat -> (j < n)%nat -> Rabs (a i j - b i j) <= 1 / 100000000 + 1 / 100000 * Rabs (b i j).
(** scipy.linalg.inv: what it returns is the inverse *)
Definition inverts (linv : nat -> mat -> result mat) : Prop := forall n D E, linv n D = Ok E -> inverse_pair n D E.
(** D with inverse E turns the direct sum P of irreps into the matrices rho, at every element *)
Definition changes_basis {G} (els : list G) (n : nat) (rho P : G -> mat) (D E : mat) : Prop :=
  inverse_pair n D E /\ forall e, In e els -> meq n n (mmul n (rho e) D) (mmul n D (P e)).
(** in the order of the names *)
Definition ordered {A} (name : A -> string) (l : list A) : Prop := StronglySorted (fun a b => String.leb (name a) (name b) = true) l.
