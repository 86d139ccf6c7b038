(** What it means for C64 that two representations, or two field types, are as good as the same. *)
From Coq Require Import Reals ZArith String List Bool.
From Verif Require Import Base Model_Groups Model_Rep Model_FieldType Model_Conv.
Import ListNotations.
Open Scope R_scope.

(** the largest difference between entries of matrices of size n: about twice the relative tolerance of numpy *)
Definition slack (n : nat) : R := 2 * (sqrt (INR n) / 100000000 + 1 / 100000).

(** all but the change of basis is the same *)
Definition same_header {G} (a b : rep G) : Prop :=
  rp_name a = rp_name b /\ rp_size a = rp_size b /\ rp_irreps a = rp_irreps b /\ forall s, In s (rp_nonlin a) <-> In s (rp_nonlin b).
(** the change of basis is orthogonal, as for irreps (the identity), direct sums of irreps and regular representations (C09) *)
Definition orthonormal {G} (a : rep G) : Prop := orthogonal (rp_size a) (rp_cob a).
(** every entry of two n by n matrices differs by at most d *)
Definition within (d : R) (n : nat) (A B : mat) : Prop := forall i j, (i < n)%nat -> (j < n)%nat -> Rabs (A i j - B i j) <= d.
