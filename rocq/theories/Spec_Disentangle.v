(** Specification vocabulary for disentangling. *)
From Coq Require Import Reals List Bool.
From Verif Require Import Base Model_Groups Model_Rep.
Import ListNotations.
Open Scope nat_scope.

(** the columns of the i-th irrep in the change of basis start here *)
Definition col_of {G} (r : rep G) (i : nat) : nat := nsum (map ir_size (firstn i (rp_irreps r))).
(** a division of the channels of r and of its irreps in two parts (true and false) such that the change of basis mixes channels
    and irreps of the same part only *)
Definition separates {G} (r : rep G) (T I : nat -> bool) : Prop :=
  forall row i ir e, row < rp_size r -> nth_error (rp_irreps r) i = Some ir -> e < ir_size ir -> T row <> I i ->
    rp_cob r row (col_of r i + e) = 0%R.
(** no such division divides the channels *)
Definition entangled {G} (r : rep G) : Prop :=
  0 < rp_size r /\ forall T I, separates r T I -> forall a b, a < rp_size r -> b < rp_size r -> T a = T b.
