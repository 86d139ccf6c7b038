(** What "the representation of O(2) induced from a representation of SO(2)" means. *)
From Coq Require Import Reals ZArith String List Bool.
From Verif Require Import Base Model_Groups.
Open Scope R_scope.

(** rho of size s is given at every angle.  The induced representation has size 2 s: a vector holds a copy of the space of rho for the rotations and one for
    the reflections.  The rotation by a acts by rho(a) on the first copy and by rho(-a) on the second; the reflection exchanges the copies; and the element (1, a)
    is the reflection followed by the rotation by a. *)
Definition induced_at (s : nat) (rho : R -> mat) (e : Z * R) : mat := fun i j =>
  let first q := (q <? s)%nat in
  let at_ q := if first q then q else (q - s)%nat in
  let target := if Z.eqb (fst e) 0 then first j else negb (first j) in
  if Bool.eqb (first i) target then rho (if first i then snd e else - snd e) (at_ i) (at_ j) else 0.
(** scipy.linalg.inv: what it returns is the inverse, and it does not fail for the identity matrix *)
Definition inverts_id (linv : nat -> mat -> result mat) : Prop :=
  (forall n D E, linv n D = Ok E -> inverse_pair n D E) /\ forall n D, meq n n D mid -> exists E, linv n D = Ok E.
