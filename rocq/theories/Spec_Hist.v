(** Specification vocabulary for the histories of SO(2) and O(2). *)
From Coq Require Import Reals ZArith String List Bool.
From Verif Require Import Base Model_Groups Model_Utils Model_Hist.
Import ListNotations.

(** The object number [a] is an O(2) whose [irreps] contain the irrep (j,k); the same for SO(2) *)
Definition is_o2 (s : cstate) (a : nat) : Prop := exists o, nth_error (cs_objs s) a = Some (CO2 o).
Definition is_so2 (s : cstate) (a : nat) : Prop := exists o, nth_error (cs_objs s) a = Some (CSO2 o).
Definition has_o2_irrep (s : cstate) (a : nat) (jk : Z * Z) : Prop := exists o, nth_error (cs_objs s) a = Some (CO2 o) /\ In jk (oo_irreps o).
Definition has_so2_irrep (s : cstate) (a : nat) (k : Z) : Prop := exists o, nth_error (cs_objs s) a = Some (CSO2 o) /\ In k (so_irreps o).
(** its maximum frequency, and whether the subgroup [id] has been asked for *)
Definition o2_frequency (s : cstate) (a : nat) (F : Z) : Prop := exists o, nth_error (cs_objs s) a = Some (CO2 o) /\ oo_max o = F.
Definition never_requested (s : cstate) (a : nat) (id : oid) : Prop :=
  forall o r, nth_error (cs_objs s) a = Some (CO2 o) -> ~ In (id, r) (oo_subs o).
(** the identifiers of the finite subgroups of O(2): rotations, one mirror, mirrors and rotations; the others are SO(2) and O(2) itself *)
Definition finite_id (id : oid) : Prop :=
  (0 < snd id)%Z /\ match fst id with None => True | Some a => (0 <= a < 2 * PI / IZR (snd id))%R end.
Definition continuous_id (id : oid) : Prop := snd id = (-1)%Z.
