(** Specification vocabulary for convolutions. *)
From Coq Require Import Reals ZArith String List Bool.
From Verif Require Import Base Model_Groups Model_Rep Proofs_Restrict Model_FieldType Model_GSpace Spec_GSpace Model_Conv.
Import ListNotations.

(** The spaces of e2cnn.gspaces with the representations of their groups: C_N and SO(2) acting by rotations, D_N and O(2) by
    rotations and reflections, the mirror about an axis, the trivial group. *)
Inductive planar_space : forall G : Type, space G -> (rep G -> Prop) -> Prop :=
| PS_CN (N : Z) : (1 < N)%Z -> planar_space Z (space_CN N) (cyc_rep N)
| PS_SO2 (B : Z) : (0 <= B)%Z -> planar_space R (space_SO2 B) so2_rep
| PS_DN (N : Z) (axis : R) : (1 < N)%Z -> planar_space (Z * Z) (space_DN N axis) (dih_rep N)
| PS_O2 (B : Z) (axis : R) : (0 <= B)%Z -> planar_space (Z * R) (space_O2 B axis) o2_rep
| PS_flip (axis : R) : planar_space Z (space_flip axis) (cyc_rep 2)
| PS_trivial : planar_space Z space_trivial (cyc_rep 1).

(** different representations in a field type have different names *)
Definition names_distinct {G} (reps : list (rep G)) : Prop :=
  forall a b, In a reps -> In b reps -> rp_name a = rp_name b -> a = b.
