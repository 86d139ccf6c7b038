(** Specification for C63: sequences of rolls and turns of images. *)
From Coq Require Import Reals ZArith String List Bool.
From Verif Require Import Base Spec_Fields Model_Groups Model_Rep Model_FieldType Model_Tensor Model_GSpace Spec_GSpace Model_Conv Model_NormMax Model_Net Spec_Net Spec_Move Model_Graph Spec_Graph.
Import ListNotations.
Open Scope R_scope.

(** one motion of the images of a state: a turn or mirroring by an element of the group, or rolls, with the axes and the roll of every image *)
Inductive motion : Type := MTurn (e : gelt) | MRoll (us : list (axis * axis)).

Section Motion.
Context {G B : Type} (interp : forall A : Type, R -> R -> arr A -> arr A).
Notation tensor := (arr (B -> vec) * ctype G)%type.
Definition moved (mo : motion) (st st' : list tensor) : Prop :=
  match mo with MTurn e => Forall2 (transforms e interp) st st' | MRoll us => all_rolled us st st' end.
(** st' is what the motions make of st, one after another *)
Inductive journey : list motion -> list tensor -> list tensor -> Prop :=
| journey_end st : journey [] st st
| journey_step mo w st st1 st2 : moved mo st st1 -> journey w st1 st2 -> journey (mo :: w) st st2.

(** A journey of the inputs of a program: the turns by elements that map the grid to itself and for which the layers are equivariant, the rolls
    by distances that the strides divide.  The second list are the motions of the variables: the same turns, and rolls by the
    distances divided by the strides. *)
Context (sp : space G) (isrep : rep G -> Prop) (argmax : list R -> nat) (cob_id : rep G -> bool) (bt : batch B) (fits : space G -> rep G -> bool) (junk : nat -> B * (nat * nat) -> R) (junkn : nat -> nat -> R) (ops : list (op G)).
Inductive route : list motion -> list motion -> list tensor -> list tensor -> Prop :=
| route_end st : route [] [] st st
| route_turn e g w w' st st1 st2 :
    fg_is_element (sp_group (sp_obj sp)) e = true -> sp_prj sp e = Some g -> grid_exact (sp_obj sp) e -> Forall (good_op sp isrep e g cob_id fits) ops ->
    (forall x, In x st -> ok_type sp isrep g (snd x)) -> suits_ops argmax cob_id bt fits junk junkn ops st ->
    moved (MTurn e) st st1 -> route w w' st1 st2 -> route (MTurn e :: w) (MTurn e :: w') st st2
| route_roll g us vs w w' st st1 st2 :
    sp_prj sp (fg_identity (sp_group (sp_obj sp))) = Some g -> Forall (good_op sp isrep (fg_identity (sp_group (sp_obj sp))) g cob_id fits) ops ->
    wraps_ops (bt_n bt) ops us vs -> moved (MRoll us) st st1 -> route w w' st1 st2 -> route (MRoll us :: w) (MRoll vs :: w') st st2.
End Motion.
