(** Specification for C66: what check_equivariance finds. *)
From Coq Require Import Reals ZArith String List Bool.
From Verif Require Import Base Model_Groups Model_Rep Model_FieldType Model_GSpace Model_Conv Model_Fieldwise Model_BatchNorm Model_Net Spec_Net.
Import ListNotations.
Open Scope R_scope.

(** eval() was called: batch normalisations use their running statistics and leave them *)
Definition in_eval {G} (l : layer G) : Prop :=
  match l with LNormBatchNorm tr _ | LGNormBatchNorm tr _ => tr = false | LInducedBatchNorm tr _ => tr = false | LInnerBatchNorm tr _ => tr = false | _ => True end.
(** the modules whose check_equivariance transforms the fibres *)
Definition checks_fibers {G} (l : layer G) : Prop :=
  match l with LPointwise _ | LNorm _ | LInducedNorm _ | LGated _ | LConcatenated _ | LVectorField _ | LGroupPool _ | LNormPool _ | LInducedPool _ => True | _ => False end.
(** a group with finitely many elements *)
Definition finite_group (g : fgroup) : Prop := match g with GC _ | GD _ => True | _ => False end.
(** two tensors of the same shape, with at least one entry, whose entries are equal up to the tolerances *)
Definition agree {G B} (bt : batch B) (atol rtol : R) (y z : arr (B -> vec) * ctype G) : Prop :=
  a_h (fst y) = a_h (fst z) /\ a_w (fst y) = a_w (fst z) /\ ct_size (snd y) = ct_size (snd z) /\
  (0 < bt_n bt /\ 0 < ct_size (snd y) /\ 0 < a_h (fst y) /\ 0 < a_w (fst y))%nat /\
  forall b c i j, (b < bt_n bt)%nat -> (c < ct_size (snd y))%nat -> (i < a_h (fst y))%nat -> (j < a_w (fst y))%nat ->
    Rabs (a_px (fst y) i j (bt_at bt b) c - a_px (fst z) i j (bt_at bt b) c) <= atol + rtol * Rabs (a_px (fst z) i j (bt_at bt b) c).
(** the output has at least one entry *)
Definition some_entry {G B} (bt : batch B) (y : arr (B -> vec) * ctype G) : Prop := (0 < bt_n bt /\ 0 < a_h (fst y) /\ 0 < a_w (fst y))%nat.
(** the mean of the absolute differences of the entries of two tensors *)
Definition mean_difference {G B} (bt : batch B) (y z : arr (B -> vec) * ctype G) : R :=
  rsum (bt_n bt) (fun b => rsum (ct_size (snd y)) (fun c => rsum (a_h (fst y)) (fun i => rsum (a_w (fst y)) (fun j => Rabs (a_px (fst y) i j (bt_at bt b) c - a_px (fst z) i j (bt_at bt b) c))))) /
  INR (bt_n bt * (ct_size (snd y) * (a_h (fst y) * a_w (fst y)))).
