(** Specification vocabulary for InducedGatedNonLinearity1. *)
From Coq Require Import Reals String List Bool.
From Verif Require Import Base Spec_Fields Model_Groups Model_Rep Model_FieldType Model_Fieldwise Model_IGated Spec_Fieldwise Spec_Fieldwise2.
Import ListNotations.
Open Scope nat_scope.

(** the fields labelled as gates, in order *)
Definition gate_fields {A} (labels : list string) (fs : list (list A)) : list (list A) :=
  map snd (filter (fun p => isgate (fst p)) (combine labels fs)).
(** the field v is cut into sub-fields of size s; the q-th is multiplied by the q-th of the channels gl *)
Definition induced_gate_act {X} (s : nat) (gl v : list (X -> R)) : list (X -> R) :=
  concat (map (fun bg => scaled (snd bg) (fst bg)) (combine (cut (repeat s (length v / s)) v) gl)).
(** the bias, which training can set to anything of the same shape *)
Definition set_ibias {GS G} (m : igated1 (GS:=GS) (G:=G)) (b : list R) : igated1 :=
  MkIG (ig_in m) (ig_out m) (ig_drop m) (ig_q m) (ig_fs m) (ig_order m) (ig_cin m) (ig_cout m) b.
(** fields with the same name have the same size and the same supported non-linearities *)
Definition names_identify {G} (reps : list (rep G)) : Prop :=
  forall r r', In r reps -> In r' reps -> rp_name r = rp_name r' -> rp_size r = rp_size r' /\ rp_nonlin r = rp_nonlin r'.
(** the group element moves the Q points of a quotient by sg: it permutes the channels of a gate by sg, and the sub-fields (of
    size s) of a gated field by sg too, each being moreover multiplied by some matrix *)
Definition permutes_by (Q : nat) (sg : nat -> nat) (A : mat) : Prop :=
  forall i j, i < Q -> j < Q -> A i j = if j =? sg i then 1%R else 0%R.
Definition permutes_blocks_by (Q s : nat) (sg : nat -> nat) (A : mat) : Prop :=
  exists O : nat -> mat, forall q q' i j, q < Q -> q' < Q -> i < s -> j < s ->
    A (q * s + i) (q' * s + j) = if q' =? sg q then O q i j else 0%R.
