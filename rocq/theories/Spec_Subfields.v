(** Specification for C69: the sub-fields that the name of a non-linearity declares. *)
From Coq Require Import Reals ZArith String List Bool.
From Verif Require Import Base Model_Groups Model_Rep Model_Regular Model_Fieldwise Model_Support Model_InduceO2 Spec_InduceO2 Spec_Fieldwise Spec_Support.
Import ListNotations.
Open Scope string_scope.

(** the matrix A of size n permutes the sub-fields of every size s that is declared by a name such as induced_norm_2 in the list nl *)
Definition permutes_declared (pre : string) (nl : list string) (n : nat) (A : mat) : Prop :=
  forall x s, In x nl -> starts_with pre x = true -> py_int (last_part "" x) = Ok s -> exists k, n = (k * s)%nat /\ is_block_perm k s A.
(** the representations of [built] (Spec_Support) without the parts of disentangled representations *)
Inductive assembled : forall g : grp, rep (elt g) -> Prop :=
| as_irrep g ir name : is_group g -> is_irrep g ir -> assembled g (rep_of_irrep name ir)
| as_regular_cyc N r : (0 < N)%Z -> cyc_regular_representation N = Ok r -> assembled (Cyc N) r
| as_regular_dih N r : (0 < N)%Z -> dih_regular_representation N = Ok r -> assembled (Dih N) r
| as_induced_cyc N fg M sg parent child restrict name ir r : (0 < N)%Z -> cyc_fgroup N = Ok fg -> cyc_subgroup N M = Ok (sg, parent, child) ->
    is_irrep (Cyc M) ir -> induced_representation fg (cyc_elements M) parent child restrict name ir = Ok r -> assembled (Cyc N) r
| as_induced_dih_c N fg id M parent child restrict name ir r : (0 < N)%Z -> dih_fgroup N = Ok fg -> dih_subgroup N id = Ok (SubC M parent child) ->
    is_irrep (Cyc M) ir -> induced_representation fg (cyc_elements M) parent child restrict name ir = Ok r -> assembled (Dih N) r
| as_induced_dih_d N fg id M parent child restrict name ir r : (0 < N)%Z -> dih_fgroup N = Ok fg -> dih_subgroup N id = Ok (SubD M parent child) ->
    is_irrep (Dih M) ir -> induced_representation fg (dih_elements M) parent child restrict name ir = Ok r -> assembled (Dih N) r
| as_induced_o2 linv name k ir r : inverts_id linv -> so2_irrep k = Ok ir -> o2_induced_representation linv name (None, (-1)%Z) ir = Ok r -> assembled O2 r
| as_sum g l name r : (forall q, In q l -> assembled g q) -> directsum l name = Ok r -> assembled g r
| as_restricted g h parent f r inv r' : restricts g h parent f -> assembled g r -> f r inv = Ok r' -> rep_accepted r' -> assembled h (restrict_trivial_patch r')
| as_changed g r Q Qinv name : assembled g r -> inverse_pair (rp_size r) Q Qinv -> assembled g (change_basis r Q Qinv name None).
