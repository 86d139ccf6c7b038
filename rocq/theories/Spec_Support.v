(** Specification for C53: what the declared non-linearities of a representation mean, and the representations users can build. *)
From Coq Require Import Reals ZArith String List Bool.
From Verif Require Import Base Model_Groups Model_Rep Model_Regular Model_Disentangle Model_Support Model_InduceO2 Spec_InduceO2 Proofs_Groups Proofs_Cont Proofs_Regular2 Spec_Fieldwise.
Import ListNotations.
Open Scope string_scope.

(** the matrix A of size n is one on which the non-linearities [nl] may act: applied to each channel, to the norm, to the channels and
    their negatives, and (gates) to invariant channels *)
Record compatible (nl : list string) (n : nat) (A : mat) : Prop := {
  co_pointwise : In "pointwise" nl -> is_perm n A;
  co_norm : In "norm" nl -> orthogonal n A;
  co_concatenated : In "concatenated" nl -> is_signed_perm n A;
  co_gate : In "gate" nl -> meq n n A mid }.

(** the groups, their elements and the irreps they have *)
Inductive grp : Type := Cyc (N : Z) | Dih (N : Z) | So2 | O2.
Definition elt (g : grp) : Type := match g with Cyc _ => Z | Dih _ => Z * Z | So2 => R | O2 => Z * R end.
Definition is_elt (g : grp) : elt g -> Prop := match g with Cyc N => cyc_el N | Dih N => dih_el N | So2 => so2_el | O2 => o2_el end.
Definition is_irrep (g : grp) : irrep (elt g) -> Prop :=
  match g with
  | Cyc N => fun ir => exists k, cyc_irrep N k = Ok ir
  | Dih N => fun ir => exists j k, dih_irrep N j k = Ok ir
  | So2 => fun ir => exists k, so2_irrep k = Ok ir
  | O2 => fun ir => exists j k, o2_irrep j k = Ok ir
  end.
Definition is_group (g : grp) : Prop := match g with Cyc N | Dih N => (0 < N)%Z | _ => True end.

(** [restricts g h parent f]: f restricts representations of g to the subgroup h, embedded by parent; f takes the inverse matrix that
    sp.linalg.inv returns *)
Inductive restricts : forall g h : grp, (elt h -> elt g) -> (rep (elt g) -> mat -> result (rep (elt h))) -> Prop :=
| res_cyc N M prefix sg parent child : cyc_subgroup N M = Ok (sg, parent, child) ->
    restricts (Cyc N) (Cyc M) parent (restrict_representation prefix (cyc_restrict_one N M))
| res_so2 M prefix sg parent child : so2_subgroup M = Ok (SubC sg parent child) ->
    restricts So2 (Cyc M) parent (restrict_representation prefix (so2_restrict_one M))
| res_dih_c N id prefix M parent child : dih_subgroup N id = Ok (SubC M parent child) ->
    restricts (Dih N) (Cyc M) parent (restrict_representation prefix (dih_restrict_one_C N id))
| res_dih_d N id prefix M parent child : dih_subgroup N id = Ok (SubD M parent child) ->
    restricts (Dih N) (Dih M) parent (restrict_representation prefix (dih_restrict_one_D N id))
| res_o2_c id prefix M parent child : o2_subgroup id = Ok (SubFin (SubC M parent child)) ->
    restricts O2 (Cyc M) parent (restrict_representation prefix (o2_restrict_one_C id))
| res_o2_d id prefix M parent child : o2_subgroup id = Ok (SubFin (SubD M parent child)) ->
    restricts O2 (Dih M) parent (restrict_representation prefix (o2_restrict_one_D id))
| res_o2_s id prefix parent child : o2_subgroup id = Ok (SubSO2 parent child) ->
    restricts O2 So2 parent (restrict_representation prefix (o2_restrict_one_S id))
| res_o2_o id prefix parent child : o2_subgroup id = Ok (SubO2 parent child) ->
    restricts O2 O2 parent (restrict_representation prefix (o2_restrict_one_O id)).

(** the representations of g that can be built: irreps, regular, induced (and quotient) representations, direct sums without a change of
    basis, restrictions, the parts of a disentangled representation, and changes of basis with the default declaration *)
Inductive built : forall g : grp, rep (elt g) -> Prop :=
| built_irrep g ir name : is_group g -> is_irrep g ir -> built g (rep_of_irrep name ir)
| built_regular_cyc N r : (0 < N)%Z -> cyc_regular_representation N = Ok r -> built (Cyc N) r
| built_regular_dih N r : (0 < N)%Z -> dih_regular_representation N = Ok r -> built (Dih N) r
| built_induced_cyc N fg M sg parent child restrict name ir r : (0 < N)%Z -> cyc_fgroup N = Ok fg -> cyc_subgroup N M = Ok (sg, parent, child) ->
    is_irrep (Cyc M) ir -> induced_representation fg (cyc_elements M) parent child restrict name ir = Ok r -> built (Cyc N) r
| built_induced_dih_c N fg id M parent child restrict name ir r : (0 < N)%Z -> dih_fgroup N = Ok fg -> dih_subgroup N id = Ok (SubC M parent child) ->
    is_irrep (Cyc M) ir -> induced_representation fg (cyc_elements M) parent child restrict name ir = Ok r -> built (Dih N) r
| built_induced_dih_d N fg id M parent child restrict name ir r : (0 < N)%Z -> dih_fgroup N = Ok fg -> dih_subgroup N id = Ok (SubD M parent child) ->
    is_irrep (Dih M) ir -> induced_representation fg (dih_elements M) parent child restrict name ir = Ok r -> built (Dih N) r
| built_induced_o2 linv name k ir r : inverts_id linv -> so2_irrep k = Ok ir -> o2_induced_representation linv name (None, (-1)%Z) ir = Ok r -> built O2 r
| built_sum g l name r : (forall q, In q l -> built g q) -> directsum l name = Ok r -> built g r
| built_restricted g h parent f r inv r' : restricts g h parent f -> built g r -> f r inv = Ok r' -> rep_accepted r' -> built h (restrict_trivial_patch r')
| built_part g r P parts q : built g r -> disentangle r = Ok (P, parts) -> In q parts -> built g q
| built_changed g r Q Qinv name : built g r -> inverse_pair (rp_size r) Q Qinv -> built g (change_basis r Q Qinv name None).
