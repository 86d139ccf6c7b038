(** C07, C08: representations assembled from irreps, and their restriction. *)
From Coq Require Import Reals ZArith String List Bool Lia Lra.
From Verif Require Import Base Spec Model_Groups Model_Rep Proofs_Groups Proofs_Cont Proofs_Irreps Proofs_Rep Proofs_Restrict.
Import ListNotations.
Open Scope R_scope.

(** ** C07 *)
(** Any group: a list of irreps with an invertible change of basis is a representation; it is
    orthogonal when the change of basis is. *)
Theorem C07_representation : forall (G : Type) (el : G -> Prop) (op : G -> G -> G) (e : G) (r : rep G),
  inverse_pair (rp_size r) (rp_cob r) (rp_inv r) ->
  Forall (fun ir => is_representation el op e (ir_size ir) (ir_mat ir)) (rp_irreps r) ->
  is_representation el op e (rp_size r) (rp_mat r) /\
  (orthogonal (rp_size r) (rp_cob r) ->
   Forall (fun ir => is_orthogonal_rep el (ir_size ir) (ir_mat ir)) (rp_irreps r) ->
   is_orthogonal_rep el (rp_size r) (rp_mat r)).
Proof.
  exact (fun G el op e r Ha Hi => conj (rep_is_rep el op e r Ha Hi) (rep_is_orth el r Ha)).
Qed.
Print Assumptions C07_representation.

(** directsum: accepted, sizes add up, irreps concatenate, block-diagonal action in order *)
Theorem C07_directsum : forall (G : Type) (l : list (rep G)) (name : option string),
  (l <> [] -> exists r, directsum l name = Ok r) /\
  forall r, directsum l name = Ok r ->
   rp_irreps r = concat (map rp_irreps l) /\
   (Forall rep_accepted l -> rep_accepted r /\ rp_size r = nsum (map rp_size l)) /\
   forall g, meq (nsum (map rp_size l)) (nsum (map rp_size l))
               (rp_mat r g) (bdiag (map (fun s => (rp_size s, rp_mat s g)) l)).
Proof.
  intros G l name. split.
  - destruct l; [congruence|]. intros _; eexists; reflexivity.
  - intros r H. split; [apply (directsum_irreps l name r H)|]. split.
    + intros HF; apply (directsum_accepted l name r HF H).
    + intros g; apply (directsum_mat l name r g H).
Qed.
Print Assumptions C07_directsum.

(** change_basis and directsum with a change of basis *)
Theorem C07_change_basis : forall (G : Type) (r : rep G) (Q Qi : mat) (name : string) nl,
  rep_accepted r -> inverse_pair (rp_size r) Q Qi ->
  rep_accepted (change_basis r Q Qi name nl) /\
  rp_size (change_basis r Q Qi name nl) = rp_size r /\
  forall g, meq (rp_size r) (rp_size r) (rp_mat (change_basis r Q Qi name nl) g)
                (mmul (rp_size r) (mmul (rp_size r) Q (rp_mat r g)) Qi).
Proof.
  exact (fun G r Q Qi name nl H1 H2 => conj (change_basis_accepted r Q Qi name nl H1 H2)
    (conj eq_refl (fun g => change_basis_mat r Q Qi name nl g))).
Qed.
Print Assumptions C07_change_basis.

Theorem C07_directsum_change_of_basis : forall (G : Type) (l : list (rep G)) (Q inv : mat) name r r0,
  Forall rep_accepted l -> directsum l name = Ok r0 -> directsum_cob l Q inv name = Ok r ->
  rep_accepted r -> forall Qi, inverse_pair (rp_size r0) Q Qi ->
  rp_size r = rp_size r0 /\
  forall g, meq (rp_size r) (rp_size r) (rp_mat r g) (mmul (rp_size r) (mmul (rp_size r) Q (rp_mat r0 g)) Qi).
Proof.
  intros G l Q inv name r r0 HF H0 H1 Ha Qi HQ. unfold directsum_cob in H1. rewrite H0 in H1; simpl in H1.
  injection H1 as <-. split; [reflexivity|]. intros g.
  destruct (directsum_accepted l name r0 HF H0) as [A0 _].
  unfold rp_mat, rep_accepted, rp_size in *; cbn [rp_irreps rp_cob rp_inv] in *.
  set (n := isizes (rp_irreps r0)) in *.
  assert (E : meq n n inv (mmul n (rp_inv r0) Qi)).
  { eapply inverse_pair_unique; [exact Ha|]. apply inverse_pair_mmul; auto. }
  rewrite E, !(mmul_assoc_eq n n n n). reflexivity.
Qed.
Print Assumptions C07_directsum_change_of_basis.

(** non-vacuity: irrep 1 (+) irrep 0 of C_4 exists and is accepted *)
Example C07_ex : exists i0 i1 r, cyc_irrep 4 0 = Ok i0 /\ cyc_irrep 4 1 = Ok i1 /\
  directsum [rep_of_irrep "irrep_1" i1; rep_of_irrep "irrep_0" i0] None = Ok r /\
  rp_name r = "[irrep_1]_[irrep_0]"%string /\ cyc_rep 4 r /\ rp_size r = 3%nat.
Proof.
  assert (A : exists i, cyc_irrep 4 0 = Ok i /\ ir_size i = 1%nat) by (eexists; split; reflexivity).
  assert (B : exists i, cyc_irrep 4 1 = Ok i /\ ir_size i = 2%nat) by (eexists; split; reflexivity).
  destruct A as [i0 [A1 A2]]. destruct B as [i1 [B1 B2]].
  exists i0, i1. eexists. split; [auto|]. split; [auto|]. split; [reflexivity|]. split; [reflexivity|].
  split; [split|].
  - apply (directsum_accepted [rep_of_irrep "irrep_1" i1; rep_of_irrep "irrep_0" i0] None); [|reflexivity].
    repeat constructor; apply inverse_pair_mid.
  - cbn [rp_irreps]. constructor; [exists 1%Z; auto|constructor; [exists 0%Z; auto|constructor]].
  - unfold rp_size, isizes; simpl. rewrite A2, B2. reflexivity.
Qed.

(** ** C08 *)
(** For every group and subgroup id accepted by [subgroup], and every representation r given by irreps
    of the group and an invertible change of basis: the restriction can be built; and whatever inverse
    matrix is used for the new change of basis, an accepted result has the size of r, consists of irreps
    of the subgroup (hence is a representation of it), and its matrix at h is r's at parent(h). *)
Theorem C08_restriction :
  (forall N M prefix r sg parent child, (0 < N)%Z ->
    cyc_subgroup N M = Ok (sg, parent, child) -> cyc_rep N r ->
    good_restriction (cyc_el M) (cyc_rep M) parent r (restrict_representation prefix (cyc_restrict_one N M) r)) /\
  (forall M prefix r sg parent child,
    so2_subgroup M = Ok (SubC sg parent child) -> so2_rep r ->
    good_restriction (cyc_el M) (cyc_rep M) parent r (restrict_representation prefix (so2_restrict_one M) r)) /\
  (forall N id prefix r s, (0 < N)%Z -> dih_subgroup N id = Ok s -> dih_rep N r ->
    match s with
    | SubC M parent child => good_restriction (cyc_el M) (cyc_rep M) parent r
          (restrict_representation prefix (dih_restrict_one_C N id) r)
    | SubD M parent child => good_restriction (dih_el M) (dih_rep M) parent r
          (restrict_representation prefix (dih_restrict_one_D N id) r)
    end) /\
  (forall id prefix r s, o2_subgroup id = Ok s -> o2_rep r ->
    match s with
    | SubFin (SubC M parent child) => good_restriction (cyc_el M) (cyc_rep M) parent r
          (restrict_representation prefix (o2_restrict_one_C id) r)
    | SubFin (SubD M parent child) => good_restriction (dih_el M) (dih_rep M) parent r
          (restrict_representation prefix (o2_restrict_one_D id) r)
    | SubSO2 parent child => good_restriction so2_el so2_rep parent r
          (restrict_representation prefix (o2_restrict_one_S id) r)
    | SubO2 parent child => good_restriction o2_el o2_rep parent r
          (restrict_representation prefix (o2_restrict_one_O id) r)
    end).
Proof. exact (conj cyc_restriction (conj so2_restriction (conj dih_restriction o2_restriction))). Qed.
Print Assumptions C08_restriction.

Theorem C08_result_is_representation :
  (forall N r, (0 < N)%Z -> cyc_rep N r ->
     is_representation (cyc_el N) (cyc_combine N) cyc_identity (rp_size r) (rp_mat r)) /\
  (forall N r, (0 < N)%Z -> dih_rep N r ->
     is_representation (dih_el N) (dih_combine N) dih_identity (rp_size r) (rp_mat r)) /\
  (forall r, so2_rep r -> is_representation so2_el so2_combine so2_identity (rp_size r) (rp_mat r)) /\
  (forall r, o2_rep r -> is_representation o2_el o2_combine o2_identity (rp_size r) (rp_mat r)).
Proof. exact (conj cyc_rep_is (conj dih_rep_is (conj so2_rep_is o2_rep_is))). Qed.
Print Assumptions C08_result_is_representation.

(** non-vacuity: irrep_3 of C_8 restricted to C_4 folds to irrep_1 with a non-trivial change of basis *)
Example C08_ex : exists ir, cyc_irrep 8 3 = Ok ir /\
  exists s, cyc_restrict_one 8 4 ir = Ok (mat2 1 0 0 (-1), s) /\ map ir_freq s = [1%Z].
Proof. eexists. split; [reflexivity|]. eexists. split; reflexivity. Qed.
(** and the 2-dimensional irrep (1,2) of D_4 restricted to its reflection about axis 1 splits *)
Example C08_ex2 : exists ir, dih_irrep 6 1 2 = Ok ir /\
  exists C s, dih_restrict_one_C 6 (Some 1%Z, 1%Z) ir = Ok (C, s) /\ map ir_freq s = [0; 1]%Z.
Proof. eexists. split; [reflexivity|]. do 2 eexists. split; reflexivity. Qed.
