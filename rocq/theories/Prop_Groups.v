(** C01-C06: groups, subgroups, irreps.  Each theorem is a one-line appeal to a lemma of Proofs_*.v,
    followed by Print Assumptions and by concrete cases meeting the hypotheses. *)
From Coq Require Import Reals ZArith String List Bool Lia Lra.
From Verif Require Import Base Spec Model_Groups Proofs_Groups Proofs_Cont Proofs_Irreps.
Import ListNotations.
Open Scope R_scope.

(** ** C01 *)
(** [cyclic_group(N)]: the listed elements are the N integers 0..N-1 without repetition, they are
    exactly the accepted ones, and they form an abelian group. *)
Theorem C01_cyclic_group_laws : forall N : Z, (0 < N)%Z ->
  group_laws (fun e => cyc_is_element N e = true) eq (cyc_combine N) (cyc_inverse N) cyc_identity /\
  (forall a b, cyc_combine N a b = cyc_combine N b a) /\
  (forall e, cyc_is_element N e = true <-> (0 <= e < N)%Z) /\
  length (cyc_elements N) = Z.to_nat N /\ NoDup (cyc_elements N) /\
  (forall e, In e (cyc_elements N) <-> cyc_is_element N e = true).
Proof.
  exact (fun N H => conj (cyc_laws N H) (conj (cyc_comm N) (conj (cyc_el_iff N) (cyc_elements_spec N H)))).
Qed.
Print Assumptions C01_cyclic_group_laws.

(** non-vacuity: C_6 has six elements; 4 + 5 = 3; the inverse of 4 is 2 *)
Example C01_ex : cyc_elements 6 = [0;1;2;3;4;5]%Z /\ cyc_combine 6 4 5 = 3%Z /\ cyc_inverse 6 4 = 2%Z /\
  cyc_group 6 = Ok 6%Z /\ cyc_group 0 = Err "AssertionError".
Proof. repeat split. Qed.

(** ** C02 *)
Theorem C02_dihedral_group_laws : forall N : Z, (0 < N)%Z ->
  group_laws (fun e => dih_is_element N e = true) eq (dih_combine N) (dih_inverse N) dih_identity /\
  (forall j k, dih_is_element N (j, k) = true <-> (j = 0 \/ j = 1)%Z /\ (0 <= k < N)%Z) /\
  (length (dih_elements N) = (2 * Z.to_nat N)%nat /\ NoDup (dih_elements N) /\
   (forall e, In e (dih_elements N) <-> dih_is_element N e = true)) /\
  (* reflections are involutions, and conjugate rotations to their inverses *)
  (forall a b, (0 <= a < N)%Z -> (0 <= b < N)%Z ->
     dih_combine N (1, a)%Z (1, a)%Z = dih_identity /\
     dih_combine N (dih_combine N (1, a)%Z (0, b)%Z) (dih_inverse N (1, a)%Z) = dih_inverse N (0, b)%Z).
Proof.
  exact (fun N H => conj (dih_laws N H) (conj (dih_el_iff N) (conj (dih_elements_spec N H)
    (fun a b => dih_reflection N a b H)))).
Qed.
Print Assumptions C02_dihedral_group_laws.

(** non-vacuity: in D_4 reflections and rotations do not commute *)
Example C02_ex : dih_combine 4 (1, 0)%Z (0, 1)%Z = (1, 3)%Z /\ dih_combine 4 (0, 1)%Z (1, 0)%Z = (1, 1)%Z.
Proof. split; reflexivity. Qed.

(** ** C03 *)
(** equality of the library is equality of angles modulo 2 pi (and of flip bits) *)
Theorem C03_continuous_group_laws :
  (forall a b, so2_equal a b = true <-> exists k : Z, a = b + 2 * IZR k * PI) /\
  group_laws (fun _ => True) (fun a b => so2_equal a b = true) so2_combine so2_inverse so2_identity /\
  (forall a b, 0 <= so2_combine a b < 2 * PI /\ 0 <= so2_inverse a < 2 * PI) /\
  (forall a a' b b', so2_equal a a' = true -> so2_equal b b' = true ->
     so2_combine a b = so2_combine a' b' /\ so2_inverse a = so2_inverse a') /\
  (forall a b, o2_equal a b = true <-> fst a = fst b /\ exists k : Z, snd a = snd b + 2 * IZR k * PI) /\
  group_laws (fun e => o2_is_element e = true) (fun a b => o2_equal a b = true) o2_combine o2_inverse o2_identity /\
  (forall a a' b b', o2_equal a a' = true -> o2_equal b b' = true ->
     o2_equal (o2_combine a b) (o2_combine a' b') = true /\ o2_equal (o2_inverse a) (o2_inverse a') = true).
Proof.
  split; [exact so2_equal_iff|]. split.
  { destruct so2_laws. split; intros; try (apply so2_equal_iff); auto. }
  split; [exact so2_range|]. split.
  { intros a a' b b' Ha Hb. apply so2_compat; apply so2_equal_iff; auto. }
  split; [exact o2_equal_iff|]. split.
  { destruct o2_laws. unfold o2_el in *. split; intros; try (apply o2_equal_iff); auto. }
  intros a a' b b' Ha Hb. rewrite !o2_equal_iff in *. apply o2_compat; auto.
Qed.
Print Assumptions C03_continuous_group_laws.

(** non-vacuity: 3pi/2 + pi = pi/2 in SO(2) *)
Example C03_ex : so2_equal (so2_combine (3 * PI / 2) PI) (PI / 2) = true.
Proof.
  apply so2_equal_iff. unfold so2_combine. eapply cong2pi_trans; [apply cong2pi_rmod|].
  exists 1%Z. field.
Qed.

(** ** C04 *)
Theorem C04_cyclic_subgroups : forall N id : Z, (0 < N)%Z ->
  ((exists s, cyc_subgroup N id = Ok s) <-> (0 < id)%Z /\ (N mod id = 0)%Z) /\
  forall sg parent child, cyc_subgroup N id = Ok (sg, parent, child) ->
   sg = id /\
   embedding (cyc_el id) eq (cyc_combine id) cyc_identity (cyc_el N) eq (cyc_combine N) cyc_identity parent /\
   exact_partial_inverse (cyc_el id) (cyc_el N) parent child.
Proof.
  intros N id HN. split; [apply cyc_subgroup_ok; auto|]. intros sg parent child H.
  destruct (cyc_subgroup_spec N id sg parent child HN H) as [H1 [H2 [H3 H4]]].
  split; [auto|]. split; [auto|]. split; auto.
Qed.
Print Assumptions C04_cyclic_subgroups.

Theorem C04_dihedral_subgroups : forall (N : Z) (id : option Z * Z), (0 < N)%Z ->
  ((exists s, dih_subgroup N id = Ok s) <->
     (0 < snd id)%Z /\ (N mod snd id = 0)%Z /\
     match fst id with None => True | Some a => (0 <= a < N / snd id)%Z end) /\
  forall s, dih_subgroup N id = Ok s ->
   match s with
   | SubC M parent child =>
      M = (match fst id with None => snd id | Some _ => 2%Z end) /\
      embedding (cyc_el M) eq (cyc_combine M) cyc_identity (dih_el N) eq (dih_combine N) dih_identity parent /\
      exact_partial_inverse (cyc_el M) (dih_el N) parent child
   | SubD M parent child =>
      M = snd id /\
      embedding (dih_el M) eq (dih_combine M) dih_identity (dih_el N) eq (dih_combine N) dih_identity parent /\
      exact_partial_inverse (dih_el M) (dih_el N) parent child
   end.
Proof.
  exact (fun N id HN => conj (dih_subgroup_ok N id HN) (fun s => dih_subgroup_spec N id s HN)).
Qed.
Print Assumptions C04_dihedral_subgroups.

(** non-vacuity: C_3 in C_6, D_2 about axis 1 in D_6 *)
Example C04_ex :
  (exists p c, cyc_subgroup 6 3 = Ok (3%Z, p, c) /\ p 2%Z = 4%Z /\ c 4%Z = Some 2%Z /\ c 3%Z = None) /\
  (exists p c, dih_subgroup 6 (Some 1%Z, 2%Z) = Ok (SubD 2 p c) /\ p (1, 1)%Z = (1, 4)%Z /\ c (1, 4)%Z = Some (1, 1)%Z /\ c (0, 1)%Z = None).
Proof. split; do 2 eexists; split; try reflexivity; repeat split. Qed.

(** ** C05 *)
(** the child map always answers with an integer naming the right subgroup element modulo the order;
    that it answers with an element is false: see the _refuted theorems. *)
Theorem C05_so2_subgroups_partial : forall (M : Z) s, so2_subgroup M = Ok s ->
  exists parent child, s = SubC M parent child /\ (0 < M)%Z /\
  embedding (cyc_el M) eq (cyc_combine M) cyc_identity so2_el cong2pi so2_combine so2_identity parent /\
  (forall h, cyc_el M h -> child (parent h) = Some h) /\
  (forall g, match child g with
             | Some h => cong2pi g (parent (h mod M)%Z) /\ (0 <= g < 2 * PI -> cyc_el M h)
             | None => forall h, cyc_el M h -> ~ cong2pi g (parent h)
             end).
Proof. exact so2_subgroup_spec. Qed.
Print Assumptions C05_so2_subgroups_partial.

Theorem C05_o2_subgroups_partial : forall (id : option R * Z) s, o2_subgroup id = Ok s ->
  match s with
  | SubO2 parent child =>
      embedding o2_el o2_eqv o2_combine o2_identity o2_el o2_eqv o2_combine o2_identity parent /\
      (forall g, o2_el g -> exists h, child g = Some h /\ o2_el h /\ o2_eqv (parent h) g) /\
      (forall h, o2_el h -> exists h', child (parent h) = Some h' /\ o2_eqv h' h)
  | SubSO2 parent child =>
      embedding so2_el cong2pi so2_combine so2_identity o2_el o2_eqv o2_combine o2_identity parent /\
      (forall h, child (parent h) = Some h) /\
      (forall g, o2_el g -> match child g with
                 | Some h => parent h = g
                 | None => forall h, ~ o2_eqv (parent h) g end)
  | SubFin (SubC M parent child) =>
      embedding (cyc_el M) eq (cyc_combine M) cyc_identity o2_el o2_eqv o2_combine o2_identity parent /\
      (forall h, cyc_el M h -> child (parent h) = Some h) /\
      (forall g, o2_el g -> match child g with
                 | Some h => o2_eqv g (parent (h mod M)%Z)
                 | None => forall h, cyc_el M h -> ~ o2_eqv (parent h) g end)
  | SubFin (SubD M parent child) =>
      embedding (dih_el M) eq (dih_combine M) dih_identity o2_el o2_eqv o2_combine o2_identity parent /\
      (forall h, dih_el M h -> child (parent h) = Some h) /\
      (forall g, o2_el g -> match child g with
                 | Some h => o2_eqv g (parent (fst h, snd h mod M)%Z)
                 | None => forall h, dih_el M h -> ~ o2_eqv (parent h) g end)
  end.
Proof. exact o2_fin_subgroup_spec. Qed.
Print Assumptions C05_o2_subgroups_partial.

(** the angle 2*pi (a legal element of SO(2), equal to 0) is mapped to 4, which is not in C_4 *)
Theorem C05_so2_child_refuted : exists M parent child g h,
  so2_subgroup M = Ok (SubC M parent child) /\ child g = Some h /\ ~ cyc_el M h.
Proof. exact so2_child_out_of_range. Qed.
Print Assumptions C05_so2_child_refuted.

(** using only the library's own operations: the child of the inverse of the parent of 1 is -1 *)
Theorem C05_o2_child_refuted : exists parent child,
  o2_subgroup (None, 4%Z) = Ok (SubFin (SubC 4 parent child)) /\
  child (o2_inverse (parent 1%Z)) = Some (-1)%Z /\ ~ cyc_el 4 (-1)%Z.
Proof. exact o2_child_out_of_range. Qed.
Print Assumptions C05_o2_child_refuted.

(** non-vacuity of the two partial theorems: the subgroups exist *)
Example C05_ex : (exists s, so2_subgroup 4 = Ok s) /\ (exists s, o2_subgroup (None, 3%Z) = Ok s) /\
   (exists s, o2_subgroup (None, (-1)%Z) = Ok s) /\ (exists s, o2_subgroup (Some 0, 3%Z) = Ok s).
Proof.
  repeat split; try (eexists; reflexivity).
  unfold o2_subgroup; cbn [fst snd Z.eqb]. unfold Rleb, Rltb.
  destruct (Rle_dec 0 0); [|lra]. destruct (Rlt_dec 0 (2 * PI / 3)); [eexists; reflexivity|].
  generalize PI_RGT_0; lra.
Qed.

(** ** C06 *)
Theorem C06_irreps :
  (forall N k, (0 < N)%Z ->
     ((exists ir, cyc_irrep N k = Ok ir) <-> (0 <= k <= N / 2)%Z) /\
     forall ir, cyc_irrep N k = Ok ir ->
       is_representation (cyc_el N) (cyc_combine N) cyc_identity (ir_size ir) (ir_mat ir) /\
       is_orthogonal_rep (cyc_el N) (ir_size ir) (ir_mat ir)) /\
  (forall N j k, (0 < N)%Z ->
     ((exists ir, dih_irrep N j k = Ok ir) <->
        (0 <= k <= N / 2)%Z /\ (j = 1 \/ j = 0 /\ (k = 0 \/ N = 2 * k))%Z) /\
     forall ir, dih_irrep N j k = Ok ir ->
       is_representation (dih_el N) (dih_combine N) dih_identity (ir_size ir) (ir_mat ir) /\
       is_orthogonal_rep (dih_el N) (ir_size ir) (ir_mat ir)) /\
  (forall k, ((exists ir, so2_irrep k = Ok ir) <-> (0 <= k)%Z) /\
     forall ir, so2_irrep k = Ok ir ->
       is_representation so2_el so2_combine so2_identity (ir_size ir) (ir_mat ir) /\
       is_orthogonal_rep so2_el (ir_size ir) (ir_mat ir) /\
       (forall a b, cong2pi a b -> meq (ir_size ir) (ir_size ir) (ir_mat ir a) (ir_mat ir b))) /\
  (forall j k, ((exists ir, o2_irrep j k = Ok ir) <-> ((j = 1 /\ 0 <= k) \/ (j = 0 /\ k = 0))%Z) /\
     forall ir, o2_irrep j k = Ok ir ->
       is_representation o2_el o2_combine o2_identity (ir_size ir) (ir_mat ir) /\
       is_orthogonal_rep o2_el (ir_size ir) (ir_mat ir) /\
       (forall a b, o2_eqv a b -> meq (ir_size ir) (ir_size ir) (ir_mat ir a) (ir_mat ir b))).
Proof.
  exact (conj (fun N k H => conj (cyc_irrep_ok N k H) (fun ir => cyc_irrep_rep N k ir H))
        (conj (fun N j k H => conj (dih_irrep_ok N j k H) (fun ir => dih_irrep_rep N j k ir H))
        (conj (fun k => conj (so2_irrep_ok k) (fun ir => so2_irrep_rep k ir))
              (fun j k => conj (o2_irrep_ok j k) (fun ir => o2_irrep_rep j k ir))))).
Qed.
Print Assumptions C06_irreps.

(** non-vacuity: a 2-dimensional irrep of D_5 with a non-trivial value; a refused request *)
Example C06_ex :
  (exists ir, dih_irrep 5 1 2 = Ok ir /\ ir_size ir = 2%nat /\
     ir_mat ir (1, 0)%Z 1%nat 1%nat = -1) /\
  dih_irrep 5 0 2 = Err "ValueError" /\ cyc_irrep 5 3 = Err "AssertionError".
Proof.
  split; [|split; reflexivity]. eexists. split; [reflexivity|]. split; [reflexivity|].
  cbn [ir_mat fst snd]. unfold psichi, mat2, sgn; simpl.
  replace (2 * (0 * (2 * PI / 5)) + 0) with 0 by field. rewrite cos_0. ring.
Qed.
