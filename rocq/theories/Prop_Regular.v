(** C09, C10: regular, induced and quotient representations. *)
From Coq Require Import Reals ZArith String List Bool Lia Lra.
From Verif Require Import Base LinAlg Spec Model_Groups Model_Rep Model_Regular Proofs_Groups Proofs_Irreps Proofs_Rep
  Proofs_Regular Proofs_Regular2 Proofs_Induced.
Import ListNotations.
Open Scope R_scope.

(** ** C09 *)
(** [r] is the regular representation over the listed elements: the matrix of g has a 1 in row j, column i
    exactly when the j-th element is g times the i-th. *)
Definition left_translation {G} (els : list G) (d : G) (op : G -> G -> G) (g : G) (M : mat) : Prop :=
  forall j i, (j < length els)%nat -> (i < length els)%nat ->
    (nth j els d = op g (nth i els d) -> M j i = 1) /\
    (nth j els d <> op g (nth i els d) -> M j i = 0).

Lemma reg_perm_translation {G} (grp : fgroup G) (OK : fgroup_ok grp) g M :
  In g (fg_elements grp) -> meq (order grp) (order grp) M (reg_perm grp g) ->
  left_translation (fg_elements grp) (fg_id grp) (fg_combine grp) g M.
Proof.
  intros Hg HM j i Hj Hi. rewrite HM by auto. unfold reg_perm. fold (elem grp i) (elem grp j).
  assert (Ei := elem_el grp i Hi).
  destruct (Nat.eqb_spec j (index grp (fg_combine grp g (elem grp i)))) as [E|E]; split; intros Q; auto.
  - exfalso. apply Q. rewrite E. apply (elem_index grp OK). apply (op_el grp OK); auto.
  - exfalso. apply E. rewrite <- Q. symmetry; apply (index_elem grp OK); auto.
Qed.

(** Cyclic groups: construction succeeds for every N > 0, every irrep of C_N occurs exactly once, the change
    of basis is orthogonal, and the matrices are the left-translation permutations. *)
Theorem C09_regular_cyclic : forall N, (0 < N)%Z ->
  exists grp r, cyc_fgroup N = Ok grp /\ regular_representation grp = Ok r /\
    rp_size r = Z.to_nat N /\ rep_accepted r /\
    orthogonal (Z.to_nat N) (rp_cob r) /\
    (Forall (fun ir => exists k, cyc_irrep N k = Ok ir) (rp_irreps r)) /\
    is_representation (cyc_el N) (cyc_combine N) cyc_identity (Z.to_nat N) (rp_mat r) /\
    forall g, cyc_el N g -> left_translation (cyc_elements N) 0%Z (cyc_combine N) g (rp_mat r g).
Proof.
  intros N HN. exists (cyc_fg N). destruct (cyc_regular N HN) as [r [A [B [C [D [E [F [_ I]]]]]]]].
  exists r. split; [apply cyc_fgroup_eq; auto|]. split; [auto|]. split; [auto|]. split; [auto|]. split; [auto|].
  split; [apply Forall_forall; auto|].
  split.
  - rewrite <- B. apply rep_is_rep; auto. apply Forall_forall. intros ir Hir. destruct (C ir Hir) as [k Hk].
    apply (cyc_irrep_rep N k ir HN Hk).
  - intros g Hg. destruct (cyc_elements_spec N HN) as [E1 [_ E3]].
    apply (reg_perm_translation (cyc_fg N) (cyc_fg_ok N HN)); [apply E3; auto|].
    assert (O : order (cyc_fg N) = Z.to_nat N) by exact E1. rewrite O. apply I; auto.
Qed.
Print Assumptions C09_regular_cyclic.

Theorem C09_regular_dihedral : forall N, (0 < N)%Z ->
  exists grp r, dih_fgroup N = Ok grp /\ regular_representation grp = Ok r /\
    rp_size r = (2 * Z.to_nat N)%nat /\ rep_accepted r /\
    orthogonal (2 * Z.to_nat N) (rp_cob r) /\
    (Forall (fun ir => exists j k, dih_irrep N j k = Ok ir) (rp_irreps r)) /\
    is_representation (dih_el N) (dih_combine N) dih_identity (2 * Z.to_nat N) (rp_mat r) /\
    forall g, dih_el N g -> left_translation (dih_elements N) (0, 0)%Z (dih_combine N) g (rp_mat r g).
Proof.
  intros N HN. exists (dih_fg N). destruct (dih_regular N HN) as [r [A [B [C [D [E [F [_ I]]]]]]]].
  exists r. split; [apply dih_fgroup_eq; auto|]. split; [auto|]. split; [auto|]. split; [auto|]. split; [auto|].
  split; [apply Forall_forall; auto|].
  split.
  - rewrite <- B. apply rep_is_rep; auto. apply Forall_forall. intros ir Hir. destruct (C ir Hir) as [j [k Hk]].
    apply (dih_irrep_rep N j k ir HN Hk).
  - intros g Hg. destruct (dih_elements_spec N HN) as [E1 [_ E3]].
    apply (reg_perm_translation (dih_fg N) (dih_fg_ok N HN)); [apply E3; auto|].
    assert (O : order (dih_fg N) = (2 * Z.to_nat N)%nat) by exact E1. rewrite O. apply I; auto.
Qed.
Print Assumptions C09_regular_dihedral.

(** the multiplicities: every irrep of C_N once, every irrep of D_N as often as its dimension *)
Theorem C09_multiplicities : forall N, (0 < N)%Z ->
  (forall grp r, cyc_fgroup N = Ok grp -> regular_representation grp = Ok r -> rp_irreps r = fg_irreps grp) /\
  (forall grp r, dih_fgroup N = Ok grp -> regular_representation grp = Ok r ->
     rp_irreps r = concat (map (fun ir => repeat ir (ir_size ir)) (fg_irreps grp))).
Proof.
  intros N HN. split; intros grp r EG E.
  - rewrite (cyc_fgroup_eq N HN) in EG; injection EG as <-.
    destruct (cyc_regular N HN) as [r' [A [_ [_ [_ [_ [F _]]]]]]]. rewrite A in E; injection E as <-. exact F.
  - rewrite (dih_fgroup_eq N HN) in EG; injection EG as <-.
    destruct (dih_regular N HN) as [r' [A [_ [_ [_ [_ [F _]]]]]]]. rewrite A in E; injection E as <-.
    rewrite F. cbn [dih_fg fg_irreps]. rewrite map_map. reflexivity.
Qed.
Print Assumptions C09_multiplicities.

(** non-vacuity: C_5, element 2: column 4 has its 1 in row 1 *)
Example C09_ex : exists r, regular_representation (cyc_fg 5) = Ok r /\ rp_mat r 2%Z 1%nat 4%nat = 1 /\ rp_mat r 2%Z 2%nat 4%nat = 0.
Proof.
  destruct (C09_regular_cyclic 5 ltac:(lia)) as [grp [r [E [R [_ [_ [_ [_ [_ T]]]]]]]]].
  exists r. rewrite (cyc_fgroup_eq 5) in E by lia. injection E as <-. split; [exact R|].
  assert (H2 : cyc_el 5 2) by reflexivity. specialize (T 2%Z H2). split.
  - apply (proj1 (T 1%nat 4%nat ltac:(vm_compute; lia) ltac:(vm_compute; lia))). reflexivity.
  - apply (proj2 (T 2%nat 4%nat ltac:(vm_compute; lia) ltac:(vm_compute; lia))). vm_compute. discriminate.
Qed.

(** ** C10 *)
(** the matrix the builder computes for g (zero if it raises) *)
Definition ind_mat {G H} (grp : fgroup G) (subs : list H) parent child s rho (g : G) : mat :=
  match induced_matrix grp subs parent child s rho g with Ok M => M | Err _ => mzero end.

(** the cosets of the image of the subgroup: x and y in the same coset *)
Definition same_coset {G H} (op : G -> G -> G) (elH : H -> Prop) (parent : H -> G) (x y : G) : Prop :=
  exists h, elH h /\ y = op x (parent h).

(** everything the property asks of an inducing construction of size s with matrices rho *)
Record induced_good {G H} (grp : fgroup G) (subs : list H) (parent : H -> G) (child : G -> option H)
       (opH : H -> H -> H) (eH : H) (s : nat) (rho : H -> mat) : Prop := {
  (** no exception, on any element *)
  ig_total : forall g, In g (fg_elements grp) -> exists M, induced_matrix grp subs parent child s rho g = Ok M;
  (** as many cosets as |G|/|H| *)
  ig_size : (length (representatives grp subs parent) * length subs = length (fg_elements grp))%nat;
  (** one representative per coset *)
  ig_reps : forall x, In x (fg_elements grp) -> exists r, In r (representatives grp subs parent) /\
      same_coset (fg_combine grp) (fun h => In h subs) parent r x /\
      forall r', In r' (representatives grp subs parent) ->
        same_coset (fg_combine grp) (fun h => In h subs) parent r' x -> r' = r;
  ig_rep : is_representation (fun h => In h subs) opH eH s rho ->
      is_representation (fun g => In g (fg_elements grp)) (fg_combine grp) (fg_id grp)
        (length (representatives grp subs parent) * s) (ind_mat grp subs parent child s rho);
  ig_orth : is_representation (fun h => In h subs) opH eH s rho ->
      is_orthogonal_rep (fun h => In h subs) s rho ->
      is_orthogonal_rep (fun g => In g (fg_elements grp))
        (length (representatives grp subs parent) * s) (ind_mat grp subs parent child s rho);
  (** block (j,i) is rho(h) when g r_i = r_j h, and 0 when g r_i is not in the coset of r_j *)
  ig_blocks : forall g i j a b, In g (fg_elements grp) ->
      (i < length (representatives grp subs parent))%nat -> (j < length (representatives grp subs parent))%nat ->
      (a < s)%nat -> (b < s)%nat ->
      let ri := nth i (representatives grp subs parent) (fg_id grp) in
      let rj := nth j (representatives grp subs parent) (fg_id grp) in
      (forall h, In h subs -> fg_combine grp g ri = fg_combine grp rj (parent h) ->
          ind_mat grp subs parent child s rho g (j * s + b)%nat (i * s + a)%nat = rho h b a) /\
      (~ same_coset (fg_combine grp) (fun h => In h subs) parent rj (fg_combine grp g ri) ->
          ind_mat grp subs parent child s rho g (j * s + b)%nat (i * s + a)%nat = 0);
  (** if the builder returns, its change of basis is orthogonal and reproduces these matrices *)
  ig_build : forall restrict ir irreps cob inv, ir_size ir = s -> ir_mat ir = rho ->
      build_induced grp subs parent child restrict ir = Ok (irreps, cob, inv) ->
      orthogonal (length (representatives grp subs parent) * s) cob /\ inv = mtr cob /\
      forall g, In g (fg_elements grp) ->
        meq (length (representatives grp subs parent) * s) (length (representatives grp subs parent) * s)
          (mmul (length (representatives grp subs parent) * s)
            (mmul (length (representatives grp subs parent) * s) cob (bdiag (blocks irreps g))) inv)
          (ind_mat grp subs parent child s rho g)
}.

Lemma induced_good_of {G H} (grp : fgroup G) (OK : fgroup_ok grp) (subs : list H) parent child opH invH eH
  (SOK : subgroup_ok grp subs parent child opH invH eH) s rho :
  induced_good grp subs parent child opH eH s rho.
Proof.
  assert (T : forall g, In g (fg_elements grp) ->
     exists M, induced_matrix grp subs parent child s rho g = Ok M /\
       meq (length (representatives grp subs parent) * s) (length (representatives grp subs parent) * s)
           M (ind grp subs parent child s rho g)).
  { intros g Hg. exact (induced_matrix_ok grp OK subs parent child opH invH eH SOK s rho g Hg). }
  assert (E : forall g, In g (fg_elements grp) ->
     meq (length (representatives grp subs parent) * s) (length (representatives grp subs parent) * s)
           (ind_mat grp subs parent child s rho g) (ind grp subs parent child s rho g)).
  { intros g Hg. destruct (T g Hg) as [M [A B]]. unfold ind_mat. rewrite A. exact B. }
  assert (I0 := gl_id_el _ _ _ _ _ (fo_laws grp OK)).
  split.
  - intros g Hg. destruct (T g Hg) as [M [A _]]. eauto.
  - symmetry. apply (lagrange grp OK subs parent child opH invH eH SOK).
  - intros x Hx. destruct (coset_spec grp OK subs parent child opH invH eH SOK x Hx) as [r [_ [A [B C]]]].
    exists r. auto.
  - intros Hr. destruct (ind_rep grp OK subs parent child opH invH eH SOK s rho Hr) as [A B]. split.
    + rewrite (E _ I0). exact A.
    + intros a b Ha Hb. rewrite (E _ (op_el grp OK a b Ha Hb)), (E _ Ha), (E _ Hb). apply B; auto.
  - intros Hr Ho g Hg. apply (orthogonal_ext _ (ind grp subs parent child s rho g)).
    + symmetry. apply E; auto.
    + apply (ind_orth grp OK subs parent child opH invH eH SOK s rho Hr Ho g Hg).
  - intros g i j a b Hg Hi Hj Ha Hb ri rj.
    rewrite (E g Hg) by nia. unfold ind, rp.
    destruct (divmod_unique s j b Hb) as [-> ->]. destruct (divmod_unique s i a Ha) as [-> ->].
    fold ri rj.
    assert (Eri : In ri (fg_elements grp)) by (apply (rp_el grp OK subs parent child opH invH eH SOK); auto).
    assert (Erj : In rj (fg_elements grp)) by (apply (rp_el grp OK subs parent child opH invH eH SOK); auto).
    assert (Eg : In (fg_combine grp g ri) (fg_elements grp)) by (apply (op_el grp OK); auto).
    unfold rho0. split.
    + intros h Hh Q. rewrite Q, (inv_op_l grp OK) by (auto; apply (em_el _ _ _ _ _ _ _ _ _ (so_emb _ _ _ _ _ _ _ SOK)); auto).
      rewrite (child_parent grp subs parent child opH invH eH SOK) by auto. reflexivity.
    + intros Hn. destruct (child _) as [h|] eqn:Ec; [|reflexivity]. exfalso. apply Hn.
      apply (child_rel grp OK subs parent child opH invH eH SOK); auto.
      exists h. split; auto. refine (proj1 (child_some grp subs parent child opH invH eH SOK _ _ _ Ec)).
      apply (op_el grp OK); auto. apply (inv_el grp OK); auto.
  - intros restrict ir irreps cob inv <- <- Eb.
    destruct (build_induced_spec grp OK subs parent child opH invH eH SOK restrict ir irreps cob inv Eb) as [A [B C]].
    split; [exact A|]. split; [exact B|]. intros g Hg. rewrite (C g Hg). symmetry. apply E; auto.
Qed.

Lemma embedding_iff {H G} (elH elH' : H -> Prop) eqH opH eH (elG elG' : G -> Prop) eqG opG eG f :
  (forall x, elH x <-> elH' x) -> (forall x, elG x <-> elG' x) ->
  embedding elH eqH opH eH elG eqG opG eG f -> embedding elH' eqH opH eH elG' eqG opG eG f.
Proof.
  intros A B [X1 X2 X3 X4]. split; intros; auto.
  - apply B, X1, A; auto.
  - apply X3; apply A; auto.
  - apply X4; auto; apply A; auto.
Qed.
Lemma epi_iff {H G} (elH elH' : H -> Prop) (elG elG' : G -> Prop) parent child :
  (forall x, elH x <-> elH' x) -> (forall x, elG x <-> elG' x) ->
  exact_partial_inverse elH elG parent child -> exact_partial_inverse elH' elG' parent child.
Proof.
  intros A B [X1 X2]. split.
  - intros h Hh. apply X1, A; auto.
  - intros g Hg. specialize (X2 g (proj2 (B g) Hg)). destruct (child g).
    + destruct X2; split; auto. apply A; auto.
    + intros h Hh. apply X2, A; auto.
Qed.

Lemma sub_ok_CC N id sg parent child : (0 < N)%Z -> cyc_subgroup N id = Ok (sg, parent, child) ->
  subgroup_ok (cyc_fg N) (cyc_elements id) parent child (cyc_combine id) (cyc_inverse id) cyc_identity.
Proof.
  intros HN E. destruct (proj1 (cyc_subgroup_ok N id HN) ltac:(eauto)) as [Hid _].
  destruct (cyc_subgroup_spec N id sg parent child HN E) as [_ [A B]].
  destruct (cyc_elements_spec N HN) as [_ [_ EN]]. destruct (cyc_elements_spec id Hid) as [_ [ND EI]].
  assert (EN' : forall e, cyc_el N e <-> In e (cyc_elements N)) by (intros; symmetry; auto).
  assert (EI' : forall e, cyc_el id e <-> In e (cyc_elements id)) by (intros; symmetry; auto).
  split; auto.
  - apply (group_laws_iff _ _ _ _ _ _ EI'), cyc_laws; auto.
  - apply (embedding_iff _ _ _ _ _ _ _ _ _ _ _ EI' EN' A).
  - apply (epi_iff _ _ _ _ _ _ EI' EN'). exact B.
Qed.

Theorem C10_induced_cyclic : forall N grp id sg parent child s rho, (0 < N)%Z ->
  cyc_fgroup N = Ok grp -> cyc_subgroup N id = Ok (sg, parent, child) ->
  induced_good grp (cyc_elements id) parent child (cyc_combine id) cyc_identity s rho.
Proof.
  intros N grp id sg parent child s rho HN EG E.
  rewrite (cyc_fgroup_eq N HN) in EG; injection EG as <-.
  exact (induced_good_of _ (cyc_fg_ok N HN) _ _ _ _ _ _ (sub_ok_CC N id sg parent child HN E) s rho).
Qed.
Print Assumptions C10_induced_cyclic.

(** the order in a valid dihedral subgroup id is positive *)
Lemma dih_sub_pos N id s : (0 < N)%Z -> dih_subgroup N id = Ok s ->
  match s with SubC M _ _ => (0 < M)%Z | SubD M _ _ => (0 < M)%Z end.
Proof.
  intros HN E. destruct (proj1 (dih_subgroup_ok N id HN) ltac:(eauto)) as [Hid _].
  assert (X := dih_subgroup_spec N id s HN E). destruct s; destruct X as [-> _]; auto.
  destruct (fst id); auto. lia.
Qed.

Lemma sub_ok_D N id s : (0 < N)%Z -> dih_subgroup N id = Ok s ->
  match s with
  | SubC M parent child =>
    subgroup_ok (dih_fg N) (cyc_elements M) parent child (cyc_combine M) (cyc_inverse M) cyc_identity
  | SubD M parent child =>
    subgroup_ok (dih_fg N) (dih_elements M) parent child (dih_combine M) (dih_inverse M) dih_identity
  end.
Proof.
  intros HN E. assert (P := dih_sub_pos N id s HN E). assert (X := dih_subgroup_spec N id s HN E).
  destruct (dih_elements_spec N HN) as [_ [_ EN]].
  assert (EN' : forall e, dih_el N e <-> In e (dih_elements N)) by (intros; symmetry; auto).
  destruct s as [M parent child|M parent child]; destruct X as [_ [A B]].
  - destruct (cyc_elements_spec M P) as [_ [ND EI]].
    assert (EI' : forall e, cyc_el M e <-> In e (cyc_elements M)) by (intros; symmetry; auto).
    split; auto.
    + apply (group_laws_iff _ _ _ _ _ _ EI'), cyc_laws; auto.
    + apply (embedding_iff _ _ _ _ _ _ _ _ _ _ _ EI' EN' A).
    + apply (epi_iff _ _ _ _ _ _ EI' EN'). exact B.
  - destruct (dih_elements_spec M P) as [_ [ND EI]].
    assert (EI' : forall e, dih_el M e <-> In e (dih_elements M)) by (intros; symmetry; auto).
    split; auto.
    + apply (group_laws_iff _ _ _ _ _ _ EI'), dih_laws; auto.
    + apply (embedding_iff _ _ _ _ _ _ _ _ _ _ _ EI' EN' A).
    + apply (epi_iff _ _ _ _ _ _ EI' EN'). exact B.
Qed.

Theorem C10_induced_dihedral : forall N grp id sub s, (0 < N)%Z ->
  dih_fgroup N = Ok grp -> dih_subgroup N id = Ok sub ->
  match sub with
  | SubC M parent child => forall rho,
      induced_good grp (cyc_elements M) parent child (cyc_combine M) cyc_identity s rho
  | SubD M parent child => forall rho,
      induced_good grp (dih_elements M) parent child (dih_combine M) dih_identity s rho
  end.
Proof.
  intros N grp id sub s HN EG E. rewrite (dih_fgroup_eq N HN) in EG; injection EG as <-. assert (X := sub_ok_D N id sub HN E).
  destruct sub; intros rho; exact (induced_good_of _ (dih_fg_ok N HN) _ _ _ _ _ _ X s rho).
Qed.
Print Assumptions C10_induced_dihedral.

(** Quotient representation: inducing the trivial irrep permutes the cosets. *)
Theorem C10_quotient_permutation : forall (G H : Type) (grp : fgroup G) (subs : list H) parent child opH eH,
  induced_good grp subs parent child opH eH 1 (fun _ => mid) ->
  forall g i j, In g (fg_elements grp) ->
    (i < length (representatives grp subs parent))%nat -> (j < length (representatives grp subs parent))%nat ->
    let ri := nth i (representatives grp subs parent) (fg_id grp) in
    let rj := nth j (representatives grp subs parent) (fg_id grp) in
    let M := ind_mat grp subs parent child 1 (fun _ => mid) g in
    (same_coset (fg_combine grp) (fun h => In h subs) parent rj (fg_combine grp g ri) -> M j i = 1) /\
    (~ same_coset (fg_combine grp) (fun h => In h subs) parent rj (fg_combine grp g ri) -> M j i = 0).
Proof.
  intros G H grp subs parent child opH eH IG g i j Hg Hi Hj ri rj M.
  assert (X := ig_blocks _ _ _ _ _ _ _ _ IG g i j 0 0 Hg Hi Hj ltac:(lia) ltac:(lia)).
  rewrite !Nat.mul_1_r, !Nat.add_0_r in X. destruct X as [X1 X2]. split.
  - intros [h [Hh E]]. unfold M. rewrite (X1 h Hh E). reflexivity.
  - exact X2.
Qed.
Print Assumptions C10_quotient_permutation.

(** non-vacuity: D_4 over the reflection subgroup about axis 1: four cosets, a 2-dim rotation of C_4
    induced to D_4 *)
Example C10_ex_reps : match dih_subgroup 4 (Some 1%Z, 1%Z) with
  | Ok (SubC M parent child) => representatives (dih_fg 4) (cyc_elements M) parent = [(0, 0); (0, 1); (0, 2); (0, 3)]%Z
  | _ => False end.
Proof. reflexivity. Qed.
Example C10_ex : forall parent child, dih_subgroup 4 (None, 4%Z) = Ok (SubC 4 parent child) ->
  is_representation (fun g => In g (dih_elements 4)) (dih_combine 4) dih_identity
    (length (representatives (dih_fg 4) (cyc_elements 4) parent) * 2)
    (ind_mat (dih_fg 4) (cyc_elements 4) parent child 2 (fun e => psi (IZR e * (2 * PI / IZR 4)) 1 0)).
Proof.
  intros parent child E. apply (ig_rep _ _ _ _ _ _ _ _ (C10_induced_dihedral 4 _ _ _ 2 ltac:(lia) (dih_fgroup_eq 4 ltac:(lia)) E _)).
  destruct (cyc_elements_spec 4 ltac:(lia)) as [_ [_ E3]].
  apply (is_rep_iff (cyc_el 4)); [intros; symmetry; auto|].
  exact (proj1 (cyc_irrep_rep 4 1 _ ltac:(lia) eq_refl)).
Qed.
