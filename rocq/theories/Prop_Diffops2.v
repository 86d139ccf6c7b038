(** C36, and the parts of C27 and C21 about bases of differential operators. *)
From Coq Require Import Reals ZArith String List Bool Arith Lia Lra.
From Verif Require Import Base Spec Model_Groups Proofs_Groups Proofs_Cont Model_Rep Proofs_Irreps Proofs_Rep Proofs_Restrict Model_GSpace Spec_GSpace Proofs_GSpace
  Model_Kernels Spec_Kernels Proofs_Kernels Proofs_Kernels2 Proofs_Kernels3 Proofs_Kernels5 Proofs_Kernels6 Proofs_Kernels7 Prop_Kernels
  Model_Diffops Model_Diffops2 Spec_Diffops Proofs_Diffops Proofs_Diffops2.
Import ListNotations.
Open Scope R_scope.

(** the symbol of a differential operator: replace d/dx, d/dy by the coordinates of a point *)
Definition symbol_of (d : dop) : point -> mat := fun p i j => hom_value (dp_coef d i j) (fst p) (snd p).
(** each entry has the coefficients of one order *)
Definition homogeneous (d : dop) : Prop := forall i j, length (dp_coef d i j) = S (dp_order d).

(** ** C36: P(g x) = rho_out(g) P(x) rho_in(g^-1) for every element of a basis *)
Theorem C36_cyclic : forall N rin rout power F T b, (0 < N)%Z -> cyc_rep N rin -> cyc_rep N rout ->
  diffops_CN_act_R2 N rin rout power F T = Ok b ->
  forall d, In d (tb_coefficients b) -> homogeneous d /\
    planar_constraint (SpRot (GC N)) EI (cyc_el N) (cyc_inverse N) (rp_size rout) (rp_size rin) (rp_mat rout) (rp_mat rin) (symbol_of d).
Proof.
  intros N rin rout power F T b HN Hi Ho Hb d Hd. destruct (tb_make_inv _ _ _ _ _ Hb) as [Hs _]. rewrite d_rotN_eq in Hs.
  assert (HB := sk_has _ _ _ _ (bounds_ok F T = true) (fun i o kb H => proj1 (assert_ok _ _ _ H)) Hs).
  apply In_nth_error in Hd. destruct Hd as [idx Hd].
  apply (tb_constraint _ _ _ _ _ rin rout b Hs) with (idx := idx); auto.
  - intros i o kb Ii Io. destruct Hi as [_ Fi], Ho as [_ Fo]. rewrite Forall_forall in Fi, Fo. destruct (Fi i Ii) as [n Hn]. destruct (Fo o Io) as [m Hm].
    apply (gq_rotN N F T n m); auto.
  - eapply planar_lin_iso. apply planar_rotN; auto.
  - apply (sk_CN N F T); auto.
  - apply nth_error_Some. unfold tb_dim. congruence.
Qed.
Print Assumptions C36_cyclic.

Theorem C36_dihedral : forall N axis rin rout power F T b, (0 < N)%Z -> dih_rep N rin -> dih_rep N rout ->
  diffops_DN_act_R2 N rin rout power axis F T = Ok b ->
  forall d, In d (tb_coefficients b) -> homogeneous d /\
    planar_constraint (SpFlipRot (GD N) axis) (fun g => EFI (fst g) (snd g)) (dih_el N) (dih_inverse N)
      (rp_size rout) (rp_size rin) (rp_mat rout) (rp_mat rin) (symbol_of d).
Proof.
  intros N axis rin rout power F T b HN Hi Ho Hb d Hd. destruct (tb_make_inv _ _ _ _ _ Hb) as [Hs _]. rewrite d_fliprotN_eq in Hs.
  assert (HB := sk_has _ _ _ _ (bounds_ok F T = true) (fun i o kb H => proj1 (assert_ok _ _ _ H)) Hs).
  apply In_nth_error in Hd. destruct Hd as [idx Hd].
  apply (tb_constraint _ _ _ _ _ rin rout b Hs) with (idx := idx); auto.
  - intros i o kb Ii Io. destruct Hi as [_ Fi], Ho as [_ Fo]. rewrite Forall_forall in Fi, Fo. destruct (Fi i Ii) as [ji [n Hn]]. destruct (Fo o Io) as [jo [m Hm]].
    apply (gq_fliprotN N axis F T ji n jo m); auto.
  - eapply planar_lin_iso. apply planar_fliprotN; auto.
  - apply (sk_DN N axis F T); auto.
  - apply nth_error_Some. unfold tb_dim. congruence.
Qed.
Print Assumptions C36_dihedral.

Theorem C36_mirror : forall N axis rin rout power F T b, cyc_rep N rin -> cyc_rep N rout ->
  diffops_Flip_act_R2 N rin rout power axis F T = Ok b ->
  N = 2%Z /\ forall d, In d (tb_coefficients b) -> homogeneous d /\
    planar_constraint (SpFlip (GC 2) axis) EI (cyc_el 2) (cyc_inverse 2) (rp_size rout) (rp_size rin) (rp_mat rout) (rp_mat rin) (symbol_of d).
Proof.
  intros N axis rin rout power F T b Hi Ho Hb. destruct (assert_ok _ _ _ Hb) as [HN Hb']. apply Z.eqb_eq in HN. subst N. split; auto. intros d Hd.
  destruct (tb_make_inv _ _ _ _ _ Hb') as [Hs _]. rewrite d_flips_eq in Hs.
  assert (HB := sk_has _ _ _ _ (bounds_ok F T = true) (fun i o kb H => proj1 (assert_ok _ _ _ H)) Hs).
  apply In_nth_error in Hd. destruct Hd as [idx Hd].
  apply (tb_constraint _ _ _ _ _ rin rout b Hs) with (idx := idx); auto.
  - intros i o kb Ii Io. destruct Hi as [_ Fi], Ho as [_ Fo]. rewrite Forall_forall in Fi, Fo. destruct (Fi i Ii) as [n Hn]. destruct (Fo o Io) as [m Hm].
    apply (gq_flips axis F T n m); auto.
  - eapply planar_lin_iso. apply planar_flip; auto.
  - apply (sk_Flip axis F T); auto.
  - apply nth_error_Some. unfold tb_dim. congruence.
Qed.
Print Assumptions C36_mirror.

(** the trivial space: nothing moves, and every operator is allowed *)
Theorem C36_trivial : forall N rin rout power F T b, cyc_rep N rin -> cyc_rep N rout ->
  diffops_Trivial_act_R2 N rin rout power F T = Ok b ->
  N = 1%Z /\ forall d, In d (tb_coefficients b) -> homogeneous d /\
    planar_constraint (SpTrivial (GC 1)) EI (cyc_el 1) (cyc_inverse 1) (rp_size rout) (rp_size rin) (rp_mat rout) (rp_mat rin) (symbol_of d).
Proof.
  intros N rin rout power F T b Hi Ho Hb. destruct (assert_ok _ _ _ Hb) as [HN Hb']. apply Z.eqb_eq in HN. subst N. split; auto. intros d Hd.
  destruct (C36_cyclic 1 rin rout power F T b ltac:(lia) Hi Ho Hb' d Hd) as [L P]. split; auto.
  intros g p Hg. specialize (P g p Hg). cbn [plane_action] in *.
  assert (g = 0%Z) as -> by (unfold cyc_el, cyc_is_element in Hg; lia).
  replace (2 * PI * 0 / 1) with 0 in P by field. rewrite rotate_0 in P. exact P.
Qed.
Print Assumptions C36_trivial.

Theorem C36_SO2 : forall B rin rout power b, so2_rep rin -> so2_rep rout ->
  diffops_SO2_act_R2 rin rout power = Ok b ->
  forall d, In d (tb_coefficients b) -> homogeneous d /\
    planar_constraint (SpRot (GSO2 B)) ER so2_el so2_inverse (rp_size rout) (rp_size rin) (rp_mat rout) (rp_mat rin) (symbol_of d).
Proof.
  intros B rin rout power b Hi Ho Hb d Hd. destruct (tb_make_inv _ _ _ _ _ Hb) as [Hs _]. rewrite d_rot_eq in Hs.
  apply In_nth_error in Hd. destruct Hd as [idx Hd].
  apply (tb_constraint _ _ _ _ _ rin rout b Hs) with (idx := idx); auto.
  - intros i o kb Ii Io. destruct Hi as [_ Fi], Ho as [_ Fo]. rewrite Forall_forall in Fi, Fo. destruct (Fi i Ii) as [n Hn]. destruct (Fo o Io) as [m Hm].
    apply (gq_rot n m); auto.
  - eapply planar_lin_iso. apply planar_rot; auto.
  - apply sk_SO2; auto.
  - apply nth_error_Some. unfold tb_dim. congruence.
Qed.
Print Assumptions C36_SO2.

Theorem C36_O2 : forall B axis rin rout power b, o2_rep rin -> o2_rep rout ->
  diffops_O2_act_R2 rin rout power axis = Ok b ->
  forall d, In d (tb_coefficients b) -> homogeneous d /\
    planar_constraint (SpFlipRot (GO2 B) axis) (fun g => EFR (fst g) (snd g)) o2_el o2_inverse
      (rp_size rout) (rp_size rin) (rp_mat rout) (rp_mat rin) (symbol_of d).
Proof.
  intros B axis rin rout power b Hi Ho Hb d Hd. destruct (tb_make_inv _ _ _ _ _ Hb) as [Hs _]. rewrite d_fliprot_eq in Hs.
  apply In_nth_error in Hd. destruct Hd as [idx Hd].
  apply (tb_constraint _ _ _ _ _ rin rout b Hs) with (idx := idx); auto.
  - intros i o kb Ii Io. destruct Hi as [_ Fi], Ho as [_ Fo]. rewrite Forall_forall in Fi, Fo. destruct (Fi i Ii) as [ji [n Hn]]. destruct (Fo o Io) as [jo [m Hm]].
    apply (gq_fliprot axis ji n jo m); auto.
  - eapply planar_lin_iso. apply planar_fliprot; auto.
  - apply sk_O2; auto.
  - apply nth_error_Some. unfold tb_dim. congruence.
Qed.
Print Assumptions C36_O2.

(** non-vacuity: gradient-like operators of C_4 from the trivial representation to frequency 1, up to order 3 *)
Example C36_ex : exists i0 i1 b, cyc_irrep 4 0 = Ok i0 /\ cyc_irrep 4 1 = Ok i1 /\
  cyc_rep 4 (rep_of_irrep "a" i0) /\ cyc_rep 4 (rep_of_irrep "b" i1) /\
  diffops_CN_act_R2 4 (rep_of_irrep "a" i0) (rep_of_irrep "b" i1) 1 (Some 3%Z) None = Ok b /\
  map dp_order (tb_coefficients b) = [3; 5; 1; 3; 3; 5; 1; 3]%nat /\
  (forall x y, hom_value (dp_coef (nth 2 (tb_coefficients b) (MkDop 0 (fun _ _ => []))) 0 0) x y = x /\
               hom_value (dp_coef (nth 2 (tb_coefficients b) (MkDop 0 (fun _ _ => []))) 1 0) x y = y).
Proof.
  assert (E1 : is_eye 1 mid = true).
  { apply forallb_forall. intros i _. apply forallb_forall. intros j _. destruct (Req_EM_T (mid i j) (mid i j)); congruence. }
  assert (E2 : is_eye 2 mid = true).
  { apply forallb_forall. intros i _. apply forallb_forall. intros j _. destruct (Req_EM_T (mid i j) (mid i j)); congruence. }
  do 3 eexists. split; [reflexivity|]. split; [reflexivity|].
  split; [split; [unfold rep_accepted; apply inverse_pair_mid|constructor; [exists 0%Z; reflexivity|constructor]]|].
  split; [split; [unfold rep_accepted; apply inverse_pair_mid|constructor; [exists 1%Z; reflexivity|constructor]]|].
  split; [reflexivity|].
  unfold tb_coefficients, sd_coefficients, change_dop. cbn [tb_1 sk_Ainv sk_B rep_of_irrep sk_in sk_out].
  unfold rp_size. cbn [rp_irreps rp_inv rp_cob rep_of_irrep isizes map ir_size nsum fold_right Nat.add]. rewrite E1, E2.
  split; [reflexivity|]. intros x y. cbn. change (Pos.to_nat 1) with 1%nat. cbn. change (Pos.to_nat 1) with 1%nat. cbn. split; ring.
Qed.

(** ** C27: the elements of a TensorBasis in the order of its coefficients.
    Element [idx] is operator q = idx / (max_power + 1) of the steerable basis, which is operator r of the basis between two
    irreps placed at the positions of these irreps, times the Laplacian to the power k = idx mod (max_power + 1); its attributes,
    from basis[idx] and from iteration, say so, and "order" is the order of the operator. *)
Theorem C27_tensor_basis : forall (G : Type) (mk : irrep G -> irrep G -> result kbasis) (rin rout : rep G) power (t : tbasis G),
  tb_make mk rin rout power = Ok t ->
  let n := (tb_power t + 1)%nat in
  Z.of_nat n = (power + 1)%Z /\ length (tb_iter t) = tb_dim t /\
  (forall idx, (idx < tb_dim t)%nat ->
    let q := (idx / n)%nat in let k := (idx mod n)%nat in
    exists ii oo r i o b d,
      nth_error (rp_irreps rin) ii = Some i /\ nth_error (rp_irreps rout) oo = Some o /\ mk i o = Ok b /\ (r < kb_dim b)%nat /\
      let e := nth r (kb_els b) kel0 in
      let attr := MkTA (ii, oo) r (ke_mu e) k (dp_order d) idx q k in
      tb_getitem t idx = Ok attr /\ nth_error (tb_iter t) idx = Some attr /\ nth_error (tb_coefficients t) idx = Some d /\
      dp_order d = (Z.abs_nat (ke_mu e) + 2 * k)%nat /\ homogeneous d /\
      forall p, meq (rp_size rout) (rp_size rin) (symbol_of d p)
        (fun u v => ((fst p) ^ 2 + (snd p) ^ 2) ^ k *
          mmul (rp_size rin) (mmul (rp_size rout) (rp_cob rout)
            (embed (isizes (firstn oo (rp_irreps rout))) (isizes (firstn ii (rp_irreps rin))) (ir_size o) (ir_size i) (symbol_of (irrep_dop b e) p)))
            (rp_inv rin) u v)) /\
  (forall idx, (tb_dim t <= idx)%nat -> tb_getitem t idx = Err "AssertionError"%string).
Proof.
  intros G mk rin rout power t H n. destruct (tb_make_inv _ _ _ _ _ H) as [Hs [HP HP']].
  assert (Dim := tb_dim_eq mk rin rout t Hs). fold n in Dim.
  destruct (blocks_facts mk rin rout (tb_1 t) Hs) as [_ [ET _]].
  split; [unfold n; lia|]. split; [unfold tb_iter; rewrite tb_iter_len, sd_iter_length, ET, Dim; reflexivity|]. split.
  - intros idx Hidx q k. assert (Hn : (0 < n)%nat) by (unfold n; lia).
    assert (Hq : (q < sk_dim (tb_1 t))%nat) by (apply Nat.div_lt_upper_bound; lia).
    destruct (sd_element mk rin rout (tb_1 t) Hs q Hq) as [ii [oo [r [i [o [b [d [Hi [Ho [Hb [Hr [Hf [Hit [Hd [Ld [Od V]]]]]]]]]]]]]]]].
    exists ii, oo, r, i, o, b, (mul_dop d (lap_dop k)). split; auto. split; auto. split; auto. split; auto. cbv zeta.
    set (e := nth r (kb_els b) kel0) in *.
    assert (Oe : dp_order (mul_dop d (lap_dop k)) = (Z.abs_nat (ke_mu e) + 2 * k)%nat) by (cbn [mul_dop lap_dop dp_order]; rewrite Od; reflexivity).
    split; [|split; [|split; [|split; [|split]]]]; auto.
    + unfold tb_getitem, assert_. destruct (Nat.ltb_spec idx (tb_dim t)); [|lia]. fold n q k. rewrite Hf. cbn [t_attr]. rewrite Oe. reflexivity.
    + unfold tb_iter. fold n. rewrite tb_iter_nth; [|auto|rewrite sd_iter_length, ET, <- Dim; auto]. fold q k. rewrite Hit. cbn [option_map t_attr fst snd].
      rewrite Oe. reflexivity.
    + unfold tb_coefficients. fold n. rewrite (flat_map_nth (fun a k => mul_dop a (lap_dop k))); [|auto|rewrite (sd_length mk rin rout) by auto; rewrite <- Dim; auto].
      fold q k. rewrite Hd. reflexivity.
    + intros u v. apply mul_lap_len. auto.
    + intros [x y] u v Hu Hv. unfold symbol_of. cbn [fst snd]. rewrite mul_lap_value by auto. rewrite (V x y u v Hu Hv).
      replace (x ^ 2 + y ^ 2) with (x * x + y * y) by ring. apply Rmult_comm.
  - intros idx Hidx. unfold tb_getitem, assert_. destruct (Nat.ltb_spec idx (tb_dim t)); [lia|reflexivity].
Qed.
Print Assumptions C27_tensor_basis.

(** ** C21, bases of differential operators *)
(** Each basis of the classes other than that of D_N equals itself; bases for mirrors and for C_N (and for D_N, vacuously, see
    below) that compare equal have the same operators. *)
Theorem C21_diffop_basis_eq_partial :
  (forall cmp_axis scalar b, d_eqb false cmp_axis scalar b b = Ok true) /\
  (forall axis axis' F T F' T' n m iin iout b b', cyc_irrep 2 n = Ok iin -> cyc_irrep 2 m = Ok iout ->
     d_flips axis F T iin iout = Ok b -> d_flips axis' F' T' iin iout = Ok b' -> d_eqb false true true b b' = Ok true ->
     map (irrep_dop b) (kb_els b) = map (irrep_dop b') (kb_els b')) /\
  (forall N F T F' T' n m iin iout b b', (0 < N)%Z -> cyc_irrep N n = Ok iin -> cyc_irrep N m = Ok iout ->
     d_rotN N F T iin iout = Ok b -> d_rotN N F' T' iin iout = Ok b' -> d_eqb false false false b b' = Ok true ->
     map (irrep_dop b) (kb_els b) = map (irrep_dop b') (kb_els b')).
Proof.
  rewrite d_flips_eq, d_rotN_eq. split; [apply d_eqb_refl|]. split.
  - intros axis axis' F T F' T' n m iin iout b b' Hi Ho Hb Hb' He.
    apply d_eqb_kb in He; [|intros _; split; [apply (flips_same_gq axis F T n m iin iout b Hi Ho Hb)|apply (flips_same_gq axis' F' T' n m iin iout b' Hi Ho Hb')]]. destruct He as [_ He].
    destruct (assert_ok _ _ _ Hb) as [HB _]. destruct (assert_ok _ _ _ Hb') as [HB' _].
    assert (F1 := eo_ok _ _ _ (flips_fine axis F T n m iin iout Hi Ho HB) Hb).
    assert (F2 := eo_ok _ _ _ (flips_fine axis' F' T' n m iin iout Hi Ho HB') Hb').
    assert (axis = axis') as <-.
    { unfold kb_eqb in He. rewrite (proj1 F1), (proj1 F2) in He. destruct (Req_EM_T axis axis'); auto. cbn in He. discriminate. }
    apply (fine_dops true (Some axis) (ir_size iout) (ir_size iin)); auto.
  - intros N F T F' T' n m iin iout b b' HN Hi Ho Hb Hb' He.
    apply d_eqb_kb in He; [|discriminate]. destruct He as [_ He].
    destruct (assert_ok _ _ _ Hb) as [HB _]. destruct (assert_ok _ _ _ Hb') as [HB' _].
    apply (fine_dops false None (ir_size iout) (ir_size iin)); auto.
    + exact (eo_ok _ _ _ (rotN_fine N F T n m iin iout HN Hi Ho HB) Hb).
    + exact (eo_ok _ _ _ (rotN_fine N F' T' n m iin iout HN Hi Ho HB') Hb').
Qed.
Print Assumptions C21_diffop_basis_eq_partial.

(** The claim is false for D_N: its class tests for the class of C_N, so that no basis equals itself; and for O(2): the axis is
    not compared, and two bases with different axes (here 0 and pi/2, from the trivial irrep to frequency 1) compare equal although
    their first operators differ (d/dx and d/dy in the first component). *)
Theorem C21_diffop_basis_eq_refuted :
  (exists i b, dih_irrep 3 0 0 = Ok i /\ d_fliprotN 3 0 (Some 2%Z) None i i = Ok b /\ d_eqb true false true b b = Ok false) /\
  (exists i0 i1 b b', o2_irrep 0 0 = Ok i0 /\ o2_irrep 1 1 = Ok i1 /\
     d_fliprot 0 i0 i1 = Ok b /\ d_fliprot (PI / 2) i0 i1 = Ok b' /\ d_eqb false false true b b' = Ok true /\
     symbol_of (irrep_dop b (nth 0 (kb_els b) kel0)) (1, 0) O O = 1 /\
     symbol_of (irrep_dop b' (nth 0 (kb_els b') kel0)) (1, 0) O O = 0).
Proof.
  split.
  - do 2 eexists. split; [reflexivity|]. split; reflexivity.
  - do 4 eexists. split; [reflexivity|]. split; [reflexivity|]. split; [reflexivity|]. split; [reflexivity|]. split; [reflexivity|].
    assert (V : forall b e, (ke_gq e = 0%Z \/ ke_gq e = 1%Z) -> symbol_of (irrep_dop b e) (1, 0) O O = on_circle (irrep_dop b e) 0 O O).
    { intros b e _. unfold symbol_of, on_circle. rewrite cos_0, sin_0. reflexivity. }
    split; rewrite V by (cbn; auto); unfold on_circle; cbn [irrep_dop dp_coef kb_axis kb_rows kb_cols kb_els nth ke_mu];
    rewrite turn_value by (eapply nonempty, irrep_poly_length); cbn; change (Pos.to_nat 1) with 1%nat; cbn; rewrite ?Rminus_0_r.
    + rewrite cos_0, sin_0. ring.
    + rewrite Rminus_0_l, cos_neg, cos_PI2, sin_neg, sin_PI2. ring.
Qed.
Print Assumptions C21_diffop_basis_eq_refuted.
