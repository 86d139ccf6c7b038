(** C21 (kernel bases) and C22-C27: steerable kernels. *)
From Coq Require Import Reals ZArith String List Bool Lia Lra Sorted.
From Verif Require Import Base Spec Model_Groups Proofs_Groups Proofs_Cont Model_Rep Proofs_Irreps Proofs_Rep Proofs_Restrict
  Model_GSpace Spec_GSpace Proofs_GSpace Model_Kernels Spec_Kernels Proofs_Trig Proofs_Kernels Proofs_Kernels2 Proofs_Kernels3 Proofs_Kernels4
  Proofs_Kernels5 Proofs_Kernels6 Proofs_Kernels7.
Import ListNotations.
Open Scope R_scope.

Local Notation no_basis := "EmptyBasisException"%string.

Lemma assert_ok {A} b (r : result A) x : assert_ b r = Ok x -> b = true /\ r = Ok x.
Proof. unfold assert_. destruct b; [auto|discriminate]. Qed.
Lemma eo_ok {A} (r : result A) P b : empty_or r P -> r = Ok b -> P b.
Proof. intros H ->. exact H. Qed.
Lemma eo_err {A} (r : result A) P x : empty_or r P -> r = Err x -> x = no_basis.
Proof. intros H ->. exact H. Qed.

(** ** C22: kernels between irreps.
    Each basis element satisfies K(g.a) = rho_out(g) K(a) rho_in(g^-1) for all directions a and group elements g,
    and K(origin) = rho_out(g) K(origin) rho_in(g^-1).  The constructor only fails for missing or negative bounds
    (AssertionError) and when there is no kernel at all. *)
Theorem C22_mirror : forall axis F T n m iin iout,
  cyc_irrep 2 n = Ok iin -> cyc_irrep 2 m = Ok iout ->
  (forall b, flips_basis axis F T iin iout = Ok b -> forall idx, (idx < kb_dim b)%nat ->
     angular_constraint (SpFlip (GC 2) axis) EI (cyc_el 2) (cyc_inverse 2) (ir_size iout) (ir_size iin) (ir_mat iout) (ir_mat iin)
       (fun a => kb_sample b idx (Some a)) /\
     fixed_constraint (cyc_el 2) (cyc_inverse 2) (ir_size iout) (ir_size iin) (ir_mat iout) (ir_mat iin) (kb_sample b idx None)) /\
  (bounds_ok F T = true -> forall x, flips_basis axis F T iin iout = Err x -> x = no_basis).
Proof.
  intros axis F T n m iin iout Hi Ho. split.
  - intros b Hb. destruct (assert_ok _ _ _ Hb) as [HB _]. exact (eo_ok _ _ _ (C22_flip axis F T n m iin iout Hi Ho HB) Hb).
  - intros HB x. apply (eo_err _ _ x (C22_flip axis F T n m iin iout Hi Ho HB)).
Qed.
Print Assumptions C22_mirror.

Theorem C22_cyclic : forall N F T n m iin iout, (0 < N)%Z ->
  cyc_irrep N n = Ok iin -> cyc_irrep N m = Ok iout ->
  (forall b, rotN_basis N F T iin iout = Ok b -> forall idx, (idx < kb_dim b)%nat ->
     angular_constraint (SpRot (GC N)) EI (cyc_el N) (cyc_inverse N) (ir_size iout) (ir_size iin) (ir_mat iout) (ir_mat iin)
       (fun a => kb_sample b idx (Some a)) /\
     fixed_constraint (cyc_el N) (cyc_inverse N) (ir_size iout) (ir_size iin) (ir_mat iout) (ir_mat iin) (kb_sample b idx None)) /\
  (bounds_ok F T = true -> forall x, rotN_basis N F T iin iout = Err x -> x = no_basis).
Proof.
  intros N F T n m iin iout HN Hi Ho. split.
  - intros b Hb. destruct (assert_ok _ _ _ Hb) as [HB _]. exact (eo_ok _ _ _ (C22_rotN N F T n m iin iout HN Hi Ho HB) Hb).
  - intros HB x. apply (eo_err _ _ x (C22_rotN N F T n m iin iout HN Hi Ho HB)).
Qed.
Print Assumptions C22_cyclic.

Theorem C22_dihedral : forall N axis F T ji n jo m iin iout, (0 < N)%Z ->
  dih_irrep N ji n = Ok iin -> dih_irrep N jo m = Ok iout ->
  (forall b, fliprotN_basis N axis F T iin iout = Ok b -> forall idx, (idx < kb_dim b)%nat ->
     angular_constraint (SpFlipRot (GD N) axis) (fun g => EFI (fst g) (snd g)) (dih_el N) (dih_inverse N)
       (ir_size iout) (ir_size iin) (ir_mat iout) (ir_mat iin) (fun a => kb_sample b idx (Some a)) /\
     fixed_constraint (dih_el N) (dih_inverse N) (ir_size iout) (ir_size iin) (ir_mat iout) (ir_mat iin) (kb_sample b idx None)) /\
  (bounds_ok F T = true -> forall x, fliprotN_basis N axis F T iin iout = Err x -> x = no_basis).
Proof.
  intros N axis F T ji n jo m iin iout HN Hi Ho. split.
  - intros b Hb. destruct (assert_ok _ _ _ Hb) as [HB _]. exact (eo_ok _ _ _ (C22_fliprotN N axis F T ji n jo m iin iout HN Hi Ho HB) Hb).
  - intros HB x. apply (eo_err _ _ x (C22_fliprotN N axis F T ji n jo m iin iout HN Hi Ho HB)).
Qed.
Print Assumptions C22_dihedral.

Theorem C22_SO2 : forall B n m iin iout, so2_irrep n = Ok iin -> so2_irrep m = Ok iout ->
  exists b, rot_basis iin iout = Ok b /\ forall idx, (idx < kb_dim b)%nat ->
     angular_constraint (SpRot (GSO2 B)) ER so2_el so2_inverse (ir_size iout) (ir_size iin) (ir_mat iout) (ir_mat iin)
       (fun a => kb_sample b idx (Some a)) /\
     fixed_constraint so2_el so2_inverse (ir_size iout) (ir_size iin) (ir_mat iout) (ir_mat iin) (kb_sample b idx None).
Proof.
  intros B n m iin iout Hi Ho. assert (H := C22_rot B n m iin iout Hi Ho). destruct (rot_inv n m iin iout Hi Ho) as [els [E C]].
  assert (exists b, rot_basis iin iout = Ok b) as [b Hb].
  { rewrite E. destruct C as [[_ [_ ->]]|[[_ ->]|[_ [_ [_ [_ ->]]]]]]; eexists; reflexivity. }
  exists b. split; auto. exact (eo_ok _ _ _ H Hb).
Qed.
Print Assumptions C22_SO2.

Theorem C22_O2 : forall B axis ji n jo m iin iout, o2_irrep ji n = Ok iin -> o2_irrep jo m = Ok iout ->
  (forall b, fliprot_basis axis iin iout = Ok b -> forall idx, (idx < kb_dim b)%nat ->
     angular_constraint (SpFlipRot (GO2 B) axis) (fun g => EFR (fst g) (snd g)) o2_el o2_inverse
       (ir_size iout) (ir_size iin) (ir_mat iout) (ir_mat iin) (fun a => kb_sample b idx (Some a)) /\
     fixed_constraint o2_el o2_inverse (ir_size iout) (ir_size iin) (ir_mat iout) (ir_mat iin) (kb_sample b idx None)) /\
  (forall x, fliprot_basis axis iin iout = Err x -> x = no_basis).
Proof.
  intros B axis ji n jo m iin iout Hi Ho. split.
  - intros b Hb. exact (eo_ok _ _ _ (C22_fliprot B axis ji n jo m iin iout Hi Ho) Hb).
  - intros x. apply (eo_err _ _ x (C22_fliprot B axis ji n jo m iin iout Hi Ho)).
Qed.
Print Assumptions C22_O2.

(** non-vacuity: from frequency 1 to frequency 2 of D_5 up to frequency 3: three kernels *)
Example C22_ex : exists iin iout b, dih_irrep 5 1 1 = Ok iin /\ dih_irrep 5 1 2 = Ok iout /\
  fliprotN_basis 5 (PI / 3) (Some 3%Z) None iin iout = Ok b /\ map ke_mu (kb_els b) = [1; -2; 3]%Z /\ map ke_s (kb_els b) = [0; 1; 1]%Z.
Proof. do 3 eexists. split; [reflexivity|]. split; [reflexivity|]. split; [reflexivity|]. split; reflexivity. Qed.
(** ... and the sign representation of the mirror group: only sines *)
Example C22_ex_mirror : exists i0 i1 b, cyc_irrep 2 0 = Ok i0 /\ cyc_irrep 2 1 = Ok i1 /\
  flips_basis 0 (Some 2%Z) None i0 i1 = Ok b /\ kb_sample b 0 (Some 0) O O = 0 /\ kb_sample b 0 (Some (- (PI / 2))) O O = 1.
Proof.
  do 3 eexists. split; [reflexivity|]. split; [reflexivity|]. split; [reflexivity|].
  unfold kb_sample, kb_sample_el; cbn. unfold ke_gamma; cbn. split.
  - replace (1 * (0 - 0) + 1 * (PI / 2)) with (PI / 2) by lra. apply cos_PI2.
  - replace (1 * (- (PI / 2) - 0) + 1 * (PI / 2)) with 0 by lra. apply cos_0.
Qed.

(** a SteerableKernelBasis has an element, so the constructor of the bases succeeded at least once *)
Lemma sk_has {G} mk (rin rout : rep G) sk (P : Prop) : (forall i o kb, mk i o = Ok kb -> P) -> sk_make mk rin rout = Ok sk -> P.
Proof.
  intros H Hs. destruct (sk_make_inv _ _ _ _ Hs) as [_ [_ [_ [_ [_ D]]]]].
  destruct (sk_element mk rin rout sk Hs 0 D) as [ii [oo [r [i [o [kb [_ [_ [Hb _]]]]]]]]]. eapply H; eauto.
Qed.

(** ** C23: any representations, any radial profile, every point of the plane.
    [polar_sample radial d angular idx p] is element [idx] of PolarBasis(radial, angular), where [d] is the number
    of angular elements; [r2_sample] is the instance with the Gaussian profile that the factories build. *)
Theorem C23_cyclic : forall N rin rout radii sigma F T b, (0 < N)%Z -> cyc_rep N rin -> cyc_rep N rout ->
  kernels_CN_act_R2 N rin rout radii sigma F T = Ok b ->
  (forall idx, (idx < r2_dim b)%nat ->
     planar_constraint (SpRot (GC N)) EI (cyc_el N) (cyc_inverse N) (rp_size rout) (rp_size rin) (rp_mat rout) (rp_mat rin) (r2_sample b idx)) /\
  (forall radial idx,
     planar_constraint (SpRot (GC N)) EI (cyc_el N) (cyc_inverse N) (rp_size rout) (rp_size rin) (rp_mat rout) (rp_mat rin)
       (polar_sample radial (sk_dim (r2_angular b)) (sk_sample (r2_angular b)) idx)).
Proof.
  intros N rin rout radii sigma F T b HN Hi Ho Hb. destruct (r2_make_inv _ _ _ _ _ _ Hb) as [Hs _].
  assert (HB := sk_has _ _ _ _ (bounds_ok F T = true) (fun i o kb H => proj1 (assert_ok _ _ _ H)) Hs).
  assert (P := sk_CN N F T rin rout _ HN Hi Ho HB Hs). split.
  - intros idx _. apply (P (gauss_sample (r2_radial b)) (sk_dim (r2_angular b)) idx).
  - intros radial idx. apply P.
Qed.

Print Assumptions C23_cyclic.

Theorem C23_dihedral : forall N axis rin rout radii sigma F T b, (0 < N)%Z -> dih_rep N rin -> dih_rep N rout ->
  kernels_DN_act_R2 N rin rout radii sigma axis F T = Ok b ->
  (forall idx, (idx < r2_dim b)%nat ->
     planar_constraint (SpFlipRot (GD N) axis) (fun g => EFI (fst g) (snd g)) (dih_el N) (dih_inverse N)
       (rp_size rout) (rp_size rin) (rp_mat rout) (rp_mat rin) (r2_sample b idx)) /\
  (forall radial idx,
     planar_constraint (SpFlipRot (GD N) axis) (fun g => EFI (fst g) (snd g)) (dih_el N) (dih_inverse N)
       (rp_size rout) (rp_size rin) (rp_mat rout) (rp_mat rin)
       (polar_sample radial (sk_dim (r2_angular b)) (sk_sample (r2_angular b)) idx)).
Proof.
  intros N axis rin rout radii sigma F T b HN Hi Ho Hb. destruct (r2_make_inv _ _ _ _ _ _ Hb) as [Hs _].
  assert (HB := sk_has _ _ _ _ (bounds_ok F T = true) (fun i o kb H => proj1 (assert_ok _ _ _ H)) Hs).
  assert (P := sk_DN N axis F T rin rout _ HN Hi Ho HB Hs). split.
  - intros idx _. apply (P (gauss_sample (r2_radial b)) (sk_dim (r2_angular b)) idx).
  - intros radial idx. apply P.
Qed.
Print Assumptions C23_dihedral.

Theorem C23_mirror : forall N axis rin rout radii sigma F T b, cyc_rep N rin -> cyc_rep N rout ->
  kernels_Flip_act_R2 N rin rout radii sigma axis F T = Ok b ->
  N = 2%Z /\
  (forall idx, (idx < r2_dim b)%nat ->
     planar_constraint (SpFlip (GC 2) axis) EI (cyc_el 2) (cyc_inverse 2)
       (rp_size rout) (rp_size rin) (rp_mat rout) (rp_mat rin) (r2_sample b idx)) /\
  (forall radial idx,
     planar_constraint (SpFlip (GC 2) axis) EI (cyc_el 2) (cyc_inverse 2)
       (rp_size rout) (rp_size rin) (rp_mat rout) (rp_mat rin)
       (polar_sample radial (sk_dim (r2_angular b)) (sk_sample (r2_angular b)) idx)).
Proof.
  intros N axis rin rout radii sigma F T b Hi Ho Hb. destruct (assert_ok _ _ _ Hb) as [HN Hb']. apply Z.eqb_eq in HN. subst N.
  destruct (r2_make_inv _ _ _ _ _ _ Hb') as [Hs _].
  assert (HB := sk_has _ _ _ _ (bounds_ok F T = true) (fun i o kb H => proj1 (assert_ok _ _ _ H)) Hs).
  assert (P := sk_Flip axis F T rin rout _ Hi Ho HB Hs). split; [reflexivity|]. split.
  - intros idx _. apply (P (gauss_sample (r2_radial b)) (sk_dim (r2_angular b)) idx).
  - intros radial idx. apply P.
Qed.
Print Assumptions C23_mirror.

(** the trivial space: the only element of C_1 is the identity, which does not move the plane *)
Theorem C23_trivial : forall N rin rout radii sigma F T b, cyc_rep N rin -> cyc_rep N rout ->
  kernels_Trivial_act_R2 N rin rout radii sigma F T = Ok b ->
  N = 1%Z /\
  (forall idx, (idx < r2_dim b)%nat ->
     planar_constraint (SpTrivial (GC 1)) EI (cyc_el 1) (cyc_inverse 1)
       (rp_size rout) (rp_size rin) (rp_mat rout) (rp_mat rin) (r2_sample b idx)) /\
  (forall radial idx,
     planar_constraint (SpTrivial (GC 1)) EI (cyc_el 1) (cyc_inverse 1)
       (rp_size rout) (rp_size rin) (rp_mat rout) (rp_mat rin)
       (polar_sample radial (sk_dim (r2_angular b)) (sk_sample (r2_angular b)) idx)).
Proof.
  intros N rin rout radii sigma F T b Hi Ho Hb. destruct (assert_ok _ _ _ Hb) as [HN Hb']. apply Z.eqb_eq in HN. subst N.
  destruct (r2_make_inv _ _ _ _ _ _ Hb') as [Hs _].
  assert (HB := sk_has _ _ _ _ (bounds_ok F T = true) (fun i o kb H => proj1 (assert_ok _ _ _ H)) Hs).
  assert (P := sk_CN 1 F T rin rout _ ltac:(lia) Hi Ho HB Hs). split; [reflexivity|].
  assert (Q : forall K, planar_constraint (SpRot (GC 1)) EI (cyc_el 1) (cyc_inverse 1) (rp_size rout) (rp_size rin) (rp_mat rout) (rp_mat rin) K ->
     planar_constraint (SpTrivial (GC 1)) EI (cyc_el 1) (cyc_inverse 1) (rp_size rout) (rp_size rin) (rp_mat rout) (rp_mat rin) K).
  { intros K HK g p Hg. specialize (HK g p Hg). cbn [plane_action] in *.
    assert (g = 0%Z) as -> by (unfold cyc_el, cyc_is_element in Hg; lia).
    replace (2 * PI * 0 / 1) with 0 in HK by field. rewrite rotate_0 in HK. exact HK. }
  split.
  - intros idx _. apply Q. apply (P (gauss_sample (r2_radial b)) (sk_dim (r2_angular b)) idx).
  - intros radial idx. apply Q. apply P.
Qed.
Print Assumptions C23_trivial.

Theorem C23_SO2 : forall B rin rout radii sigma b, so2_rep rin -> so2_rep rout ->
  kernels_SO2_act_R2 rin rout radii sigma = Ok b ->
  (forall idx, (idx < r2_dim b)%nat ->
     planar_constraint (SpRot (GSO2 B)) ER so2_el so2_inverse (rp_size rout) (rp_size rin) (rp_mat rout) (rp_mat rin) (r2_sample b idx)) /\
  (forall radial idx,
     planar_constraint (SpRot (GSO2 B)) ER so2_el so2_inverse (rp_size rout) (rp_size rin) (rp_mat rout) (rp_mat rin)
       (polar_sample radial (sk_dim (r2_angular b)) (sk_sample (r2_angular b)) idx)).
Proof.
  intros B rin rout radii sigma b Hi Ho Hb. destruct (r2_make_inv _ _ _ _ _ _ Hb) as [Hs _].
  assert (P := sk_SO2 B rin rout _ Hi Ho Hs). split.
  - intros idx _. apply (P (gauss_sample (r2_radial b)) (sk_dim (r2_angular b)) idx).
  - intros radial idx. apply P.
Qed.
Print Assumptions C23_SO2.

Theorem C23_O2 : forall B axis rin rout radii sigma b, o2_rep rin -> o2_rep rout ->
  kernels_O2_act_R2 rin rout radii sigma axis = Ok b ->
  (forall idx, (idx < r2_dim b)%nat ->
     planar_constraint (SpFlipRot (GO2 B) axis) (fun g => EFR (fst g) (snd g)) o2_el o2_inverse
       (rp_size rout) (rp_size rin) (rp_mat rout) (rp_mat rin) (r2_sample b idx)) /\
  (forall radial idx,
     planar_constraint (SpFlipRot (GO2 B) axis) (fun g => EFR (fst g) (snd g)) o2_el o2_inverse
       (rp_size rout) (rp_size rin) (rp_mat rout) (rp_mat rin)
       (polar_sample radial (sk_dim (r2_angular b)) (sk_sample (r2_angular b)) idx)).
Proof.
  intros B axis rin rout radii sigma b Hi Ho Hb. destruct (r2_make_inv _ _ _ _ _ _ Hb) as [Hs _].
  assert (P := sk_O2 B axis rin rout _ Hi Ho Hs). split.
  - intros idx _. apply (P (gauss_sample (r2_radial b)) (sk_dim (r2_angular b)) idx).
  - intros radial idx. apply P.
Qed.
Print Assumptions C23_O2.

(** non-vacuity: C_4, from the sum of the trivial representation and frequency 1, in a rotated basis, to frequency 1 *)
Example C23_ex : exists i0 i1 b,
  let rot := mat2 (cos 1) (- sin 1) (sin 1) (cos 1) in
  let emb (M : mat) : mat := bdiag [(2%nat, M); (1%nat, mid)] in
  let rin := MkRep "r" [i1; i0] (emb rot) (emb (mtr rot)) [] in
  let rout := rep_of_irrep "irrep_1" i1 in
  cyc_irrep 4 0 = Ok i0 /\ cyc_irrep 4 1 = Ok i1 /\ cyc_rep 4 rin /\ cyc_rep 4 rout /\
  kernels_CN_act_R2 4 rin rout [0; 1] [1 / 2; 1 / 2] (Some 2%Z) None = Ok b /\ r2_dim b = 16%nat.
Proof.
  assert (G : gauss_make [0; 1] [1 / 2; 1 / 2] = Ok [(0, 1 / 2); (1, 1 / 2)]).
  { unfold gauss_make, assert_. cbn [length Nat.eqb forallb]. unfold Rleb, Rltb.
    destruct (Rle_dec 0 0); [|lra]. destruct (Rle_dec 0 1); [|lra]. destruct (Rlt_dec 0 (1 / 2)); [|lra]. reflexivity. }
  do 3 eexists. intros rot emb rin rout. split; [reflexivity|]. split; [reflexivity|].
  split; [|split; [|split]].
  - split; [|constructor; [exists 1%Z; reflexivity|constructor; [exists 0%Z; reflexivity|constructor]]].
    unfold rep_accepted. unfold rin at 2 3. cbn [rp_cob rp_inv].
    change (rp_size rin) with 3%nat. unfold emb.
    assert (H := sin2_cos2 1). unfold Rsqr in H. unfold rot.
    split; intros i j Hi Hj; assert (i = 0 \/ i = 1 \/ i = 2)%nat as [-> |[-> | ->]] by lia; assert (j = 0 \/ j = 1 \/ j = 2)%nat as [-> |[-> | ->]] by lia;
    cbn; unfold mmul, mtr, mat2, mid, rsum; cbn; lra.
  - split; [|constructor; [exists 1%Z; reflexivity|constructor]]. unfold rep_accepted. apply inverse_pair_mid.
  - unfold kernels_CN_act_R2, r2_make. rewrite G. unfold rin, rout, emb, rot. reflexivity.
  - reflexivity.
Qed.

(** ** C24: the offsets *)
Theorem C24_offsets : forall k N T F nn, (0 < N)%Z ->
  exists l, offset_iterator k N T (Some F) nn = Ok l /\ StronglySorted Z.lt l /\
    forall t, In t l <-> (Z.abs (k + t * N) <= F /\ (match T with None => True | Some T => Z.abs t <= T end) /\ (nn = true -> 0 <= k + t * N))%Z.
Proof.
  intros k N T F nn HN. destruct (offsets_F k N T F nn HN) as [l [E [S I]]]. exists l. split; auto. split; auto.
  intros t. rewrite I. unfold le_opt. destruct T as [T|], nn; rewrite ?Z.leb_le; intuition lia.
Qed.
Print Assumptions C24_offsets.
(** with only max_offset = T: right for T up to 10000 and non_negative = False *)
Theorem C24_offsets_T_partial : forall k N T, (0 <= N)%Z -> (T <= 10000)%Z ->
  exists l, offset_iterator k N (Some T) None false = Ok l /\ StronglySorted Z.lt l /\ forall t, In t l <-> (Z.abs t <= T)%Z.
Proof.
  intros k N T HN HT. destruct (offsets_T k N T false HN) as [l [E [S I]]]. exists l. split; auto. split; auto.
  intros t. rewrite I. lia.
Qed.
Print Assumptions C24_offsets_T_partial.
(** ... but larger offsets are never produced, and non_negative is ignored without max_frequency: with k = 0, N = 1
    and T = 1 the frequency -1 is produced although only non-negative ones were asked for *)
Theorem C24_offsets_refuted :
  (exists l, offset_iterator 0 1 (Some 20000%Z) None false = Ok l /\ ~ In 10001%Z l) /\
  offset_iterator 0 1 (Some 1%Z) None true = Ok [-1; 0; 1]%Z.
Proof.
  split; [|reflexivity]. destruct (offsets_T 0 1 20000 false ltac:(lia)) as [l [E [S I]]]. exists l. split; auto. rewrite I. lia.
Qed.
Print Assumptions C24_offsets_refuted.
Example C24_ex : offset_iterator 1 3 (Some 2%Z) (Some 5%Z) false = Ok [-2; -1; 0; 1]%Z /\
                 offset_iterator 1 3 None (Some 5%Z) true = Ok [0; 1]%Z.
Proof. split; reflexivity. Qed.

(** ** C25: linear independence *)
Theorem C25_independent :
  (forall axis F T n m iin iout b, cyc_irrep 2 n = Ok iin -> cyc_irrep 2 m = Ok iout ->
     flips_basis axis (Some F) T iin iout = Ok b ->
     independent (kb_dim b) (kb_rows b) (kb_cols b) (fun idx a => kb_sample b idx (Some a))) /\
  (forall N F T n m iin iout b, (0 < N)%Z -> cyc_irrep N n = Ok iin -> cyc_irrep N m = Ok iout ->
     (F <> None \/ (ir_size iin * ir_size iout <> 1)%nat) -> rotN_basis N F T iin iout = Ok b ->
     independent (kb_dim b) (kb_rows b) (kb_cols b) (fun idx a => kb_sample b idx (Some a))) /\
  (forall N axis F T ji n jo m iin iout b, (0 < N)%Z -> dih_irrep N ji n = Ok iin -> dih_irrep N jo m = Ok iout ->
     (F <> None \/ (ir_size iin * ir_size iout <> 1)%nat) -> fliprotN_basis N axis F T iin iout = Ok b ->
     independent (kb_dim b) (kb_rows b) (kb_cols b) (fun idx a => kb_sample b idx (Some a))) /\
  (forall n m iin iout b, so2_irrep n = Ok iin -> so2_irrep m = Ok iout -> rot_basis iin iout = Ok b ->
     independent (kb_dim b) (kb_rows b) (kb_cols b) (fun idx a => kb_sample b idx (Some a))) /\
  (forall axis ji n jo m iin iout b, o2_irrep ji n = Ok iin -> o2_irrep jo m = Ok iout -> fliprot_basis axis iin iout = Ok b ->
     independent (kb_dim b) (kb_rows b) (kb_cols b) (fun idx a => kb_sample b idx (Some a))).
Proof.
  split; [|split; [|split; [|split]]].
  - intros axis F T n m iin iout b Hi Ho Hb. destruct (assert_ok _ _ _ Hb) as [HB _].
    exact (eo_ok _ _ _ (C25_flip axis F T n m iin iout Hi Ho HB) Hb).
  - intros N F T n m iin iout b HN Hi Ho HF Hb. destruct (assert_ok _ _ _ Hb) as [HB _].
    exact (eo_ok _ _ _ (C25_rotN N F T n m iin iout HN Hi Ho HB HF) Hb).
  - intros N axis F T ji n jo m iin iout b HN Hi Ho HF Hb. destruct (assert_ok _ _ _ Hb) as [HB _].
    exact (eo_ok _ _ _ (C25_fliprotN N axis F T ji n jo m iin iout HN Hi Ho HB HF) Hb).
  - intros n m iin iout b Hi Ho Hb. exact (eo_ok _ _ _ (C25_rot n m iin iout Hi Ho) Hb).
  - intros axis ji n jo m iin iout b Hi Ho Hb. exact (eo_ok _ _ _ (C25_fliprot axis ji n jo m iin iout Hi Ho) Hb).
Qed.
Print Assumptions C25_independent.
(** Between one-dimensional irreps with only max_offset given, the claim is false: cos(-4a) and cos(4a) are both
    generated (C_4, trivial to trivial, T = 1). *)
Theorem C25_independent_refuted : exists i0 b, cyc_irrep 4 0 = Ok i0 /\ rotN_basis 4 None (Some 1%Z) i0 i0 = Ok b /\
  ~ independent (kb_dim b) (kb_rows b) (kb_cols b) (fun idx a => kb_sample b idx (Some a)).
Proof.
  do 2 eexists. split; [reflexivity|]. split; [reflexivity|]. intros H.
  set (w := fun b : nat => match b with O => 1 | 2%nat => -1 | _ => 0 end).
  assert (W : w 0%nat = 0); [|cbn in W; lra]. apply (H w); [|cbn; lia].
  intros a i j Hi Hj. cbn [kb_dim kb_els length]. unfold rsum, w, kb_sample, kb_sample_el, ke_gamma. cbn.
  replace (-4 * a + 0 * (PI / 2)) with (- (4 * a + 0 * (PI / 2))) by ring. rewrite cos_neg. ring.
Qed.
Print Assumptions C25_independent_refuted.
Example C25_ex : exists iin iout b, cyc_irrep 4 1 = Ok iin /\ cyc_irrep 4 1 = Ok iout /\
  rotN_basis 4 (Some 4%Z) None iin iout = Ok b /\ kb_dim b = 10%nat.
Proof. do 3 eexists. split; [reflexivity|]. split; [reflexivity|]. split; reflexivity. Qed.

(** ** C26: completeness.  Every kernel K that satisfies the constraint and whose entries are trigonometric
    polynomials of degree at most F is a combination of the generated ones (it is zero when none is generated). *)
Theorem C26_complete : forall (F : nat) (K : R -> mat),
  (forall axis n m iin iout, cyc_irrep 2 n = Ok iin -> cyc_irrep 2 m = Ok iout ->
     angular_constraint (SpFlip (GC 2) axis) EI (cyc_el 2) (cyc_inverse 2) (ir_size iout) (ir_size iin) (ir_mat iout) (ir_mat iin) K ->
     trig_poly_mat F (ir_size iout) (ir_size iin) K ->
     match flips_basis axis (Some (Z.of_nat F)) None iin iout with
     | Ok b => in_span (kb_dim b) (ir_size iout) (ir_size iin) (fun idx a => kb_sample b idx (Some a)) K
     | Err _ => forall a, meq (ir_size iout) (ir_size iin) (K a) mzero end) /\
  (forall N n m iin iout, (0 < N)%Z -> cyc_irrep N n = Ok iin -> cyc_irrep N m = Ok iout ->
     angular_constraint (SpRot (GC N)) EI (cyc_el N) (cyc_inverse N) (ir_size iout) (ir_size iin) (ir_mat iout) (ir_mat iin) K ->
     trig_poly_mat F (ir_size iout) (ir_size iin) K ->
     match rotN_basis N (Some (Z.of_nat F)) None iin iout with
     | Ok b => in_span (kb_dim b) (ir_size iout) (ir_size iin) (fun idx a => kb_sample b idx (Some a)) K
     | Err _ => forall a, meq (ir_size iout) (ir_size iin) (K a) mzero end) /\
  (forall N axis ji n jo m iin iout, (0 < N)%Z -> dih_irrep N ji n = Ok iin -> dih_irrep N jo m = Ok iout ->
     angular_constraint (SpFlipRot (GD N) axis) (fun g => EFI (fst g) (snd g)) (dih_el N) (dih_inverse N)
       (ir_size iout) (ir_size iin) (ir_mat iout) (ir_mat iin) K ->
     trig_poly_mat F (ir_size iout) (ir_size iin) K ->
     match fliprotN_basis N axis (Some (Z.of_nat F)) None iin iout with
     | Ok b => in_span (kb_dim b) (ir_size iout) (ir_size iin) (fun idx a => kb_sample b idx (Some a)) K
     | Err _ => forall a, meq (ir_size iout) (ir_size iin) (K a) mzero end).
Proof.
  intros F K. split; [|split].
  - intros axis n m iin iout Hi Ho HK HT. apply (C26_flip axis F n m iin iout K Hi Ho HK HT).
  - intros N n m iin iout HN Hi Ho HK HT. apply (C26_rotN N F n m iin iout K HN Hi Ho HK HT).
  - intros N axis ji n jo m iin iout HN Hi Ho HK HT. apply (C26_fliprotN N axis F ji n jo m iin iout K HN Hi Ho HK HT).
Qed.
Print Assumptions C26_complete.
(** for SO(2) and O(2) no assumption on K beside the constraint is needed *)
Theorem C26_complete_continuous : forall (K : R -> mat),
  (forall B n m iin iout, so2_irrep n = Ok iin -> so2_irrep m = Ok iout ->
     angular_constraint (SpRot (GSO2 B)) ER so2_el so2_inverse (ir_size iout) (ir_size iin) (ir_mat iout) (ir_mat iin) K ->
     match rot_basis iin iout with
     | Ok b => in_span (kb_dim b) (ir_size iout) (ir_size iin) (fun idx a => kb_sample b idx (Some a)) K
     | Err _ => forall a, meq (ir_size iout) (ir_size iin) (K a) mzero end) /\
  (forall B axis ji n jo m iin iout, o2_irrep ji n = Ok iin -> o2_irrep jo m = Ok iout ->
     angular_constraint (SpFlipRot (GO2 B) axis) (fun g => EFR (fst g) (snd g)) o2_el o2_inverse
       (ir_size iout) (ir_size iin) (ir_mat iout) (ir_mat iin) K ->
     match fliprot_basis axis iin iout with
     | Ok b => in_span (kb_dim b) (ir_size iout) (ir_size iin) (fun idx a => kb_sample b idx (Some a)) K
     | Err _ => forall a, meq (ir_size iout) (ir_size iin) (K a) mzero end).
Proof.
  intros K. split.
  - intros B n m iin iout Hi Ho HK. apply (C26_rot B n m iin iout K Hi Ho HK).
  - intros B axis ji n jo m iin iout Hi Ho HK. apply (C26_fliprot B axis ji n jo m iin iout K Hi Ho HK).
Qed.
Print Assumptions C26_complete_continuous.
(** non-vacuity: the kernel cos(4a) between trivial irreps of C_4 *)
Example C26_ex : exists i0, cyc_irrep 4 0 = Ok i0 /\
  let K := fun a => mat1 (cos (4 * a)) in
  angular_constraint (SpRot (GC 4)) EI (cyc_el 4) (cyc_inverse 4) (ir_size i0) (ir_size i0) (ir_mat i0) (ir_mat i0) K /\
  trig_poly_mat 4 (ir_size i0) (ir_size i0) K /\ ~ meq (ir_size i0) (ir_size i0) (K 0) mzero.
Proof.
  eexists. split; [reflexivity|]. intros K. split; [|split].
  - intros g a a' Hg Hm. cbn [ir_size]. intros i j Hi Hj. replace i with O by lia. replace j with O by lia.
    unfold moves_angle in Hm. cbn [plane_action] in Hm. unfold rotate_pt in Hm. cbn [fst snd] in Hm. injection Hm as H1 H2.
    set (t := 2 * PI * IZR g / 4) in *. rewrite <- cos_plus in H1. rewrite (Rplus_comm (sin t * cos a)), (Rmult_comm (cos t) (sin a)), (Rmult_comm (sin t) (cos a)) in H2.
    rewrite <- sin_plus, (Rplus_comm a t) in H2.
    assert (C : cong2pi (t + a) a') by (apply cos_sin_cong; auto).
    unfold K, mat1, mmul, rsum; cbn. rewrite Rmult_1_r, Rmult_1_l, Rplus_0_l.
    destruct C as [k C]. transitivity (cos (4 * (t + a))).
    + apply cos_cong. exists (- (4 * k))%Z. rewrite opp_IZR, mult_IZR. rewrite C. ring.
    + rewrite Rplus_0_l. apply cos_cong. exists g. unfold t. field.
  - intros i j _ _. exists (fun k => if (k =? 4)%nat then 1 else 0), (fun _ => 0). intros x. unfold K, mat1, rsum; cbn -[INR].
    replace (INR 4) with 4 by (cbn; lra). ring.
  - intros H. specialize (H 0%nat 0%nat ltac:(cbn; lia) ltac:(cbn; lia)). unfold K, mat1, mzero in H. rewrite Rmult_0_r, cos_0 in H. lra.
Qed.

(** ** C27: order of the elements *)
(** SteerableKernelBasis: the element with flat index idx is reported by basis[idx] and by the iteration with the
    nested index (input irrep, output irrep, element of their basis), and it is what sample() returns at idx:
    that kernel in its block, between the changes of basis.  The two index maps are inverse to each other. *)
Theorem C27_steerable_basis : forall (G : Type) (mk : irrep G -> irrep G -> result kbasis) (rin rout : rep G) (s : skbasis G),
  sk_make mk rin rout = Ok s ->
  length (sk_iter s) = sk_dim s /\
  (forall idx, (idx < sk_dim s)%nat ->
    exists ii oo r i o b,
      nth_error (rp_irreps rin) ii = Some i /\ nth_error (rp_irreps rout) oo = Some o /\ mk i o = Ok b /\ (r < kb_dim b)%nat /\
      sk_getitem s idx = Ok (Some (ii, oo, r, idx)) /\ nth_error (sk_iter s) idx = Some (ii, oo, r, idx) /\
      forall a, meq (rp_size rout) (rp_size rin) (sk_sample s idx a)
        (mmul (rp_size rin) (mmul (rp_size rout) (rp_cob rout)
           (embed (isizes (firstn oo (rp_irreps rout))) (isizes (firstn ii (rp_irreps rin))) (ir_size o) (ir_size i) (kb_sample b r a)))
           (rp_inv rin))) /\
  (forall ii oo i o b r, nth_error (rp_irreps rin) ii = Some i -> nth_error (rp_irreps rout) oo = Some o -> mk i o = Ok b -> (r < kb_dim b)%nat ->
    exists! idx, (idx < sk_dim s)%nat /\ sk_getitem s idx = Ok (Some (ii, oo, r, idx))) /\
  (forall idx, (sk_dim s <= idx)%nat -> sk_getitem s idx = Err "AssertionError"%string).
Proof.
  intros G mk rin rout s Hs. split; [apply (sk_iter_len mk rin rout s Hs)|]. split; [apply (sk_element mk rin rout s Hs)|].
  split; [apply (sk_nested mk rin rout s Hs)|apply sk_out_of_range].
Qed.
Print Assumptions C27_steerable_basis.

(** PolarBasis: idx = i1 * (number of angular elements) + i2 *)
Theorem C27_polar_basis : forall rdim adim,
  length (polar_iter rdim adim) = (rdim * adim)%nat /\
  (forall i1 i2, (i1 < rdim)%nat -> (i2 < adim)%nat ->
     let idx := (i1 * adim + i2)%nat in
     (idx < rdim * adim)%nat /\ polar_getitem (rdim * adim) adim idx = Ok (i1, i2, idx) /\
     nth_error (polar_iter rdim adim) idx = Some (i1, i2, idx) /\
     forall radial angular p i j, polar_sample radial adim angular idx p i j = radial i1 (radius_of p) * angular i2 (angle_of p) i j) /\
  (forall idx, (idx < rdim * adim)%nat -> exists i1 i2, (i1 < rdim)%nat /\ (i2 < adim)%nat /\ idx = (i1 * adim + i2)%nat) /\
  (forall idx, (rdim * adim <= idx)%nat -> polar_getitem (rdim * adim) adim idx = Err "AssertionError"%string).
Proof.
  intros rdim adim. split; [unfold polar_iter; rewrite polar_iter_length, seq_length; reflexivity|]. split; [|split].
  - intros i1 i2 H1 H2 idx. assert (L : (idx < rdim * adim)%nat) by (unfold idx; nia).
    assert (D : (idx / adim = i1)%nat) by (unfold idx; rewrite Nat.div_add_l, Nat.div_small by lia; lia).
    assert (M : (idx mod adim = i2)%nat) by (unfold idx; rewrite Nat.add_comm, Nat.mod_add, Nat.mod_small by lia; lia).
    split; auto. split.
    + unfold polar_getitem, assert_. destruct (Nat.ltb_spec idx (rdim * adim)); [|lia]. rewrite D, M. reflexivity.
    + split; [|intros; unfold polar_sample; rewrite D, M; reflexivity].
      unfold polar_iter. rewrite polar_iter_spec by (rewrite ?seq_length; lia). rewrite D, M, seq_nth by lia. reflexivity.
  - intros idx H. exists (idx / adim)%nat, (idx mod adim)%nat. assert (adim <> 0)%nat by nia.
    split; [apply Nat.div_lt_upper_bound; lia|]. split; [apply Nat.mod_upper_bound; auto|]. rewrite Nat.mul_comm. apply Nat.div_mod. auto.
  - intros idx H. unfold polar_getitem, assert_. destruct (Nat.ltb_spec idx (rdim * adim)); [lia|reflexivity].
Qed.
Print Assumptions C27_polar_basis.

(** sample_masked keeps the elements whose mask entry is True, in order *)
Theorem C27_sample_masked : forall (A : Type) dim (sample : nat -> A) mask, length mask = dim ->
  exists l, sample_masked dim sample mask = Ok (map sample l) /\ StronglySorted lt l /\
    forall i, In i l <-> (i < dim)%nat /\ nth i mask false = true.
Proof.
  intros A dim sample mask HL. unfold sample_masked, assert_. rewrite HL, Nat.eqb_refl.
  exists (map fst (filter snd (combine (seq 0 dim) mask))). split; [rewrite map_map; reflexivity|].
  assert (H : forall k m, StronglySorted lt (map fst (filter snd (combine (seq k (length m)) m))) /\
     forall i, In i (map fst (filter snd (combine (seq k (length m)) m))) <-> (k <= i < k + length m)%nat /\ nth (i - k) m false = true).
  { intros k m. revert k. induction m as [|x m IH]; intros k; cbn [length seq combine filter map].
    - split; [constructor|]. intros i. cbn. split; [tauto|lia].
    - destruct (IH (S k)) as [S1 I1]. assert (T : forall i, (k <= i < k + S (length m))%nat /\ nth (i - k) (x :: m) false = true <->
        (i = k /\ x = true) \/ ((S k <= i < S k + length m)%nat /\ nth (i - S k) m false = true)).
      { intros i. destruct (Nat.eq_dec i k) as [->|N]; [rewrite Nat.sub_diag; cbn; intuition lia|].
        destruct (Nat.le_gt_cases k i); [replace (i - k)%nat with (S (i - S k)) by lia; cbn [nth]; intuition lia|intuition lia]. }
      cbn [snd]. destruct x; cbn [map fst].
      + split.
        * constructor; auto. apply Forall_forall. intros i Hi. apply I1 in Hi. lia.
        * intros i. rewrite T. cbn [In]. rewrite I1. intuition.
      + split; auto. intros i. rewrite T, I1. intuition discriminate. }
  rewrite <- HL. destruct (H 0%nat mask) as [S1 I1]. split; auto. intros i. rewrite I1, Nat.sub_0_r. intuition lia.
Qed.
Print Assumptions C27_sample_masked.

(** non-vacuity: D_3, two irreps in, two out; element 3 is kernel 1 of the pair (input 1, output 0) *)
Example C27_ex : exists i0 i1 s, dih_irrep 3 0 0 = Ok i0 /\ dih_irrep 3 1 1 = Ok i1 /\
  sk_make (fliprotN_basis 3 0 (Some 2%Z) None) (MkRep "a" [i0; i1] mid mid []) (MkRep "b" [i1; i0] mid mid []) = Ok s /\
  sk_iter s = [(0, 0, 0, 0); (0, 0, 1, 1); (0, 1, 0, 2); (1, 0, 0, 3); (1, 0, 1, 4); (1, 0, 2, 5); (1, 1, 0, 6); (1, 1, 1, 7)]%nat /\
  polar_iter 2 2 = [(0, 0, 0); (0, 1, 1); (1, 0, 2); (1, 1, 3)]%nat.
Proof. do 3 eexists. split; [reflexivity|]. split; [reflexivity|]. split; [reflexivity|]. split; reflexivity. Qed.

(** ** C21, kernel bases *)
(** Two bases of the same class between the same irreps (with the same axis) that compare equal have the same
    hash, the same dimension and the same samples; each equals itself. *)
Theorem C21_kernel_basis_eq_partial :
  (forall c b, kb_eqb c b b = Ok true) /\
  (forall axis axis' F T F' T' n m iin iout b b', cyc_irrep 2 n = Ok iin -> cyc_irrep 2 m = Ok iout ->
     flips_basis axis F T iin iout = Ok b -> flips_basis axis' F' T' iin iout = Ok b' -> kb_eqb true b b' = Ok true ->
     axis = axis' /\ kb_dim b = kb_dim b' /\ kb_hashed b = kb_hashed b' /\ forall idx a, kb_sample b idx a = kb_sample b' idx a) /\
  (forall N F T F' T' n m iin iout b b', (0 < N)%Z -> cyc_irrep N n = Ok iin -> cyc_irrep N m = Ok iout ->
     rotN_basis N F T iin iout = Ok b -> rotN_basis N F' T' iin iout = Ok b' -> kb_eqb false b b' = Ok true ->
     kb_dim b = kb_dim b' /\ kb_hashed b = kb_hashed b' /\ forall idx a, kb_sample b idx a = kb_sample b' idx a) /\
  (forall N axis F T F' T' ji n jo m iin iout b b', (0 < N)%Z -> dih_irrep N ji n = Ok iin -> dih_irrep N jo m = Ok iout ->
     fliprotN_basis N axis F T iin iout = Ok b -> fliprotN_basis N axis F' T' iin iout = Ok b' -> kb_eqb false b b' = Ok true ->
     kb_dim b = kb_dim b' /\ kb_hashed b = kb_hashed b' /\ forall idx a, kb_sample b idx a = kb_sample b' idx a).
Proof.
  split; [apply kb_eqb_refl|]. split; [|split].
  - intros axis axis' F T F' T' n m iin iout b b' Hi Ho Hb Hb' He.
    destruct (assert_ok _ _ _ Hb) as [HB _]. destruct (assert_ok _ _ _ Hb') as [HB' _].
    assert (F1 := eo_ok _ _ _ (flips_fine axis F T n m iin iout Hi Ho HB) Hb).
    assert (F2 := eo_ok _ _ _ (flips_fine axis' F' T' n m iin iout Hi Ho HB') Hb').
    assert (axis = axis') as <-.
    { unfold kb_eqb in He. rewrite (proj1 F1), (proj1 F2) in He. destruct (Req_EM_T axis axis'); auto. cbn in He. discriminate. }
    split; auto. apply (fine_eq true (Some axis) (ir_size iout) (ir_size iin)); auto.
  - intros N F T F' T' n m iin iout b b' HN Hi Ho Hb Hb' He.
    destruct (assert_ok _ _ _ Hb) as [HB _]. destruct (assert_ok _ _ _ Hb') as [HB' _].
    apply (fine_eq false None (ir_size iout) (ir_size iin)); auto.
    + exact (eo_ok _ _ _ (rotN_fine N F T n m iin iout HN Hi Ho HB) Hb).
    + exact (eo_ok _ _ _ (rotN_fine N F' T' n m iin iout HN Hi Ho HB') Hb').
  - intros N axis F T F' T' ji n jo m iin iout b b' HN Hi Ho Hb Hb' He.
    destruct (assert_ok _ _ _ Hb) as [HB _]. destruct (assert_ok _ _ _ Hb') as [HB' _].
    apply (fine_eq false (Some axis) (ir_size iout) (ir_size iin)); auto.
    + exact (eo_ok _ _ _ (fliprotN_fine N axis F T ji n jo m iin iout HN Hi Ho HB) Hb).
    + exact (eo_ok _ _ _ (fliprotN_fine N axis F' T' ji n jo m iin iout HN Hi Ho HB') Hb').
Qed.
Print Assumptions C21_kernel_basis_eq_partial.

(** the same for SteerableKernelBasis between the same representations *)
Theorem C21_steerable_basis_eq_partial : forall N axis F T F' T' rin rout s s', (0 < N)%Z -> dih_rep N rin -> dih_rep N rout ->
  bounds_ok F T = true -> bounds_ok F' T' = true ->
  sk_make (fliprotN_basis N axis F T) rin rout = Ok s -> sk_make (fliprotN_basis N axis F' T') rin rout = Ok s' ->
  sk_eqb false s s' = Ok true ->
  sk_dim s = sk_dim s' /\ forall idx a, sk_sample s idx a = sk_sample s' idx a.
Proof.
  intros N axis F T F' T' rin rout s s' HN [_ Fi] [_ Fo] HB HB' Hs Hs' He.
  eapply (sk_eqb_same false (Some axis)); [|exact Hs|exact Hs'|exact He].
  intros i o Hi Ho. rewrite Forall_forall in Fi, Fo. destruct (Fi i Hi) as [ji [n Hn]]. destruct (Fo o Ho) as [jo [m Hm]].
  split; [apply (fliprotN_fine N axis F T ji n jo m); auto|apply (fliprotN_fine N axis F' T' ji n jo m); auto].
Qed.
Print Assumptions C21_steerable_basis_eq_partial.

(** The claim is false for D_N and O(2): the axis is not compared.  Two bases for the mirror axes 0 and pi/2 (the
    sign irrep of D_1 to the trivial one) compare equal, also as SteerableKernelBasis, and have the same hash, but
    their kernels have opposite signs. *)
Theorem C21_kernel_basis_eq_refuted : exists i0 i1 b b' s s',
  dih_irrep 1 0 0 = Ok i0 /\ dih_irrep 1 1 0 = Ok i1 /\
  fliprotN_basis 1 0 (Some 2%Z) None i1 i0 = Ok b /\ fliprotN_basis 1 (PI / 2) (Some 2%Z) None i1 i0 = Ok b' /\
  kb_eqb false b b' = Ok true /\ kb_hashed b = kb_hashed b' /\
  kb_sample b 0 (Some (PI / 4)) O O <> kb_sample b' 0 (Some (PI / 4)) O O /\
  sk_make (fliprotN_basis 1 0 (Some 2%Z) None) (rep_of_irrep "a" i1) (rep_of_irrep "b" i0) = Ok s /\
  sk_make (fliprotN_basis 1 (PI / 2) (Some 2%Z) None) (rep_of_irrep "a" i1) (rep_of_irrep "b" i0) = Ok s' /\
  sk_eqb false s s' = Ok true /\
  sk_sample s 0 (Some (PI / 4)) O O <> sk_sample s' 0 (Some (PI / 4)) O O.
Proof.
  assert (NE : cos (1 * (PI / 4 - 0) + 1 * (PI / 2)) <> cos (1 * (PI / 4 - PI / 2) + 1 * (PI / 2))).
  { replace (1 * (PI / 4 - 0) + 1 * (PI / 2)) with (PI / 4 + PI / 2) by lra. replace (1 * (PI / 4 - PI / 2) + 1 * (PI / 2)) with (PI / 4) by lra.
    rewrite cos_plus, cos_PI2, sin_PI2. assert (0 < cos (PI / 4)) by (apply cos_gt_0; assert (H := PI_RGT_0); lra).
    assert (0 < sin (PI / 4)) by (apply sin_gt_0; assert (H' := PI_RGT_0); lra). lra. }
  do 6 eexists. split; [reflexivity|]. split; [reflexivity|]. split; [reflexivity|]. split; [reflexivity|]. split; [reflexivity|]. split; [reflexivity|].
  split; [exact NE|]. split; [reflexivity|]. split; [reflexivity|]. split; [reflexivity|].
  assert (E : is_eye 1 mid = true).
  { apply forallb_forall. intros i _. apply forallb_forall. intros j _. destruct (Req_EM_T (mid i j) (mid i j)); congruence. }
  unfold sk_sample. cbn [sk_Ainv sk_B rep_of_irrep]. change (isizes _) with 1%nat.
  unfold rp_size. cbn [rp_irreps rp_inv rp_cob rep_of_irrep isizes map ir_size nsum fold_right Nat.add]. rewrite !E. exact NE.
Qed.
Print Assumptions C21_kernel_basis_eq_refuted.
(** ... and the comparison of bases of different dimensions raises instead of answering False *)
Theorem C21_kernel_basis_eq_raises_refuted : exists i0 b b', cyc_irrep 2 0 = Ok i0 /\
  flips_basis 0 (Some 1%Z) None i0 i0 = Ok b /\ flips_basis 0 (Some 2%Z) None i0 i0 = Ok b' /\ kb_eqb true b b' = Err "ValueError"%string.
Proof.
  do 3 eexists. split; [reflexivity|]. split; [reflexivity|]. split; [reflexivity|].
  unfold kb_eqb. cbn [kb_axis]. destruct (Req_EM_T 0 0); [reflexivity|lra].
Qed.
Print Assumptions C21_kernel_basis_eq_raises_refuted.
