(** Kernels between irreps: every class of basis satisfies the constraint (C22). *)
From Coq Require Import Reals ZArith String List Bool Lia Lra Setoid Morphisms Sorted.
From Verif Require Import Base Spec Model_Groups Model_Rep Model_GSpace Spec_GSpace Model_Kernels Spec_Kernels
  Proofs_Groups Proofs_Cont Proofs_Irreps Proofs_GSpace Proofs_Trig Proofs_Kernels.
Import ListNotations.
Open Scope R_scope.

(** ** inverse elements act by the transpose *)
Lemma rep_inv_tr {G} (el : G -> Prop) eqv op inv (e : G) n (rho : G -> mat) :
  group_laws el eqv op inv e -> is_representation el op e n rho -> is_orthogonal_rep el n rho ->
  (forall a b, eqv a b -> meq n n (rho a) (rho b)) ->
  forall g, el g -> meq n n (rho (inv g)) (mtr (rho g)).
Proof.
  intros L [R1 R2] O E g Hg.
  assert (Hi : el (inv g)) by (apply (gl_inv_el _ _ _ _ _ L); auto).
  apply (inverse_pair_unique n (rho g)); [|apply O; auto]. split.
  - rewrite <- R2 by auto. rewrite <- R1. apply E, (gl_inv_r _ _ _ _ _ L); auto.
  - rewrite <- R2 by auto. rewrite <- R1. apply E, (gl_inv_l _ _ _ _ _ L); auto.
Qed.

(** ** a generic planar group: element g rotates by [th g] after a reflection in [axis] if fl g = 1 *)
Section Gen.
Context {G : Type}.
Variables (el : G -> Prop) (inv : G -> G) (s : gspace) (code : G -> gelt) (th : G -> R) (fl : G -> Z) (axis : R) (P : Z).

Record planar : Prop := {
  pl_act : forall g p, el g -> plane_action s (code g) p = rotate_pt (th g) (if Z.eqb (fl g) 1 then mirror_pt axis p else p);
  pl_fl : forall g, el g -> (fl g = 0 \/ fl g = 1)%Z;
  pl_per : forall g, el g -> cong2pi (IZR P * th g) 0
}.
Hypothesis HP : planar.

Definition std (n f : Z) (ir : irrep G) : Prop :=
  (f = 0 \/ f = 1)%Z /\
  (forall g, el g -> meq (ir_size ir) (ir_size ir) (ir_mat ir (inv g)) (mtr (ir_mat ir g))) /\
  ((ir_size ir = 2%nat /\ forall g, el g -> meq 2 2 (ir_mat ir g) (pc (fl g) (IZR n * th g))) \/
   (ir_size ir = 1%nat /\ forall g, el g -> sin (IZR n * th g) = 0 /\
       meq 1 1 (ir_mat ir g) (mat1 (cos (IZR n * th g) * fsign (fl g) f)))).

Definition noflip : Prop := forall g, el g -> fl g = 0%Z.

Definition good_el (m n fo fi : Z) (rows cols : nat) (e : kel) : Prop :=
  match rows, cols with
  | 2%nat, 2%nat => (exists t, ke_mu e = m - sgn (ke_s e) * n + t * P)%Z /\ (noflip \/ ke_gq e = 0%Z)
  | 1%nat, 2%nat => (exists t, ke_mu e = n + m + t * P)%Z /\ (noflip \/ ke_gq e = fo)
  | 2%nat, 1%nat => (exists t, ke_mu e = n + m + t * P)%Z /\ (noflip \/ ke_gq e = fi)
  | 1%nat, 1%nat => (exists t, ke_mu e = m - n + t * P)%Z /\ (noflip \/ ke_gq e = ((fi + fo) mod 2)%Z)
  | _, _ => False
  end.

Lemma per_cong (mu r t : Z) g : el g -> mu = (r + t * P)%Z -> cong2pi (IZR mu * th g) (IZR r * th g).
Proof.
  intros Hg ->. rewrite plus_IZR, mult_IZR.
  replace ((IZR r + IZR t * IZR P) * th g) with (IZR r * th g + IZR t * (IZR P * th g)) by ring.
  rewrite <- (Rplus_0_r (IZR r * th g)) at 2. apply cong2pi_plus; [apply cong2pi_refl|].
  rewrite <- (Rmult_0_r (IZR t)). apply cong2pi_mulZ. apply (pl_per HP); auto.
Qed.

Lemma good_constraint m n fo fi iout iin e g x :
  std m fo iout -> std n fi iin -> good_el m n fo fi (ir_size iout) (ir_size iin) e -> el g ->
  meq (ir_size iout) (ir_size iin) (kmat (ir_size iout) (ir_size iin) e (th g + IZR (sgn (fl g)) * x))
      (mmul (ir_size iin) (mmul (ir_size iout) (ir_mat iout g) (kmat (ir_size iout) (ir_size iin) e x)) (ir_mat iin (inv g))).
Proof.
  intros [Hfo [To Co]] [Hfi [Ti Ci]] He Hg.
  assert (Hj := pl_fl HP g Hg).
  set (no := ir_size iout) in *. set (ni := ir_size iin) in *.
  assert (Ti' := Ti g Hg).
  transitivity (mmul ni (mmul no (ir_mat iout g) (kmat no ni e x)) (mtr (ir_mat iin g))); [|apply mmul_compat; [reflexivity|symmetry; auto]].
  clear Ti Ti' To.
  destruct Co as [[So Mo]|[So Mo]]; destruct Ci as [[Si Mi]|[Si Mi]]; rewrite So, Si in *; unfold good_el in He; destruct He as [[t Ht] HG].
  - assert (HG' : fl g = 0%Z \/ ke_gq e = 0%Z) by (destruct HG as [HG|HG]; [left; auto|right; auto]).
    etransitivity; [apply (core22 (th g) x (fl g) e Hj m n (per_cong _ _ _ g Hg Ht) HG')|].
    apply mmul_compat; [apply mmul_compat; [symmetry; auto|reflexivity]|]. apply meq_tr. symmetry; auto.
  - destruct (Mi g Hg) as [Ms Mi'].
    assert (HG' : fl g = 0%Z \/ ke_gq e = fi) by (destruct HG as [HG|HG]; [left; auto|right; auto]).
    etransitivity; [apply (core21 (th g) x (fl g) e Hj m n fi (per_cong _ _ _ g Hg Ht) Ms Hfi HG')|].
    apply mmul_compat; [apply mmul_compat; [symmetry; auto|reflexivity]|]. apply meq_tr. symmetry; auto.
  - destruct (Mo g Hg) as [Ms Mo'].
    assert (HG' : fl g = 0%Z \/ ke_gq e = fo) by (destruct HG as [HG|HG]; [left; auto|right; auto]).
    etransitivity; [apply (core12 (th g) x (fl g) e Hj m n fo (per_cong _ _ _ g Hg Ht) Ms Hfo HG')|].
    apply mmul_compat; [apply mmul_compat; [symmetry; auto|reflexivity]|]. apply meq_tr. symmetry; auto.
  - destruct (Mi g Hg) as [Ms Mi']. destruct (Mo g Hg) as [Ms2 Mo'].
    assert (HG' : fl g = 0%Z \/ ke_gq e = ((fi + fo) mod 2)%Z) by (destruct HG as [HG|HG]; [left; auto|right; auto]).
    etransitivity; [apply (core11 (th g) x (fl g) e Hj m n fi fo (per_cong _ _ _ g Hg Ht) Ms Ms2 Hfi Hfo HG')|].
    apply mmul_compat; [apply mmul_compat; [symmetry; auto|reflexivity]|]. apply meq_tr. symmetry; auto.
Qed.

(** ** how angles move *)
Lemma rotate_polar t a : rotate_pt t (cos a, sin a) = (cos (t + a), sin (t + a)).
Proof. unfold rotate_pt; cbn [fst snd]. rewrite cos_plus, sin_plus. f_equal; ring. Qed.
Lemma mirror_polar b a : mirror_pt b (cos a, sin a) = (cos (2 * b - a), sin (2 * b - a)).
Proof.
  rewrite mirror_rotate. cbn [fst snd]. rewrite <- (cos_neg a), <- (sin_neg a), rotate_polar. reflexivity.
Qed.

Lemma moves_exact g a : el g -> moves_angle s (code g) a (axis + (th g + IZR (sgn (fl g)) * (a - axis))).
Proof.
  intros Hg. unfold moves_angle. rewrite (pl_act HP g _ Hg).
  destruct (pl_fl HP g Hg) as [-> | ->]; cbn [Z.eqb Pos.eqb sgn].
  - rewrite rotate_polar. f_equal; f_equal; ring.
  - rewrite mirror_polar, rotate_polar. f_equal; f_equal; ring.
Qed.

Lemma moves_cong g a a' : el g -> moves_angle s (code g) a a' ->
  cong2pi (a' - axis) (th g + IZR (sgn (fl g)) * (a - axis)).
Proof.
  intros Hg H. assert (E := moves_exact g a Hg). unfold moves_angle in *. rewrite H in E. injection E as E1 E2.
  destruct (cos_sin_cong _ _ E1 E2) as [k Hk]. exists k. lra.
Qed.

Lemma good_angular m n fo fi iout iin b e :
  std m fo iout -> std n fi iin -> kb_rows b = ir_size iout -> kb_cols b = ir_size iin -> ax b = axis ->
  good_el m n fo fi (ir_size iout) (ir_size iin) e ->
  angular_constraint s code el inv (ir_size iout) (ir_size iin) (ir_mat iout) (ir_mat iin) (fun a => kb_sample_el b e (Some a)) /\
  fixed_constraint el inv (ir_size iout) (ir_size iin) (ir_mat iout) (ir_mat iin) (kb_sample_el b e None).
Proof.
  intros So Si Hr Hc Ha He. split.
  - intros g a a' Hg Hm. rewrite !kb_sample_Some, Hr, Hc, Ha.
    rewrite (kmat_cong _ _ e _ _ (moves_cong g a a' Hg Hm)). apply (good_constraint m n fo fi); auto.
  - intros g Hg. destruct (Z.eq_dec (ke_mu e) 0) as [Z0|Z0].
    + rewrite kb_sample_None, Hr, Hc by auto. rewrite (kmat_mu0 _ _ e 0 (th g + IZR (sgn (fl g)) * 0)) at 1 by auto.
      apply (good_constraint m n fo fi); auto.
    + intros i j Hi Hj. rewrite kb_sample_None0 by auto. unfold mmul. symmetry. apply rsum_0. intros k Hk.
      rewrite rsum_0; [ring|]. intros k' Hk'. rewrite kb_sample_None0 by auto. ring.
Qed.
End Gen.

(** ** the five groups as planar groups, and their irreps *)
Definition thN (N : Z) (g : Z) : R := IZR g * (2 * PI / IZR N).

Lemma IZR_pos N : (0 < N)%Z -> 0 < IZR N.
Proof. intros; apply (IZR_lt 0); auto. Qed.

Lemma planar_flip axis : planar (cyc_el 2) (SpFlip (GC 2) axis) EI (fun _ => 0) (fun g => g) axis 1.
Proof.
  split.
  - intros g p Hg. cbn [plane_action]. rewrite rotate_0. reflexivity.
  - intros g Hg. unfold cyc_el, cyc_is_element in Hg. lia.
  - intros g Hg. rewrite Rmult_0_r. apply cong2pi_refl.
Qed.
Lemma planar_rotN N : (0 < N)%Z -> planar (cyc_el N) (SpRot (GC N)) EI (thN N) (fun _ => 0%Z) 0 N.
Proof.
  intros HN. assert (H := IZR_pos N HN). split.
  - intros g p Hg. cbn [plane_action Z.eqb]. f_equal. unfold thN. field. lra.
  - intros; auto.
  - intros g Hg. exists g. unfold thN. field. lra.
Qed.
Lemma planar_rot F : planar so2_el (SpRot (GSO2 F)) ER (fun g => g) (fun _ => 0%Z) 0 0.
Proof.
  split.
  - intros g p Hg. reflexivity.
  - intros; auto.
  - intros g Hg. rewrite Rmult_0_l. apply cong2pi_refl.
Qed.
Definition codeD (g : Z * Z) : gelt := EFI (fst g) (snd g).
Definition codeO (g : Z * R) : gelt := EFR (fst g) (snd g).
Lemma planar_fliprotN N axis : (0 < N)%Z ->
  planar (dih_el N) (SpFlipRot (GD N) axis) codeD (fun g => thN N (snd g)) fst axis N.
Proof.
  intros HN. assert (H := IZR_pos N HN). split.
  - intros g p Hg. cbn [plane_action codeD]. f_equal. unfold thN. field. lra.
  - intros [f k] Hg. apply dih_elZ in Hg. cbn. tauto.
  - intros g Hg. exists (snd g). unfold thN. field. lra.
Qed.
Lemma planar_fliprot F axis : planar o2_el (SpFlipRot (GO2 F) axis) codeO snd fst axis 0.
Proof.
  split.
  - intros g p Hg. reflexivity.
  - intros [f a] Hg. unfold o2_el, o2_is_element in Hg. cbn in *. lia.
  - intros g Hg. rewrite Rmult_0_l. apply cong2pi_refl.
Qed.

Lemma mat1_mid : meq 1 1 mid (mat1 1).
Proof. intros i j Hi Hj. unfold mid, mat1. assert (i = j) as -> by lia. rewrite Nat.eqb_refl. auto. Qed.

Lemma half_sin N k (g : Z) : (0 < N)%Z -> (2 * k = N)%Z -> sin (IZR k * thN N g) = 0.
Proof.
  intros HN E. assert (H := IZR_pos N HN). replace (IZR k * thN N g) with (IZR g * PI); [apply sin_kpi|].
  unfold thN. rewrite <- E, mult_IZR. assert (0 < IZR k) by (apply IZR_pos; lia). field. lra.
Qed.

Lemma std_rotN N k ir : (0 < N)%Z -> cyc_irrep N k = Ok ir -> std (cyc_el N) (cyc_inverse N) (thN N) (fun _ => 0%Z) k 0 ir.
Proof.
  intros HN H. destruct (cyc_irrep_rep N k ir HN H) as [R O].
  split; [auto|]. split.
  { apply (rep_inv_tr (cyc_el N) eq (cyc_combine N) (cyc_inverse N) cyc_identity); auto; [apply cyc_laws; auto|].
    intros a b ->. reflexivity. }
  destruct (cyc_irrep_inv N k ir H) as [_ [_ [_ C]]]. destruct C as [[-> [-> ->]]|[[Hk [H2 [Hk2 [-> ->]]]]|[Hk [H2 [-> ->]]]]].
  - right. split; auto. intros g Hg. rewrite Rmult_0_l, sin_0, cos_0. split; auto. rewrite mat1_mid.
    unfold fsign. cbn [Z.eqb]. rewrite Rmult_1_l. reflexivity.
  - right. split; auto. intros g Hg. split.
    + apply half_sin; auto. generalize (Z.div_mod N 2); lia.
    + unfold fsign, thN. cbn [Z.eqb]. rewrite Rmult_1_r, Rmult_assoc. reflexivity.
  - left. split; auto. intros g Hg. rewrite psi_pc, Rplus_0_r. reflexivity.
Qed.

Lemma cyc_irrep2 k ir : cyc_irrep 2 k = Ok ir -> (k = 0 \/ k = 1)%Z /\ ir_freq ir = k /\ ir_size ir = 1%nat.
Proof.
  intros H. destruct (cyc_irrep_inv 2 k ir H) as [Hk [Hf [_ C]]].
  assert (B : (2 / 2 = 1)%Z) by reflexivity.
  split; [lia|]. split; auto. destruct C as [C|[C|C]]; try tauto; lia.
Qed.
Lemma std_flip k ir : cyc_irrep 2 k = Ok ir -> std (cyc_el 2) (cyc_inverse 2) (fun _ => 0) (fun g => g) 0 k ir.
Proof.
  intros H. destruct (cyc_irrep2 k ir H) as [Hk [_ Hs]]. destruct (cyc_irrep_rep 2 k ir ltac:(lia) H) as [R O].
  split; [auto|]. split.
  { apply (rep_inv_tr (cyc_el 2) eq (cyc_combine 2) (cyc_inverse 2) cyc_identity); auto; [apply cyc_laws; lia|].
    intros a b ->. reflexivity. }
  right. split; auto. intros g Hg. rewrite Rmult_0_r, sin_0, cos_0, Rmult_1_l. split; auto.
  destruct (cyc_irrep_inv 2 k ir H) as [_ [_ [_ C]]]. destruct C as [[-> [_ ->]]|[[H0 [_ [_ [_ ->]]]]|[H0 [H2 [Hs' _]]]]]; [..|lia].
  - rewrite mat1_mid. reflexivity.
  - assert (k = 1%Z) as -> by lia. unfold fsign, flip_sign; cbn [Z.eqb].
    assert (g = 0 \/ g = 1)%Z as [-> | ->] by (unfold cyc_el, cyc_is_element in Hg; lia); cbn [sgn Z.eqb].
    + rewrite Rmult_0_r, Rmult_0_l, cos_0. reflexivity.
    + replace (1 * 1 * (2 * PI / 2)) with PI by field. rewrite cos_PI. reflexivity.
Qed.

Lemma std_rot k ir : so2_irrep k = Ok ir -> std so2_el so2_inverse (fun g => g) (fun _ => 0%Z) k 0 ir.
Proof.
  intros H. destruct (so2_irrep_rep k ir H) as [R [O E]].
  split; [auto|]. split.
  { apply (rep_inv_tr so2_el cong2pi so2_combine so2_inverse so2_identity); auto. apply so2_laws. }
  destruct (so2_irrep_inv k ir H) as [_ [_ [_ C]]]. destruct C as [[-> [-> ->]]|[Hk [-> ->]]].
  - right. split; auto. intros g Hg. rewrite Rmult_0_l, sin_0, cos_0. split; auto. rewrite mat1_mid.
    unfold fsign. cbn [Z.eqb]. rewrite Rmult_1_l. reflexivity.
  - left. split; auto. intros g Hg. rewrite psi_pc, Rplus_0_r. reflexivity.
Qed.

Lemma std_fliprotN N j k ir : (0 < N)%Z -> dih_irrep N j k = Ok ir ->
  std (dih_el N) (dih_inverse N) (fun g => thN N (snd g)) fst k j ir.
Proof.
  intros HN H. destruct (dih_irrep_rep N j k ir HN H) as [R O].
  destruct (dih_irrep_inv N j k ir HN H) as [V [_ [_ C]]].
  split; [unfold dih_irrep_valid in V; lia|]. split.
  { apply (rep_inv_tr (dih_el N) eq (dih_combine N) (dih_inverse N) dih_identity); auto; [apply dih_laws; auto|].
    intros a b ->. reflexivity. }
  destruct C as [[-> [-> [-> ->]]]|[[-> [-> [-> ->]]]|[[Hk [H2 [-> [-> ->]]]]|[[Hk [H2 [-> [-> ->]]]]|[Hk [H2 [-> [-> ->]]]]]]]].
  - right. split; auto. intros g Hg. rewrite Rmult_0_l, sin_0, cos_0. split; auto. rewrite mat1_mid.
    unfold fsign. cbn [Z.eqb]. rewrite Rmult_1_l. reflexivity.
  - right. split; auto. intros g Hg. rewrite Rmult_0_l, sin_0, cos_0, Rmult_1_l. split; auto. reflexivity.
  - right. split; auto. intros g Hg. split; [apply half_sin; auto|].
    unfold fsign, thN. cbn [Z.eqb]. rewrite Rmult_1_r, Rmult_assoc. reflexivity.
  - right. split; auto. intros g Hg. split; [apply half_sin; auto|].
    unfold fsign, thN. cbn [Z.eqb]. rewrite Rmult_assoc. reflexivity.
  - left. split; auto. intros g Hg. rewrite psichi_pc, Rplus_0_r. reflexivity.
Qed.

Lemma std_fliprot j k ir : o2_irrep j k = Ok ir -> std o2_el o2_inverse snd fst k j ir.
Proof.
  intros H. destruct (o2_irrep_rep j k ir H) as [R [O E]].
  destruct (o2_irrep_inv j k ir H) as [V [_ [_ C]]].
  split; [lia|]. split.
  { apply (rep_inv_tr o2_el o2_eqv o2_combine o2_inverse o2_identity); auto. apply o2_laws. }
  destruct C as [[-> [-> [-> ->]]]|[[-> [-> [-> ->]]]|[Hk [-> [-> ->]]]]].
  - right. split; auto. intros g Hg. rewrite Rmult_0_l, sin_0, cos_0. split; auto. rewrite mat1_mid.
    unfold fsign. cbn [Z.eqb]. rewrite Rmult_1_l. reflexivity.
  - right. split; auto. intros g Hg. rewrite Rmult_0_l, sin_0, cos_0, Rmult_1_l. split; auto. reflexivity.
  - left. split; auto. intros g Hg. rewrite psichi_pc, Rplus_0_r. reflexivity.
Qed.

(** ** what the constructors return *)
Definition empty_or {A} (r : result A) (P : A -> Prop) : Prop :=
  match r with Ok a => P a | Err x => x = "EmptyBasisException"%string end.

Lemma kb_make_spec axis r c els (P : kbasis -> Prop) :
  (els <> [] -> P (MkKB axis r c els)) -> empty_or (kb_make axis r c els) P.
Proof. intros H. unfold kb_make. destruct els; cbn; auto. apply H. discriminate. Qed.

(** the list of elements the constructor collects for each class *)
Definition flips_els (F T : option Z) (n m : Z) (ts : list Z) : list kel :=
  els_keep ((n + m) mod 2) (map (fun t => (t, 0 + t * 1)%Z) ts).

Lemma flips_inv axis F T n m iin iout : cyc_irrep 2 n = Ok iin -> cyc_irrep 2 m = Ok iout -> bounds_ok F T = true ->
  exists ts, (forall t, In t ts <-> okt T F true 0 1 t) /\ StronglySorted Z.lt ts /\
  flips_basis axis F T iin iout = kb_make (Some axis) 1 1 (els_keep ((n + m) mod 2) (map (fun t => (t, 0 + t * 1)%Z) ts)).
Proof.
  intros Hi Ho HB. destruct (cyc_irrep2 _ _ Hi) as [_ [Fi Si]]. destruct (cyc_irrep2 _ _ Ho) as [_ [Fo So]].
  destruct (shifted_ok 0 1 T F true ltac:(lia) HB) as [ts [E [E' [St I]]]]. exists ts. split; auto. split; auto.
  unfold flips_basis, assert_. rewrite HB, E'. cbn [rbind]. rewrite Fi, Fo, Si, So. reflexivity.
Qed.

Definition sh (k N : Z) (ts : list Z) : list (Z * Z) := map (fun t => (t, k + t * N)%Z) ts.

Lemma half_or_zero_ok N k ir : (0 < N)%Z -> cyc_irrep N k = Ok ir -> ir_size ir = 1%nat -> half_or_zero k N = true.
Proof.
  intros HN H S. destruct (cyc_irrep_inv N k ir H) as [_ [_ [_ C]]]. unfold half_or_zero.
  destruct C as [[-> _]|[[_ [H2 [-> _]]]|[_ [_ [S2 _]]]]]; [reflexivity| |congruence].
  rewrite H2, Z.eqb_refl. cbn. apply orb_true_r.
Qed.
Lemma half_or_zero_okD N j k ir : (0 < N)%Z -> dih_irrep N j k = Ok ir -> ir_size ir = 1%nat -> half_or_zero k N = true.
Proof.
  intros HN H S. destruct (dih_irrep_inv N j k ir HN H) as [_ [_ [_ C]]]. unfold half_or_zero.
  assert (A : (N = 2 * k)%Z -> ((k =? 0) || ((k =? N / 2) && (N mod 2 =? 0)))%Z%bool = true).
  { intros E. apply even_half in E; auto. rewrite andb_comm in E. rewrite E. apply orb_true_r. }
  destruct C as [[-> _]|[[-> _]|[[_ [E _]]|[[_ [E _]]|[_ [_ [_ [S2 _]]]]]]]]; try reflexivity; auto. congruence.
Qed.

Lemma rotN_inv N F T n m iin iout : (0 < N)%Z -> cyc_irrep N n = Ok iin -> cyc_irrep N m = Ok iout -> bounds_ok F T = true ->
  exists els, rotN_basis N F T iin iout = kb_make None (ir_size iout) (ir_size iin) els /\
  ((ir_size iin = 2%nat /\ ir_size iout = 2%nat /\ exists t0 t1, StronglySorted Z.lt t0 /\ StronglySorted Z.lt t1 /\
      (forall t, In t t0 <-> okt T F false (m - n) N t) /\ (forall t, In t t1 <-> okt T F false (m + n) N t) /\
      els = els_of 0 0 (sh (m - n) N t0) ++ els_of 0 1 (sh (m + n) N t1) ++ els_of 1 0 (sh (m - n) N t0) ++ els_of 1 1 (sh (m + n) N t1)) \/
   ((ir_size iin = 2%nat /\ ir_size iout = 1%nat \/ ir_size iin = 1%nat /\ ir_size iout = 2%nat) /\
      exists t0, StronglySorted Z.lt t0 /\ (forall t, In t t0 <-> okt T F false (n + m) N t) /\
      els = els_of 0 0 (sh (n + m) N t0) ++ els_of 1 0 (sh (n + m) N t0)) \/
   (ir_size iin = 1%nat /\ ir_size iout = 1%nat /\ exists t0, StronglySorted Z.lt t0 /\ (forall t, In t t0 <-> okt T F true (m - n) N t) /\
      els = els_keep 0 (sh (m - n) N t0) ++ els_keep 1 (sh (m - n) N t0))).
Proof.
  intros HN Hi Ho HB.
  destruct (cyc_irrep_inv N n iin Hi) as [_ [Fi _]]. destruct (cyc_irrep_inv N m iout Ho) as [_ [Fo _]].
  assert (Hzi := half_or_zero_ok N n iin HN Hi). assert (Hzo := half_or_zero_ok N m iout HN Ho).
  unfold rotN_basis, assert_. rewrite HB, Fi, Fo.
  assert (Si : ir_size iin = 1%nat \/ ir_size iin = 2%nat) by (destruct (cyc_irrep_inv N n iin Hi) as [_ [_ [_ C]]]; intuition).
  assert (So : ir_size iout = 1%nat \/ ir_size iout = 2%nat) by (destruct (cyc_irrep_inv N m iout Ho) as [_ [_ [_ C]]]; intuition).
  destruct Si as [Si|Si]; destruct So as [So|So]; rewrite Si, So in *.
  - rewrite Hzi, Hzo by auto. destruct (shifted_ok (m - n) N T F true HN HB) as [t0 [E [E' [S I]]]]. rewrite E'. cbn [rbind].
    eexists; split; [reflexivity|]. right; right. split; auto. split; auto. exists t0; auto.
  - rewrite Hzi by auto. destruct (shifted_ok (n + m) N T F false HN HB) as [t0 [E [E' [S I]]]]. rewrite E'. cbn [rbind].
    eexists; split; [reflexivity|]. right; left. split; auto. exists t0; auto.
  - rewrite Hzo by auto. destruct (shifted_ok (n + m) N T F false HN HB) as [t0 [E [E' [S I]]]]. rewrite E'. cbn [rbind].
    eexists; split; [reflexivity|]. right; left. split; auto. exists t0; auto.
  - replace (m - n * 1)%Z with (m - n)%Z by lia. replace (m - n * -1)%Z with (m + n)%Z by lia.
    destruct (shifted_ok (m - n) N T F false HN HB) as [t0 [E [E' [S I]]]]. rewrite E'. cbn [rbind].
    destruct (shifted_ok (m + n) N T F false HN HB) as [t1 [E1 [E1' [S1 I1]]]]. rewrite E1'. cbn [rbind].
    eexists; split; [reflexivity|]. left. split; auto. split; auto. exists t0, t1; auto 8.
Qed.

Lemma rot_inv n m iin iout : so2_irrep n = Ok iin -> so2_irrep m = Ok iout ->
  exists els, rot_basis iin iout = kb_make None (ir_size iout) (ir_size iin) els /\
  ((ir_size iin = 2%nat /\ ir_size iout = 2%nat /\
      els = [MkKel 0 (m - n) 0 0; MkKel 0 (m + n) 1 0; MkKel 1 (m - n) 0 0; MkKel 1 (m + n) 1 0]) \/
   ((ir_size iin = 2%nat /\ ir_size iout = 1%nat \/ ir_size iin = 1%nat /\ ir_size iout = 2%nat) /\
      els = [MkKel 0 (n + m) 0 0; MkKel 1 (n + m) 0 0]) \/
   (ir_size iin = 1%nat /\ ir_size iout = 1%nat /\ n = 0%Z /\ m = 0%Z /\ els = [MkKel 0 0 0 0])).
Proof.
  intros Hi Ho.
  destruct (so2_irrep_inv n iin Hi) as [_ [Fi [_ Ci]]]. destruct (so2_irrep_inv m iout Ho) as [_ [Fo [_ Co]]].
  unfold rot_basis, assert_. rewrite Fi, Fo.
  destruct Ci as [[-> [Si _]]|[Hn [Si _]]]; destruct Co as [[-> [So _]]|[Hm [So _]]]; rewrite Si, So; cbn [Z.eqb andb rbind].
  - eexists; split; [reflexivity|]. right; right. auto 8.
  - eexists; split; [reflexivity|]. right; left. auto.
  - eexists; split; [reflexivity|]. right; left. auto.
  - replace (m - n * 1)%Z with (m - n)%Z by lia. replace (m - n * -1)%Z with (m + n)%Z by lia.
    eexists; split; [reflexivity|]. left. auto.
Qed.

Lemma dih_size2 N j k ir : (0 < N)%Z -> dih_irrep N j k = Ok ir -> ir_size ir = 2%nat -> j = 1%Z /\ (0 < k)%Z.
Proof.
  intros HN H S. destruct (dih_irrep_inv N j k ir HN H) as [V [_ [_ C]]]. unfold dih_irrep_valid in V. lia.
Qed.

Lemma fliprotN_inv N axis F T ji n jo m iin iout : (0 < N)%Z -> dih_irrep N ji n = Ok iin -> dih_irrep N jo m = Ok iout -> bounds_ok F T = true ->
  exists els, fliprotN_basis N axis F T iin iout = kb_make (Some axis) (ir_size iout) (ir_size iin) els /\
  ((ir_size iin = 2%nat /\ ir_size iout = 2%nat /\ exists t0 t1, StronglySorted Z.lt t0 /\ StronglySorted Z.lt t1 /\
      (forall t, In t t0 <-> okt T F false (m - n) N t) /\ (forall t, In t t1 <-> okt T F false (m + n) N t) /\
      els = els_of 0 0 (sh (m - n) N t0) ++ els_of 0 1 (sh (m + n) N t1)) \/
   (((ir_size iin = 2%nat /\ ir_size iout = 1%nat) \/ (ir_size iin = 1%nat /\ ir_size iout = 2%nat)) /\
      exists t0, StronglySorted Z.lt t0 /\ (forall t, In t t0 <-> okt T F false (n + m) N t) /\
      els = els_of (if (ir_size iin =? 2)%nat then jo else ji) 0 (sh (n + m) N t0)) \/
   (ir_size iin = 1%nat /\ ir_size iout = 1%nat /\ exists t0, StronglySorted Z.lt t0 /\ (forall t, In t t0 <-> okt T F true (m - n) N t) /\
      els = els_keep ((ji + jo) mod 2) (sh (m - n) N t0))).
Proof.
  intros HN Hi Ho HB.
  destruct (dih_irrep_inv N ji n iin HN Hi) as [_ [Fi [Ji Ci]]]. destruct (dih_irrep_inv N jo m iout HN Ho) as [_ [Fo [Jo Co]]].
  assert (Hzi := half_or_zero_okD N ji n iin HN Hi). assert (Hzo := half_or_zero_okD N jo m iout HN Ho).
  assert (H2i := dih_size2 N ji n iin HN Hi). assert (H2o := dih_size2 N jo m iout HN Ho).
  unfold fliprotN_basis, assert_. rewrite HB, Fi, Fo, Ji, Jo.
  assert (Si : ir_size iin = 1%nat \/ ir_size iin = 2%nat) by intuition.
  assert (So : ir_size iout = 1%nat \/ ir_size iout = 2%nat) by intuition.
  clear Ci Co.
  destruct Si as [Si|Si]; destruct So as [So|So]; rewrite Si, So in *.
  - rewrite Hzi, Hzo by auto. destruct (shifted_ok (m - n) N T F true HN HB) as [t0 [E [E' [S I]]]]. rewrite E'. cbn [rbind].
    eexists; split; [reflexivity|]. right; right. split; auto. split; auto. exists t0; auto.
  - rewrite Hzi by auto. destruct (H2o eq_refl) as [-> _]. cbn [andb Z.eqb Pos.eqb].
    destruct (shifted_ok (n + m) N T F false HN HB) as [t0 [E [E' [S I]]]]. rewrite E'. cbn [rbind].
    eexists; split; [reflexivity|]. right; left. split; auto. exists t0; auto.
  - rewrite Hzo by auto. destruct (H2i eq_refl) as [-> _]. cbn [andb Z.eqb Pos.eqb].
    destruct (shifted_ok (n + m) N T F false HN HB) as [t0 [E [E' [S I]]]]. rewrite E'. cbn [rbind].
    eexists; split; [reflexivity|]. right; left. split; auto. exists t0; auto.
  - destruct (H2i eq_refl) as [-> Pn]. destruct (H2o eq_refl) as [-> Pm].
    destruct (Z.ltb_spec 0 m); [|lia]. destruct (Z.ltb_spec 0 n); [|lia]. cbn [andb Z.eqb Pos.eqb].
    replace (m - n * 1)%Z with (m - n)%Z by lia. replace (m - n * -1)%Z with (m + n)%Z by lia.
    destruct (shifted_ok (m - n) N T F false HN HB) as [t0 [E [E' [S I]]]]. rewrite E'. cbn [rbind].
    destruct (shifted_ok (m + n) N T F false HN HB) as [t1 [E1 [E1' [S1 I1]]]]. rewrite E1'. cbn [rbind].
    eexists; split; [reflexivity|]. left. split; auto. split; auto. exists t0, t1; auto 8.
Qed.

Lemma fliprot_inv axis ji n jo m iin iout : o2_irrep ji n = Ok iin -> o2_irrep jo m = Ok iout ->
  exists els, fliprot_basis axis iin iout = kb_make (Some axis) (ir_size iout) (ir_size iin) els /\
  ((ir_size iin = 2%nat /\ ir_size iout = 2%nat /\ els = [MkKel 0 (m - n) 0 0; MkKel 0 (m + n) 1 0]) \/
   ((ir_size iin = 2%nat /\ ir_size iout = 1%nat \/ ir_size iin = 1%nat /\ ir_size iout = 2%nat) /\
      els = [MkKel (if (ir_size iin =? 2)%nat then jo else ji) (n + m) 0 0]) \/
   (ir_size iin = 1%nat /\ ir_size iout = 1%nat /\ n = 0%Z /\ m = 0%Z /\ els = els_keep ((ji + jo) mod 2) [(0, 0)%Z])).
Proof.
  intros Hi Ho.
  destruct (o2_irrep_inv ji n iin Hi) as [Pn [Fi [Ji Ci]]]. destruct (o2_irrep_inv jo m iout Ho) as [Pm [Fo [Jo Co]]].
  unfold fliprot_basis, assert_. rewrite Fi, Fo, Ji, Jo.
  assert (Si : (ir_size iin = 1%nat /\ n = 0%Z) \/ (ir_size iin = 2%nat /\ ji = 1%Z /\ n <> 0%Z)) by (clear Co; intuition).
  assert (So : (ir_size iout = 1%nat /\ m = 0%Z) \/ (ir_size iout = 2%nat /\ jo = 1%Z /\ m <> 0%Z)) by (clear Ci; intuition).
  clear Ci Co.
  destruct Si as [[Si ->]|[Si [-> Hn]]]; destruct So as [[So ->]|[So [-> Hm]]]; rewrite Si, So; cbn [Z.eqb Pos.eqb Nat.eqb andb rbind].
  - eexists; split; [reflexivity|]. right; right. auto 8.
  - eexists; split; [reflexivity|]. right; left. auto.
  - eexists; split; [reflexivity|]. right; left. auto.
  - destruct (Z.ltb_spec 0 m); [|lia]. destruct (Z.ltb_spec 0 n); [|lia]. cbn [andb rbind].
    replace (m - n * 1)%Z with (m - n)%Z by lia. replace (m - n * -1)%Z with (m + n)%Z by lia.
    eexists; split; [reflexivity|]. left. auto.
Qed.
