(** Irreps are orthogonal representations; restriction of irreps is correct. *)
From Coq Require Import Reals ZArith String List Bool Lia Lra Psatz.
From Verif Require Import Base Spec Model_Groups Model_Rep Proofs_Groups Proofs_Cont.
Import ListNotations.
Open Scope R_scope.

(** ** 2x2 matrices *)

(** rotation by x, preceded by the reflection chi if s is non-zero *)
Definition pc (s : Z) (x : R) : mat :=
  mat2 (cos x) (- (IZR (sgn s)) * sin x) (sin x) (IZR (sgn s) * cos x).

Lemma psichi_pc t s k g : psichi t s k g = pc s (IZR k * t + g).
Proof. reflexivity. Qed.

Lemma psi_pc t k g : meq 2 2 (psi t k g) (pc 0 (IZR k * t + g)).
Proof.
  intros i j Hi Hj. unfold psi, pc, mat2, sgn; simpl.
  destruct i as [|[|]]; destruct j as [|[|]]; try lia; simpl; ring.
Qed.

Lemma chi_pc : meq 2 2 (chi 1) (pc 1 0).
Proof.
  intros i j Hi Hj. unfold chi, pc, mat2, sgn; simpl. rewrite cos_0, sin_0.
  destruct i as [|[|]]; destruct j as [|[|]]; try lia; simpl; ring.
Qed.

Lemma diag_pc : meq 2 2 (mat2 1 0 0 (-1)) (pc 1 0).
Proof.
  intros i j Hi Hj. unfold pc, mat2, sgn; simpl. rewrite cos_0, sin_0.
  destruct i as [|[|]]; destruct j as [|[|]]; try lia; simpl; ring.
Qed.

Lemma mid_pc : meq 2 2 mid (pc 0 0).
Proof.
  intros i j Hi Hj. unfold pc, mat2, sgn, mid; simpl. rewrite cos_0, sin_0.
  destruct i as [|[|]]; destruct j as [|[|]]; try lia; simpl; ring.
Qed.

Lemma pc_cong s x y : cong2pi x y -> pc s x = pc s y.
Proof. intros H. unfold pc. rewrite (cos_cong x y), (sin_cong x y); auto. Qed.

Lemma pc_mul s t u x y : sgn u = (sgn s * sgn t)%Z ->
  meq 2 2 (mmul 2 (pc s x) (pc t y)) (pc u (x + IZR (sgn s) * y)).
Proof.
  intros Hu i j Hi Hj. unfold mmul, pc, mat2; simpl rsum. rewrite Hu, mult_IZR.
  unfold sgn; destruct (Z.eqb s 0); destruct (Z.eqb t 0);
  destruct i as [|[|]]; destruct j as [|[|]]; try lia;
  rewrite ?Rmult_1_l; try replace (x + -1 * y) with (x - y) by ring;
  rewrite ?cos_plus, ?sin_plus, ?cos_minus, ?sin_minus; ring.
Qed.

Lemma pc_orthogonal s x : orthogonal 2 (pc s x).
Proof.
  unfold orthogonal, inverse_pair. generalize (sc2 x) (sgn_sq s); intros S Q.
  split; intros i j Hi Hj; unfold mmul, mtr, pc, mat2, mid; simpl rsum;
  destruct i as [|[|]]; destruct j as [|[|]]; try lia; simpl; set (c := cos x) in *; set (d := sin x) in *; set (g := IZR (sgn s)) in *.
  - replace (0 + c * c + - g * d * (- g * d)) with (c * c + (g * g) * (d * d)) by ring. rewrite Q; lra.
  - replace (0 + c * d + - g * d * (g * c)) with (c * d - (g * g) * (c * d)) by ring. rewrite Q; lra.
  - replace (0 + d * c + g * c * (- g * d)) with (c * d - (g * g) * (c * d)) by ring. rewrite Q; lra.
  - replace (0 + d * d + g * c * (g * c)) with (d * d + (g * g) * (c * c)) by ring. rewrite Q; lra.
  - lra.
  - ring.
  - ring.
  - replace (0 + - g * d * (- g * d) + g * c * (g * c)) with ((g * g) * (c * c + d * d)) by ring. rewrite Q, S; lra.
Qed.

Lemma pc_tr_0 x : meq 2 2 (mtr (pc 0 x)) (pc 0 (- x)).
Proof.
  intros i j Hi Hj. unfold mtr, pc, mat2, sgn; simpl. rewrite cos_neg, sin_neg.
  destruct i as [|[|]]; destruct j as [|[|]]; try lia; simpl; ring.
Qed.

Lemma pc_tr_1 x : meq 2 2 (mtr (pc 1 x)) (pc 1 x).
Proof.
  intros i j Hi Hj. unfold mtr, pc, mat2, sgn; simpl.
  destruct i as [|[|]]; destruct j as [|[|]]; try lia; simpl; ring.
Qed.

Lemma mat1_mul a b : meq 1 1 (mmul 1 (mat1 a) (mat1 b)) (mat1 (a * b)).
Proof. intros i j Hi Hj. unfold mmul, mat1; simpl; ring. Qed.

Lemma mat1_orthogonal a : a * a = 1 -> orthogonal 1 (mat1 a).
Proof.
  intros H; split; intros i j Hi Hj; unfold mmul, mtr, mat1, mid; simpl;
  assert (i = j) as -> by lia; rewrite Nat.eqb_refl; lra.
Qed.

Lemma mid_orthogonal n : orthogonal n mid.
Proof.
  apply inverse_pair_compat with mid mid; [reflexivity| |apply inverse_pair_mid].
  intros i j _ _; symmetry; apply mtr_id.
Qed.

Lemma orthogonal_ext n A B : meq n n A B -> orthogonal n A -> orthogonal n B.
Proof. intros H. apply inverse_pair_compat; [auto|apply meq_tr; auto]. Qed.

(** angle of a rotation index *)
Lemma angle_mod N (a k : Z) : (0 < N)%Z ->
  cong2pi (IZR k * (IZR (a mod N) * (2 * PI / IZR N))) (IZR k * (IZR a * (2 * PI / IZR N))).
Proof.
  intros HN. apply cong2pi_mulZ.
  assert (0 < IZR N) by (apply (IZR_lt 0); auto).
  destruct (mod_decomp N a) as [q ->]; [lia|]. exists q. rewrite plus_IZR, mult_IZR. field; lra.
Qed.

Lemma half_cos N k e : (0 < N)%Z -> (N mod 2 = 0)%Z -> k = (N / 2)%Z ->
  cos (IZR k * IZR e * (2 * PI / IZR N)) = cos (IZR e * PI).
Proof.
  intros HN H2 ->. assert (0 < IZR N) by (apply (IZR_lt 0); auto). f_equal.
  assert (N = 2 * (N / 2))%Z by (generalize (Z.div_mod N 2); lia).
  assert (IZR (N / 2) = IZR N / 2) as ->.
  { rewrite H0 at 2. rewrite mult_IZR. field. }
  field; lra.
Qed.

Lemma cos_Zpi_add (a b : Z) : cos (IZR (a + b) * PI) = cos (IZR a * PI) * cos (IZR b * PI).
Proof. rewrite plus_IZR, Rmult_plus_distr_r, cos_plus, !sin_kpi. ring. Qed.

Lemma cos_Zpi_opp (a : Z) : cos (IZR (- a) * PI) = cos (IZR a * PI).
Proof. rewrite opp_IZR. replace (- IZR a * PI) with (- (IZR a * PI)) by ring. apply cos_neg. Qed.

Lemma cos_Zpi_mod N a : (0 < N)%Z -> (N mod 2 = 0)%Z -> cos (IZR (a mod N) * PI) = cos (IZR a * PI).
Proof.
  intros HN H2. destruct (mod_decomp N a) as [q ->]; [lia|].
  replace (a + q * N)%Z with (a + 2 * (q * (N / 2)))%Z.
  - rewrite plus_IZR, mult_IZR.
    replace ((IZR a + 2 * IZR (q * (N / 2))) * PI) with (IZR a * PI + 2 * IZR (q * (N/2)) * PI) by ring.
    apply cos_period_Z.
  - assert (N = 2 * (N / 2))%Z by (generalize (Z.div_mod N 2); lia). nia.
Qed.

(** ** Cyclic irreps *)

Lemma cyc_irrep_ok N k : (0 < N)%Z -> ((exists ir, cyc_irrep N k = Ok ir) <-> (0 <= k <= N / 2)%Z).
Proof.
  intros HN. unfold cyc_irrep, assert_.
  destruct (Z.leb_spec 0 k); destruct (Z.leb_spec k (N / 2)); simpl.
  2,3,4: split; [intros [ir H1]; discriminate|lia].
  split; [lia|intros _]. destruct (Z.eqb k 0); [eexists; reflexivity|].
  destruct (Z.eqb (N mod 2) 0 && Z.eqb k (N / 2))%bool; eexists; reflexivity.
Qed.

(** the three shapes *)
Lemma cyc_irrep_inv N k ir : cyc_irrep N k = Ok ir ->
  (0 <= k <= N / 2)%Z /\ ir_freq ir = k /\ ir_flip ir = 0%Z /\
  ((k = 0%Z /\ ir_size ir = 1%nat /\ ir_mat ir = (fun _ => mid)) \/
   (k <> 0%Z /\ (N mod 2 = 0)%Z /\ k = (N / 2)%Z /\ ir_size ir = 1%nat /\
    ir_mat ir = (fun e => mat1 (cos (IZR k * IZR e * (2 * PI / IZR N))))) \/
   (k <> 0%Z /\ (2 * k <> N)%Z /\ ir_size ir = 2%nat /\
    ir_mat ir = (fun e => psi (IZR e * (2 * PI / IZR N)) k 0))).
Proof.
  unfold cyc_irrep, assert_.
  destruct (Z.leb_spec 0 k); destruct (Z.leb_spec k (N / 2)); cbn [andb]; try discriminate.
  intros E. split; [lia|].
  destruct (Z.eqb_spec k 0).
  { injection E as <-. simpl. tauto. }
  destruct (Z.eqb_spec (N mod 2) 0) as [E2|E2]; destruct (Z.eqb_spec k (N / 2)) as [E3|E3]; simpl in E;
    injection E as <-; cbn [ir_freq ir_flip ir_size ir_mat]; repeat split; auto.
  - right; left; auto.
  - right; right. repeat split; auto. generalize (Z.div_mod N 2); lia.
  - right; right. repeat split; auto. intros E4. apply E2. rewrite <- E4, Z.mul_comm. apply Z.mod_mul; lia.
  - right; right. repeat split; auto. intros E4. apply E2. rewrite <- E4, Z.mul_comm. apply Z.mod_mul; lia.
Qed.

Lemma cyc_irrep_rep N k ir : (0 < N)%Z -> cyc_irrep N k = Ok ir ->
  is_representation (cyc_el N) (cyc_combine N) cyc_identity (ir_size ir) (ir_mat ir) /\
  is_orthogonal_rep (cyc_el N) (ir_size ir) (ir_mat ir).
Proof.
  intros HN H. destruct (cyc_irrep_inv _ _ _ H) as [Hk [_ [_ C]]].
  destruct C as [[-> [-> ->]]|[[Hk0 [H2 [Hkh [-> ->]]]]|[Hk0 [Hnh [-> ->]]]]].
  - split; [split|].
    + reflexivity.
    + intros; symmetry; apply mmul_id_l.
    + intros a _; apply mid_orthogonal.
  - split; [split|].
    + intros i j Hi Hj. rewrite half_cos by auto. unfold cyc_identity, mat1, mid; simpl.
      assert (i = j) as -> by lia. rewrite Nat.eqb_refl, Rmult_0_l. apply cos_0.
    + intros a b Ha Hb. rewrite mat1_mul. intros i j _ _. unfold mat1.
      rewrite !half_cos by auto. unfold cyc_combine.
      rewrite cos_Zpi_mod by auto. apply cos_Zpi_add.
    + intros a Ha. apply mat1_orthogonal. rewrite half_cos by auto. apply cos_kpi_sq.
  - split; [split|].
    + rewrite psi_pc, mid_pc. unfold cyc_identity.
      replace (IZR k * (IZR 0 * (2 * PI / IZR N)) + 0) with 0 by (simpl; ring). reflexivity.
    + intros a b Ha Hb. rewrite !psi_pc, (pc_mul 0 0 0) by reflexivity.
      rewrite (pc_cong 0 _ (IZR k * (IZR a * (2 * PI / IZR N)) + 0 + IZR (sgn 0) * (IZR k * (IZR b * (2 * PI / IZR N)) + 0))).
      reflexivity.
      unfold cyc_combine. rewrite !Rplus_0_r. eapply cong2pi_trans; [apply angle_mod; auto|].
      apply cong2pi_eq. unfold sgn; simpl. rewrite plus_IZR. ring.
    + intros a Ha. eapply orthogonal_ext; [symmetry; apply psi_pc|apply pc_orthogonal].
Qed.

(** ** Dihedral irreps *)

(** the pairs (j,k) that name an irrep of D_N *)
Definition dih_irrep_valid (N j k : Z) : Prop :=
  (0 <= k <= N / 2)%Z /\ (j = 1 \/ j = 0 /\ (k = 0 \/ N = 2 * k))%Z.

Lemma even_half N k : (0 < N)%Z ->
  (Z.eqb (N mod 2) 0 && Z.eqb k (N / 2))%bool = true <-> (N = 2 * k)%Z.
Proof.
  intros HN. rewrite andb_true_iff, !Z.eqb_eq. split.
  - intros [H1 ->]. generalize (Z.div_mod N 2); lia.
  - intros ->. rewrite Z.mul_comm, Z.mod_mul, Z.div_mul by lia. auto.
Qed.

Lemma dih_irrep_ok N j k : (0 < N)%Z ->
  ((exists ir, dih_irrep N j k = Ok ir) <-> dih_irrep_valid N j k).
Proof.
  intros HN. unfold dih_irrep, assert_, dih_irrep_valid.
  destruct (Z.eqb_spec j 0) as [Hj|Hj]; destruct (Z.eqb_spec j 1) as [Hj'|Hj']; cbn [orb]; try lia;
  unfold assert_;
  destruct (Z.leb_spec 0 k); destruct (Z.leb_spec k (N / 2)); cbn [andb];
    try (split; [intros [ir H1]; discriminate|lia]).
  - destruct (Z.eqb_spec k 0); [split; [lia|intros; eexists; reflexivity]|].
    destruct (Z.eqb (N mod 2) 0 && Z.eqb k (N / 2))%bool eqn:E.
    + apply even_half in E; auto. split; [lia|intros; eexists; reflexivity].
    + assert (~ (N = 2 * k)%Z) by (intros E'; apply even_half in E'; auto; congruence).
      split; [intros [ir H3]; discriminate|lia].
  - destruct (Z.eqb_spec k 0); [split; [lia|intros; eexists; reflexivity]|].
    destruct (Z.eqb (N mod 2) 0 && Z.eqb k (N / 2))%bool; (split; [lia|intros; eexists; reflexivity]).
Qed.

Lemma dih_irrep_inv N j k ir : (0 < N)%Z -> dih_irrep N j k = Ok ir ->
  dih_irrep_valid N j k /\ ir_freq ir = k /\ ir_flip ir = j /\
  ((k = 0%Z /\ j = 0%Z /\ ir_size ir = 1%nat /\ ir_mat ir = (fun _ => mid)) \/
   (k = 0%Z /\ j = 1%Z /\ ir_size ir = 1%nat /\ ir_mat ir = (fun e => mat1 (flip_sign (fst e)))) \/
   (k <> 0%Z /\ (N = 2 * k)%Z /\ j = 0%Z /\ ir_size ir = 1%nat /\
    ir_mat ir = (fun e => mat1 (cos (IZR k * IZR (snd e) * (2 * PI / IZR N))))) \/
   (k <> 0%Z /\ (N = 2 * k)%Z /\ j = 1%Z /\ ir_size ir = 1%nat /\
    ir_mat ir = (fun e => mat1 (cos (IZR k * IZR (snd e) * (2 * PI / IZR N)) * flip_sign (fst e)))) \/
   (k <> 0%Z /\ (N <> 2 * k)%Z /\ j = 1%Z /\ ir_size ir = 2%nat /\
    ir_mat ir = (fun e => psichi (IZR (snd e) * (2 * PI / IZR N)) (fst e) k 0))).
Proof.
  intros HN H. split; [apply dih_irrep_ok; eauto|]. revert H.
  unfold dih_irrep, assert_.
  destruct (Z.eqb_spec j 0) as [Hj|Hj]; destruct (Z.eqb_spec j 1) as [Hj'|Hj']; cbn [orb]; try lia; try discriminate;
  unfold assert_;
  destruct ((0 <=? k) && (k <=? N / 2))%Z eqn:E0; try discriminate;
  (destruct (Z.eqb_spec k 0); [intros E; injection E as <-; cbn [ir_freq ir_flip ir_size ir_mat]; tauto|]);
  destruct (Z.eqb (N mod 2) 0 && Z.eqb k (N / 2))%bool eqn:E; try discriminate;
  intros E1; injection E1 as <-; cbn [ir_freq ir_flip ir_size ir_mat].
  - apply even_half in E; auto. tauto.
  - apply even_half in E; auto. tauto.
  - assert (~ (N = 2 * k)%Z) by (intros E'; apply even_half in E'; auto; congruence). tauto.
Qed.

Lemma flip_sign_mod2 i j : (i = 0 \/ i = 1)%Z -> (j = 0 \/ j = 1)%Z ->
  flip_sign ((i + j) mod 2) = flip_sign i * flip_sign j.
Proof.
  intros Hi Hj. unfold flip_sign. destruct (sgn_mod2 i j) as [_ ->]; auto. apply mult_IZR.
Qed.

Lemma flip_sign_sq i : flip_sign i * flip_sign i = 1.
Proof. apply sgn_sq. Qed.

Lemma cos_sgn_pi i (b : Z) : cos (IZR (sgn i * b) * PI) = cos (IZR b * PI).
Proof.
  unfold sgn; destruct (Z.eqb i 0).
  - rewrite Z.mul_1_l; auto.
  - replace (-1 * b)%Z with (- b)%Z by lia. apply cos_Zpi_opp.
Qed.

Lemma dih_irrep_rep N j k ir : (0 < N)%Z -> dih_irrep N j k = Ok ir ->
  is_representation (dih_el N) (dih_combine N) dih_identity (ir_size ir) (ir_mat ir) /\
  is_orthogonal_rep (dih_el N) (ir_size ir) (ir_mat ir).
Proof.
  intros HN H. destruct (dih_irrep_inv _ _ _ _ HN H) as [Hv [_ [_ C]]].
  assert (HE : forall k, (N = 2 * k)%Z -> (N mod 2 = 0)%Z /\ k = (N / 2)%Z).
  { intros k0 E. assert (T := even_half N k0 HN). rewrite andb_true_iff, !Z.eqb_eq in T. apply T; auto. }
  destruct C as [[-> [-> [-> ->]]]|[[-> [-> [-> ->]]]|[[Hk0 [H2 [-> [-> ->]]]]|[[Hk0 [H2 [-> [-> ->]]]]|[Hk0 [H2 [-> [-> ->]]]]]]]].
  - split; [split|].
    + reflexivity.
    + intros; symmetry; apply mmul_id_l.
    + intros a _; apply mid_orthogonal.
  - split; [split|].
    + intros i j Hi Hj. unfold dih_identity, mat1, mid, flip_sign, sgn; simpl. assert (i = j) as -> by lia.
      rewrite Nat.eqb_refl; reflexivity.
    + intros [i a] [j b] Ha Hb. rewrite mat1_mul. apply dih_el_iff in Ha; apply dih_el_iff in Hb.
      unfold dih_combine; cbn [fst snd]. rewrite flip_sign_mod2 by tauto. reflexivity.
    + intros a _. apply mat1_orthogonal, flip_sign_sq.
  - destruct (HE _ H2) as [E1 E2]. split; [split|].
    + intros i j Hi Hj. rewrite half_cos by auto. unfold dih_identity, mat1, mid; simpl.
      assert (i = j) as -> by lia. rewrite Nat.eqb_refl, Rmult_0_l. apply cos_0.
    + intros [i a] [j b] Ha Hb. rewrite mat1_mul. intros i' j' _ _. unfold mat1.
      rewrite !half_cos by auto. unfold dih_combine; cbn [fst snd].
      rewrite cos_Zpi_mod by auto. rewrite cos_Zpi_add, cos_sgn_pi. reflexivity.
    + intros a Ha. apply mat1_orthogonal. rewrite half_cos by auto. apply cos_kpi_sq.
  - destruct (HE _ H2) as [E1 E2]. split; [split|].
    + intros i j Hi Hj. rewrite half_cos by auto. unfold dih_identity, mat1, mid, flip_sign, sgn; simpl.
      assert (i = j) as -> by lia. rewrite Nat.eqb_refl, Rmult_0_l, cos_0. ring.
    + intros [i a] [j b] Ha Hb. rewrite mat1_mul. intros i' j' _ _. unfold mat1.
      apply dih_el_iff in Ha; apply dih_el_iff in Hb.
      rewrite !half_cos by auto. unfold dih_combine; cbn [fst snd].
      rewrite cos_Zpi_mod by auto. rewrite cos_Zpi_add, cos_sgn_pi, flip_sign_mod2 by tauto. ring.
    + intros a Ha. apply mat1_orthogonal. rewrite half_cos by auto.
      generalize (cos_kpi_sq (snd a)) (flip_sign_sq (fst a)); intros C1 C2.
      match goal with |- ?c * ?f * (?c * ?f) = 1 => replace (c * f * (c * f)) with ((c * c) * (f * f)) by ring end.
      rewrite C1, C2; ring.
  - split; [split|].
    + rewrite psichi_pc, mid_pc. unfold dih_identity; cbn [fst snd].
      replace (IZR k * (IZR 0 * (2 * PI / IZR N)) + 0) with 0 by (simpl; ring). reflexivity.
    + intros [i a] [j b] Ha Hb. apply dih_el_iff in Ha; apply dih_el_iff in Hb.
      rewrite !psichi_pc. unfold dih_combine; cbn [fst snd].
      rewrite (pc_mul i j ((i + j) mod 2)) by (apply sgn_mod2; tauto).
      rewrite (pc_cong _ _ (IZR k * (IZR a * (2 * PI / IZR N)) + 0 + IZR (sgn i) * (IZR k * (IZR b * (2 * PI / IZR N)) + 0))).
      reflexivity.
      rewrite !Rplus_0_r. eapply cong2pi_trans; [apply angle_mod; auto|].
      apply cong2pi_eq. rewrite plus_IZR, mult_IZR. ring.
    + intros a Ha. apply pc_orthogonal.
Qed.

(** ** SO(2), O(2) irreps *)

Lemma so2_irrep_ok k : (exists ir, so2_irrep k = Ok ir) <-> (0 <= k)%Z.
Proof.
  unfold so2_irrep, assert_. destruct (Z.leb_spec 0 k); simpl.
  - split; auto. intros _. destruct (Z.eqb k 0); eexists; reflexivity.
  - split; [intros [ir H1]; discriminate|lia].
Qed.

Lemma so2_irrep_inv k ir : so2_irrep k = Ok ir ->
  (0 <= k)%Z /\ ir_freq ir = k /\ ir_flip ir = 0%Z /\
  ((k = 0%Z /\ ir_size ir = 1%nat /\ ir_mat ir = (fun _ => mid)) \/
   (k <> 0%Z /\ ir_size ir = 2%nat /\ ir_mat ir = (fun e => psi e k 0))).
Proof.
  unfold so2_irrep, assert_. destruct (Z.leb_spec 0 k); [|discriminate].
  destruct (Z.eqb_spec k 0); intros E; injection E as <-; simpl; auto 8.
Qed.

Lemma so2_irrep_rep k ir : so2_irrep k = Ok ir ->
  is_representation so2_el so2_combine so2_identity (ir_size ir) (ir_mat ir) /\
  is_orthogonal_rep so2_el (ir_size ir) (ir_mat ir) /\
  (forall a b, cong2pi a b -> meq (ir_size ir) (ir_size ir) (ir_mat ir a) (ir_mat ir b)).
Proof.
  intros H. destruct (so2_irrep_inv _ _ H) as [Hk [_ [_ C]]].
  destruct C as [[-> [-> ->]]|[Hk0 [-> ->]]].
  - split; [split|split].
    + reflexivity.
    + intros; symmetry; apply mmul_id_l.
    + intros a _; apply mid_orthogonal.
    + intros; reflexivity.
  - split; [split|split].
    + rewrite psi_pc, mid_pc. unfold so2_identity.
      replace (IZR k * 0 + 0) with 0 by ring. reflexivity.
    + intros a b _ _. rewrite !psi_pc, (pc_mul 0 0 0) by reflexivity.
      rewrite (pc_cong 0 _ (IZR k * a + 0 + IZR (sgn 0) * (IZR k * b + 0))).
      reflexivity.
      unfold so2_combine. rewrite !Rplus_0_r. eapply cong2pi_trans; [apply cong2pi_mulZ, cong2pi_rmod|].
      apply cong2pi_eq. unfold sgn; simpl. ring.
    + intros a Ha. eapply orthogonal_ext; [symmetry; apply psi_pc|apply pc_orthogonal].
    + intros a b Hab. rewrite !psi_pc, !Rplus_0_r. rewrite (pc_cong 0 _ (IZR k * b)); [reflexivity|].
      apply cong2pi_mulZ; auto.
Qed.

Lemma o2_irrep_ok j k : (exists ir, o2_irrep j k = Ok ir) <-> ((j = 1 /\ 0 <= k) \/ (j = 0 /\ k = 0))%Z.
Proof.
  unfold o2_irrep, assert_.
  destruct (Z.eqb_spec j 0) as [Hj|Hj]; destruct (Z.eqb_spec j 1) as [Hj'|Hj']; cbn [orb]; try lia;
  unfold assert_; try (split; [intros [ir H1]; discriminate|lia]);
  destruct (Z.leb_spec 0 k); try (split; [intros [ir H1]; discriminate|lia]);
  destruct (Z.eqb_spec k 0); try (split; [lia|intros; eexists; reflexivity]).
  split; [intros [ir H1]; discriminate|lia].
Qed.

Lemma o2_irrep_inv j k ir : o2_irrep j k = Ok ir ->
  (0 <= k)%Z /\ ir_freq ir = k /\ ir_flip ir = j /\
  ((k = 0%Z /\ j = 0%Z /\ ir_size ir = 1%nat /\ ir_mat ir = (fun _ => mid)) \/
   (k = 0%Z /\ j = 1%Z /\ ir_size ir = 1%nat /\ ir_mat ir = (fun e => mat1 (flip_sign (fst e)))) \/
   (k <> 0%Z /\ j = 1%Z /\ ir_size ir = 2%nat /\ ir_mat ir = (fun e => psichi (snd e) (fst e) k 0))).
Proof.
  unfold o2_irrep, assert_.
  destruct (Z.eqb_spec j 0) as [Hj|Hj]; destruct (Z.eqb_spec j 1) as [Hj'|Hj']; cbn [orb]; try lia; try discriminate;
  unfold assert_; (destruct (Z.leb_spec 0 k); [|discriminate]);
  destruct (Z.eqb_spec k 0); try discriminate;
  intros E; injection E as <-; simpl; tauto.
Qed.

Lemma o2_irrep_rep j k ir : o2_irrep j k = Ok ir ->
  is_representation o2_el o2_combine o2_identity (ir_size ir) (ir_mat ir) /\
  is_orthogonal_rep o2_el (ir_size ir) (ir_mat ir) /\
  (forall a b, o2_eqv a b -> meq (ir_size ir) (ir_size ir) (ir_mat ir a) (ir_mat ir b)).
Proof.
  intros H. destruct (o2_irrep_inv _ _ _ H) as [Hk [_ [_ C]]].
  destruct C as [[-> [-> [-> ->]]]|[[-> [-> [-> ->]]]|[Hk0 [-> [-> ->]]]]].
  - split; [split|split].
    + reflexivity.
    + intros; symmetry; apply mmul_id_l.
    + intros a _; apply mid_orthogonal.
    + intros; reflexivity.
  - split; [split|split].
    + intros i j Hi Hj. unfold o2_identity, mat1, mid, flip_sign, sgn; simpl. assert (i = j) as -> by lia.
      rewrite Nat.eqb_refl; reflexivity.
    + intros [i a] [j b] Ha Hb. rewrite mat1_mul. apply o2_el_iff in Ha; apply o2_el_iff in Hb.
      unfold o2_combine; cbn [fst snd]. rewrite flip_sign_mod2 by tauto. reflexivity.
    + intros a _. apply mat1_orthogonal, flip_sign_sq.
    + intros a b [E _]. rewrite E. reflexivity.
  - split; [split|split].
    + rewrite psichi_pc, mid_pc. unfold o2_identity; cbn [fst snd].
      replace (IZR k * 0 + 0) with 0 by (simpl; ring). reflexivity.
    + intros [i a] [j b] Ha Hb. apply o2_el_iff in Ha; apply o2_el_iff in Hb.
      rewrite !psichi_pc. unfold o2_combine; cbn [fst snd].
      rewrite (pc_mul i j ((i + j) mod 2)) by (apply sgn_mod2; tauto).
      match goal with |- meq _ _ (pc _ ?x) (pc _ ?y) => replace x with y by ring end. reflexivity.
    + intros a Ha. apply pc_orthogonal.
    + intros [i a] [j b] [E1 E2]; cbn [fst snd] in *. subst j. rewrite !psichi_pc, !Rplus_0_r.
      rewrite (pc_cong i _ (IZR k * b)); [reflexivity|]. apply cong2pi_mulZ; auto.
Qed.
