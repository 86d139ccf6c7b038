(** Restriction of the irreps of C_N, D_N, SO(2), O(2) to their subgroups. *)
From Coq Require Import Reals ZArith String List Bool Lia Lra Psatz.
From Verif Require Import Base Spec Model_Groups Model_Rep Proofs_Groups Proofs_Cont Proofs_Irreps Proofs_Rep.
Import ListNotations.
Open Scope R_scope.

Definition folded (M f : Z) : bool := (M <? 2 * (f mod M))%Z.
Definition fold_freq (M f : Z) : Z := if folded M f then (M - f mod M)%Z else (f mod M)%Z.

Lemma fold_range M f : (0 < M)%Z -> (0 <= fold_freq M f <= M / 2)%Z.
Proof.
  intros HM. unfold fold_freq, folded. assert (B := Z.mod_pos_bound f M HM).
  destruct (Z.ltb_spec M (2 * (f mod M))); split; try lia;
  apply Z.div_le_lower_bound; lia.
Qed.

(** the angle of the folded frequency *)
Lemma fold_angle M f (h : Z) : (0 < M)%Z ->
  cong2pi (IZR f * (IZR h * (2 * PI / IZR M)))
          ((if folded M f then -1 else 1) * (IZR (fold_freq M f) * (IZR h * (2 * PI / IZR M)))).
Proof.
  intros HM. assert (HM' : 0 < IZR M) by (apply (IZR_lt 0); auto).
  destruct (mod_decomp M f) as [q Hq]; [lia|]. unfold fold_freq.
  destruct (folded M f); rewrite Hq.
  - exists ((1 - q) * h)%Z. rewrite mult_IZR, !minus_IZR, plus_IZR, mult_IZR. field; lra.
  - exists (- q * h)%Z. rewrite mult_IZR, opp_IZR, plus_IZR, mult_IZR. field; lra.
Qed.

Lemma fold_conj (b : bool) s x : 
  meq 2 2 (pc s ((if b then -1 else 1) * x))
    (mmul 2 (mmul 2 (if b then mat2 1 0 0 (-1) else mid) (pc s x)) (if b then mat2 1 0 0 (-1) else mid)).
Proof.
  intros i j Hi Hj. destruct b; unfold mmul, pc, mat2, mid; simpl rsum.
  - replace (-1 * x) with (- x) by ring. rewrite cos_neg, sin_neg.
    destruct i as [|[|]]; destruct j as [|[|]]; try lia; simpl; ring.
  - rewrite Rmult_1_l. destruct i as [|[|]]; destruct j as [|[|]]; try lia; simpl; ring.
Qed.

Definition foldM (b : bool) : mat := if b then mat2 1 0 0 (-1) else mid.

Lemma foldM_inv b : inverse_pair 2 (foldM b) (foldM b).
Proof.
  unfold foldM. destruct b; [|apply inverse_pair_mid].
  split; intros i j Hi Hj; unfold mmul, mat2, mid; simpl rsum;
  destruct i as [|[|]]; destruct j as [|[|]]; try lia; simpl; ring.
Qed.

(** rotations of size 2 restricted to the cyclic group of order M *)
Lemma fold_rot M f : (0 < M)%Z ->
  exists sirr, cyc_irrep M (fold_freq M f) = Ok sirr /\
    (ir_size sirr <= 2)%nat /\ (folded M f = true -> ir_size sirr = 2%nat) /\
    forall l, l = (if (ir_size sirr <? 2)%nat then [sirr; sirr] else [sirr]) ->
    isizes l = 2%nat /\
    forall h : Z, meq 2 2 (pc 0 (IZR f * (IZR h * (2 * PI / IZR M))))
      (mmul 2 (mmul 2 (foldM (folded M f)) (bdiag (blocks l h))) (foldM (folded M f))).
Proof.
  intros HM. destruct (proj2 (cyc_irrep_ok M (fold_freq M f) HM) (fold_range M f HM)) as [sirr E].
  exists sirr. split; [auto|].
  destruct (cyc_irrep_inv _ _ _ E) as [_ [_ [_ C]]].
  assert (HM' : 0 < IZR M) by (apply (IZR_lt 0); auto).
  assert (B := Z.mod_pos_bound f M HM).
  assert (K : forall l, (forall h : Z, meq 2 2 (pc 0 (IZR (fold_freq M f) * (IZR h * (2 * PI / IZR M)))) (bdiag (blocks l h))) ->
    forall h : Z, meq 2 2 (pc 0 (IZR f * (IZR h * (2 * PI / IZR M))))
      (mmul 2 (mmul 2 (foldM (folded M f)) (bdiag (blocks l h))) (foldM (folded M f)))).
  { intros l Hl h. rewrite (pc_cong _ _ _ (fold_angle M f h HM)).
    rewrite fold_conj. rewrite (Hl h). reflexivity. }
  destruct C as [[C1 [C2 C3]]|[[C1 [C2 [C3 [C4 C5]]]]|[C1 [C2 [C3 C4]]]]].
  - rewrite C2. split; [lia|]. split.
    { intros F. unfold fold_freq in C1. rewrite F in C1. unfold folded in F. apply Z.ltb_lt in F. lia. }
    intros l ->. unfold isizes; cbn [map nsum fold_right Nat.ltb Nat.leb]. rewrite C2. split; [reflexivity|].
    apply K. intros h. unfold blocks; cbn [map]. rewrite C2, C3, C1, Rmult_0_l.
    rewrite <- mid_pc. symmetry. apply (bdiag_mid [(1%nat, mid); (1%nat, mid)]).
    repeat constructor; reflexivity.
  - assert (HE : M = (2 * fold_freq M f)%Z) by (rewrite C3; generalize (Z.div_mod M 2); lia).
    rewrite C4. split; [lia|]. split.
    { unfold fold_freq in HE. intros F. rewrite F in HE. unfold folded in F. apply Z.ltb_lt in F. lia. }
    intros l ->. unfold isizes; cbn [map nsum fold_right Nat.ltb Nat.leb]. rewrite C4. split; [reflexivity|].
    apply K. intros h. unfold blocks; cbn [map]. rewrite C4, C5, bdiag_11.
    rewrite half_cos by auto.
    assert (IZR (fold_freq M f) * (IZR h * (2 * PI / IZR M)) = IZR h * PI) as ->.
    { assert (IZR M = 2 * IZR (fold_freq M f)) as Q by (rewrite HE at 1; apply mult_IZR).
      rewrite Q in *. field. lra. }
    apply pc0_kpi.
  - rewrite C3. split; [lia|]. split; [auto|].
    intros l ->. unfold isizes; cbn [map nsum fold_right Nat.ltb Nat.leb]. rewrite C3. split; [reflexivity|].
    apply K. intros h. unfold blocks; cbn [map]. rewrite C3, C4. rewrite bdiag_single, psi_pc.
    rewrite Rplus_0_r. reflexivity.
Qed.

(** frequency 0 and N/2 when restricted to C_M, M | N *)
Lemma fold_zero M : (0 < M)%Z -> fold_freq M 0 = 0%Z /\ folded M 0 = false.
Proof.
  intros HM. unfold fold_freq, folded. rewrite Z.mod_0_l by lia.
  destruct (Z.ltb_spec M (2 * 0)); [lia|auto].
Qed.

Lemma fold_half N M k : (0 < N)%Z -> (0 < M)%Z -> (N mod M = 0)%Z -> N = (2 * k)%Z ->
  folded M k = false /\
  ((Z.odd (N / M) = false /\ fold_freq M k = 0%Z) \/
   (Z.odd (N / M) = true /\ M = (2 * fold_freq M k)%Z)).
Proof.
  intros HN HM HD Hk. destruct (div_exact_pos N M HN HM HD) as [E P].
  set (q := (N / M)%Z) in *.
  destruct (Z.odd q) eqn:O.
  - apply Z.odd_spec in O as [t Ht].
    assert (HM2 : (M = 2 * (k - t * M))%Z) by nia.
    assert (Em : (k mod M = k - t * M)%Z).
    { symmetry. apply (Z.mod_unique_pos k M t); nia. }
    assert (F : folded M k = false) by (unfold folded; rewrite Em; apply Z.ltb_ge; lia).
    split; auto. right. split; auto. unfold fold_freq. rewrite F, Em. lia.
  - assert (V : Z.even q = true) by (rewrite <- Z.negb_odd, O; reflexivity).
    apply Z.even_spec in V as [t Ht].
    assert (Em : (k mod M = 0)%Z).
    { symmetry. apply (Z.mod_unique_pos k M t); nia. }
    assert (F : folded M k = false) by (unfold folded; rewrite Em; apply Z.ltb_ge; lia).
    split; auto. left. split; auto. unfold fold_freq. rewrite F, Em. lia.
Qed.

Lemma cos_even_pi (q : Z) h : Z.odd q = false -> cos (IZR (h * q) * PI) = 1.
Proof.
  intros O. assert (V : Z.even q = true) by (rewrite <- Z.negb_odd, O; reflexivity).
  apply Z.even_spec in V as [t ->]. rewrite !mult_IZR.
  replace (IZR h * (2 * IZR t) * PI) with (0 + 2 * (IZR h * IZR t) * PI) by ring.
  rewrite <- mult_IZR, cos_period_Z, cos_0. reflexivity.
Qed.

Lemma cos_odd_pi (q : Z) h : Z.odd q = true -> cos (IZR (h * q) * PI) = cos (IZR h * PI).
Proof.
  intros O. apply Z.odd_spec in O as [t ->].
  replace (h * (2 * t + 1))%Z with (h + 2 * (h * t))%Z by ring.
  rewrite plus_IZR, mult_IZR.
  replace ((IZR h + 2 * IZR (h * t)) * PI) with (IZR h * PI + 2 * IZR (h * t) * PI) by ring.
  apply cos_period_Z.
Qed.

(** value of the irrep of C_M whose frequency is the fold of 0 resp. N/2 *)
Lemma fold_half_irrep N M k : (0 < N)%Z -> (0 < M)%Z -> (N mod M = 0)%Z -> N = (2 * k)%Z ->
  exists sirr, cyc_irrep M (fold_freq M k) = Ok sirr /\ ir_size sirr = 1%nat /\
   forall h, meq 1 1 (ir_mat sirr h) (mat1 (cos (IZR (h * (N / M)) * PI))).
Proof.
  intros HN HM HD Hk. destruct (fold_half N M k HN HM HD Hk) as [F C].
  destruct (proj2 (cyc_irrep_ok M (fold_freq M k) HM) (fold_range M k HM)) as [sirr E].
  exists sirr. split; auto.
  destruct (cyc_irrep_inv _ _ _ E) as [_ [_ [_ D]]].
  destruct D as [[C1 [C2 C3]]|[[C1 [C2 [C3 [C4 C5]]]]|[C1 [C2 [C3 C4]]]]].
  - split; auto. intros h. rewrite C3. destruct C as [[O _]|[O X]]; [|lia].
    rewrite cos_even_pi by auto. apply mid_mat1.
  - split; auto. intros h. rewrite C5. destruct C as [[O X]|[O X]]; [lia|].
    rewrite cos_odd_pi by auto. rewrite half_cos by auto. reflexivity.
  - destruct C as [[O X]|[O X]]; lia.
Qed.

Definition cyc_irreps_of (M : Z) (l : list (irrep Z)) : Prop :=
  Forall (fun ir => exists f, cyc_irrep M f = Ok ir) l.

Lemma parent_angle N M (h : Z) : (0 < N)%Z -> (0 < M)%Z -> (N mod M = 0)%Z ->
  IZR (h * (N / M)) * (2 * PI / IZR N) = IZR h * (2 * PI / IZR M).
Proof.
  intros HN HM HD. destruct (div_exact_pos N M HN HM HD) as [E P].
  assert (0 < IZR M) by (apply (IZR_lt 0); auto).
  assert (0 < IZR N) by (apply (IZR_lt 0); auto).
  assert (0 < IZR (N/M)) by (apply (IZR_lt 0); auto).
  rewrite mult_IZR. rewrite E at 2. rewrite mult_IZR. field. lra.
Qed.

(** 1-dimensional irreps: nothing to do except relabel *)
Lemma restricted_single {G H} (parent : H -> G) h ir (sirr : irrep H) :
  ir_size ir = 1%nat -> ir_size sirr = 1%nat ->
  meq 1 1 (ir_mat ir (parent h)) (ir_mat sirr h) ->
  irrep_restricted parent h ir mid [sirr].
Proof.
  intros H1 H2 H3. unfold irrep_restricted, isizes, blocks; cbn [map nsum fold_right].
  rewrite H1, H2. split; [reflexivity|]. exists mid. split; [apply inverse_pair_mid|].
  rewrite conj_mid, bdiag_single. auto.
Qed.

Lemma cyc_restrict_one_spec N M k ir : (0 < N)%Z -> (0 < M)%Z -> (N mod M = 0)%Z ->
  cyc_irrep N k = Ok ir ->
  exists C s, cyc_restrict_one N M ir = Ok (C, s) /\ cyc_irreps_of M s /\
    forall h, irrep_restricted (fun h => h * (N / M))%Z h ir C s.
Proof.
  intros HN HM HD Hir. destruct (cyc_irrep_inv _ _ _ Hir) as [Hk [Hf [_ D]]].
  assert (HS : exists s, cyc_subgroup N M = Ok s) by (apply cyc_subgroup_ok; auto).
  destruct HS as [s0 HS].
  unfold cyc_restrict_one, cyc_restrict_irrep. rewrite HS, Hf. cbn [rbind].
  fold (folded M k). fold (fold_freq M k). fold (foldM (folded M k)).
  destruct D as [[C1 [C2 C3]]|[[C1 [C2 [C3 [C4 C5]]]]|[C1 [C2 [C3 C4]]]]].
  - destruct (fold_zero M HM) as [Z1 Z2]. rewrite C1, Z1, Z2.
    destruct (proj2 (cyc_irrep_ok M 0 HM)) as [sirr E]; [split; [lia|apply Z.div_pos; lia]|].
    rewrite E. cbn [key_error rbind].
    destruct (cyc_irrep_inv _ _ _ E) as [_ [_ [_ D]]].
    destruct D as [[_ [D2 D3]]|[[D1 _]|[D1 _]]]; try lia.
    rewrite D2, C2. cbn [Nat.ltb Nat.leb fst snd rmap rbind]. rewrite E; cbn [key_error rbind].
    exists mid, [sirr]. split; [reflexivity|]. split; [constructor; eauto|].
    intros h. apply restricted_single; auto. rewrite C3, D3. reflexivity.
  - assert (HE : N = (2 * k)%Z) by (rewrite C3; generalize (Z.div_mod N 2); lia).
    destruct (fold_half N M k HN HM HD HE) as [-> _].
    destruct (fold_half_irrep N M k HN HM HD HE) as [sirr [E [S1 S2]]].
    rewrite E. cbn [key_error rbind].
    rewrite S1, C4. cbn [Nat.ltb Nat.leb fst snd rmap rbind]. rewrite E; cbn [key_error rbind].
    exists mid, [sirr]. split; [reflexivity|]. split; [constructor; eauto|].
    intros h. apply restricted_single; auto. rewrite C5, S2.
    rewrite half_cos by auto. reflexivity.
  - destruct (fold_rot M k HM) as [sirr [E [S1 [S2 S3]]]].
    rewrite E. cbn [key_error rbind]. rewrite C3.
    destruct (S3 _ eq_refl) as [T1 T2].
    exists (foldM (folded M k)), (if (ir_size sirr <? 2)%nat then [sirr; sirr] else [sirr]).
    split; [|split].
    + destruct (ir_size sirr <? 2)%nat; cbn [fst snd rmap rbind]; rewrite E; reflexivity.
    + unfold cyc_irreps_of. destruct (ir_size sirr <? 2)%nat; repeat constructor; eauto.
    + intros h. split; [rewrite C3; exact T1|].
      exists (foldM (folded M k)). rewrite C3, C4. split; [apply foldM_inv|].
      rewrite psi_pc, Rplus_0_r, parent_angle by auto. apply T2.
Qed.

Lemma so2_restrict_one_spec M k ir : (0 < M)%Z -> so2_irrep k = Ok ir ->
  exists C s, so2_restrict_one M ir = Ok (C, s) /\ cyc_irreps_of M s /\
    forall h, irrep_restricted (fun h : Z => IZR h * 2 * PI / IZR M) h ir C s.
Proof.
  intros HM Hir. destruct (so2_irrep_inv _ _ Hir) as [Hk [Hf [_ D]]].
  assert (HM' : 0 < IZR M) by (apply (IZR_lt 0); auto).
  unfold so2_restrict_one, so2_restrict_irrep, so2_subgroup, cyc_group, assert_.
  destruct (Z.ltb_spec 0 M); [|lia]. rewrite Hf. cbn [rbind].
  fold (folded M k). fold (fold_freq M k). fold (foldM (folded M k)).
  destruct D as [[C1 [C2 C3]]|[C1 [C3 C4]]].
  - destruct (fold_zero M HM) as [Z1 Z2]. rewrite C1, Z1, Z2.
    destruct (proj2 (cyc_irrep_ok M 0 HM)) as [sirr E]; [split; [lia|apply Z.div_pos; lia]|].
    rewrite E. cbn [key_error rbind].
    destruct (cyc_irrep_inv _ _ _ E) as [_ [_ [_ D]]].
    destruct D as [[_ [D2 D3]]|[[D1 _]|[D1 _]]]; try lia.
    rewrite D2, C2. cbn [Nat.ltb Nat.leb fst snd rmap rbind]. rewrite E; cbn [key_error rbind].
    exists mid, [sirr]. split; [reflexivity|]. split; [constructor; eauto|].
    intros h. apply restricted_single; auto. rewrite C3, D3. reflexivity.
  - destruct (fold_rot M k HM) as [sirr [E [S1 [S2 S3]]]].
    rewrite E. cbn [key_error rbind]. rewrite C3.
    destruct (S3 _ eq_refl) as [T1 T2].
    exists (foldM (folded M k)), (if (ir_size sirr <? 2)%nat then [sirr; sirr] else [sirr]).
    split; [|split].
    + destruct (ir_size sirr <? 2)%nat; cbn [fst snd rmap rbind]; rewrite E; reflexivity.
    + unfold cyc_irreps_of. destruct (ir_size sirr <? 2)%nat; repeat constructor; eauto.
    + intros h. split; [rewrite C3; exact T1|].
      exists (foldM (folded M k)). rewrite C3, C4. split; [apply foldM_inv|].
      rewrite psi_pc, Rplus_0_r.
      replace (IZR h * 2 * PI / IZR M) with (IZR h * (2 * PI / IZR M)) by (field; lra). apply T2.
Qed.

(** ** Dihedral groups *)

Lemma flip_cos e : (e = 0 \/ e = 1)%Z -> flip_sign e = cos (IZR e * PI).
Proof.
  intros [->| ->]; unfold flip_sign, sgn; simpl.
  - rewrite Rmult_0_l, cos_0; reflexivity.
  - rewrite Rmult_1_l, cos_PI. lra.
Qed.

(** value of the 1-dimensional irrep (j,k) of D_N *)
Definition chr (j k s r : Z) : R := cos (IZR (j * s) * PI) * (if Z.eqb k 0 then 1 else cos (IZR r * PI)).

Lemma chr_j0 k s r : chr 0 k s r = if Z.eqb k 0 then 1 else cos (IZR r * PI).
Proof. unfold chr. rewrite Z.mul_0_l, Rmult_0_l, cos_0. ring. Qed.

Lemma cos_N2k N k r : (0 < N)%Z -> N = (2 * k)%Z ->
  cos (IZR k * IZR r * (2 * PI / IZR N)) = cos (IZR r * PI).
Proof.
  intros HN E. apply half_cos; auto.
  - rewrite E, Z.mul_comm. apply Z.mod_mul; lia.
  - rewrite E, Z.mul_comm, Z.div_mul; lia.
Qed.

Lemma dih_irrep_1d N j k ir : (0 < N)%Z -> dih_irrep N j k = Ok ir ->
  (k = 0 \/ N = 2 * k)%Z ->
  ir_size ir = 1%nat /\ (j = 0 \/ j = 1)%Z /\
  forall s r, (s = 0 \/ s = 1)%Z -> meq 1 1 (ir_mat ir (s, r)) (mat1 (chr j k s r)).
Proof.
  intros HN H Hk. destruct (dih_irrep_inv _ _ _ _ HN H) as [Hv [_ [_ C]]].
  destruct C as [[-> [-> [-> ->]]]|[[-> [-> [-> ->]]]|[[Hk0 [H2 [-> [-> ->]]]]|[[Hk0 [H2 [-> [-> ->]]]]|[Hk0 [H2 _]]]]]].
  - repeat split; auto. intros s r Hs. rewrite chr_j0. apply mid_mat1.
  - repeat split; auto. intros s r Hs. cbn [fst snd]. rewrite flip_cos by auto. unfold chr.
    rewrite Z.mul_1_l, Rmult_1_r. reflexivity.
  - repeat split; auto. intros s r Hs. cbn [fst snd]. rewrite cos_N2k by auto. rewrite chr_j0.
    destruct (Z.eqb_spec k 0); [lia|]. reflexivity.
  - repeat split; auto. intros s r Hs. cbn [fst snd]. rewrite cos_N2k by auto. rewrite flip_cos by auto.
    unfold chr. destruct (Z.eqb_spec k 0); [lia|]. rewrite Z.mul_1_l, Rmult_comm. reflexivity.
  - lia.
Qed.

Lemma dih_irrep_2d N j k ir : (0 < N)%Z -> dih_irrep N j k = Ok ir ->
  (k <> 0 /\ N <> 2 * k)%Z ->
  ir_size ir = 2%nat /\ j = 1%Z /\
  ir_mat ir = (fun e => psichi (IZR (snd e) * (2 * PI / IZR N)) (fst e) k 0).
Proof.
  intros HN H [Hk1 Hk2]. destruct (dih_irrep_inv _ _ _ _ HN H) as [Hv [_ [_ C]]].
  destruct C as [C|[C|[C|[C|C]]]]; try lia. destruct C as [_ [_ C]]. tauto.
Qed.

Definition dih_irreps_of (M : Z) (l : list (irrep (Z * Z))) : Prop :=
  Forall (fun ir => exists j f, dih_irrep M j f = Ok ir) l.

Lemma chr_diag M k s r : (0 < M)%Z -> (k = 0 \/ M = 2 * k)%Z -> (s = 0 \/ s = 1)%Z ->
  meq 2 2 (pc s (IZR k * (IZR r * (2 * PI / IZR M)))) (mat2 (chr 0 k s r) 0 0 (chr 1 k s r)).
Proof.
  intros HM Hk Hs. assert (HM' : 0 < IZR M) by (apply (IZR_lt 0); auto).
  assert (A : exists x : Z, IZR k * (IZR r * (2 * PI / IZR M)) = IZR x * PI /\
     (if Z.eqb k 0 then 1 else cos (IZR r * PI)) = cos (IZR x * PI)).
  { destruct (Z.eqb_spec k 0) as [->|Hk0].
    - exists 0%Z. rewrite !Rmult_0_l, cos_0. auto.
    - exists r. split; auto. destruct Hk as [Hk|Hk]; [lia|].
      assert (Q : IZR M = 2 * IZR k) by (rewrite Hk at 1; apply mult_IZR).
      rewrite Q in *. field. lra. }
  destruct A as [x [A1 A2]]. rewrite A1.
  intros i j Hi Hj. unfold pc, mat2, chr. rewrite A2, sin_kpi, Z.mul_0_l, Rmult_0_l, cos_0, Z.mul_1_l.
  rewrite <- (flip_cos s) by auto. unfold flip_sign.
  destruct i as [|[|]]; destruct j as [|[|]]; try lia; simpl; ring.
Qed.

Lemma fold_rotflip M f : (0 < M)%Z ->
  exists sirr, dih_irrep M 1 (fold_freq M f) = Ok sirr /\
  exists l, rmap (fun f => key_error (dih_irrep M (fst f) (snd f)))
       (if (ir_size sirr <? 2)%nat then [(0, fold_freq M f); (1, fold_freq M f)]%Z else [(1, fold_freq M f)]%Z) = Ok l /\
    isizes l = 2%nat /\ dih_irreps_of M l /\
    forall s h : Z, (s = 0 \/ s = 1)%Z -> meq 2 2 (pc s (IZR f * (IZR h * (2 * PI / IZR M))))
      (mmul 2 (mmul 2 (foldM (folded M f)) (bdiag (blocks l (s, h)))) (foldM (folded M f))).
Proof.
  intros HM. assert (RG := fold_range M f HM).
  set (k := fold_freq M f) in *.
  assert (K : forall l, (forall s h : Z, (s = 0 \/ s = 1)%Z -> meq 2 2 (pc s (IZR k * (IZR h * (2 * PI / IZR M)))) (bdiag (blocks l (s, h)))) ->
    forall s h : Z, (s = 0 \/ s = 1)%Z -> meq 2 2 (pc s (IZR f * (IZR h * (2 * PI / IZR M))))
      (mmul 2 (mmul 2 (foldM (folded M f)) (bdiag (blocks l (s, h)))) (foldM (folded M f)))).
  { intros l Hl s h Hs. rewrite (pc_cong _ _ _ (fold_angle M f h HM)).
    rewrite fold_conj. fold k. rewrite (Hl s h Hs). reflexivity. }
  destruct (proj2 (dih_irrep_ok M 1 k HM)) as [sirr E]; [split; [lia|auto]|].
  exists sirr. split; auto.
  assert (D : (k = 0 \/ M = 2 * k)%Z \/ (k <> 0 /\ M <> 2 * k)%Z) by lia.
  destruct D as [D|D].
  - destruct (dih_irrep_1d M 1 k sirr HM E D) as [S1 [_ S2]]. rewrite S1. cbn [Nat.ltb Nat.leb].
    destruct (proj2 (dih_irrep_ok M 0 k HM)) as [sirr0 E0]; [split; [lia|right; lia]|].
    destruct (dih_irrep_1d M 0 k sirr0 HM E0 D) as [S3 [_ S4]].
    exists [sirr0; sirr]. cbn [rmap fst snd]. rewrite E0, E. cbn [key_error rbind].
    split; [reflexivity|]. unfold isizes; cbn [map nsum fold_right]. rewrite S1, S3.
    split; [reflexivity|]. split; [constructor; [eauto|constructor; [eauto|constructor]]|].
    apply K. intros s h Hs. unfold blocks; cbn [map]. rewrite S1, S3.
    rewrite (bdiag_pair_ext 1 1 _ _ _ _ (S4 s h Hs) (S2 s h Hs)).
    rewrite bdiag_11. apply chr_diag; auto.
  - destruct (dih_irrep_2d M 1 k sirr HM E D) as [S1 [_ S2]]. rewrite S1. cbn [Nat.ltb Nat.leb].
    exists [sirr]. cbn [rmap fst snd]. rewrite E. cbn [key_error rbind].
    split; [reflexivity|]. unfold isizes; cbn [map nsum fold_right]. rewrite S1.
    split; [reflexivity|]. split; [constructor; [eauto|constructor]|].
    apply K. intros s h Hs. unfold blocks; cbn [map]. rewrite S1, S2, bdiag_single.
    rewrite psichi_pc. cbn [fst snd]. rewrite Rplus_0_r. reflexivity.
Qed.

(** the two irreps of C_2 *)
Lemma c2_irrep j : (j = 0 \/ j = 1)%Z -> exists i, cyc_irrep 2 j = Ok i /\ ir_size i = 1%nat /\
  forall e, meq 1 1 (ir_mat i e) (mat1 (cos (IZR (j * e) * PI))).
Proof.
  intros [->| ->].
  - eexists. split; [reflexivity|]. split; [reflexivity|]. intros e. cbn [ir_mat].
    rewrite Z.mul_0_l, Rmult_0_l, cos_0. apply mid_mat1.
  - eexists. split; [reflexivity|]. split; [reflexivity|]. intros e. cbn [ir_mat].
    rewrite Z.mul_1_l. replace (1 * IZR e * (2 * PI / 2)) with (IZR e * PI) by field. reflexivity.
Qed.

Lemma half05 : 0.5 = / 2.
Proof. lra. Qed.

(** rotating the axis of reflection *)
Lemma axis_conj s x y : (s = 0 \/ s = 1)%Z ->
  meq 2 2 (pc s (x + IZR s * (2 * y))) (mmul 2 (mmul 2 (pc 0 y) (pc s x)) (pc 0 (- y))).
Proof.
  intros Hs.
  assert (E1 : sgn s = (sgn 0 * sgn s)%Z) by (change (sgn 0) with 1%Z; lia).
  assert (E2 : sgn s = (sgn s * sgn 0)%Z) by (change (sgn 0) with 1%Z; lia).
  rewrite (pc_mul 0 s s y x E1), (pc_mul s 0 s _ _ E2).
  assert (Q : x + IZR s * (2 * y) = y + IZR (sgn 0) * x + IZR (sgn s) * - y)
    by (destruct Hs as [->| ->]; unfold sgn; simpl; ring).
  rewrite Q. reflexivity.
Qed.

Lemma pc0_inv y : inverse_pair 2 (pc 0 y) (pc 0 (- y)).
Proof.
  split; rewrite (pc_mul 0 0 0 _ _ eq_refl); rewrite mid_pc;
  [replace (y + IZR (sgn 0) * - y) with 0 by (unfold sgn; simpl; ring)
  |replace (- y + IZR (sgn 0) * y) with 0 by (unfold sgn; simpl; ring)]; reflexivity.
Qed.

Lemma psi_inv t k : inverse_pair 2 (psi t k 0) (pc 0 (- (IZR k * t))).
Proof.
  eapply inverse_pair_compat; [symmetry; apply psi_pc|reflexivity|].
  rewrite Rplus_0_r. apply pc0_inv.
Qed.

(** a pair of 1-dimensional irreps of C_2 is a reflection *)
Lemma c2_pair i0 i1 e : (e = 0 \/ e = 1)%Z -> ir_size i0 = 1%nat -> ir_size i1 = 1%nat ->
  (forall e, meq 1 1 (ir_mat i0 e) (mat1 (cos (IZR (0 * e) * PI)))) ->
  (forall e, meq 1 1 (ir_mat i1 e) (mat1 (cos (IZR (1 * e) * PI)))) ->
  meq 2 2 (bdiag (blocks [i0; i1] e)) (pc e 0).
Proof.
  intros He S0 S1 V0 V1. unfold blocks; cbn [map]. rewrite S0, S1.
  rewrite (bdiag_pair_ext 1 1 _ _ _ _ (V0 e) (V1 e)), bdiag_11.
  rewrite Z.mul_0_l, Rmult_0_l, cos_0, Z.mul_1_l, <- flip_cos by auto.
  intros i j Hi Hj. unfold pc, mat2, flip_sign. rewrite cos_0, sin_0.
  destruct i as [|[|]]; destruct j as [|[|]]; try lia; simpl; ring.
Qed.

Lemma mod2_cases x : (x mod 2 = 0 \/ x mod 2 = 1)%Z.
Proof. assert (B := Z.mod_pos_bound x 2). lia. Qed.

Lemma cos_mod2 j e : cos (IZR ((j mod 2) * e) * PI) = cos (IZR (j * e) * PI).
Proof.
  destruct (mod_decomp 2 j) as [q ->]; [lia|].
  replace ((j + q * 2) * e)%Z with (j * e + 2 * (q * e))%Z by ring.
  rewrite plus_IZR, (mult_IZR 2).
  replace ((IZR (j * e) + 2 * IZR (q * e)) * PI) with (IZR (j * e) * PI + 2 * IZR (q * e) * PI) by ring.
  apply cos_period_Z.
Qed.

(** parent maps of dih_subgroup *)
Definition dih_parentC (N : Z) (id : option Z * Z) (h : Z) : Z * Z :=
  match fst id with Some a => (h, a * h)%Z | None => (0, h * (N / snd id))%Z end.
Definition dih_parentD (N : Z) (a : Z) (M : Z) (e : Z * Z) : Z * Z :=
  (fst e, snd e * (N / M) + fst e * a)%Z.

Lemma dih_restrict_one_rot N M j k ir : (0 < N)%Z -> (0 < M)%Z -> (N mod M = 0)%Z ->
  dih_irrep N j k = Ok ir ->
  exists C s, dih_restrict_one_C N (None, M) ir = Ok (C, s) /\ cyc_irreps_of M s /\
    forall h, irrep_restricted (dih_parentC N (None, M)) h ir C s.
Proof.
  intros HN HM HD Hir. destruct (dih_irrep_inv _ _ _ _ HN Hir) as [Hv [Hf [Hj _]]].
  assert (HS : exists s, dih_subgroup N (None, M) = Ok s).
  { apply dih_subgroup_ok; auto. unfold dih_valid_id; cbn [fst snd]; auto. }
  destruct HS as [s0 HS].
  unfold dih_restrict_one_C, dih_restrict_irrep. rewrite HS, Hf. cbn [rbind fst snd c_order].
  fold (folded M k). fold (fold_freq M k).
  change (if folded M k then chi 1 else mid) with (foldM (folded M k)).
  assert (D : (k = 0 \/ N = 2 * k)%Z \/ (k <> 0 /\ N <> 2 * k)%Z) by lia.
  destruct D as [D|D].
  - destruct (dih_irrep_1d N j k ir HN Hir D) as [S1 [_ S2]].
    assert (X : folded M k = false /\ exists sirr, cyc_irrep M (fold_freq M k) = Ok sirr /\ ir_size sirr = 1%nat /\
       forall h, meq 1 1 (ir_mat sirr h) (mat1 (chr j k 0 (h * (N / M))))).
    { destruct (Z.eq_dec k 0) as [->|Hk0].
      - destruct (fold_zero M HM) as [-> ->]. split; auto.
        destruct (proj2 (cyc_irrep_ok M 0 HM)) as [sirr E]; [split; [lia|apply Z.div_pos; lia]|].
        exists sirr. split; auto. destruct (cyc_irrep_inv _ _ _ E) as [_ [_ [_ D']]].
        destruct D' as [[_ [D2 D3]]|[[D1 _]|[D1 _]]]; try lia. split; auto.
        intros h. rewrite D3. unfold chr. rewrite Z.mul_0_r, Rmult_0_l, cos_0. simpl. rewrite Rmult_1_r. apply mid_mat1.
      - destruct D as [D|D]; [lia|]. split; [apply (fold_half N M k HN HM HD D)|].
        destruct (fold_half_irrep N M k HN HM HD D) as [sirr [E [T1 T2]]].
        exists sirr. repeat split; auto. intros h. rewrite T2. unfold chr.
        rewrite Z.mul_0_r, Rmult_0_l, cos_0. destruct (Z.eqb_spec k 0); [lia|]. rewrite Rmult_1_l. reflexivity. }
    destruct X as [-> [sirr [E [T1 T2]]]]. rewrite E. cbn [key_error rbind]. rewrite T1, S1.
    cbn [Nat.ltb Nat.leb fst snd rmap rbind]. rewrite E; cbn [key_error rbind].
    exists mid, [sirr]. split; [reflexivity|]. split; [constructor; eauto|].
    intros h. apply restricted_single; auto. unfold dih_parentC; cbn [fst snd].
    rewrite S2 by auto. rewrite T2. reflexivity.
  - destruct (dih_irrep_2d N j k ir HN Hir D) as [S1 [_ S2]].
    destruct (fold_rot M k HM) as [sirr [E [T1 [T2 T3]]]].
    rewrite E. cbn [key_error rbind]. rewrite S1.
    destruct (T3 _ eq_refl) as [U1 U2].
    exists (foldM (folded M k)), (if (ir_size sirr <? 2)%nat then [sirr; sirr] else [sirr]).
    split; [|split].
    + destruct (ir_size sirr <? 2)%nat; cbn [fst snd rmap rbind]; rewrite E; reflexivity.
    + unfold cyc_irreps_of. destruct (ir_size sirr <? 2)%nat; repeat constructor; eauto.
    + intros h. split; [rewrite S1; exact U1|].
      exists (foldM (folded M k)). rewrite S1, S2. split; [apply foldM_inv|].
      unfold dih_parentC; cbn [fst snd].
      rewrite psichi_pc, Rplus_0_r, parent_angle by auto. apply U2.
Qed.

Lemma dih_restrict_one_flip N a j k ir : (0 < N)%Z -> (0 <= a < N)%Z ->
  dih_irrep N j k = Ok ir ->
  exists C s, dih_restrict_one_C N (Some a, 1%Z) ir = Ok (C, s) /\ cyc_irreps_of 2 s /\
    forall h, (h = 0 \/ h = 1)%Z -> irrep_restricted (dih_parentC N (Some a, 1%Z)) h ir C s.
Proof.
  intros HN Ha Hir. destruct (dih_irrep_inv _ _ _ _ HN Hir) as [Hv [Hf [Hj _]]].
  assert (HN' : 0 < IZR N) by (apply (IZR_lt 0); auto).
  assert (HS : exists s, dih_subgroup N (Some a, 1%Z) = Ok s).
  { apply dih_subgroup_ok; auto. unfold dih_valid_id; cbn [fst snd]. rewrite Z.mod_1_r, Z.div_1_r. lia. }
  destruct HS as [s0 HS].
  unfold dih_restrict_one_C, dih_restrict_irrep. rewrite HS, Hf, Hj. cbn [rbind fst snd c_order Z.eqb Pos.eqb].
  assert (D : (k = 0 \/ N = 2 * k)%Z \/ (k <> 0 /\ N <> 2 * k)%Z) by lia.
  destruct D as [D|D].
  - destruct (dih_irrep_1d N j k ir HN Hir D) as [S1 [Hj01 S2]]. rewrite S1. cbn [Nat.ltb Nat.leb rbind fst snd].
    set (j' := if Z.eqb (2 * k) N then ((j + a) mod 2)%Z else j).
    assert (Hj' : (j' = 0 \/ j' = 1)%Z) by (unfold j'; destruct (Z.eqb (2 * k) N); [apply mod2_cases|auto]).
    destruct (c2_irrep j' Hj') as [i [E [T1 T2]]].
    cbn [rmap]. rewrite E. cbn [key_error rbind].
    exists mid, [i]. split; [reflexivity|]. split; [constructor; eauto|].
    intros h Hh. apply restricted_single; auto. unfold dih_parentC; cbn [fst snd].
    rewrite S2 by auto. rewrite T2.
    assert (V : chr j k h (a * h) = cos (IZR (j' * h) * PI)); [|rewrite V; reflexivity].
    unfold chr, j'. destruct (Z.eqb_spec (2 * k) N) as [K|K]; destruct (Z.eqb_spec k 0); try lia.
    + rewrite cos_mod2, Z.mul_add_distr_r. symmetry. apply cos_Zpi_add.
    + rewrite Rmult_1_r. reflexivity.
  - destruct (dih_irrep_2d N j k ir HN Hir D) as [S1 [-> S2]]. rewrite S1. cbn [Nat.ltb Nat.leb].
    assert (Z.eqb (2 * k) N = false) as -> by (apply Z.eqb_neq; lia). cbn [rbind fst snd].
    destruct (c2_irrep 0) as [i0 [E0 [T0 V0]]]; [auto|]. destruct (c2_irrep 1) as [i1 [E1 [T1 V1]]]; [auto|].
    cbn [rmap]. rewrite E0, E1. cbn [key_error rbind].
    eexists. exists [i0; i1]. split; [reflexivity|].
    split; [constructor; [eauto|constructor; [eauto|constructor]]|].
    intros h Hh. unfold irrep_restricted, isizes; cbn [map nsum fold_right]. rewrite T0, T1, S1, S2.
    split; [reflexivity|].
    eexists. split; [apply psi_inv|]. rewrite c2_pair by auto. rewrite psi_pc, Rplus_0_r.
    rewrite <- axis_conj by auto. unfold dih_parentC; cbn [fst snd]. rewrite psichi_pc, Rplus_0_r, Rplus_0_l.
    rewrite mult_IZR.
    assert (Q : IZR k * (IZR a * IZR h * (2 * PI / IZR N)) =
                IZR h * (2 * (IZR k * (0.5 * IZR a * 2 * PI / IZR N)))) by (rewrite half05; field; lra).
    rewrite Q. reflexivity.
Qed.

Lemma dih_restrict_one_dih N a M j k ir : (0 < N)%Z -> (1 < M)%Z -> (N mod M = 0)%Z -> (0 <= a < N / M)%Z ->
  dih_irrep N j k = Ok ir ->
  exists C s, dih_restrict_one_D N (Some a, M) ir = Ok (C, s) /\ dih_irreps_of M s /\
    forall h, (fst h = 0 \/ fst h = 1)%Z -> irrep_restricted (dih_parentD N a M) h ir C s.
Proof.
  intros HN HM1 HD Ha Hir. assert (HM : (0 < M)%Z) by lia.
  destruct (dih_irrep_inv _ _ _ _ HN Hir) as [Hv [Hf [Hj _]]].
  assert (HN' : 0 < IZR N) by (apply (IZR_lt 0); auto).
  assert (HS : exists s, dih_subgroup N (Some a, M) = Ok s).
  { apply dih_subgroup_ok; auto. unfold dih_valid_id; cbn [fst snd]. auto. }
  destruct HS as [s0 HS].
  unfold dih_restrict_one_D, dih_restrict_irrep. rewrite HS, Hf, Hj. cbn [rbind fst snd].
  assert (Z.eqb M 1 = false) as -> by (apply Z.eqb_neq; lia).
  fold (folded M k). fold (fold_freq M k).
  change (if folded M k then chi 1 else mid) with (foldM (folded M k)).
  assert (D : (k = 0 \/ N = 2 * k)%Z \/ (k <> 0 /\ N <> 2 * k)%Z) by lia.
  destruct D as [D|D].
  - destruct (dih_irrep_1d N j k ir HN Hir D) as [S1 [Hj01 S2]]. rewrite S1.
    set (j' := if Z.eqb (2 * k) N then ((j + a) mod 2)%Z else j).
    assert (Hj' : (j' = 0 \/ j' = 1)%Z) by (unfold j'; destruct (Z.eqb (2 * k) N); [apply mod2_cases|auto]).
    assert (X : folded M k = false /\ (fold_freq M k = 0 \/ M = 2 * fold_freq M k)%Z /\
       forall s h, (s = 0 \/ s = 1)%Z -> chr j' (fold_freq M k) s h = chr j k s (h * (N / M) + s * a)).
    { destruct (Z.eq_dec k 0) as [->|Hk0].
      - destruct (fold_zero M HM) as [F1 F2]. rewrite F1. repeat split; auto.
        intros s h Hs. unfold j'. destruct (Z.eqb_spec (2 * 0) N); [lia|]. reflexivity.
      - destruct D as [D|D]; [lia|]. destruct (fold_half N M k HN HM HD D) as [F1 F2].
        repeat split; auto; [tauto|].
        intros s h Hs. unfold j'. rewrite D at 1. rewrite Z.eqb_refl.
        unfold chr. rewrite cos_mod2, Z.mul_add_distr_r, cos_Zpi_add.
        destruct (Z.eqb_spec k 0); [lia|]. rewrite cos_Zpi_add, (Z.mul_comm s a).
        assert (Y : (if Z.eqb (fold_freq M k) 0 then 1 else cos (IZR h * PI)) = cos (IZR (h * (N / M)) * PI)).
        { destruct F2 as [[O K]|[O K]].
          - rewrite K. simpl. symmetry. apply cos_even_pi; auto.
          - destruct (Z.eqb_spec (fold_freq M k) 0); [lia|]. symmetry. apply cos_odd_pi; auto. }
        rewrite Y. ring. }
    destruct X as [-> [X1 X2]].
    destruct (proj2 (dih_irrep_ok M j' (fold_freq M k) HM)) as [sirr E].
    { split; [apply fold_range; auto|]. destruct Hj' as [-> | ->]; [right|left]; lia. }
    destruct (dih_irrep_1d M _ _ sirr HM E X1) as [T1 [_ T2]].
    rewrite E. cbn [key_error rbind]. rewrite T1. cbn [Nat.ltb Nat.leb Nat.eqb fst snd rmap rbind].
    rewrite E; cbn [key_error rbind].
    exists mid, [sirr]. split; [reflexivity|]. split; [constructor; eauto|].
    intros [s h] Hh. apply restricted_single; auto. unfold dih_parentD; cbn [fst snd] in *.
    rewrite S2 by auto. rewrite T2, X2 by auto. reflexivity.
  - destruct (dih_irrep_2d N j k ir HN Hir D) as [S1 [-> S2]]. rewrite S1.
    assert (Z.eqb (2 * k) N = false) as -> by (apply Z.eqb_neq; lia).
    destruct (fold_rotflip M k HM) as [sirr [E [l [T1 [T2 [T3 T4]]]]]].
    rewrite E. cbn [key_error rbind Nat.eqb fst snd]. rewrite T1. cbn [rbind].
    eexists. exists l. split; [reflexivity|]. split; [auto|].
    intros [s h] Hs; cbn [fst] in Hs. unfold irrep_restricted. rewrite S1, S2. split; [auto|].
    set (y := 0.5 * IZR a * 2 * PI / IZR N).
    exists (mmul 2 (foldM (folded M k)) (pc 0 (- (IZR k * y)))).
    split; [apply inverse_pair_mmul; [apply psi_inv|apply foldM_inv]|].
    unfold dih_parentD; cbn [fst snd]. rewrite psichi_pc, Rplus_0_r.
    assert (Q : IZR k * (IZR (h * (N / M) + s * a) * (2 * PI / IZR N)) =
                IZR k * (IZR h * (2 * PI / IZR M)) + IZR s * (2 * (IZR k * y))).
    { rewrite <- (parent_angle N M h HN HM HD). rewrite plus_IZR, !mult_IZR. unfold y. rewrite half05. field. lra. }
    rewrite Q, axis_conj by auto. rewrite (T4 s h Hs), psi_pc, Rplus_0_r.
    rewrite !(mmul_assoc_eq 2 2 2 2). reflexivity.
Qed.

(** ** O(2) *)

Definition o2_parentC (id : option R * Z) (h : Z) : Z * R :=
  match fst id with Some a => (h, a * IZR h) | None => (0%Z, IZR h * 2 * PI / IZR (snd id)) end.
Definition o2_parentD (a : R) (M : Z) (e : Z * Z) : Z * R :=
  (fst e, IZR (snd e) * 2 * PI / IZR M + IZR (fst e) * a).
Definition o2_parentO (a : R) (e : Z * R) : Z * R := (fst e, snd e + IZR (fst e) * a).

Lemma o2_irrep_1d j ir : o2_irrep j 0 = Ok ir ->
  ir_size ir = 1%nat /\ (j = 0 \/ j = 1)%Z /\
  forall s x, (s = 0 \/ s = 1)%Z -> meq 1 1 (ir_mat ir (s, x)) (mat1 (cos (IZR (j * s) * PI))).
Proof.
  intros H. destruct (o2_irrep_inv _ _ _ H) as [_ [_ [_ C]]].
  destruct C as [[_ [-> [-> ->]]]|[[_ [-> [-> ->]]]|[X _]]]; [| |lia].
  - repeat split; auto. intros. rewrite Z.mul_0_l, Rmult_0_l, cos_0. apply mid_mat1.
  - repeat split; auto. intros. cbn [fst]. rewrite Z.mul_1_l, flip_cos by auto. reflexivity.
Qed.

Lemma o2_irrep_2d j k ir : o2_irrep j k = Ok ir -> k <> 0%Z ->
  ir_size ir = 2%nat /\ j = 1%Z /\ ir_mat ir = (fun e => psichi (snd e) (fst e) k 0).
Proof.
  intros H Hk. destruct (o2_irrep_inv _ _ _ H) as [_ [_ [_ C]]].
  destruct C as [C|[C|C]]; try lia. tauto.
Qed.

Lemma o2_restrict_one_rot M j k ir : (0 < M)%Z -> o2_irrep j k = Ok ir ->
  exists C s, o2_restrict_one_C (None, M) ir = Ok (C, s) /\ cyc_irreps_of M s /\
    forall h, irrep_restricted (o2_parentC (None, M)) h ir C s.
Proof.
  intros HM Hir. destruct (o2_irrep_inv _ _ _ Hir) as [Hk [Hf [Hj _]]].
  assert (HM' : 0 < IZR M) by (apply (IZR_lt 0); auto).
  unfold o2_restrict_one_C, o2_restrict_irrep, o2_subgroup; cbn [fst snd].
  assert (Z.eqb M (-1) = false) as -> by (apply Z.eqb_neq; lia).
  unfold cyc_group, assert_. destruct (Z.ltb_spec 0 M); [|lia]. cbn [rbind c_order fst snd].
  rewrite Hf. fold (folded M k). fold (fold_freq M k).
  change (if folded M k then chi 1 else mid) with (foldM (folded M k)).
  destruct (Z.eq_dec k 0) as [K|K].
  - rewrite K in Hir. destruct (o2_irrep_1d j ir Hir) as [S1 [_ S2]].
    destruct (fold_zero M HM) as [Z1 Z2]. rewrite K, Z1, Z2.
    destruct (proj2 (cyc_irrep_ok M 0 HM)) as [sirr E]; [split; [lia|apply Z.div_pos; lia]|].
    rewrite E. cbn [key_error rbind].
    destruct (cyc_irrep_inv _ _ _ E) as [_ [_ [_ D]]].
    destruct D as [[_ [D2 D3]]|[[D1 _]|[D1 _]]]; try lia.
    rewrite D2, S1. cbn [Nat.ltb Nat.leb fst snd rmap rbind]. rewrite E; cbn [key_error rbind].
    exists mid, [sirr]. split; [reflexivity|]. split; [constructor; eauto|].
    intros h. apply restricted_single; auto. unfold o2_parentC; cbn [fst snd]. rewrite S2 by auto.
    rewrite D3, Z.mul_0_r, Rmult_0_l, cos_0, mid_mat1. reflexivity.
  - destruct (o2_irrep_2d j k ir Hir K) as [S1 [_ S2]].
    destruct (fold_rot M k HM) as [sirr [E [T1 [T2 T3]]]].
    rewrite E. cbn [key_error rbind]. rewrite S1.
    destruct (T3 _ eq_refl) as [U1 U2].
    exists (foldM (folded M k)), (if (ir_size sirr <? 2)%nat then [sirr; sirr] else [sirr]).
    split; [|split].
    + destruct (ir_size sirr <? 2)%nat; cbn [fst snd rmap rbind]; rewrite E; reflexivity.
    + unfold cyc_irreps_of. destruct (ir_size sirr <? 2)%nat; repeat constructor; eauto.
    + intros h. split; [rewrite S1; exact U1|].
      exists (foldM (folded M k)). rewrite S1, S2. split; [apply foldM_inv|].
      unfold o2_parentC; cbn [fst snd].
      rewrite psichi_pc, Rplus_0_r.
      replace (IZR h * 2 * PI / IZR M) with (IZR h * (2 * PI / IZR M)) by (field; lra). apply U2.
Qed.

Lemma o2_sub_axis_ok a M : (0 < M)%Z -> 0 <= a < 2 * PI / IZR M ->
  ((Rleb 0 a && Rltb a (2 * PI / IZR M)) || (M <? 0)%Z)%bool = true.
Proof.
  intros HM [H1 H2]. unfold Rleb, Rltb.
  destruct (Rle_dec 0 a); [|lra]. destruct (Rlt_dec a (2 * PI / IZR M)); [|lra]. reflexivity.
Qed.

Lemma o2_restrict_one_flip a j k ir : 0 <= a < 2 * PI -> o2_irrep j k = Ok ir ->
  exists C s, o2_restrict_one_C (Some a, 1%Z) ir = Ok (C, s) /\ cyc_irreps_of 2 s /\
    forall h, (h = 0 \/ h = 1)%Z -> irrep_restricted (o2_parentC (Some a, 1%Z)) h ir C s.
Proof.
  intros Ha Hir. destruct (o2_irrep_inv _ _ _ Hir) as [Hk [Hf [Hj _]]].
  unfold o2_restrict_one_C, o2_restrict_irrep, o2_subgroup; cbn [fst snd].
  cbn [Z.eqb Pos.eqb]. unfold assert_. rewrite o2_sub_axis_ok by (lia || lra).
  cbn [rbind cyc_group assert_ Z.ltb Z.compare c_order fst snd]. rewrite Hf, Hj.
  destruct (Z.eq_dec k 0) as [K|K].
  - rewrite K in Hir. destruct (o2_irrep_1d j ir Hir) as [S1 [Hj01 S2]]. rewrite S1. cbn [Nat.ltb Nat.leb rbind fst snd].
    destruct (c2_irrep j Hj01) as [i [E [T1 T2]]].
    cbn [rmap]. rewrite E. cbn [key_error rbind].
    exists mid, [i]. split; [reflexivity|]. split; [constructor; eauto|].
    intros h Hh. apply restricted_single; auto. unfold o2_parentC; cbn [fst snd].
    rewrite S2 by auto. rewrite T2. reflexivity.
  - destruct (o2_irrep_2d j k ir Hir K) as [S1 [-> S2]]. rewrite S1. cbn [Nat.ltb Nat.leb rbind fst snd].
    destruct (c2_irrep 0) as [i0 [E0 [T0 V0]]]; [auto|]. destruct (c2_irrep 1) as [i1 [E1 [T1 V1]]]; [auto|].
    cbn [rmap]. rewrite E0, E1. cbn [key_error rbind].
    eexists. exists [i0; i1]. split; [reflexivity|].
    split; [constructor; [eauto|constructor; [eauto|constructor]]|].
    intros h Hh. unfold irrep_restricted, isizes; cbn [map nsum fold_right]. rewrite T0, T1, S1, S2.
    split; [reflexivity|].
    eexists. split; [apply psi_inv|]. rewrite c2_pair by auto. rewrite psi_pc, Rplus_0_r.
    rewrite <- axis_conj by auto. unfold o2_parentC; cbn [fst snd]. rewrite psichi_pc, Rplus_0_r, Rplus_0_l.
    assert (Q : IZR k * (a * IZR h) = IZR h * (2 * (IZR k * (0.5 * a)))) by (rewrite half05; field).
    rewrite Q. reflexivity.
Qed.

Lemma o2_restrict_one_dih a M j k ir : (1 < M)%Z -> 0 <= a < 2 * PI / IZR M -> o2_irrep j k = Ok ir ->
  exists C s, o2_restrict_one_D (Some a, M) ir = Ok (C, s) /\ dih_irreps_of M s /\
    forall h, (fst h = 0 \/ fst h = 1)%Z -> irrep_restricted (o2_parentD a M) h ir C s.
Proof.
  intros HM1 Ha Hir. assert (HM : (0 < M)%Z) by lia.
  destruct (o2_irrep_inv _ _ _ Hir) as [Hk [Hf [Hj _]]].
  assert (HM' : 0 < IZR M) by (apply (IZR_lt 0); auto).
  unfold o2_restrict_one_D, o2_restrict_irrep, o2_subgroup; cbn [fst snd].
  assert (Z.eqb M 0 = false) as -> by (apply Z.eqb_neq; lia).
  assert (Z.eqb M (-1) = false) as -> by (apply Z.eqb_neq; lia).
  assert (Z.eqb M 1 = false) as -> by (apply Z.eqb_neq; lia).
  unfold assert_. rewrite o2_sub_axis_ok by auto. destruct (Z.ltb_spec 1 M); [|lia].
  unfold dih_group, assert_. destruct (Z.ltb_spec 0 M); [|lia]. cbn [rbind fst snd].
  rewrite Hf, Hj. fold (folded M k). fold (fold_freq M k). fold (foldM (folded M k)).
  destruct (Z.eq_dec k 0) as [K|K].
  - rewrite K in Hir. destruct (o2_irrep_1d j ir Hir) as [S1 [Hj01 S2]].
    destruct (fold_zero M HM) as [Z1 Z2]. rewrite K, Z1, Z2.
    destruct (proj2 (dih_irrep_ok M j 0 HM)) as [sirr E].
    { split; [split; [lia|apply Z.div_pos; lia]|lia]. }
    destruct (dih_irrep_1d M _ _ sirr HM E) as [T1 [_ T2]]; [auto|].
    rewrite E. cbn [key_error rbind]. rewrite T1, S1. cbn [Nat.ltb Nat.leb Nat.eqb fst snd rmap rbind].
    rewrite E; cbn [key_error rbind].
    exists mid, [sirr]. split; [reflexivity|]. split; [constructor; eauto|].
    intros [s h] Hh. apply restricted_single; auto. unfold o2_parentD; cbn [fst snd] in *.
    rewrite S2 by auto. rewrite T2 by auto. unfold chr; simpl Z.eqb; cbn iota. rewrite Rmult_1_r. reflexivity.
  - destruct (o2_irrep_2d j k ir Hir K) as [S1 [-> S2]]. rewrite S1.
    destruct (fold_rotflip M k HM) as [sirr [E [l [T1 [T2 [T3 T4]]]]]].
    rewrite E. cbn [key_error rbind Nat.eqb fst snd]. rewrite T1. cbn [rbind].
    eexists. exists l. split; [reflexivity|]. split; [auto|].
    intros [s h] Hs; cbn [fst] in Hs. unfold irrep_restricted. rewrite S1, S2. split; [auto|].
    set (y := 0.5 * a).
    exists (mmul 2 (foldM (folded M k)) (pc 0 (- (IZR k * y)))).
    split; [apply inverse_pair_mmul; [apply psi_inv|apply foldM_inv]|].
    unfold o2_parentD; cbn [fst snd]. rewrite psichi_pc, Rplus_0_r.
    assert (Q : IZR k * (IZR h * 2 * PI / IZR M + IZR s * a) =
                IZR k * (IZR h * (2 * PI / IZR M)) + IZR s * (2 * (IZR k * y))).
    { unfold y. rewrite half05. field. lra. }
    rewrite Q, axis_conj by auto. rewrite (T4 s h Hs), psi_pc, Rplus_0_r.
    rewrite !(mmul_assoc_eq 2 2 2 2). reflexivity.
Qed.

Lemma o2_restrict_one_so2 j k ir : o2_irrep j k = Ok ir ->
  exists C s, o2_restrict_one_S (None, (-1)%Z) ir = Ok (C, s) /\
    Forall (fun i => exists f, so2_irrep f = Ok i) s /\
    forall h, irrep_restricted (fun x : R => (0%Z, x)) h ir C s.
Proof.
  intros Hir. destruct (o2_irrep_inv _ _ _ Hir) as [Hk [Hf [Hj _]]].
  unfold o2_restrict_one_S, o2_restrict_irrep, o2_subgroup; cbn [fst snd Z.eqb Pos.eqb rbind].
  rewrite Hf. cbn [rmap]. destruct (proj2 (so2_irrep_ok k) Hk) as [sirr E]. rewrite E. cbn [key_error rbind].
  exists mid, [sirr]. split; [reflexivity|]. split; [constructor; eauto|]. intros h.
  destruct (so2_irrep_inv _ _ E) as [_ [_ [_ D]]].
  destruct D as [[K [D2 D3]]|[K [D2 D3]]].
  - rewrite K in Hir. destruct (o2_irrep_1d j ir Hir) as [S1 [Hj01 S2]].
    apply restricted_single; auto. rewrite S2 by auto. rewrite D3, Z.mul_0_r, Rmult_0_l, cos_0, mid_mat1. reflexivity.
  - destruct (o2_irrep_2d j k ir Hir K) as [S1 [-> S2]].
    unfold irrep_restricted, isizes, blocks; cbn [map nsum fold_right]. rewrite S1, S2, D2, D3.
    split; [reflexivity|]. exists mid. split; [apply inverse_pair_mid|].
    rewrite conj_mid, bdiag_single, psichi_pc, psi_pc. reflexivity.
Qed.

Lemma o2_restrict_one_axis a j k ir : o2_irrep j k = Ok ir ->
  exists C s, o2_restrict_one_O (Some a, (-1)%Z) ir = Ok (C, s) /\
    Forall (fun i => exists j f, o2_irrep j f = Ok i) s /\
    forall h, (fst h = 0 \/ fst h = 1)%Z -> irrep_restricted (o2_parentO a) h ir C s.
Proof.
  intros Hir. destruct (o2_irrep_inv _ _ _ Hir) as [Hk [Hf [Hj _]]].
  unfold o2_restrict_one_O, o2_restrict_irrep, o2_subgroup; cbn [fst snd Z.eqb Pos.eqb].
  assert (((Rleb 0 a && Rltb a (2 * PI / IZR (-1))) || (-1 <? 0)%Z)%bool = true) as ->
   by (rewrite orb_true_iff; right; reflexivity).
  unfold assert_. cbn [rbind]. rewrite Hf, Hj. cbn [rmap fst snd]. rewrite Hir. cbn [key_error rbind].
  eexists. exists [ir]. split; [reflexivity|]. split; [constructor; eauto|]. intros [s x] Hs.
  cbn [fst] in Hs.
  destruct (Z.eq_dec k 0) as [K|K].
  - rewrite K in Hir. destruct (o2_irrep_1d j ir Hir) as [S1 [Hj01 S2]]. rewrite S1. cbn [Nat.eqb].
    apply restricted_single; auto. unfold o2_parentO; cbn [fst snd]. rewrite !S2 by auto. reflexivity.
  - destruct (o2_irrep_2d j k ir Hir K) as [S1 [-> S2]]. rewrite S1. cbn [Nat.eqb].
    unfold irrep_restricted, isizes, blocks; cbn [map nsum fold_right]. rewrite S1, S2.
    split; [reflexivity|]. exists (mmul 2 mid (pc 0 (- (IZR k * (0.5 * a))))).
    split; [apply inverse_pair_mmul; [apply psi_inv|apply inverse_pair_mid]|].
    rewrite bdiag_single, !psichi_pc, psi_pc. unfold o2_parentO; cbn [fst snd]. rewrite !Rplus_0_r, mmul_id_r, mmul_id_l.
    rewrite <- axis_conj by auto.
    assert (Q : IZR k * (x + IZR s * a) = IZR k * x + IZR s * (2 * (IZR k * (0.5 * a)))) by (rewrite half05; field).
    rewrite Q. reflexivity.
Qed.

(** ** whole representations *)
Lemma restrict_full {G H} (parent : H -> G) (elH : H -> Prop) (P : irrep G -> Prop) (Q : irrep H -> Prop)
   prefix one (r : rep G) :
  rep_accepted r -> Forall P (rp_irreps r) ->
  (forall ir, P ir -> exists C s, one ir = Ok (C, s) /\ Forall Q s /\
     forall h, elH h -> irrep_restricted parent h ir C s) ->
  (exists h0, elH h0) ->
  (exists inv r', restrict_representation prefix one r inv = Ok r' /\ rep_accepted r') /\
  (forall inv r', restrict_representation prefix one r inv = Ok r' -> rep_accepted r' ->
     rp_size r' = rp_size r /\ Forall Q (rp_irreps r') /\
     restricts_to elH parent (rp_size r) (rp_mat r) (rp_mat r')).
Proof.
  intros Ha HP Hone [h0 Hh0]. rewrite Forall_forall in HP. split.
  - assert (Hall : exists p, restrict_all one (rp_irreps r) = Ok p).
    { revert HP. induction (rp_irreps r) as [|ir l IH]; intros HP; [eexists; reflexivity|].
      destruct (Hone ir) as [C [s [E _]]]; [apply HP; simpl; auto|]. destruct IH as [p Hp].
      - intros ir' Hin; apply HP; simpl; auto.
      - simpl. rewrite E, Hp; simpl. eexists; reflexivity. }
    destruct Hall as [p Hp].
    destruct (restrict_all_spec parent one h0 _ _ Hp) as [S1 [_ [Ci [IP _]]]].
    { intros ir C s Hin E. destruct (Hone ir (HP ir Hin)) as [C' [s' [E' [_ V]]]].
      rewrite E in E'; injection E' as <- <-. auto. }
    unfold restrict_representation. rewrite Hp; simpl.
    exists (mmul (rp_size r) Ci (rp_inv r)). eexists; split; [reflexivity|].
    unfold rep_accepted, rp_size; cbn [rp_irreps rp_cob rp_inv]. rewrite S1.
    apply inverse_pair_mmul; auto.
  - intros inv r' HR Ha'.
    assert (K : forall h, elH h -> forall ir C s, In ir (rp_irreps r) -> one ir = Ok (C, s) -> irrep_restricted parent h ir C s).
    { intros h Hh ir C s Hin E. destruct (Hone ir (HP ir Hin)) as [C' [s' [E' [_ V]]]].
      rewrite E in E'; injection E' as <- <-. auto. }
    split; [|split].
    + apply (restrict_rep_spec parent prefix one r inv r' h0 Ha HR Ha' (K h0 Hh0)).
    + unfold restrict_representation in HR.
      destruct (restrict_all one (rp_irreps r)) as [p|] eqn:E; simpl in HR; [|discriminate].
      injection HR as <-. cbn [rp_irreps]. clear Ha' K Ha. revert p E HP.
      induction (rp_irreps r) as [|ir l IH]; intros p E HP; simpl in E.
      * injection E as <-. constructor.
      * destruct (Hone ir) as [C [s [E1 [E2 _]]]]; [apply HP; simpl; auto|].
        rewrite E1 in E; simpl in E.
        destruct (restrict_all one l) as [q|]; simpl in E; [|discriminate]. injection E as <-. cbn [snd].
        apply Forall_app. split; auto. apply (IH q); auto. intros x Hx; apply HP; simpl; auto.
    + intros h Hh. apply (restrict_rep_spec parent prefix one r inv r' h Ha HR Ha' (K h Hh)).
Qed.

(** representations whose irreps are those the library builds *)
Definition cyc_rep (N : Z) (r : rep Z) : Prop :=
  rep_accepted r /\ Forall (fun ir => exists k, cyc_irrep N k = Ok ir) (rp_irreps r).
Definition dih_rep (N : Z) (r : rep (Z * Z)) : Prop :=
  rep_accepted r /\ Forall (fun ir => exists j k, dih_irrep N j k = Ok ir) (rp_irreps r).
Definition so2_rep (r : rep R) : Prop :=
  rep_accepted r /\ Forall (fun ir => exists k, so2_irrep k = Ok ir) (rp_irreps r).
Definition o2_rep (r : rep (Z * R)) : Prop :=
  rep_accepted r /\ Forall (fun ir => exists j k, o2_irrep j k = Ok ir) (rp_irreps r).

Lemma cyc_rep_is N r : (0 < N)%Z -> cyc_rep N r ->
  is_representation (cyc_el N) (cyc_combine N) cyc_identity (rp_size r) (rp_mat r).
Proof.
  intros HN [Ha Hf]. apply rep_is_rep; auto. eapply Forall_impl; [|apply Hf].
  intros ir [k E]. apply (cyc_irrep_rep N k ir HN E).
Qed.
Lemma dih_rep_is N r : (0 < N)%Z -> dih_rep N r ->
  is_representation (dih_el N) (dih_combine N) dih_identity (rp_size r) (rp_mat r).
Proof.
  intros HN [Ha Hf]. apply rep_is_rep; auto. eapply Forall_impl; [|apply Hf].
  intros ir [j [k E]]. apply (dih_irrep_rep N j k ir HN E).
Qed.
Lemma so2_rep_is r : so2_rep r -> is_representation so2_el so2_combine so2_identity (rp_size r) (rp_mat r).
Proof.
  intros [Ha Hf]. apply rep_is_rep; auto. eapply Forall_impl; [|apply Hf].
  intros ir [k E]. apply (so2_irrep_rep k ir E).
Qed.
Lemma o2_rep_is r : o2_rep r -> is_representation o2_el o2_combine o2_identity (rp_size r) (rp_mat r).
Proof.
  intros [Ha Hf]. apply rep_is_rep; auto. eapply Forall_impl; [|apply Hf].
  intros ir [j [k E]]. apply (o2_irrep_rep j k ir E).
Qed.

(** [good_restriction elH repH parent r restrict]: [restrict inv] succeeds for some matrix inverse, and
    whenever its result is accepted it is a representation of H of the same size with the same matrices *)
Definition good_restriction {G H} (elH : H -> Prop) (repH : rep H -> Prop) (parent : H -> G) (r : rep G)
   (restrict : mat -> result (rep H)) : Prop :=
  (exists inv r', restrict inv = Ok r' /\ rep_accepted r') /\
  (forall inv r', restrict inv = Ok r' -> rep_accepted r' ->
     rp_size r' = rp_size r /\ repH r' /\ restricts_to elH parent (rp_size r) (rp_mat r) (rp_mat r')).

Lemma cyc_restriction N M prefix r sg parent child : (0 < N)%Z ->
  cyc_subgroup N M = Ok (sg, parent, child) -> cyc_rep N r ->
  good_restriction (cyc_el M) (cyc_rep M) parent r (restrict_representation prefix (cyc_restrict_one N M) r).
Proof.
  intros HN HS [Ha Hf].
  assert (V : (0 < M)%Z /\ (N mod M = 0)%Z) by (apply cyc_subgroup_ok; eauto). destruct V as [HM HD].
  assert (HP : parent = (fun e => e * (N / M))%Z).
  { unfold cyc_subgroup, py_mod, assert_, cyc_group, rbind in HS.
    destruct (Z.eqb_spec M 0); [lia|]. rewrite HD in HS; simpl in HS. unfold assert_ in HS.
    destruct (Z.ltb_spec 0 M); [|lia]. injection HS as <- <- <-. reflexivity. }
  subst parent.
  destruct (restrict_full (fun e => e * (N / M))%Z (cyc_el M) _ (fun ir => exists f, cyc_irrep M f = Ok ir)
     prefix (cyc_restrict_one N M) r Ha Hf) as [E1 E2].
  - intros ir [k Hk]. destruct (cyc_restrict_one_spec N M k ir HN HM HD Hk) as [C [s [A1 [A2 A3]]]].
    exists C, s. auto.
  - exists 0%Z. apply cyc_el_iff; lia.
  - split; auto. intros inv r' HR Hacc. destruct (E2 inv r' HR Hacc) as [B1 [B2 B3]]. split; [auto|split; [split; auto|auto]].
Qed.

Lemma so2_restriction M prefix r sg parent child :
  so2_subgroup M = Ok (SubC sg parent child) -> so2_rep r ->
  good_restriction (cyc_el M) (cyc_rep M) parent r (restrict_representation prefix (so2_restrict_one M) r).
Proof.
  intros HS [Ha Hf].
  unfold so2_subgroup, cyc_group, assert_ in HS. destruct (Z.ltb_spec 0 M) as [HM|]; [|discriminate].
  simpl in HS. injection HS as <- <- <-.
  destruct (restrict_full (fun e : Z => IZR e * 2 * PI / IZR M) (cyc_el M) _ (fun ir => exists f, cyc_irrep M f = Ok ir)
     prefix (so2_restrict_one M) r Ha Hf) as [E1 E2].
  - intros ir [k Hk]. destruct (so2_restrict_one_spec M k ir HM Hk) as [C [s [A1 [A2 A3]]]].
    exists C, s. auto.
  - exists 0%Z. apply cyc_el_iff; lia.
  - split; auto. intros inv r' HR Hacc. destruct (E2 inv r' HR Hacc) as [B1 [B2 B3]]. split; [auto|split; [split; auto|auto]].
Qed.

Lemma dih_restriction N id prefix r s : (0 < N)%Z -> dih_subgroup N id = Ok s -> dih_rep N r ->
  match s with
  | SubC M parent child => good_restriction (cyc_el M) (cyc_rep M) parent r
        (restrict_representation prefix (dih_restrict_one_C N id) r)
  | SubD M parent child => good_restriction (dih_el M) (dih_rep M) parent r
        (restrict_representation prefix (dih_restrict_one_D N id) r)
  end.
Proof.
  intros HN HS [Ha Hf].
  assert (V : dih_valid_id N id) by (apply dih_subgroup_ok; eauto).
  destruct id as [[a|] M]; destruct V as [HM [HD HA]]; cbn [fst snd] in *.
  - unfold dih_subgroup, assert_, cyc_group, dih_group in HS; cbn [fst snd] in HS.
    destruct (Z.leb_spec 1 M); [|lia]. rewrite HD in HS. cbn [Z.eqb] in HS. unfold assert_ in HS.
    destruct (Z.leb_spec 0 a); [|lia]. destruct (Z.ltb_spec a (N / M)); [|lia]. cbn [andb] in HS.
    destruct (Z.eqb_spec M 1) as [->|HM1].
    + simpl in HS. injection HS as <-. rewrite Z.div_1_r in HA.
      destruct (restrict_full (fun e : Z => (e, a * e)%Z) (cyc_el 2) _ (fun ir => exists f, cyc_irrep 2 f = Ok ir)
         prefix (dih_restrict_one_C N (Some a, 1%Z)) r Ha Hf) as [E1 E2].
      * intros ir [j [k Hk]]. destruct (dih_restrict_one_flip N a j k ir HN) as [C [s [A1 [A2 A3]]]]; [lia|auto|].
        exists C, s. split; [auto|split; [auto|]]. intros h Hh. apply A3. apply cyc_el_iff in Hh; lia.
      * exists 0%Z. apply cyc_el_iff; lia.
      * split; auto. intros inv r' HR Hacc. destruct (E2 inv r' HR Hacc) as [B1 [B2 B3]]. split; [auto|split; [split; auto|auto]].
    + destruct (Z.ltb_spec 0 M); [|lia]. simpl in HS. injection HS as <-.
      destruct (restrict_full (fun e : Z * Z => (fst e, snd e * (N / M) + fst e * a)%Z) (dih_el M) _ (fun ir => exists j f, dih_irrep M j f = Ok ir)
         prefix (dih_restrict_one_D N (Some a, M)) r Ha Hf) as [E1 E2].
      * intros ir [j [k Hk]]. destruct (dih_restrict_one_dih N a M j k ir HN) as [C [s [A1 [A2 A3]]]]; [lia|auto..|].
        exists C, s. split; [auto|split; [auto|]]. intros [h1 h2] Hh. apply A3. apply dih_el_iff in Hh; cbn [fst]; lia.
      * exists (0%Z, 0%Z). apply dih_el_iff; lia.
      * split; auto. intros inv r' HR Hacc. destruct (E2 inv r' HR Hacc) as [B1 [B2 B3]]. split; [auto|split; [split; auto|auto]].
  - unfold dih_subgroup, assert_, cyc_group, dih_group in HS; cbn [fst snd] in HS.
    destruct (Z.leb_spec 1 M); [|lia]. rewrite HD in HS. cbn [Z.eqb] in HS. unfold assert_ in HS.
    destruct (Z.ltb_spec 0 M); [|lia]. simpl in HS. injection HS as <-.
    destruct (restrict_full (fun e : Z => (0, e * (N / M))%Z) (cyc_el M) _ (fun ir => exists f, cyc_irrep M f = Ok ir)
         prefix (dih_restrict_one_C N (None, M)) r Ha Hf) as [E1 E2].
    + intros ir [j [k Hk]]. destruct (dih_restrict_one_rot N M j k ir HN HM HD Hk) as [C [s [A1 [A2 A3]]]].
      exists C, s. split; [auto|split; [auto|]]. intros; apply A3.
    + exists 0%Z. apply cyc_el_iff; lia.
    + split; auto. intros inv r' HR Hacc. destruct (E2 inv r' HR Hacc) as [B1 [B2 B3]]. split; [auto|split; [split; auto|auto]].
Qed.

Lemma o2_restriction id prefix r s : o2_subgroup id = Ok s -> o2_rep r ->
  match s with
  | SubFin (SubC M parent child) => good_restriction (cyc_el M) (cyc_rep M) parent r
        (restrict_representation prefix (o2_restrict_one_C id) r)
  | SubFin (SubD M parent child) => good_restriction (dih_el M) (dih_rep M) parent r
        (restrict_representation prefix (o2_restrict_one_D id) r)
  | SubSO2 parent child => good_restriction so2_el so2_rep parent r
        (restrict_representation prefix (o2_restrict_one_S id) r)
  | SubO2 parent child => good_restriction o2_el o2_rep parent r
        (restrict_representation prefix (o2_restrict_one_O id) r)
  end.
Proof.
  intros HS [Ha Hf]. destruct id as [[a|] M]; unfold o2_subgroup in HS; cbn [fst snd] in HS.
  - destruct (Z.eqb_spec M 0); [discriminate|]. unfold assert_ in HS.
    destruct ((Rleb 0 a && Rltb a (2 * PI / IZR M)) || (M <? 0)%Z)%bool eqn:HA; [|discriminate].
    assert (HA' : (0 < M)%Z -> 0 <= a < 2 * PI / IZR M).
    { intros HM. apply orb_true_iff in HA as [HA|HA]; [|apply Z.ltb_lt in HA; lia].
      apply andb_true_iff in HA as [A1 A2]. unfold Rleb, Rltb in *.
      destruct (Rle_dec 0 a); [|discriminate]. destruct (Rlt_dec a (2 * PI / IZR M)); [|discriminate]. lra. }
    destruct (Z.eqb_spec M (-1)) as [->|HM1].
    + injection HS as <-.
      destruct (restrict_full (fun e : Z * R => (fst e, snd e + IZR (fst e) * a)) o2_el _ (fun ir => exists j f, o2_irrep j f = Ok ir)
         prefix (o2_restrict_one_O (Some a, (-1)%Z)) r Ha Hf) as [E1 E2].
      * intros ir [j [k Hk]]. destruct (o2_restrict_one_axis a j k ir Hk) as [C [s [A1 [A2 A3]]]].
        exists C, s. split; [auto|split; [auto|]]. intros [h1 h2] Hh. apply A3. apply o2_el_iff in Hh. auto.
      * exists (0%Z, 0). apply o2_el_iff; auto.
      * split; auto. intros inv r' HR Hacc. destruct (E2 inv r' HR Hacc) as [B1 [B2 B3]]. split; [auto|split; [split; auto|auto]].
    + destruct (Z.eqb_spec M 1) as [->|HM2].
      * simpl in HS. injection HS as <-.
        destruct (restrict_full (fun e : Z => (e, a * IZR e)) (cyc_el 2) _ (fun ir => exists f, cyc_irrep 2 f = Ok ir)
           prefix (o2_restrict_one_C (Some a, 1%Z)) r Ha Hf) as [E1 E2].
        -- intros ir [j [k Hk]]. destruct (o2_restrict_one_flip a j k ir) as [C [s [A1 [A2 A3]]]]; [|auto|].
           { specialize (HA' ltac:(lia)). lra. }
           exists C, s. split; [auto|split; [auto|]]. intros h Hh. apply A3. apply cyc_el_iff in Hh; lia.
        -- exists 0%Z. apply cyc_el_iff; lia.
        -- split; auto. intros inv r' HR Hacc. destruct (E2 inv r' HR Hacc) as [B1 [B2 B3]]. split; [auto|split; [split; auto|auto]].
      * destruct (Z.ltb_spec 1 M); [|discriminate]. unfold dih_group, assert_ in HS.
        destruct (Z.ltb_spec 0 M); [|lia]. simpl in HS. injection HS as <-.
        destruct (restrict_full (fun e : Z * Z => (fst e, IZR (snd e) * 2 * PI / IZR M + IZR (fst e) * a)) (dih_el M) _
           (fun ir => exists j f, dih_irrep M j f = Ok ir)
           prefix (o2_restrict_one_D (Some a, M)) r Ha Hf) as [E1 E2].
        -- intros ir [j [k Hk]]. destruct (o2_restrict_one_dih a M j k ir) as [C [s [A1 [A2 A3]]]]; [lia|auto..|].
           exists C, s. split; [auto|split; [auto|]]. intros [h1 h2] Hh. apply A3. apply dih_el_iff in Hh; cbn [fst]; lia.
        -- exists (0%Z, 0%Z). apply dih_el_iff; lia.
        -- split; auto. intros inv r' HR Hacc. destruct (E2 inv r' HR Hacc) as [B1 [B2 B3]]. split; [auto|split; [split; auto|auto]].
  - destruct (Z.eqb_spec M (-1)) as [->|HM1].
    + injection HS as <-.
      destruct (restrict_full (fun e : R => (0%Z, e)) so2_el _ (fun ir => exists f, so2_irrep f = Ok ir)
         prefix (o2_restrict_one_S (None, (-1)%Z)) r Ha Hf) as [E1 E2].
      * intros ir [j [k Hk]]. destruct (o2_restrict_one_so2 j k ir Hk) as [C [s [A1 [A2 A3]]]].
        exists C, s. split; [auto|split; [auto|]]. intros; apply A3.
      * exists 0. exact I.
      * split; auto. intros inv r' HR Hacc. destruct (E2 inv r' HR Hacc) as [B1 [B2 B3]]. split; [auto|split; [split; auto|auto]].
    + unfold cyc_group, assert_ in HS. destruct (Z.ltb_spec 0 M) as [HM|]; [|discriminate].
      simpl in HS. injection HS as <-.
      destruct (restrict_full (fun e : Z => (0%Z, IZR e * 2 * PI / IZR M)) (cyc_el M) _ (fun ir => exists f, cyc_irrep M f = Ok ir)
         prefix (o2_restrict_one_C (None, M)) r Ha Hf) as [E1 E2].
      * intros ir [j [k Hk]]. destruct (o2_restrict_one_rot M j k ir HM Hk) as [C [s [A1 [A2 A3]]]].
        exists C, s. split; [auto|split; [auto|]]. intros; apply A3.
      * exists 0%Z. apply cyc_el_iff; lia.
      * split; auto. intros inv r' HR Hacc. destruct (E2 inv r' HR Hacc) as [B1 [B2 B3]]. split; [auto|split; [split; auto|auto]].
Qed.
