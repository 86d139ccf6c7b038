(** The irreps of the groups of the library (C59). *)
From Coq Require Import Reals ZArith String List Bool Lia Lra Setoid Morphisms Classical_Prop.
From Verif Require Import Base LinAlg Spec Spec_Irred Model_Groups Model_Rep Model_Regular Proofs_Groups Proofs_Cont Proofs_Irreps Proofs_Rep Proofs_Regular Proofs_Regular2 Proofs_Irred.
Import ListNotations.
Open Scope R_scope.

(** what an irrep is at a rotation r: a sign, or the rotation by x *)
Definition at_rot {G} (ir : irrep G) (r : G) (x : R) : Prop := (ir_size ir = 1 \/ ir_size ir = 2)%nat /\ meq (ir_size ir) (ir_size ir) (ir_mat ir r) (rot (ir_size ir) x).
Lemma at_rot_zero {G} (el : G -> Prop) (a b : irrep G) r x y A : el r -> at_rot a r x -> at_rot b r y -> cos x <> cos y ->
  intertwines el (ir_size a) (ir_mat a) (ir_size b) (ir_mat b) A -> meq (ir_size b) (ir_size a) A mzero.
Proof.
  intros Hr [Sa Ma] [Sb Mb] D I. apply (no_map (ir_size a) (ir_size b) x y); [exact Sa|exact Sb|exact D|].
  intros i j Hi Hj. rewrite <- (mmul_compat (ir_size b) (ir_size a) (ir_size a) A A _ _ ltac:(intros ? ? _ _; reflexivity) Ma i j Hi Hj).
  rewrite <- (mmul_compat (ir_size b) (ir_size b) (ir_size a) _ _ A A Mb ltac:(intros ? ? _ _; reflexivity) i j Hi Hj). apply (I r Hr i j Hi Hj).
Qed.

Lemma frac_pi (N k : Z) : (0 < N)%Z -> (0 <= k)%Z -> (2 * k <= N)%Z -> 0 <= IZR k * (2 * PI / IZR N) <= PI.
Proof.
  intros HN H0 H1. assert (P : 0 < IZR N) by (apply (IZR_lt 0); lia). pose proof PI_RGT_0 as PP. apply IZR_le in H0, H1. rewrite mult_IZR in H1.
  replace (IZR k * (2 * PI / IZR N)) with (PI * (2 * IZR k * / IZR N)) by (field; lra). assert (Q : 0 < / IZR N) by (apply Rinv_0_lt_compat; lra).
  assert (U : 2 * IZR k * / IZR N <= 1). { apply (Rmult_le_reg_r (IZR N)); [exact P|]. rewrite Rmult_assoc, Rinv_l by lra. lra. }
  assert (V : 0 <= 2 * IZR k * / IZR N) by (apply Rmult_le_pos; lra). split; [apply Rmult_le_pos; lra|]. replace PI with (PI * 1) at 2 by ring. apply Rmult_le_compat_l; lra.
Qed.
Lemma frac_pi_lt (N k : Z) : (0 < N)%Z -> (0 < k)%Z -> (2 * k < N)%Z -> 0 < IZR k * (2 * PI / IZR N) < PI.
Proof.
  intros HN H0 H1. assert (P : 0 < IZR N) by (apply (IZR_lt 0); lia). pose proof PI_RGT_0 as PP. apply IZR_lt in H0, H1. rewrite mult_IZR in H1.
  replace (IZR k * (2 * PI / IZR N)) with (PI * (2 * IZR k * / IZR N)) by (field; lra). assert (Q : 0 < / IZR N) by (apply Rinv_0_lt_compat; lra).
  assert (U : 2 * IZR k * / IZR N < 1). { apply (Rmult_lt_reg_r (IZR N)); [exact P|]. rewrite Rmult_assoc, Rinv_l by lra. lra. }
  assert (V : 0 < 2 * IZR k * / IZR N) by (apply Rmult_lt_0_compat; lra). split; [apply Rmult_lt_0_compat; lra|]. replace PI with (PI * 1) at 2 by ring. apply Rmult_lt_compat_l; lra.
Qed.
Lemma frac_cos (N k l : Z) : (0 < N)%Z -> (0 <= k)%Z -> (2 * k <= N)%Z -> (0 <= l)%Z -> (2 * l <= N)%Z -> k <> l -> cos (IZR k * (2 * PI / IZR N)) <> cos (IZR l * (2 * PI / IZR N)).
Proof.
  intros HN K0 K1 L0 L1 D E. apply cos_inj in E; [|apply frac_pi; assumption|apply frac_pi; assumption]. apply D, eq_IZR.
  assert (P : 0 < IZR N) by (apply (IZR_lt 0); lia). pose proof PI_RGT_0 as PP. apply (Rmult_eq_reg_r (2 * PI / IZR N)); [exact E|]. apply Rgt_not_eq. apply Rmult_lt_0_compat; [lra|apply Rinv_0_lt_compat; lra].
Qed.
Lemma half_le N k : (k <= N / 2 -> 2 * k <= N)%Z.
Proof. intros H. pose proof (Z.div_mod N 2 ltac:(lia)). pose proof (Z.mod_pos_bound N 2 ltac:(lia)). lia. Qed.
Lemma half_lt N k : (0 < N -> k <= N / 2 -> ((N mod 2 =? 0) && (k =? N / 2))%bool = false -> 2 * k < N)%Z.
Proof. intros HN H B. pose proof (Z.div_mod N 2 ltac:(lia)). pose proof (Z.mod_pos_bound N 2 ltac:(lia)). apply andb_false_iff in B. destruct B as [B|B]; apply Z.eqb_neq in B; lia. Qed.

Ltac entry := let i := fresh in let j := fresh in intros i j ? ?; unfold rot; cbn [Nat.eqb]; unfold mid, mat1.

(** ** C_N *)
Lemma cyc_kind N k ir : (0 < N)%Z -> cyc_irrep N k = Ok ir ->
  (0 <= k /\ 2 * k <= N)%Z /\ at_rot ir 1%Z (IZR k * (2 * PI / IZR N)) /\ (ir_size ir = 1%nat -> ir_sos ir = 1%nat) /\
  (ir_size ir = 2%nat -> ir_sos ir = 2%nat /\ (0 < k)%Z /\ (2 * k < N)%Z /\ forall h, exists y, meq 2 2 (ir_mat ir h) (pc 0 y)).
Proof.
  intros HN E. unfold cyc_irrep, assert_ in E. destruct ((0 <=? k) && (k <=? N / 2))%Z eqn:B; [|discriminate]. apply andb_true_iff in B as [B1 B2]. apply Z.leb_le in B1, B2.
  split; [split; [exact B1|apply half_le; exact B2]|]. unfold at_rot.
  destruct (Z.eqb_spec k 0) as [->|K]; [|destruct ((N mod 2 =? 0) && (k =? N / 2))%Z%bool eqn:H]; injection E as <-; cbn [ir_size ir_mat ir_sos].
  - split; [split; [auto|]|split; [auto|discriminate]]. entry. replace H with 0%nat by lia. replace H0 with 0%nat by lia. cbn [Nat.eqb]. rewrite Rmult_0_l, cos_0. reflexivity.
  - split; [split; [auto|]|split; [auto|discriminate]]. entry. apply f_equal; ring.
  - split; [split; [auto|]|split; [discriminate|]].
    + intros i j Hi Hj. rewrite (psi_pc _ _ _ i j Hi Hj). unfold rot. cbn [Nat.eqb]. f_equal. ring_simplify. reflexivity.
    + intros _. split; [reflexivity|]. split; [lia|]. split; [apply half_lt; assumption|]. intros h. eexists. apply psi_pc.
Qed.
Lemma cyc_irred N k ir : (0 < N)%Z -> cyc_irrep N k = Ok ir -> irreducible (cyc_el N) (ir_size ir) (ir_mat ir) /\ commutant_dim (cyc_el N) (ir_size ir) (ir_mat ir) (ir_sos ir).
Proof.
  intros HN E. destruct (cyc_kind N k ir HN E) as ((K0 & K1) & (SZ & M) & S1 & S2). destruct SZ as [Z1|Z2].
  - rewrite (S1 Z1), Z1. split; [apply irreducible1|apply commutant1].
  - destruct (S2 Z2) as (SS & P0 & P1 & AL). rewrite SS, Z2 in *. unfold rot in M. cbn [Nat.eqb] in M. pose proof (frac_pi_lt N k HN P0 P1) as FP. assert (SX : sin (IZR k * (2 * PI / IZR N)) <> 0) by (apply Rgt_not_eq, sin_gt_0; lra).
    assert (H1 : cyc_el N 1) by (apply cyc_el_iff; lia). split; [apply (irreducible2 _ _ 1%Z _ H1 M SX)|]. apply (commutant_complex _ _ 1%Z _ H1 M SX). intros h _. apply AL.
Qed.
Lemma cyc_distinct N k l a b A : (0 < N)%Z -> cyc_irrep N k = Ok a -> cyc_irrep N l = Ok b -> k <> l ->
  intertwines (cyc_el N) (ir_size a) (ir_mat a) (ir_size b) (ir_mat b) A -> meq (ir_size b) (ir_size a) A mzero.
Proof.
  intros HN Ea Eb D. destruct (cyc_kind N k a HN Ea) as ((K0 & K1) & Ra & _). destruct (cyc_kind N l b HN Eb) as ((L0 & L1) & Rb & _).
  apply (at_rot_zero (cyc_el N) a b 1%Z _ _ A ltac:(apply cyc_el_iff; lia) Ra Rb). apply frac_cos; assumption.
Qed.

(** ** D_N *)
Lemma dih_kind N j k ir : (0 < N)%Z -> dih_irrep N j k = Ok ir ->
  (0 <= k /\ 2 * k <= N)%Z /\ (j = 0 \/ j = 1)%Z /\ at_rot ir (0, 1)%Z (IZR k * (2 * PI / IZR N)) /\ ir_sos ir = 1%nat /\
  (ir_size ir = 1%nat -> ir_mat ir (1, 0)%Z 0%nat 0%nat = (if (j =? 0)%Z then 1 else -1)) /\
  (ir_size ir = 2%nat -> (0 < k)%Z /\ (2 * k < N)%Z /\ j = 1%Z /\ meq 2 2 (ir_mat ir (1, 0)%Z) (mat2 1 0 0 (-1))).
Proof.
  intros HN E. unfold dih_irrep, assert_ in E. destruct (_ || _)%bool eqn:J; [|discriminate]. destruct ((0 <=? k) && (k <=? N / 2))%Z eqn:B; [|discriminate]. apply andb_true_iff in B as [B1 B2]. apply Z.leb_le in B1, B2.
  split; [split; [exact B1|apply half_le; exact B2]|]. split; [apply orb_true_iff in J; rewrite !Z.eqb_eq in J; exact J|]. unfold at_rot.
  destruct (Z.eqb_spec j 0) as [->|NJ]; (destruct (Z.eqb_spec k 0) as [->|K]; [|destruct ((N mod 2 =? 0) && (k =? N / 2))%Z%bool eqn:H; [|try discriminate]]); injection E as <-; cbn [ir_size ir_mat ir_sos fst snd].
  - split; [split; [auto|]|]. { entry. replace H with 0%nat by lia. replace H0 with 0%nat by lia. cbn [Nat.eqb]. rewrite Rmult_0_l, cos_0. reflexivity. } split; [reflexivity|]. split; [reflexivity|discriminate].
  - split; [split; [auto|]|]. { entry. apply f_equal; ring. } split; [reflexivity|]. split; [|discriminate]. intros _. unfold mat1. rewrite Rmult_0_r, Rmult_0_l, cos_0. reflexivity.
  - split; [split; [auto|]|]. { entry. rewrite Rmult_0_l, cos_0. reflexivity. } split; [reflexivity|]. split; [reflexivity|discriminate].
  - split; [split; [auto|]|]. { entry. unfold flip_sign, sgn. cbn [Z.eqb]. rewrite Rmult_1_r. apply f_equal; ring. } split; [reflexivity|]. split; [|discriminate]. intros _. unfold mat1, flip_sign, sgn. cbn [Z.eqb]. rewrite Rmult_0_r, Rmult_0_l, cos_0. ring.
  - split; [split; [auto|]|]. { intros p q Hp Hq. rewrite psichi_pc. unfold rot. cbn [Nat.eqb]. f_equal. ring_simplify. reflexivity. } split; [reflexivity|]. split; [discriminate|].
    intros _. split; [lia|]. split; [apply half_lt; assumption|]. split. { cbn [orb] in J. apply Z.eqb_eq in J. exact J. }
    intros p q Hp Hq. unfold psichi, mat2, sgn. cbn [Z.eqb]. rewrite Rmult_0_l, Rmult_0_r, Rplus_0_l, cos_0, sin_0. destruct p as [|[|]]; [| |lia]; (destruct q as [|[|]]; [| |lia]); cbn; ring.
Qed.
Lemma dih_irred N j k ir : (0 < N)%Z -> dih_irrep N j k = Ok ir -> irreducible (dih_el N) (ir_size ir) (ir_mat ir) /\ commutant_dim (dih_el N) (ir_size ir) (ir_mat ir) (ir_sos ir).
Proof.
  intros HN E. destruct (dih_kind N j k ir HN E) as ((K0 & K1) & _ & (SZ & M) & SS & _ & S2). rewrite SS. destruct SZ as [Z1|Z2].
  - rewrite Z1. split; [apply irreducible1|apply commutant1].
  - destruct (S2 Z2) as (P0 & P1 & _ & F). rewrite Z2 in *. unfold rot in M. cbn [Nat.eqb] in M. pose proof (frac_pi_lt N k HN P0 P1) as FP. assert (SX : sin (IZR k * (2 * PI / IZR N)) <> 0) by (apply Rgt_not_eq, sin_gt_0; lra).
    assert (H1 : dih_el N (0, 1)%Z) by (apply dih_el_iff; lia). assert (H2 : dih_el N (1, 0)%Z) by (apply dih_el_iff; lia).
    split; [apply (irreducible2 _ _ (0, 1)%Z _ H1 M SX)|]. apply (commutant_real _ _ (0, 1)%Z _ (1, 0)%Z H1 M SX H2 F).
Qed.
Lemma signs_zero {G} (el : G -> Prop) (a b : irrep G) h A : el h -> ir_size a = 1%nat -> ir_size b = 1%nat -> ir_mat a h 0%nat 0%nat <> ir_mat b h 0%nat 0%nat ->
  intertwines el (ir_size a) (ir_mat a) (ir_size b) (ir_mat b) A -> meq (ir_size b) (ir_size a) A mzero.
Proof.
  intros Hh Sa Sb D I. rewrite Sa, Sb in *. intros i j Hi Hj. specialize (I h Hh 0%nat 0%nat ltac:(lia) ltac:(lia)). unfold mmul in I. cbn in I. replace i with 0%nat by lia. replace j with 0%nat by lia. unfold mzero.
  assert (E : (ir_mat a h 0%nat 0%nat - ir_mat b h 0%nat 0%nat) * A 0%nat 0%nat = 0) by lra. apply Rmult_integral in E as [E|E]; [|exact E]. exfalso. apply D. lra.
Qed.
Lemma dih_distinct N j k j' l a b A : (0 < N)%Z -> dih_irrep N j k = Ok a -> dih_irrep N j' l = Ok b -> (j, k) <> (j', l) ->
  intertwines (dih_el N) (ir_size a) (ir_mat a) (ir_size b) (ir_mat b) A -> meq (ir_size b) (ir_size a) A mzero.
Proof.
  intros HN Ea Eb D. destruct (dih_kind N j k a HN Ea) as ((K0 & K1) & Ja & Ra & _ & Fa & Ta). destruct (dih_kind N j' l b HN Eb) as ((L0 & L1) & Jb & Rb & _ & Fb & Tb). destruct (Z.eq_dec k l) as [->|NK].
  - assert (NJ : j <> j') by congruence.
    assert (Sa : ir_size a = 1%nat). { destruct (proj1 Ra) as [Z1|Z2]; [exact Z1|exfalso]. destruct (Ta Z2) as (P0 & P1 & -> & _). assert (J0 : j' = 0%Z) by lia. subst j'. unfold dih_irrep in Eb. cbn [Z.eqb orb assert_] in Eb.
      destruct (_ && _)%bool; [|discriminate]. cbn [assert_] in Eb. destruct (Z.eqb_spec l 0); [lia|]. destruct ((N mod 2 =? 0) && (l =? N / 2))%Z%bool eqn:Q; [|discriminate]. apply andb_true_iff in Q as [Q1 Q2]. apply Z.eqb_eq in Q1, Q2. pose proof (Z.div_mod N 2 ltac:(lia)). lia. }
    assert (Sb : ir_size b = 1%nat). { destruct (proj1 Rb) as [Z1|Z2]; [exact Z1|exfalso]. destruct (Tb Z2) as (P0 & P1 & -> & _). assert (J0 : j = 0%Z) by lia. subst j. unfold dih_irrep in Ea. cbn [Z.eqb orb assert_] in Ea.
      destruct (_ && _)%bool; [|discriminate]. cbn [assert_] in Ea. destruct (Z.eqb_spec l 0); [lia|]. destruct ((N mod 2 =? 0) && (l =? N / 2))%Z%bool eqn:Q; [|discriminate]. apply andb_true_iff in Q as [Q1 Q2]. apply Z.eqb_eq in Q1, Q2. pose proof (Z.div_mod N 2 ltac:(lia)). lia. }
    apply (signs_zero (dih_el N) a b (1, 0)%Z A ltac:(apply dih_el_iff; lia) Sa Sb). rewrite (Fa Sa), (Fb Sb). destruct (Z.eqb_spec j 0), (Z.eqb_spec j' 0); try lia; lra.
  - apply (at_rot_zero (dih_el N) a b (0, 1)%Z _ _ A ltac:(apply dih_el_iff; lia) Ra Rb). apply frac_cos; assumption.
Qed.

(** ** SO(2) *)
Lemma so2_kind k ir : so2_irrep k = Ok ir -> (0 <= k)%Z /\ (forall t, at_rot ir t (IZR k * t)) /\ (ir_size ir = 1%nat -> ir_sos ir = 1%nat) /\ (ir_size ir = 2%nat -> ir_sos ir = 2%nat /\ (0 < k)%Z).
Proof.
  intros E. unfold so2_irrep, assert_ in E. destruct (Z.leb_spec 0 k) as [B|]; [|discriminate]. split; [exact B|]. unfold at_rot.
  destruct (Z.eqb_spec k 0) as [->|K]; injection E as <-; cbn [ir_size ir_mat ir_sos].
  - split; [intros t; split; [auto|]|split; [auto|discriminate]]. entry. replace H with 0%nat by lia. replace H0 with 0%nat by lia. cbn [Nat.eqb]. rewrite Rmult_0_l, cos_0. reflexivity.
  - split; [intros t; split; [auto|]|split; [discriminate|split; [reflexivity|lia]]]. intros i j Hi Hj. rewrite (psi_pc _ _ _ i j Hi Hj). unfold rot. cbn [Nat.eqb]. f_equal. ring.
Qed.
Lemma quarter k : (0 < k)%Z -> sin (IZR k * (PI / (2 * IZR k))) <> 0.
Proof. intros H. apply (IZR_lt 0) in H. replace (IZR k * (PI / (2 * IZR k))) with (PI / 2) by (field; lra). rewrite sin_PI2. lra. Qed.
Lemma so2_irred k ir : so2_irrep k = Ok ir -> irreducible so2_el (ir_size ir) (ir_mat ir) /\ commutant_dim so2_el (ir_size ir) (ir_mat ir) (ir_sos ir).
Proof.
  intros E. destruct (so2_kind k ir E) as (K0 & R & S1 & S2). destruct (proj1 (R 0)) as [Z1|Z2].
  - rewrite (S1 Z1), Z1. split; [apply irreducible1|apply commutant1].
  - destruct (S2 Z2) as (SS & P0). rewrite SS. unfold at_rot in R. rewrite Z2 in *. unfold rot in R. cbn [Nat.eqb] in R. pose proof (quarter k P0) as SX.
    split; [apply (irreducible2 _ _ (PI / (2 * IZR k)) _ I (proj2 (R _)) SX)|]. apply (commutant_complex _ _ (PI / (2 * IZR k)) _ I (proj2 (R _)) SX). intros h _. eexists. apply R.
Qed.
Lemma so2_cos k l : (0 <= k)%Z -> (0 <= l)%Z -> k <> l -> cos (IZR k * (2 * PI / IZR (2 * (k + l)))) <> cos (IZR l * (2 * PI / IZR (2 * (k + l)))).
Proof. intros K L D. apply frac_cos; lia. Qed.
Lemma so2_distinct k l a b A : so2_irrep k = Ok a -> so2_irrep l = Ok b -> k <> l ->
  intertwines so2_el (ir_size a) (ir_mat a) (ir_size b) (ir_mat b) A -> meq (ir_size b) (ir_size a) A mzero.
Proof.
  intros Ea Eb D. destruct (so2_kind k a Ea) as (K0 & Ra & _). destruct (so2_kind l b Eb) as (L0 & Rb & _). apply (at_rot_zero so2_el a b (2 * PI / IZR (2 * (k + l))) _ _ A I (Ra _) (Rb _)). apply so2_cos; assumption.
Qed.

(** ** O(2) *)
Lemma o2_kind j k ir : o2_irrep j k = Ok ir -> (0 <= k)%Z /\ (j = 0 \/ j = 1)%Z /\ (forall t, at_rot ir (0%Z, t) (IZR k * t)) /\ ir_sos ir = 1%nat /\
  (ir_size ir = 1%nat -> k = 0%Z /\ ir_mat ir (1%Z, 0) 0%nat 0%nat = (if (j =? 0)%Z then 1 else -1)) /\
  (ir_size ir = 2%nat -> (0 < k)%Z /\ j = 1%Z /\ meq 2 2 (ir_mat ir (1%Z, 0)) (mat2 1 0 0 (-1))).
Proof.
  intros E. unfold o2_irrep, assert_ in E. destruct (_ || _)%bool eqn:J; [|discriminate]. destruct (Z.leb_spec 0 k) as [B|]; [|discriminate]. split; [exact B|].
  split; [apply orb_true_iff in J; rewrite !Z.eqb_eq in J; exact J|]. unfold at_rot.
  destruct (Z.eqb_spec j 0) as [->|NJ]; (destruct (Z.eqb_spec k 0) as [->|K]; [|try discriminate]); injection E as <-; cbn [ir_size ir_mat ir_sos fst snd].
  - split; [intros t; split; [auto|]|]. { entry. replace H with 0%nat by lia. replace H0 with 0%nat by lia. cbn [Nat.eqb]. rewrite Rmult_0_l, cos_0. reflexivity. } split; [reflexivity|]. split; [split; reflexivity|discriminate].
  - split; [intros t; split; [auto|]|]. { entry. rewrite Rmult_0_l, cos_0. reflexivity. } split; [reflexivity|]. split; [split; reflexivity|discriminate].
  - split; [intros t; split; [auto|]|]. { intros p q Hp Hq. rewrite psichi_pc. unfold rot. cbn [Nat.eqb]. f_equal. ring. } split; [reflexivity|]. split; [discriminate|].
    intros _. split; [lia|]. split. { cbn [orb] in J. apply Z.eqb_eq in J. exact J. }
    intros p q Hp Hq. unfold psichi, mat2, sgn. cbn [Z.eqb]. rewrite Rmult_0_r, Rplus_0_l, cos_0, sin_0. destruct p as [|[|]]; [| |lia]; (destruct q as [|[|]]; [| |lia]); cbn; ring.
Qed.
Lemma o2_irred j k ir : o2_irrep j k = Ok ir -> irreducible o2_el (ir_size ir) (ir_mat ir) /\ commutant_dim o2_el (ir_size ir) (ir_mat ir) (ir_sos ir).
Proof.
  intros E. destruct (o2_kind j k ir E) as (K0 & _ & R & SS & _ & S2). rewrite SS. destruct (proj1 (R 0)) as [Z1|Z2].
  - rewrite Z1. split; [apply irreducible1|apply commutant1].
  - destruct (S2 Z2) as (P0 & _ & F). unfold at_rot in R. rewrite Z2 in *. unfold rot in R. cbn [Nat.eqb] in R. pose proof (quarter k P0) as SX.
    assert (H1 : forall t, o2_el (0%Z, t)) by (intros t; apply o2_el_iff; auto). assert (H2 : o2_el (1%Z, 0)) by (apply o2_el_iff; auto).
    split; [apply (irreducible2 _ _ (0%Z, PI / (2 * IZR k)) _ (H1 _) (proj2 (R _)) SX)|]. apply (commutant_real _ _ (0%Z, PI / (2 * IZR k)) _ (1%Z, 0) (H1 _) (proj2 (R _)) SX H2 F).
Qed.
Lemma o2_distinct j k j' l a b A : o2_irrep j k = Ok a -> o2_irrep j' l = Ok b -> (j, k) <> (j', l) ->
  intertwines o2_el (ir_size a) (ir_mat a) (ir_size b) (ir_mat b) A -> meq (ir_size b) (ir_size a) A mzero.
Proof.
  intros Ea Eb D. destruct (o2_kind j k a Ea) as (K0 & Ja & Ra & _ & Fa & Ta). destruct (o2_kind j' l b Eb) as (L0 & Jb & Rb & _ & Fb & Tb). destruct (Z.eq_dec k l) as [->|NK].
  - assert (NJ : j <> j') by congruence.
    assert (L : l = 0%Z). { destruct (proj1 (Ra 0)) as [Z1|Z2]; [apply (Fa Z1)|]. destruct (proj1 (Rb 0)) as [Y1|Y2]; [apply (Fb Y1)|]. destruct (Ta Z2) as (_ & -> & _). destruct (Tb Y2) as (_ & -> & _). congruence. }
    assert (Sa : ir_size a = 1%nat) by (destruct (proj1 (Ra 0)) as [Z1|Z2]; [exact Z1|destruct (Ta Z2); lia]). assert (Sb : ir_size b = 1%nat) by (destruct (proj1 (Rb 0)) as [Z1|Z2]; [exact Z1|destruct (Tb Z2); lia]).
    apply (signs_zero o2_el a b (1%Z, 0) A ltac:(apply o2_el_iff; auto) Sa Sb). rewrite (proj2 (Fa Sa)), (proj2 (Fb Sb)). destruct (Z.eqb_spec j 0), (Z.eqb_spec j' 0); try lia; lra.
  - apply (at_rot_zero o2_el a b (0%Z, 2 * PI / IZR (2 * (k + l))) _ _ A ltac:(apply o2_el_iff; auto) (Ra _) (Rb _)). apply so2_cos; assumption.
Qed.

(** ** Finite groups: every representation has an equivariant map to one of the irreps *)
(** a map to a block-diagonal matrix is a map to one of the blocks *)
Lemma to_block {G} (el : G -> Prop) n rho (l : list (irrep G)) A : intertwines el n rho (isizes l) (fun g => bdiag (blocks l g)) A -> ~ meq (isizes l) n A mzero ->
  exists ir B, In ir l /\ intertwines el n rho (ir_size ir) (ir_mat ir) B /\ ~ meq (ir_size ir) n B mzero.
Proof.
  revert A. induction l as [|ir l IH]; intros A I NZ; [exfalso; apply NZ; intros i j Hi; cbn in Hi; lia|].
  assert (SZ : isizes (ir :: l) = (ir_size ir + isizes l)%nat) by reflexivity. rewrite SZ in *.
  destruct (classic (meq (ir_size ir) n A mzero)) as [ZA|NA].
  - destruct (IH (fun i j => A (ir_size ir + i)%nat j)) as (ir' & B & Hi & IB & NB).
    + intros g Hg i j Hi Hj. specialize (I g Hg (ir_size ir + i)%nat j ltac:(lia) Hj). transitivity (mmul n A (rho g) (ir_size ir + i)%nat j); [reflexivity|]. rewrite I. unfold mmul. rewrite rsum_split. cbn [blocks map bdiag].
      rewrite rsum_0, Rplus_0_l. 2:{ intros k Hk. rewrite ZA by auto. unfold mzero. ring. }
      apply rsum_ext. intros k Hk. f_equal. replace (ir_size ir + i <? ir_size ir)%nat with false by (symmetry; apply Nat.ltb_ge; lia). replace (ir_size ir + k <? ir_size ir)%nat with false by (symmetry; apply Nat.ltb_ge; lia).
      replace (ir_size ir + i - ir_size ir)%nat with i by lia. replace (ir_size ir + k - ir_size ir)%nat with k by lia. reflexivity.
    + intros Z. apply NZ. intros i j Hi Hj. destruct (Nat.lt_ge_cases i (ir_size ir)) as [L|L]; [apply ZA; assumption|]. specialize (Z (i - ir_size ir)%nat j ltac:(lia) Hj). cbn beta in Z. replace (ir_size ir + (i - ir_size ir))%nat with i in Z by lia. exact Z.
    + exists ir', B. split; [right; exact Hi|]. split; assumption.
  - exists ir, A. split; [left; reflexivity|]. split; [|exact NA]. intros g Hg i j Hi Hj. rewrite (I g Hg i j ltac:(lia) Hj). unfold mmul. rewrite rsum_split. cbn [blocks map bdiag].
    rewrite (rsum_0 (isizes l)), Rplus_0_r.
    + apply rsum_ext. intros k Hk. f_equal. apply Nat.ltb_lt in Hi, Hk. rewrite Hi, Hk. reflexivity.
    + intros k Hk. replace (i <? ir_size ir)%nat with true by (symmetry; apply Nat.ltb_lt; lia). replace (ir_size ir + k <? ir_size ir)%nat with false by (symmetry; apply Nat.ltb_ge; lia). ring.
Qed.
Section Complete.
Context {G : Type} (grp : fgroup G) (OK : fgroup_ok grp).
Notation el := (fun e => In e (fg_elements grp)).
Lemma contains_irrep r n rho : regular_representation grp = Ok r -> rp_size r = order grp -> rep_accepted r -> (forall g, el g -> meq (order grp) (order grp) (rp_mat r g) (reg_perm grp g)) ->
  (0 < n)%nat -> is_representation el (fg_combine grp) (fg_id grp) n rho ->
  exists ir B, In ir (rp_irreps r) /\ intertwines el n rho (ir_size ir) (ir_mat ir) B /\ ~ meq (ir_size ir) n B mzero.
Proof.
  intros _ SZ [AC1 AC2] RP Hn [R0 RM]. rewrite SZ in AC1, AC2.
  destruct (fo_laws _ OK) as [L1 L2 L3 L4 L5 L6 L7 L8].
  set (o := order grp) in *. set (A := fun i j => rho (fg_inverse grp (elem grp i)) 0%nat j : R).
  (* A maps to the regular representation *)
  assert (IA : forall g, el g -> meq o n (mmul n A (rho g)) (mmul o (reg_perm grp g) A)).
  { intros g Hg i j Hi Hj. pose proof (elem_el grp i Hi) as Ei. unfold A at 1. transitivity (mmul n (rho (fg_inverse grp (elem grp i))) (rho g) 0%nat j); [reflexivity|].
    rewrite <- (RM _ _ (L3 _ Ei) Hg 0%nat j Hn Hj). set (h := fg_combine grp (fg_inverse grp g) (elem grp i)). assert (Eh : el h) by (apply L2; [apply L3; exact Hg|exact Ei]).
    unfold mmul. rewrite (rsum_single o (index grp h)).
    - unfold reg_perm. rewrite (elem_index grp OK h Eh). assert (GH : fg_combine grp g h = elem grp i). { unfold h. rewrite <- L4 by auto. rewrite L8, L5 by auto. reflexivity. }
      rewrite GH, (index_elem grp OK i Hi), Nat.eqb_refl, Rmult_1_l. unfold A. rewrite (elem_index grp OK h Eh). f_equal.
      apply (op_cancel_l grp OK h); [exact Eh|apply L2; auto|auto|]. rewrite L8 by exact Eh. unfold h. rewrite L4 by auto. rewrite <- (L4 (elem grp i)) by auto. rewrite L8, L5, L7 by auto. reflexivity.
    - apply (index_lt grp OK). exact Eh.
    - intros k Hk NK. unfold reg_perm. destruct (Nat.eqb_spec i (index grp (fg_combine grp g (elem grp k)))) as [E|E]; [|ring]. exfalso. apply NK. rewrite <- (index_elem grp OK k Hk). f_equal.
      pose proof (elem_el grp k Hk) as Ek. unfold h. rewrite E, (elem_index grp OK) by (apply L2; auto). rewrite <- L4 by auto. rewrite L7, L5 by auto. reflexivity. }
  assert (I0 : A (index grp (fg_id grp)) 0%nat = 1). { unfold A. rewrite (elem_index grp OK _ L1), (inv_id grp OK), R0 by exact Hn. reflexivity. }
  assert (PZ : forall g, el g -> meq o n (mmul o (bdiag (blocks (rp_irreps r) g)) (mmul o (rp_inv r) A)) (mmul n (mmul o (rp_inv r) A) (rho g))).
  { intros g Hg i j Hi Hj. set (P := bdiag (blocks (rp_irreps r) g)).
    rewrite (mmul_assoc o n (rp_inv r) A (rho g)), (mmul_compat o o n (rp_inv r) (rp_inv r) _ _ (fun _ _ _ _ => eq_refl) (IA g Hg) i j Hi Hj).
    rewrite <- (mmul_assoc o o P (rp_inv r) A), <- (mmul_assoc o o (rp_inv r) (reg_perm grp g) A).
    refine (mmul_compat o o n _ _ A A _ (fun _ _ _ _ => eq_refl) i j Hi Hj). intros p q Hp Hq.
    rewrite <- (mmul_compat o o o (rp_inv r) (rp_inv r) _ _ (fun _ _ _ _ => eq_refl) (RP g Hg) p q Hp Hq).
    assert (RM' : meq o o (rp_mat r g) (mmul o (rp_cob r) (mmul o P (rp_inv r)))). { intros u v Hu Hv. unfold rp_mat. rewrite SZ. apply mmul_assoc. }
    rewrite (mmul_compat o o o (rp_inv r) (rp_inv r) _ _ (fun _ _ _ _ => eq_refl) RM' p q Hp Hq). rewrite <- (mmul_assoc o o (rp_inv r) (rp_cob r)).
    rewrite (mmul_compat o o o _ _ (mmul o P (rp_inv r)) _ AC2 (fun _ _ _ _ => eq_refl) p q Hp Hq). symmetry. apply (mmul_id_l o o); assumption. }
  apply (to_block el n rho (rp_irreps r) (mmul o (rp_inv r) A)); fold (rp_size r); rewrite SZ.
  - intros g Hg i j Hi Hj. symmetry. apply PZ; assumption.
  - intros Z. pose proof (index_lt grp OK _ L1) as IX. fold o in IX. assert (Q : mmul o (rp_cob r) (mmul o (rp_inv r) A) (index grp (fg_id grp)) 0%nat = 0).
    { unfold mmul at 1. apply rsum_0. intros k Hk. rewrite Z by auto. unfold mzero. ring. }
    rewrite <- mmul_assoc in Q. rewrite (mmul_compat o o n _ _ A A AC1 (fun _ _ _ _ => eq_refl) _ _ IX Hn) in Q. rewrite (mmul_id_l o n A _ _ IX Hn) in Q. lra.
Qed.
End Complete.
