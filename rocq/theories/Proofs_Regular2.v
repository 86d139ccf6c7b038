(** The regular representation (C09): trigonometric sums and the instances C_N and D_N. *)
From Coq Require Import Reals ZArith String List Bool Lia Lra Setoid Morphisms.
From Verif Require Import Base LinAlg Spec Model_Groups Model_Rep Model_Regular
  Proofs_Groups Proofs_Irreps Proofs_Rep Proofs_Regular.
Import ListNotations.
Open Scope R_scope.

Lemma cos_sum_zero n (g : Z) : (0 < n)%nat -> (0 < g < Z.of_nat n)%Z ->
  rsum n (fun k => cos (INR k * (IZR g * (2 * PI / INR n)))) = 0.
Proof.
  intros Hn Hg. set (x := IZR g * (2 * PI / INR n)).
  assert (Pn : 0 < INR n) by (apply lt_0_INR; lia).
  assert (Pg : 0 < IZR g) by (apply IZR_lt; lia).
  assert (Lg : IZR g < INR n) by (rewrite INR_IZR_INZ; apply IZR_lt; lia).
  assert (PIp := PI_RGT_0).
  assert (Hs : sin (x / 2) > 0).
  { apply sin_gt_0.
    - unfold x. apply Rmult_lt_0_compat; [|lra]. apply Rmult_lt_0_compat; auto.
      apply Rdiv_lt_0_compat; lra.
    - unfold x. replace (IZR g * (2 * PI / INR n) / 2) with (IZR g / INR n * PI) by (field; lra).
      rewrite <- (Rmult_1_l PI) at 2. apply Rmult_lt_compat_r; auto.
      apply Rmult_lt_reg_r with (INR n); auto. unfold Rdiv. rewrite Rmult_assoc, Rinv_l; lra. }
  assert (E : 2 * sin (x / 2) * rsum n (fun k => cos (INR k * x)) = 0).
  { rewrite <- rsum_scal.
    rewrite (rsum_ext _ _ (fun k => sin (INR (S k) * x - x / 2) - sin (INR k * x - x / 2))).
    - rewrite (rsum_telescope n (fun k => sin (INR k * x - x/2))).
      cbn [INR]. replace (INR n * x - x / 2) with ((0 * x - x / 2) + 2 * IZR g * PI).
      + rewrite sin_period_Z. lra.
      + unfold x. field. lra.
    - intros k _. rewrite S_INR.
      replace ((INR k + 1) * x - x / 2) with (INR k * x + x / 2) by lra.
      rewrite sin_plus, sin_minus. lra. }
  apply Rmult_integral in E. destruct E; lra.
Qed.

Lemma rsum_pairing n (c w : nat -> R) : (0 < n)%nat ->
  (forall k, (0 < k < n)%nat -> c (n - k)%nat = c k) ->
  (forall k, (k <= n / 2)%nat -> w k = if (k =? 0)%nat then 1 else if (2 * k =? n)%nat then 1 else 2) ->
  rsum (n / 2 + 1) (fun k => w k * c k) = rsum n c.
Proof.
  intros Hn Hc Hw.
  assert (H2 := Nat.div_mod n 2 ltac:(lia)).
  assert (H3 := Nat.mod_upper_bound n 2 ltac:(lia)).
  set (m := (n / 2)%nat) in *.
  destruct (Nat.eq_dec (n mod 2) 0) as [Ev|Od].
  - assert (En : (n = S (m - 1 + S (m - 1)))%nat) by lia.
    assert (Em : (m + 1 = S (m - 1 + 1))%nat) by lia.
    rewrite Em, rsum_S_l, rsum_split. cbn [rsum].
    rewrite En at 1. rewrite rsum_S_l, rsum_split, rsum_S_l.
    rewrite (Hw 0%nat) by lia. cbn [Nat.eqb].
    replace (S (m - 1 + 0)) with m by lia.
    rewrite (Hw m) by lia. destruct (Nat.eqb_spec m 0); [lia|]. destruct (Nat.eqb_spec (2 * m) n); [|lia].
    assert (A : rsum (m - 1) (fun i => w (S i) * c (S i)) = rsum (m - 1) (fun i => c (S i)) + rsum (m - 1) (fun i => c (S i))).
    { rewrite <- rsum_plus. apply rsum_ext. intros i Hi. rewrite Hw by lia.
      destruct (Nat.eqb_spec (S i) 0); [lia|]. destruct (Nat.eqb_spec (2 * S i) n); [lia|]. lra. }
    assert (B : rsum (m - 1) (fun i => c (S (m - 1 + S i))) = rsum (m - 1) (fun i => c (S i))).
    { rewrite rsum_rev. apply rsum_ext. intros i Hi. rewrite <- (Hc (S i)) by lia. f_equal. lia. }
    rewrite A, B. replace (S (m - 1 + 0)) with m by lia. lra.
  - assert (En : (n = S (m + m))%nat) by lia.
    rewrite Nat.add_1_r, rsum_S_l.
    rewrite En at 1. rewrite rsum_S_l, rsum_split.
    rewrite (Hw 0%nat) by lia. cbn [Nat.eqb].
    assert (A : rsum m (fun i => w (S i) * c (S i)) = rsum m (fun i => c (S i)) + rsum m (fun i => c (S i))).
    { rewrite <- rsum_plus. apply rsum_ext. intros i Hi. rewrite Hw by lia.
      destruct (Nat.eqb_spec (S i) 0); [lia|]. destruct (Nat.eqb_spec (2 * S i) n); [lia|]. lra. }
    assert (B : rsum m (fun i => c (S (m + i))) = rsum m (fun i => c (S i))).
    { rewrite rsum_rev. apply rsum_ext. intros i Hi. rewrite <- (Hc (S i)) by lia. f_equal. lia. }
    rewrite A, B. lra.
Qed.

(** weights 1, 2, ..., 2 (, 1): the sum over the irreps of C_N *)
Definition cw (n k : nat) : R := if (k =? 0)%nat then 1 else if (2 * k =? n)%nat then 1 else 2.

Lemma cyc_weighted_sum n (g : Z) : (0 < n)%nat -> (0 <= g < Z.of_nat n)%Z ->
  rsum (n / 2 + 1) (fun k => cw n k * cos (INR k * (IZR g * (2 * PI / INR n))))
  = if Z.eqb g 0 then INR n else 0.
Proof.
  intros Hn Hg.
  assert (Pn : 0 < INR n) by (apply lt_0_INR; lia).
  rewrite (rsum_pairing n (fun k => cos (INR k * (IZR g * (2 * PI / INR n)))) (cw n)); auto.
  - destruct (Z.eqb_spec g 0) as [->|Hg0].
    + rewrite (rsum_ext _ _ (fun _ => 1)); [rewrite rsum_const; lra|].
      intros k _. replace (INR k * (0 * (2 * PI / INR n))) with 0 by ring. apply cos_0.
    + apply cos_sum_zero; lia.
  - intros k Hk. rewrite minus_INR by lia.
    replace ((INR n - INR k) * (IZR g * (2 * PI / INR n)))
      with (- (INR k * (IZR g * (2 * PI / INR n))) + 2 * IZR g * PI) by (field; lra).
    rewrite cos_period_Z, cos_neg. reflexivity.
Qed.

(** ** C_N *)
Definition dflt {A} (d : A) (r : result A) : A := match r with Ok a => a | Err _ => d end.
Definition ir0 {G} : irrep G := MkIrrep 0 0 0 0 (fun _ => mzero) [].
Definition cyc_ir (N k : Z) : irrep Z := dflt ir0 (cyc_irrep N k).
Definition dih_ir (N : Z) (jk : Z * Z) : irrep (Z * Z) := dflt ir0 (dih_irrep N (fst jk) (snd jk)).

Definition cyc_ks (N : Z) : list Z := map Z.of_nat (seq 0 (Z.to_nat (N / 2 + 1))).
Definition dih_ks (N : Z) : list (Z * Z) :=
  (0, 0)%Z :: map (fun k => (1%Z, Z.of_nat k)) (seq 0 (Z.to_nat (N / 2 + 1)))
     ++ (if Z.eqb (N mod 2) 0 then [(0, N / 2)%Z] else []).

Lemma half_nonneg N : (0 < N)%Z -> (0 <= N / 2)%Z.
Proof. intros; apply Z.div_pos; lia. Qed.

Lemma cyc_ir_ok N k : (0 < N)%Z -> (0 <= k <= N / 2)%Z -> cyc_irrep N k = Ok (cyc_ir N k).
Proof.
  intros HN Hk. destruct (proj2 (cyc_irrep_ok N k HN) Hk) as [ir E]. unfold cyc_ir. rewrite E. auto.
Qed.
Lemma dih_ir_ok N jk : (0 < N)%Z -> dih_irrep_valid N (fst jk) (snd jk) ->
  dih_irrep N (fst jk) (snd jk) = Ok (dih_ir N jk).
Proof.
  intros HN Hk. destruct (proj2 (dih_irrep_ok N _ _ HN) Hk) as [ir E]. unfold dih_ir. rewrite E. auto.
Qed.

Lemma cyc_ks_in N k : (0 < N)%Z -> In k (cyc_ks N) <-> (0 <= k <= N / 2)%Z.
Proof.
  intros HN. assert (H := half_nonneg N HN). unfold cyc_ks. rewrite in_map_iff. split.
  - intros [i [<- Hi]]. apply in_seq in Hi. lia.
  - intros Hk. exists (Z.to_nat k). split; [lia|]. apply in_seq. lia.
Qed.

Lemma dih_ks_in N j k : (0 < N)%Z -> In (j, k) (dih_ks N) <-> dih_irrep_valid N j k.
Proof.
  intros HN. assert (H := half_nonneg N HN). unfold dih_ks, dih_irrep_valid.
  assert (D := Z.div_mod N 2 ltac:(lia)). assert (D' := Z.mod_pos_bound N 2 ltac:(lia)).
  cbn [In]. rewrite in_app_iff, in_map_iff. split.
  - intros [E|[[i [E Hi]]|E]].
    + injection E as <- <-. lia.
    + injection E as <- <-. apply in_seq in Hi. lia.
    + destruct (Z.eqb_spec (N mod 2) 0); simpl in E; [|tauto]. destruct E as [E|[]]. injection E as <- <-. lia.
  - intros [Hk [-> | [-> [-> | Hk']]]].
    + right; left. exists (Z.to_nat k). split; [f_equal; lia|]. apply in_seq. lia.
    + left; auto.
    + right; right. destruct (Z.eqb_spec (N mod 2) 0); [|lia]. left. f_equal. lia.
Qed.

Lemma cyc_irreps_ok N : (0 < N)%Z -> cyc_irreps N = Ok (map (cyc_ir N) (cyc_ks N)).
Proof.
  intros HN. apply rmap_ok. intros k Hk. apply cyc_ir_ok; auto. apply cyc_ks_in; auto.
Qed.
Lemma dih_irreps_ok N : (0 < N)%Z -> dih_irreps N = Ok (map (dih_ir N) (dih_ks N)).
Proof.
  intros HN. apply rmap_ok. intros [j k] Hk. apply dih_ir_ok; auto. apply dih_ks_in; auto.
Qed.

Definition cyc_fg (N : Z) : fgroup Z :=
  MkFG (cyc_elements N) cyc_identity (cyc_combine N) (cyc_inverse N) cyc_equal (map (cyc_ir N) (cyc_ks N)).
Definition dih_fg (N : Z) : fgroup (Z * Z) :=
  MkFG (dih_elements N) dih_identity (dih_combine N) (dih_inverse N) dih_equal (map (dih_ir N) (dih_ks N)).

Lemma cyc_fgroup_eq N : (0 < N)%Z -> cyc_fgroup N = Ok (cyc_fg N).
Proof.
  intros HN. unfold cyc_fgroup, cyc_group. rewrite (proj2 (Z.ltb_lt 0 N) HN). cbn [assert_ rbind].
  rewrite cyc_irreps_ok; auto.
Qed.
Lemma dih_fgroup_eq N : (0 < N)%Z -> dih_fgroup N = Ok (dih_fg N).
Proof.
  intros HN. unfold dih_fgroup, dih_group. rewrite (proj2 (Z.ltb_lt 0 N) HN). cbn [assert_ rbind].
  rewrite dih_irreps_ok; auto.
Qed.

Lemma group_laws_iff {G} (el el' : G -> Prop) eqv op inv e :
  (forall x, el x <-> el' x) -> group_laws el eqv op inv e -> group_laws el' eqv op inv e.
Proof.
  intros H [L1 L2 L3 L4 L5 L6 L7 L8].
  split; intros; repeat match goal with X : el' _ |- _ => apply H in X end; try apply H; auto.
Qed.
Lemma is_rep_iff {G} (el el' : G -> Prop) op e n rho : (forall x, el x <-> el' x) ->
  is_representation el op e n rho -> is_representation el' op e n rho.
Proof. intros H [A B]; split; auto. intros; apply B; apply H; auto. Qed.
Lemma is_orth_iff {G} (el el' : G -> Prop) n rho : (forall x, el x <-> el' x) ->
  is_orthogonal_rep el n rho -> is_orthogonal_rep el' n rho.
Proof. intros H A a Ha. apply A, H; auto. Qed.

Lemma cyc_fg_ok N : (0 < N)%Z -> fgroup_ok (cyc_fg N).
Proof.
  intros HN. destruct (cyc_elements_spec N HN) as [E1 [E2 E3]].
  assert (E3' : forall e, cyc_el N e <-> In e (cyc_elements N)) by (intros; symmetry; auto).
  split; cbn [cyc_fg fg_elements fg_id fg_combine fg_inverse fg_eqb fg_irreps].
  - eapply group_laws_iff; [apply E3'|]. apply cyc_laws; auto.
  - auto.
  - intros. apply Z.eqb_eq.
  - intros ir Hir. apply in_map_iff in Hir. destruct Hir as [k [<- Hk]]. apply cyc_ks_in in Hk; auto.
    destruct (cyc_irrep_rep N k _ HN (cyc_ir_ok N k HN Hk)) as [A B]. split.
    + eapply is_rep_iff; eauto.
    + eapply is_orth_iff; eauto.
Qed.
Lemma dih_fg_ok N : (0 < N)%Z -> fgroup_ok (dih_fg N).
Proof.
  intros HN. destruct (dih_elements_spec N HN) as [E1 [E2 E3]].
  assert (E3' : forall e, dih_el N e <-> In e (dih_elements N)) by (intros; symmetry; auto).
  split; cbn [dih_fg fg_elements fg_id fg_combine fg_inverse fg_eqb fg_irreps].
  - eapply group_laws_iff; [apply E3'|]. apply dih_laws; auto.
  - auto.
  - intros [a b] [c d]. unfold dih_equal; cbn [fst snd]. rewrite andb_true_iff, !Z.eqb_eq. split; [intros [-> ->]; auto|].
    intros E; injection E; auto.
  - intros ir Hir. apply in_map_iff in Hir. destruct Hir as [[j k] [<- Hk]]. apply dih_ks_in in Hk; auto.
    destruct (dih_irrep_rep N j k _ HN (dih_ir_ok N (j, k) HN Hk)) as [A B]. split.
    + eapply is_rep_iff; eauto.
    + eapply is_orth_iff; eauto.
Qed.

Definition md {G} (ir : irrep G) : nat := (ir_size ir / ir_sos ir)%nat.

Lemma cyc_ir_data N k : (0 < N)%Z -> (0 <= k <= N / 2)%Z ->
  (0 < ir_sos (cyc_ir N k))%nat /\ ir_size (cyc_ir N k) = ir_sos (cyc_ir N k) /\
  INR (ir_size (cyc_ir N k)) = cw (Z.to_nat N) (Z.to_nat k) /\
  (forall g, ir_mat (cyc_ir N k) g 0%nat 0%nat = cos (IZR k * (IZR g * (2 * PI / IZR N)))).
Proof.
  intros HN Hk. unfold cyc_ir, cyc_irrep.
  assert (E : ((0 <=? k)%Z && (k <=? N / 2)%Z)%bool = true) by (apply andb_true_iff; lia).
  rewrite E. cbn [assert_].
  unfold cw.
  destruct (Z.eqb_spec k 0) as [->|Hk0].
  - cbn. repeat split; auto. intros. unfold mid; simpl. rewrite Rmult_0_l, cos_0; auto.
  - destruct (Nat.eqb_spec (Z.to_nat k) 0); [lia|].
    assert (H := even_half N k HN).
    destruct ((N mod 2 =? 0)%Z && (k =? N / 2)%Z)%bool.
    + assert (N = 2 * k)%Z by (apply H; auto).
      destruct (Nat.eqb_spec (2 * Z.to_nat k) (Z.to_nat N)); [|lia].
      cbn. repeat split; auto. intros. unfold mat1. f_equal. ring.
    + destruct (Nat.eqb_spec (2 * Z.to_nat k) (Z.to_nat N)) as [Q|].
      * assert (false = true) by (apply H; lia). congruence.
      * cbn [dflt ir_sos ir_size ir_mat]. repeat split; auto.
        intros. unfold psi, mat2. f_equal. ring.
Qed.

Lemma Z_half_nat N : (0 < N)%Z -> Z.to_nat (N / 2 + 1) = (Z.to_nat N / 2 + 1)%nat.
Proof.
  intros HN. assert (H := half_nonneg N HN). rewrite Z2Nat.inj_add by lia. 
  rewrite (Z2Nat.inj_div N 2) by lia. reflexivity.
Qed.

Lemma lsum_seq {A} (f : nat -> A) (F : A -> R) n : lsum (map F (map f (seq 0 n))) = rsum n (fun k => F (f k)).
Proof. rewrite map_map, rsum_lsum. auto. Qed.

Lemma cyc_md N ir : (0 < N)%Z -> In ir (fg_irreps (cyc_fg N)) ->
  (0 < ir_sos ir)%nat /\ ir_size ir = (ir_sos ir * md ir)%nat /\ md ir = 1%nat.
Proof.
  intros HN Hir. cbn in Hir. apply in_map_iff in Hir. destruct Hir as [k [<- Hk]]. apply cyc_ks_in in Hk; auto.
  destruct (cyc_ir_data N k HN Hk) as [A [B _]]. unfold md. rewrite B, Nat.div_same by lia. lia.
Qed.

Lemma cyc_complete N g : (0 < N)%Z -> In g (fg_elements (cyc_fg N)) ->
  lsum (map (fun ir => INR (ir_size ir) * rsum (md ir) (fun a => ir_mat ir g a a)) (fg_irreps (cyc_fg N)))
  = if fg_eqb (cyc_fg N) g (fg_id (cyc_fg N)) then INR (order (cyc_fg N)) else 0.
Proof.
  intros HN Hg. cbn [cyc_fg fg_irreps fg_eqb fg_id] in *. unfold cyc_equal, cyc_identity, order.
  cbn [cyc_fg fg_elements] in *.
  destruct (cyc_elements_spec N HN) as [E1 [E2 E3]]. rewrite E1.
  apply E3, cyc_el_iff in Hg.
  rewrite map_map. unfold cyc_ks. rewrite lsum_seq, Z_half_nat by auto.
  rewrite <- (cyc_weighted_sum (Z.to_nat N) g) by lia.
  apply rsum_ext. intros k Hk.
  assert (Hk' : (0 <= Z.of_nat k <= N / 2)%Z).
  { rewrite <- Z_half_nat in Hk by auto. generalize (half_nonneg N HN). lia. }
  destruct (cyc_ir_data N (Z.of_nat k) HN Hk') as [A [B [C D]]].
  rewrite C, Nat2Z.id. f_equal.
  assert (M : md (cyc_ir N (Z.of_nat k)) = 1%nat) by (unfold md; rewrite B; apply Nat.div_same; lia).
  rewrite M. cbn [rsum]. rewrite D, Rplus_0_l, <- INR_IZR_INZ. f_equal. f_equal. f_equal.
  rewrite (INR_IZR_INZ (Z.to_nat N)), Z2Nat.id by lia. reflexivity.
Qed.

(** ** D_N *)
Lemma dih_ir_data N jk : (0 < N)%Z -> dih_irrep_valid N (fst jk) (snd jk) ->
  ir_sos (dih_ir N jk) = 1%nat /\
  forall g, In g (dih_elements N) ->
    INR (ir_size (dih_ir N jk)) * rsum (ir_size (dih_ir N jk)) (fun a => ir_mat (dih_ir N jk) g a a) =
    (if (fst jk =? 0)%Z then 1
     else if ((snd jk =? 0) || (2 * snd jk =? N))%Z then flip_sign (fst g)
     else 2 * (1 + flip_sign (fst g)))
    * cos (IZR (snd jk) * (IZR (snd g) * (2 * PI / IZR N))).
Proof.
  destruct jk as [j k]. cbn [fst snd]. intros HN Hv. unfold dih_ir, dih_irrep. cbn [fst snd].
  assert (Hv' := Hv). destruct Hv' as [Hk Hj].
  assert (E : ((0 <=? k)%Z && (k <=? N / 2)%Z)%bool = true) by (apply andb_true_iff; lia).
  rewrite E. assert (Ej : ((j =? 0)%Z || (j =? 1)%Z)%bool = true) by (apply orb_true_iff; lia).
  rewrite Ej. cbn [assert_].
  assert (H := even_half N k HN).
  destruct (Z.eqb_spec j 0) as [->|Hj0].
  - destruct (Z.eqb_spec k 0) as [->|Hk0].
    + cbn. split; auto. intros. unfold mid; cbn. rewrite Rmult_0_l, cos_0. lra.
    + destruct ((N mod 2 =? 0)%Z && (k =? N / 2)%Z)%bool.
      * cbn. split; auto. intros g _. unfold mat1.
        replace (IZR k * IZR (snd g) * (2 * PI / IZR N)) with (IZR k * (IZR (snd g) * (2 * PI / IZR N))) by ring. lra.
      * exfalso. assert (false = true) by (apply H; lia). congruence.
  - destruct (Z.eqb_spec k 0) as [->|Hk0].
    + cbn [orb dflt ir_sos ir_size ir_mat rsum INR]. split; auto. intros g _.
      unfold mat1; cbn. rewrite Rmult_0_l, cos_0. lra.
    + cbn [orb]. destruct ((N mod 2 =? 0)%Z && (k =? N / 2)%Z)%bool.
      * assert (N = 2 * k)%Z by (apply H; auto). destruct (Z.eqb_spec (2 * k) N); [|lia].
        cbn [orb dflt ir_sos ir_size ir_mat rsum INR]. split; auto. intros g _. unfold mat1.
        replace (IZR k * IZR (snd g) * (2 * PI / IZR N)) with (IZR k * (IZR (snd g) * (2 * PI / IZR N))) by ring. lra.
      * destruct (Z.eqb_spec (2 * k) N); [exfalso; assert (false = true) by (apply H; lia); congruence|].
        cbn [orb dflt ir_sos ir_size ir_mat rsum INR]. split; auto. intros g _.
        unfold psichi, mat2, flip_sign. rewrite Rplus_0_r.
        replace (IZR k * (IZR (snd g) * (2 * PI / IZR N))) with (IZR k * IZR (snd g) * (2 * PI / IZR N)) by ring.
        replace (IZR k * IZR (snd g) * (2 * PI / IZR N)) with (IZR k * (IZR (snd g) * (2 * PI / IZR N))) by ring.
        lra.
Qed.

Lemma dih_md N ir : (0 < N)%Z -> In ir (fg_irreps (dih_fg N)) ->
  (0 < ir_sos ir)%nat /\ ir_size ir = (ir_sos ir * md ir)%nat /\ md ir = ir_size ir.
Proof.
  intros HN Hir. cbn [dih_fg fg_irreps] in Hir. apply in_map_iff in Hir. destruct Hir as [[j k] [<- Hk]]. apply dih_ks_in in Hk; auto.
  destruct (dih_ir_data N (j,k) HN Hk) as [A _]. unfold md. rewrite A, Nat.div_1_r. lia.
Qed.

Lemma dih_complete N g : (0 < N)%Z -> In g (fg_elements (dih_fg N)) ->
  lsum (map (fun ir => INR (ir_size ir) * rsum (md ir) (fun a => ir_mat ir g a a)) (fg_irreps (dih_fg N)))
  = if fg_eqb (dih_fg N) g (fg_id (dih_fg N)) then INR (order (dih_fg N)) else 0.
Proof.
  intros HN Hg.
  rewrite (lsum_ext _ _ (fun ir => INR (ir_size ir) * rsum (ir_size ir) (fun a => ir_mat ir g a a))).
  2:{ intros ir Hir. destruct (dih_md N ir HN Hir) as [_ [_ ->]]. auto. }
  cbn [dih_fg fg_irreps fg_eqb fg_id fg_elements] in *. unfold dih_equal, dih_identity, order.
  cbn [dih_fg fg_elements fst snd] in *.
  destruct (dih_elements_spec N HN) as [E1 [E2 E3]]. rewrite E1.
  assert (Hg' := Hg). destruct g as [f r]. apply E3, dih_el_iff in Hg'. destruct Hg' as [Hf Hr]. cbn [fst snd].
  rewrite map_map.
  rewrite (lsum_ext _ _ (fun jk => (if (fst jk =? 0)%Z then 1
     else if ((snd jk =? 0) || (2 * snd jk =? N))%Z then flip_sign f
     else 2 * (1 + flip_sign f))
    * cos (IZR (snd jk) * (IZR r * (2 * PI / IZR N))))).
  2:{ intros [j k] Hk. apply dih_ks_in in Hk; auto. destruct (dih_ir_data N (j,k) HN Hk) as [_ D]. rewrite D; auto. }
  assert (H := half_nonneg N HN).
  assert (D := Z.div_mod N 2 ltac:(lia)). assert (D' := Z.mod_pos_bound N 2 ltac:(lia)).
  unfold dih_ks. cbn [map]. rewrite map_app. cbn [lsum fold_right]. fold (lsum (map (fun jk => (if (fst jk =? 0)%Z then 1
     else if ((snd jk =? 0) || (2 * snd jk =? N))%Z then flip_sign f
     else 2 * (1 + flip_sign f))
    * cos (IZR (snd jk) * (IZR r * (2 * PI / IZR N)))) (map (fun k => (1%Z, Z.of_nat k)) (seq 0 (Z.to_nat (N / 2 + 1)))) ++ map (fun jk => (if (fst jk =? 0)%Z then 1
     else if ((snd jk =? 0) || (2 * snd jk =? N))%Z then flip_sign f
     else 2 * (1 + flip_sign f))
    * cos (IZR (snd jk) * (IZR r * (2 * PI / IZR N)))) (if (N mod 2 =? 0)%Z then [(0%Z, (N / 2)%Z)] else []))).
  rewrite lsum_app, lsum_seq. cbn [fst snd].
  replace (IZR 0 * (IZR r * (2 * PI / IZR N))) with 0 by ring. rewrite cos_0. cbn [Z.eqb].
  (* the sum over (1,k) *)
  set (c := fun k : nat => cos (INR k * (IZR r * (2 * PI / INR (Z.to_nat N))))).
  assert (W := cyc_weighted_sum (Z.to_nat N) r ltac:(lia) ltac:(lia)).
  rewrite (rsum_ext (Z.to_nat (N / 2 + 1)) _
     (fun k => (1 + flip_sign f) * (cw (Z.to_nat N) k * c k)
               - (if (k =? 0)%nat then 1 else 0) - (if (2 * k =? Z.to_nat N)%nat then c k else 0))).
  2:{ intros k Hk. change (Z.eqb 1 0) with false. cbv iota.
      assert (EN : IZR N = INR (Z.to_nat N)) by (rewrite INR_IZR_INZ, Z2Nat.id; auto; lia).
      rewrite EN. rewrite <- INR_IZR_INZ. fold (c k).
      unfold cw.
      destruct (Nat.eqb_spec k 0) as [->|Hk0].
      - change (Z.of_nat 0 =? 0)%Z with true. cbn [orb].
        destruct (Nat.eqb_spec (2 * 0) (Z.to_nat N)); [lia|].
        assert (c 0%nat = 1) as ->. { unfold c. cbn [INR]. rewrite Rmult_0_l. apply cos_0. } lra.
      - destruct (Z.eqb_spec (Z.of_nat k) 0); [lia|]. cbn [orb].
        destruct (Z.eqb_spec (2 * Z.of_nat k) N); destruct (Nat.eqb_spec (2 * k) (Z.to_nat N)); try lia; lra. }
  rewrite !rsum_minus, rsum_scal, Z_half_nat by auto.
  change (rsum (Z.to_nat N / 2 + 1) (fun k => cw (Z.to_nat N) k * c k) = if (r =? 0)%Z then INR (Z.to_nat N) else 0) in W.
  rewrite W. clear W.
  rewrite (rsum_single _ 0 (fun k => if (k =? 0)%nat then 1 else 0)); [|lia|intros i _ Hi; destruct (Nat.eqb_spec i 0); [lia|auto]].
  cbn [Nat.eqb].
  assert (EC : lsum (map (fun jk : Z * Z => (if (fst jk =? 0)%Z then 1
     else if ((snd jk =? 0) || (2 * snd jk =? N))%Z then flip_sign f
     else 2 * (1 + flip_sign f))
    * cos (IZR (snd jk) * (IZR r * (2 * PI / IZR N)))) (if (N mod 2 =? 0)%Z then [(0%Z, (N / 2)%Z)] else []))
    = rsum (Z.to_nat N / 2 + 1) (fun k => if (2 * k =? Z.to_nat N)%nat then c k else 0)).
  { destruct (Z.eqb_spec (N mod 2) 0) as [Ev|Od].
    - rewrite (rsum_single _ (Z.to_nat (N / 2))).
      + destruct (Nat.eqb_spec (2 * Z.to_nat (N / 2)) (Z.to_nat N)); [|lia].
        cbn [map lsum fold_right fst snd Z.eqb]. unfold c.
        assert (EN : IZR N = INR (Z.to_nat N)) by (rewrite INR_IZR_INZ, Z2Nat.id; auto; lia).
        rewrite EN, (INR_IZR_INZ (Z.to_nat (N / 2))), Z2Nat.id by lia. lra.
      + rewrite <- Z_half_nat by auto. lia.
      + intros i _ Hi. destruct (Nat.eqb_spec (2 * i) (Z.to_nat N)); [lia|auto].
    - symmetry. apply rsum_0. intros i _. destruct (Nat.eqb_spec (2 * i) (Z.to_nat N)); [lia|auto]. }
  rewrite EC. rewrite mult_INR. change (INR 2) with 2.
  unfold flip_sign, sgn.
  destruct Hf as [-> | ->]; cbn [Z.eqb andb]; destruct (Z.eqb_spec r 0); lra.
Qed.

Theorem cyc_regular N : (0 < N)%Z ->
  exists r, regular_representation (cyc_fg N) = Ok r /\
    rp_size r = Z.to_nat N /\
    (forall ir, In ir (rp_irreps r) -> exists k, cyc_irrep N k = Ok ir) /\
    orthogonal (Z.to_nat N) (rp_cob r) /\ rep_accepted r /\
    rp_irreps r = map (cyc_ir N) (cyc_ks N) /\
    rp_nonlin r = ["pointwise"; "norm"; "gated"; "concatenated"]%string /\
    forall g, cyc_el N g -> meq (Z.to_nat N) (Z.to_nat N) (rp_mat r g) (reg_perm (cyc_fg N) g).
Proof.
  intros HN. destruct (cyc_elements_spec N HN) as [E1 [E2 E3]].
  destruct (regular_spec (cyc_fg N) (cyc_fg_ok N HN) md) as [r [A [B [C [D [E [F [H I]]]]]]]].
  - intros ir Hir. destruct (cyc_md N ir HN Hir) as [X [Y _]]; auto.
  - intros g Hg. apply cyc_complete; auto.
  - assert (O : order (cyc_fg N) = Z.to_nat N) by exact E1. rewrite O in *.
    exists r. split; auto. split; auto. split.
    { intros ir Hir. apply C in Hir. cbn in Hir. apply in_map_iff in Hir. destruct Hir as [k [<- Hk]].
      exists k. apply cyc_ir_ok; auto. apply cyc_ks_in; auto. }
    split; auto. split; auto. split.
    { rewrite F. rewrite (map_ext_in _ (fun ir => [ir])).
      - cbn [cyc_fg fg_irreps]. generalize (map (cyc_ir N) (cyc_ks N)). induction l; simpl; f_equal; auto.
      - intros ir Hir. destruct (cyc_md N ir HN Hir) as [_ [_ ->]]. reflexivity. }
    split; auto. intros g Hg. apply I. apply E3; auto.
Qed.

Theorem dih_regular N : (0 < N)%Z ->
  exists r, regular_representation (dih_fg N) = Ok r /\
    rp_size r = (2 * Z.to_nat N)%nat /\
    (forall ir, In ir (rp_irreps r) -> exists j k, dih_irrep N j k = Ok ir) /\
    orthogonal (2 * Z.to_nat N) (rp_cob r) /\ rep_accepted r /\
    rp_irreps r = concat (map (fun jk => repeat (dih_ir N jk) (ir_size (dih_ir N jk))) (dih_ks N)) /\
    rp_nonlin r = ["pointwise"; "norm"; "gated"; "concatenated"]%string /\
    forall g, dih_el N g -> meq (2 * Z.to_nat N) (2 * Z.to_nat N) (rp_mat r g) (reg_perm (dih_fg N) g).
Proof.
  intros HN. destruct (dih_elements_spec N HN) as [E1 [E2 E3]].
  destruct (regular_spec (dih_fg N) (dih_fg_ok N HN) md) as [r [A [B [C [D [E [F [H I]]]]]]]].
  - intros ir Hir. destruct (dih_md N ir HN Hir) as [X [Y _]]; auto.
  - intros g Hg. apply dih_complete; auto.
  - assert (O : order (dih_fg N) = (2 * Z.to_nat N)%nat) by exact E1. rewrite O in *.
    exists r. split; auto. split; auto. split.
    { intros ir Hir. apply C in Hir. cbn [dih_fg fg_irreps] in Hir. apply in_map_iff in Hir. destruct Hir as [[j k] [<- Hk]].
      exists j, k. apply (dih_ir_ok N (j, k)); auto. apply dih_ks_in; auto. }
    split; auto. split; auto. split.
    { rewrite F. cbn [dih_fg fg_irreps]. rewrite map_map. f_equal. apply map_ext_in. intros [j k] Hjk.
      destruct (dih_md N (dih_ir N (j,k)) HN) as [_ [_ ->]]; auto. apply in_map; auto. }
    split; auto. intros g Hg. apply I. apply E3; auto.
Qed.
