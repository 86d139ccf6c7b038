(** The pooling functions commute with flips, transposition and the admitted linear maps of the channels. *)
From Coq Require Import Reals ZArith String List Bool Lia Lra FunctionalExtensionality Permutation.
From Verif Require Import Base LinAlg Model_Groups Model_Rep Model_FieldType Model_GSpace Spec_GSpace Proofs_GSpace Model_Conv Proofs_Conv Proofs_Conv4 Proofs_Conv6
  Proofs_Tensor Model_Fieldwise Spec_Fieldwise Proofs_FieldType Model_Pool Spec_Pool Proofs_Pool.
Import ListNotations.
Open Scope R_scope.

Lemma pool_out_tiled h k p d s ceil : pool_legal h k p d s ceil = true -> forall q, (h + 2 * p = q * s + d * (k - 1) + 1)%nat -> pool_out h k p d s ceil = Z.of_nat (q + 1).
Proof.
  unfold pool_legal. rewrite !andb_true_iff. intros [[[[[L1 L2] L3] L4] L5] L6] q H.
  apply Nat.ltb_lt in L1, L2, L3, L4. apply Nat.leb_le in L5. clear L6. unfold pool_out.
  assert (E : (Z.of_nat h + 2 * Z.of_nat p - Z.of_nat d * (Z.of_nat k - 1) - 1 = Z.of_nat q * Z.of_nat s)%Z).
  { apply (f_equal Z.of_nat) in H. rewrite !Nat2Z.inj_add, !Nat2Z.inj_mul, Nat2Z.inj_sub in H by lia. lia. }
  assert (HD : (Nat.div k 2 < k)%nat) by (apply Nat.div_lt; lia).
  destruct ceil; cbn [andb]; rewrite E.
  - assert (Q : ((Z.of_nat q * Z.of_nat s + (Z.of_nat s - 1)) / Z.of_nat s = Z.of_nat q)%Z).
    { rewrite Z.div_add_l by lia. rewrite Z.div_small by lia. lia. }
    rewrite Q. replace (Z.of_nat q + 1 - 1)%Z with (Z.of_nat q) by lia.
    destruct (Z.leb_spec (Z.of_nat h + Z.of_nat p) (Z.of_nat q * Z.of_nat s)); [|lia].
    exfalso. assert (1 * (Z.of_nat k - 1) <= Z.of_nat d * (Z.of_nat k - 1))%Z by (apply Z.mul_le_mono_nonneg_r; lia). lia.
  - rewrite Z.add_0_r, Z.div_mul by lia. lia.
Qed.
Lemma window_in h k p d s o : in_axis h o (window h k p d s).
Proof.
  intros i r _ H. unfold window in H. apply in_flat_map in H as (ky & _ & H). cbv zeta in H.
  destruct (Nat.leb_spec p (i * s + ky * d)); destruct (Nat.ltb_spec (i * s + ky * d) (p + h)); cbn [andb In] in H; try contradiction; destruct H as [H|[]]; lia.
Qed.
Lemma flat_map_map {A B C} (f : B -> list C) (g : A -> B) l : flat_map f (map g l) = flat_map (fun a => f (g a)) l.
Proof. induction l; cbn; congruence. Qed.
Lemma map_flat_map {A B C} (f : B -> C) (g : A -> list B) l : map f (flat_map g l) = flat_map (fun a => map f (g a)) l.
Proof. induction l; cbn; auto. rewrite map_app. congruence. Qed.
Lemma flat_map_ext_in' {A B} (f g : A -> list B) l : (forall a, In a l -> f a = g a) -> flat_map f l = flat_map g l.
Proof. intros H. induction l as [|a l IH]; cbn; auto. rewrite H by now left. rewrite IH; auto. intros; apply H; now right. Qed.
Lemma rev_seq k : map (fun i => k - 1 - i)%nat (seq 0 k) = rev (seq 0 k).
Proof.
  apply nth_ext with (d := 0%nat) (d' := 0%nat); rewrite ?rev_length, ?map_length, ?seq_length; auto. intros n Hn.
  rewrite rev_nth by (rewrite seq_length; auto). rewrite seq_length.
  rewrite (nth_indep _ 0%nat ((fun i => k - 1 - i)%nat 0%nat)) by (rewrite map_length, seq_length; auto).
  rewrite (map_nth (fun i => k - 1 - i)%nat). rewrite !seq_nth by lia. lia.
Qed.
Lemma window_sym h k p d s q : (h + 2 * p = q * s + d * (k - 1) + 1)%nat -> sym_axis h (q + 1) (window h k p d s).
Proof.
  intros H i Hi. unfold window. rewrite map_flat_map.
  transitivity (flat_map (fun ky => let z := ((q + 1 - 1 - i) * s + ky * d)%nat in if ((p <=? z) && (z <? p + h))%nat%bool then [(z - p)%nat] else []) (rev (seq 0 k))).
  { apply Permutation_flat_map, Permutation_rev. }
  rewrite <- rev_seq, flat_map_map. match goal with |- Permutation ?a ?b => assert (EQ : a = b); [|rewrite EQ; reflexivity] end. apply flat_map_ext_in'. intros ky Hk. apply in_seq in Hk. cbv zeta.
  assert (E : ((q + 1 - 1 - i) * s + (k - 1 - ky) * d + (i * s + ky * d) = h + 2 * p - 1)%nat).
  { rewrite H. replace (q + 1 - 1 - i)%nat with (q - i)%nat by lia.
    assert ((q - i) * s + i * s = q * s)%nat by (rewrite <- Nat.mul_add_distr_r; f_equal; lia).
    assert ((k - 1 - ky) * d + ky * d = d * (k - 1))%nat by (rewrite <- Nat.mul_add_distr_r; replace (k - 1 - ky + ky)%nat with (k - 1)%nat by lia; apply Nat.mul_comm). clear H. revert H0 H1. generalize ((q - i) * s)%nat (i * s)%nat (q * s)%nat ((k - 1 - ky) * d)%nat (ky * d)%nat (d * (k - 1))%nat. intros; lia. }
  set (z := ((q + 1 - 1 - i) * s + (k - 1 - ky) * d)%nat) in *. set (z' := (i * s + ky * d)%nat) in *.
  destruct (Nat.leb_spec p z); destruct (Nat.ltb_spec z (p + h)); destruct (Nat.leb_spec p z'); destruct (Nat.ltb_spec z' (p + h)); cbn [andb map]; try lia; auto.
  apply (f_equal (fun a => [a])). lia.
Qed.

(** ** max_pool2d *)
Definition tiled2 (p k d s : nat * nat) (h w : nat) : Prop := tiled (fst p) (fst k) (fst d) (fst s) h /\ tiled (snd p) (snd k) (snd d) (snd s) w.
Definition square (p k d s : nat * nat) : Prop := fst p = snd p /\ fst k = snd k /\ fst d = snd d /\ fst s = snd s.
Lemma tiled2_tr p k d s h w : square p k d s -> tiled2 p k d s h w -> tiled2 p k d s w h.
Proof. intros (E1 & E2 & E3 & E4) [H1 H2]. split; [rewrite E1, E2, E3, E4|rewrite <- E1, <- E2, <- E3, <- E4]; auto. Qed.

Lemma max_pool_inv {B} k s p d ceil (x y : arr (B -> vec)) : max_pool2d k s p d ceil x = Ok y ->
  pool_legal (a_h x) (fst k) (fst p) (fst d) (fst s) ceil = true /\ pool_legal (a_w x) (snd k) (snd p) (snd d) (snd s) ceil = true /\
  y = wpool (Z.to_nat (pool_out (a_h x) (fst k) (fst p) (fst d) (fst s) ceil)) (Z.to_nat (pool_out (a_w x) (snd k) (snd p) (snd d) (snd s) ceil))
        (window (a_h x) (fst k) (fst p) (fst d) (fst s)) (window (a_w x) (snd k) (snd p) (snd d) (snd s)) (fun _ _ => max_list) x.
Proof.
  unfold max_pool2d. destruct (_ && _)%bool eqn:E; [|discriminate]. apply andb_true_iff in E as [E1 E2]. cbv zeta.
  destruct (_ && _)%bool; [|discriminate]. intros H. injection H as <-. auto.
Qed.
Lemma max_pool_dims {B} k s p d ceil (x x' y : arr (B -> vec)) : a_h x' = a_h x -> a_w x' = a_w x -> max_pool2d k s p d ceil x = Ok y ->
  max_pool2d k s p d ceil x' = Ok (wpool (a_h y) (a_w y) (window (a_h x) (fst k) (fst p) (fst d) (fst s)) (window (a_w x) (snd k) (snd p) (snd d) (snd s)) (fun _ _ => max_list) x').
Proof.
  intros E1 E2. unfold max_pool2d. rewrite E1, E2. destruct (_ && _)%bool; [|discriminate]. cbv zeta. destruct (_ && _)%bool; [|discriminate].
  intros H. injection H as <-. reflexivity.
Qed.
Lemma max_pool_tr {B} k s p d ceil (x y : arr (B -> vec)) : square p k d s -> max_pool2d k s p d ceil x = Ok y ->
  max_pool2d k s p d ceil (transpose x) = Ok (wpool (a_w y) (a_h y) (window (a_w x) (fst k) (fst p) (fst d) (fst s)) (window (a_h x) (snd k) (snd p) (snd d) (snd s)) (fun _ _ => max_list) (transpose x)).
Proof.
  intros (E1 & E2 & E3 & E4). unfold max_pool2d. rewrite E1, E2, E3, E4. cbn [transpose a_h a_w].
  rewrite (andb_comm (pool_legal (a_w x) _ _ _ _ _)). destruct (_ && _)%bool; [|discriminate]. cbv zeta.
  rewrite (andb_comm (some_pixel (window (a_w x) _ _ _ _) _)). destruct (_ && _)%bool; [|discriminate]. intros H. injection H as <-. reflexivity.
Qed.
Lemma max_pool_grid {B} n k s p d ceil : grid_op n (tiled2 p k d s) (selects n) (square p k d s) (@max_pool2d B k s p d ceil).
Proof.
  constructor.
  - intros x y [[q Q] _] H. pose proof (max_pool_inv _ _ _ _ _ _ _ H) as (L1 & L2 & Y). eexists. split; [apply (max_pool_dims k s p d ceil x _ y); [reflexivity|reflexivity|exact H]|].
    rewrite Y. cbn [wpool a_h a_w]. apply arr_same, wpool_rows.
    + rewrite (pool_out_tiled _ _ _ _ _ _ L1 q Q). rewrite Nat2Z.id. apply window_sym; auto.
    + intros. apply max_list_perm; auto.
  - intros x y [_ [q Q]] H. pose proof (max_pool_inv _ _ _ _ _ _ _ H) as (L1 & L2 & Y). eexists. split; [apply (max_pool_dims k s p d ceil x _ y); [reflexivity|reflexivity|exact H]|].
    rewrite Y. cbn [wpool a_h a_w]. apply arr_same, wpool_cols.
    + rewrite (pool_out_tiled _ _ _ _ _ _ L2 q Q). rewrite Nat2Z.id. apply window_sym; auto.
    + intros. apply max_list_perm; auto.
  - intros x y S _ H. pose proof (max_pool_inv _ _ _ _ _ _ _ H) as (L1 & L2 & Y). eexists. split; [apply (max_pool_tr k s p d ceil x y); [exact S|exact H]|].
    rewrite Y. destruct S as (E1 & E2 & E3 & E4). rewrite E1, E2, E3, E4. cbn [wpool a_h a_w]. apply arr_same, wpool_tr. intros. apply max_list_perm; auto.
  - intros h w. apply tiled2_tr.
  - intros x x' y S H. pose proof (max_pool_inv _ _ _ _ _ _ _ H) as (L1 & L2 & Y). pose proof S as (S1 & S2 & _).
    eexists. split; [apply (max_pool_dims k s p d ceil x); [symmetry; exact S1|symmetry; exact S2|exact H]|]. rewrite Y. cbn [wpool a_h a_w]. apply wpool_same; auto using window_in.
  - intros A x y C H. pose proof (max_pool_inv _ _ _ _ _ _ _ H) as (L1 & L2 & Y). eexists. split; [apply (max_pool_dims k s p d ceil x); [reflexivity|reflexivity|exact H]|].
    rewrite Y. cbn [wpool a_h a_w]. apply wpool_select; auto.
Qed.

(** ** avg_pool2d *)
Definition avg_red (h w : nat) (k s p : nat * nat) : nat -> nat -> list R -> R :=
  fun i j l => sum_list l / INR (span h (fst k) (fst p) (fst s) i * span w (snd k) (snd p) (snd s) j).
Lemma span_tiled h k p s q i : (0 < k)%nat -> (h + 2 * p = q * s + 1 * (k - 1) + 1)%nat -> (i < q + 1)%nat -> span h k p s i = k.
Proof.
  intros K H Hi. unfold span. assert (i * s <= q * s)%nat by (apply Nat.mul_le_mono_r; lia). lia.
Qed.
Lemma avg_pool_inv {B} k s p ceil (x y : arr (B -> vec)) : avg_pool2d k s p ceil x = Ok y ->
  pool_legal (a_h x) (fst k) (fst p) 1 (fst s) ceil = true /\ pool_legal (a_w x) (snd k) (snd p) 1 (snd s) ceil = true /\
  y = wpool (Z.to_nat (pool_out (a_h x) (fst k) (fst p) 1 (fst s) ceil)) (Z.to_nat (pool_out (a_w x) (snd k) (snd p) 1 (snd s) ceil))
        (window (a_h x) (fst k) (fst p) 1 (fst s)) (window (a_w x) (snd k) (snd p) 1 (snd s)) (avg_red (a_h x) (a_w x) k s p) x.
Proof.
  unfold avg_pool2d. destruct (_ && _)%bool eqn:E; [|discriminate]. apply andb_true_iff in E as [E1 E2]. cbv zeta.
  intros H. injection H as <-. auto.
Qed.
Lemma avg_pool_dims {B} k s p ceil (x x' y : arr (B -> vec)) : a_h x' = a_h x -> a_w x' = a_w x -> avg_pool2d k s p ceil x = Ok y ->
  avg_pool2d k s p ceil x' = Ok (wpool (a_h y) (a_w y) (window (a_h x) (fst k) (fst p) 1 (fst s)) (window (a_w x) (snd k) (snd p) 1 (snd s)) (avg_red (a_h x) (a_w x) k s p) x').
Proof.
  intros E1 E2. unfold avg_pool2d. rewrite E1, E2. destruct (_ && _)%bool; [|discriminate]. cbv zeta. intros H. injection H as <-. reflexivity.
Qed.
Lemma avg_pool_tr {B} k s p ceil (x y : arr (B -> vec)) : square p k (1, 1)%nat s -> avg_pool2d k s p ceil x = Ok y ->
  avg_pool2d k s p ceil (transpose x) = Ok (wpool (a_w y) (a_h y) (window (a_w x) (fst k) (fst p) 1 (fst s)) (window (a_h x) (snd k) (snd p) 1 (snd s)) (avg_red (a_w x) (a_h x) k s p) (transpose x)).
Proof.
  intros (E1 & E2 & _ & E4). unfold avg_pool2d, avg_red. rewrite E1, E2, E4. cbn [transpose a_h a_w].
  rewrite (andb_comm (pool_legal (a_w x) _ _ _ _ _)). destruct (_ && _)%bool; [|discriminate]. cbv zeta. intros H. injection H as <-. reflexivity.
Qed.
Lemma legal_k h k p d s c : pool_legal h k p d s c = true -> (0 < k)%nat.
Proof. unfold pool_legal. rewrite !andb_true_iff. intros [[[[[_ L2] _] _] _] _]. apply Nat.ltb_lt; auto. Qed.
Lemma avg_pool_grid {B} n k s p ceil : grid_op n (tiled2 p k (1, 1)%nat s) (fun _ => True) (square p k (1, 1)%nat s) (@avg_pool2d B k s p ceil).
Proof.
  constructor.
  - intros x y [[q Q] _] H. cbn [fst] in Q. pose proof (avg_pool_inv _ _ _ _ _ _ H) as (L1 & L2 & Y). eexists. split; [apply (avg_pool_dims k s p ceil x _ y); [reflexivity|reflexivity|exact H]|].
    rewrite Y. cbn [wpool a_h a_w]. rewrite (pool_out_tiled _ _ _ _ _ _ L1 q Q). rewrite Nat2Z.id. apply arr_same, wpool_rows.
    + apply window_sym; auto.
    + intros i j l l' Hi Hj P. unfold avg_red. rewrite (sum_list_perm _ _ P). rewrite (span_tiled (a_h x) (fst k) (fst p) (fst s) q (q + 1 - 1 - i)), (span_tiled (a_h x) (fst k) (fst p) (fst s) q i) by (try lia; eapply legal_k; eauto). reflexivity.
  - intros x y [_ [q Q]] H. cbn [snd] in Q. pose proof (avg_pool_inv _ _ _ _ _ _ H) as (L1 & L2 & Y). eexists. split; [apply (avg_pool_dims k s p ceil x _ y); [reflexivity|reflexivity|exact H]|].
    rewrite Y. cbn [wpool a_h a_w]. rewrite (pool_out_tiled _ _ _ _ _ _ L2 q Q). rewrite Nat2Z.id. apply arr_same, wpool_cols.
    + apply window_sym; auto.
    + intros i j l l' Hi Hj P. unfold avg_red. rewrite (sum_list_perm _ _ P). rewrite (span_tiled (a_w x) (snd k) (snd p) (snd s) q (q + 1 - 1 - j)), (span_tiled (a_w x) (snd k) (snd p) (snd s) q j) by (try lia; eapply legal_k; eauto). reflexivity.
  - intros x y S _ H. pose proof (avg_pool_inv _ _ _ _ _ _ H) as (L1 & L2 & Y). eexists. split; [apply (avg_pool_tr k s p ceil x y); [exact S|exact H]|].
    rewrite Y. destruct S as (E1 & E2 & _ & E4). unfold avg_red. rewrite E1, E2, E4. cbn [wpool a_h a_w]. apply arr_same, wpool_tr.
    intros i j l l' Hi Hj P. rewrite (sum_list_perm _ _ P), Nat.mul_comm. reflexivity.
  - intros h w. apply tiled2_tr.
  - intros x x' y S H. pose proof (avg_pool_inv _ _ _ _ _ _ H) as (L1 & L2 & Y). pose proof S as (S1 & S2 & _).
    eexists. split; [apply (avg_pool_dims k s p ceil x); [symmetry; exact S1|symmetry; exact S2|exact H]|]. rewrite Y. cbn [wpool a_h a_w]. apply wpool_same; auto using window_in.
  - intros A x y C H. pose proof (avg_pool_inv _ _ _ _ _ _ H) as (L1 & L2 & Y). eexists. split; [apply (avg_pool_dims k s p ceil x); [reflexivity|reflexivity|exact H]|].
    rewrite Y. cbn [wpool a_h a_w]. apply (wpool_linear _ _ _ _ _ _ _ _ (fun i j _ => / INR (span (a_h x) (fst k) (fst p) (fst s) i * span (a_w x) (snd k) (snd p) (snd s) j))). reflexivity.
Qed.

(** ** adaptive pooling *)
Lemma adaptive_in h o : (0 < o)%nat -> in_axis h o (adaptive_window h o).
Proof.
  intros O i r Hi H. unfold adaptive_window in H. apply in_seq in H.
  assert (((i + 1) * h + o - 1) / o <= h)%nat.
  { transitivity ((o * h + (o - 1)) / o)%nat.
    - apply Nat.div_le_mono; [lia|]. assert ((i + 1) * h <= o * h)%nat by (apply Nat.mul_le_mono_r; lia). lia.
    - rewrite Nat.mul_comm, Nat.div_add_l by lia. rewrite Nat.div_small by lia. lia. }
  lia.
Qed.
Lemma adaptive_bounds h o i : (0 < o)%nat -> (i < o)%nat -> ((o - 1 - i) * h / o = h - ((i + 1) * h + o - 1) / o)%nat.
Proof.
  intros O Hi. set (a := ((i + 1) * h)%nat). assert (E : ((o - 1 - i) * h = o * h - a)%nat) by (unfold a; rewrite <- Nat.mul_sub_distr_r; f_equal; lia).
  assert (LA : (a <= o * h)%nat) by (unfold a; apply Nat.mul_le_mono_r; lia). rewrite E.
  assert (M := Nat.div_mod (a + (o - 1)) o ltac:(lia)). assert (M2 := Nat.mod_upper_bound (a + (o - 1)) o ltac:(lia)).
  replace (a + o - 1)%nat with (a + (o - 1))%nat by lia. set (c := ((a + (o - 1)) / o)%nat) in *. set (r := ((a + (o - 1)) mod o)%nat) in *.
  assert (CH : (c <= h)%nat). { unfold c. transitivity ((o * h + (o - 1)) / o)%nat; [apply Nat.div_le_mono; lia|]. rewrite Nat.mul_comm, Nat.div_add_l by lia. rewrite Nat.div_small by lia. lia. }
  symmetry. apply (Nat.div_unique _ _ _ (o - 1 - r)%nat); [lia|]. rewrite Nat.mul_sub_distr_l. assert (o * c <= o * h)%nat by (apply Nat.mul_le_mono_l; auto). lia.
Qed.
Lemma map_seq_rev h a l : (a + l <= h)%nat -> map (fun r => h - 1 - r)%nat (seq a l) = rev (seq (h - a - l) l).
Proof.
  intros H. apply nth_ext with (d := 0%nat) (d' := 0%nat); rewrite ?rev_length, ?map_length, ?seq_length; auto. intros n Hn.
  rewrite rev_nth by (rewrite seq_length; auto). rewrite seq_length.
  rewrite (nth_indep _ 0%nat ((fun i => h - 1 - i)%nat 0%nat)) by (rewrite map_length, seq_length; auto).
  rewrite (map_nth (fun i => h - 1 - i)%nat). rewrite !seq_nth by lia. lia.
Qed.
Lemma adaptive_sym h o : (0 < o)%nat -> sym_axis h o (adaptive_window h o).
Proof.
  intros O i Hi. unfold adaptive_window.
  assert (E1 := adaptive_bounds h o i O Hi). assert (E2 := adaptive_bounds h o (o - 1 - i) O ltac:(lia)).
  replace (o - 1 - (o - 1 - i))%nat with i in E2 by lia. rewrite E2, E1.
  assert (U : forall j, (j < o)%nat -> (((j + 1) * h + o - 1) / o <= h)%nat).
  { intros j Hj. transitivity ((o * h + (o - 1)) / o)%nat.
    - apply Nat.div_le_mono; [lia|]. assert ((j + 1) * h <= o * h)%nat by (apply Nat.mul_le_mono_r; lia). lia.
    - rewrite Nat.mul_comm, Nat.div_add_l by lia. rewrite Nat.div_small by lia. lia. }
  assert (U1 := U i Hi). assert (U2 := U (o - 1 - i)%nat ltac:(lia)).
  set (c1 := (((i + 1) * h + o - 1) / o)%nat) in *. set (c2 := (((o - 1 - i + 1) * h + o - 1) / o)%nat) in *.
  destruct (Nat.le_gt_cases c1 (h - c2)).
  - replace (c1 - (h - c2))%nat with 0%nat by lia. replace (c2 - (h - c1))%nat with 0%nat by lia. reflexivity.
  - rewrite map_seq_rev by lia. replace (h - (h - c2) - (c1 - (h - c2)))%nat with (h - c1)%nat by lia. replace (c1 - (h - c2))%nat with (c2 - (h - c1))%nat by lia. apply Permutation_rev.
Qed.
Lemma adaptive_pos_o (i o : nat) : (i < o)%nat -> (0 < o)%nat.
Proof. lia. Qed.
Lemma sym_axis_o h o : sym_axis h o (adaptive_window h o).
Proof. intros i Hi. apply adaptive_sym; auto. lia. Qed.
Lemma in_axis_o h o : in_axis h o (adaptive_window h o).
Proof. intros i r Hi. apply adaptive_in; auto. lia. Qed.
Lemma adaptive_inv {B} red o (x y : arr (B -> vec)) : adaptive_pool2d red o x = Ok y -> forall x' : arr (B -> vec), a_h x' = a_h x -> a_w x' = a_w x ->
  adaptive_pool2d red o x' = Ok (wpool (fst o) (snd o) (adaptive_window (a_h x) (fst o)) (adaptive_window (a_w x) (snd o)) (fun _ _ => red) x').
Proof. unfold adaptive_pool2d. destruct (_ && _)%bool eqn:E; [|discriminate]. intros _ x' E1 E2. rewrite E1, E2, E. reflexivity. Qed.
Lemma adaptive_grid {B} n red o (Cls : mat -> Prop) : (forall l l', Permutation l l' -> red l = red l') ->
  (forall A (x : arr (B -> vec)) rows cols, Cls A -> same_field n (wpool (fst o) (snd o) rows cols (fun _ _ => red) (amap (fun v b => mvec n A (v b)) x))
     (amap (fun v b => mvec n A (v b)) (wpool (fst o) (snd o) rows cols (fun _ _ => red) x))) ->
  grid_op n (fun _ _ => True) Cls (fst o = snd o) (@adaptive_pool2d B red o).
Proof.
  intros RP RL. constructor; auto.
  - intros x y _ H. pose proof (adaptive_inv _ _ _ _ H x eq_refl eq_refl) as Y. rewrite H in Y. injection Y as ->. eexists. split; [apply (adaptive_inv _ _ _ _ H); reflexivity|].
    apply arr_same, wpool_rows; [apply sym_axis_o|]. intros; apply RP; auto.
  - intros x y _ H. pose proof (adaptive_inv _ _ _ _ H x eq_refl eq_refl) as Y. rewrite H in Y. injection Y as ->. eexists. split; [apply (adaptive_inv _ _ _ _ H); reflexivity|].
    apply arr_same, wpool_cols; [apply sym_axis_o|]. intros; apply RP; auto.
  - intros x y S _ H. pose proof (adaptive_inv _ _ _ _ H x eq_refl eq_refl) as Y. rewrite H in Y. injection Y as ->.
    unfold adaptive_pool2d in *. cbn [transpose a_h a_w]. rewrite (andb_comm (0 <? a_w x)%nat). destruct (_ && _)%bool; [|discriminate].
    eexists. split; [reflexivity|]. rewrite S.
    apply (arr_same n (wpool (snd o) (snd o) (adaptive_window (a_w x) (snd o)) (adaptive_window (a_h x) (snd o)) (fun _ _ => red) (transpose x))).
    apply wpool_tr. intros; apply RP; auto.
  - intros x x' y S H. pose proof (adaptive_inv _ _ _ _ H x eq_refl eq_refl) as Y. rewrite H in Y. injection Y as ->. pose proof S as (S1 & S2 & _).
    eexists. split; [apply (adaptive_inv _ _ _ _ H); auto|]. apply wpool_same; auto using in_axis_o.
  - intros A x y C H. pose proof (adaptive_inv _ _ _ _ H x eq_refl eq_refl) as Y. rewrite H in Y. injection Y as ->.
    eexists. split; [apply (adaptive_inv _ _ _ _ H); reflexivity|]. apply RL; auto.
Qed.
Lemma adaptive_max_grid {B} n o : grid_op n (fun _ _ => True) (selects n) (fst o = snd o) (@adaptive_pool2d B max_list o).
Proof. apply adaptive_grid; [apply max_list_perm|]. intros. apply wpool_select; auto. Qed.
Lemma adaptive_mean_grid {B} n o : grid_op n (fun _ _ => True) (fun _ => True) (fst o = snd o) (@adaptive_pool2d B mean_list o).
Proof. apply adaptive_grid; [apply mean_list_perm|]. intros. apply (wpool_linear _ _ _ _ _ _ _ _ (fun _ _ m => / INR m)). reflexivity. Qed.

(** ** depthwise convolution with a symmetric filter *)
Section Depth.
Context {B : Type} (n fs : nat) (f : nat -> nat -> R) (s p : nat * nat).
Hypothesis f_rows : forall a b, (a < fs)%nat -> (b < fs)%nat -> f (fs - 1 - a)%nat b = f a b.
Hypothesis f_tr : forall a b, (a < fs)%nat -> (b < fs)%nat -> f a b = f b a.
Lemma f_cols a b : (a < fs)%nat -> (b < fs)%nat -> f a (fs - 1 - b)%nat = f a b.
Proof. intros. rewrite f_tr, f_rows, f_tr by lia. reflexivity. Qed.
Definition dwo (z : arr (B -> vec)) : arr (B -> vec) :=
  MkArr ((a_h z - fs) / fst s + 1) ((a_w z - fs) / snd s + 1) (fun i j b c =>
         rsum fs (fun ky => rsum fs (fun kx => f ky kx * a_px z (i * fst s + ky)%nat (j * snd s + kx)%nat b c))).
Definition dtiled (p fs s h : nat) : Prop := exists q, (h + 2 * p = q * s + fs)%nat.
Definition dtiled2 (h w : nat) : Prop := dtiled (fst p) fs (fst s) h /\ dtiled (snd p) fs (snd s) w.
Definition dsquare : Prop := fst s = snd s /\ fst p = snd p.
Lemma dw_inv (x y : arr (B -> vec)) : depthwise fs f s p x = Ok y ->
  (0 < fst s)%nat /\ (0 < snd s)%nat /\ (fs <= a_h x + 2 * fst p)%nat /\ (fs <= a_w x + 2 * snd p)%nat /\ y = dwo (pads MZeros (fst p) (snd p) x).
Proof.
  unfold depthwise. rewrite pad2d_eq. cbn [pad_legal andb rbind]. destruct (_ && _)%bool eqn:E; [|discriminate]. intros H. injection H as <-.
  rewrite !andb_true_iff in E. cbn [pads a_h a_w] in E. destruct E as [[[E1 E2] E3] E4]. apply Nat.ltb_lt in E1, E2. apply Nat.leb_le in E3, E4. auto.
Qed.
Lemma dw_ok (x : arr (B -> vec)) : (0 < fst s)%nat -> (0 < snd s)%nat -> (fs <= a_h x + 2 * fst p)%nat -> (fs <= a_w x + 2 * snd p)%nat ->
  depthwise fs f s p x = Ok (dwo (pads MZeros (fst p) (snd p) x)).
Proof.
  intros E1 E2 E3 E4. unfold depthwise. rewrite pad2d_eq. cbn [pad_legal andb rbind].
  assert (E : ((0 <? fst s) && (0 <? snd s) && (fs <=? a_h (pads MZeros (fst p) (snd p) x)) && (fs <=? a_w (pads MZeros (fst p) (snd p) x)))%nat%bool = true).
  { rewrite !andb_true_iff. apply Nat.ltb_lt in E1, E2. apply Nat.leb_le in E3, E4. auto. }
  rewrite E. reflexivity.
Qed.
Lemma pads_lin A (x : arr (B -> vec)) : arr_eq (pads MZeros (fst p) (snd p) (amap (fun v b => mvec n A (v b)) x)) (amap (fun v b => mvec n A (v b)) (pads MZeros (fst p) (snd p) x)).
Proof.
  split; [reflexivity|]. split; [reflexivity|]. cbn. intros i j _ _. extensionality b. extensionality c.
  assert (Z : 0 = mvec n A (fun _ => 0) c) by (unfold mvec; rewrite rsum_0; auto; intros; ring).
  destruct (_ && _)%bool; [|exact Z]. destruct (_ && _)%bool; [reflexivity|exact Z].
Qed.
Lemma dwo_same m (z z' : arr (B -> vec)) : (0 < fst s)%nat -> (0 < snd s)%nat -> (fs <= a_h z)%nat -> (fs <= a_w z)%nat -> same_field m z z' -> same_field m (dwo z) (dwo z').
Proof.
  intros S1 S2 F1 F2 (H1 & H2 & H3). split; [cbn; rewrite H1; reflexivity|]. split; [cbn; rewrite H2; reflexivity|].
  cbn [dwo a_h a_w a_px]. intros i j b c Hi Hj Hc. apply rsum_ext. intros ky Hky. apply rsum_ext. intros kx Hkx. f_equal. apply H3; auto.
  - assert (i * fst s <= (a_h z - fs) / fst s * fst s)%nat by (apply Nat.mul_le_mono_r; lia). assert (fst s * ((a_h z - fs) / fst s) <= a_h z - fs)%nat by (apply Nat.mul_div_le; lia). lia.
  - assert (j * snd s <= (a_w z - fs) / snd s * snd s)%nat by (apply Nat.mul_le_mono_r; lia). assert (snd s * ((a_w z - fs) / snd s) <= a_w z - fs)%nat by (apply Nat.mul_div_le; lia). lia.
Qed.
Lemma flip_index H S q i ky : (0 < S)%nat -> (H = q * S + fs)%nat -> (i < (H - fs) / S + 1)%nat -> (ky < fs)%nat ->
  (H - 1 - (i * S + ky) = ((H - fs) / S + 1 - 1 - i) * S + (fs - 1 - ky))%nat.
Proof.
  intros S0 E Hi Hk. assert (Q : ((H - fs) / S = q)%nat). { rewrite E, Nat.add_sub. apply Nat.div_mul. lia. }
  rewrite Q in *. assert (A : ((q + 1 - 1 - i) * S + i * S = q * S)%nat) by (rewrite <- Nat.mul_add_distr_r; f_equal; lia). clear Q Hi. revert A E.
  generalize ((q + 1 - 1 - i) * S)%nat (i * S)%nat (q * S)%nat. intros; lia.
Qed.
Lemma dwo_rows q (z : arr (B -> vec)) : (0 < fst s)%nat -> (a_h z = q * fst s + fs)%nat -> arr_eq (dwo (flip_rows z)) (flip_rows (dwo z)).
Proof.
  intros S0 E. split; [reflexivity|]. split; [reflexivity|]. cbn [dwo flip_rows a_h a_w a_px]. intros i j Hi Hj. extensionality b. extensionality c.
  rewrite rsum_rev. apply rsum_ext. intros ky Hky. apply rsum_ext. intros kx Hkx. rewrite f_rows by auto. f_equal.
  rewrite (flip_index (a_h z) (fst s) q i (fs - 1 - ky)%nat) by (auto; lia). replace (fs - 1 - (fs - 1 - ky))%nat with ky by lia. reflexivity.
Qed.
Lemma dwo_cols q (z : arr (B -> vec)) : (0 < snd s)%nat -> (a_w z = q * snd s + fs)%nat -> arr_eq (dwo (flip_cols z)) (flip_cols (dwo z)).
Proof.
  intros S0 E. split; [reflexivity|]. split; [reflexivity|]. cbn [dwo flip_cols a_h a_w a_px]. intros i j Hi Hj. extensionality b. extensionality c.
  apply rsum_ext. intros ky Hky. rewrite rsum_rev. apply rsum_ext. intros kx Hkx. rewrite f_cols by auto. f_equal.
  rewrite (flip_index (a_w z) (snd s) q j (fs - 1 - kx)%nat) by (auto; lia). replace (fs - 1 - (fs - 1 - kx))%nat with kx by lia. reflexivity.
Qed.
Lemma dwo_tr (z : arr (B -> vec)) : fst s = snd s -> arr_eq (dwo (transpose z)) (transpose (dwo z)).
Proof.
  intros E. split; [cbn; rewrite E; reflexivity|]. split; [cbn; rewrite E; reflexivity|]. cbn [dwo transpose a_h a_w a_px]. rewrite E. intros i j Hi Hj. extensionality b. extensionality c.
  rewrite rsum_swap. apply rsum_ext. intros kx Hkx. apply rsum_ext. intros ky Hky. rewrite f_tr by auto. reflexivity.
Qed.
Lemma dwo_lin A (z : arr (B -> vec)) : same_field n (dwo (amap (fun v b => mvec n A (v b)) z)) (amap (fun v b => mvec n A (v b)) (dwo z)).
Proof.
  split; [reflexivity|]. split; [reflexivity|]. cbn [dwo amap a_h a_w a_px]. intros i j b c Hi Hj Hc. unfold mvec.
  rewrite (rsum_ext n (fun j0 => A c j0 * _) (fun j0 => rsum fs (fun ky => rsum fs (fun kx => f ky kx * (A c j0 * a_px z (i * fst s + ky)%nat (j * snd s + kx)%nat b j0))))).
  - rewrite (rsum_swap n fs). apply rsum_ext. intros ky _. rewrite (rsum_swap n fs). apply rsum_ext. intros kx _. rewrite <- rsum_scal. reflexivity.
  - intros k _. rewrite <- rsum_scal. apply rsum_ext. intros ky _. rewrite <- rsum_scal. apply rsum_ext. intros kx _. ring.
Qed.
Lemma depthwise_grid : grid_op n dtiled2 (fun _ => True) dsquare (depthwise (B := B) fs f s p).
Proof.
  constructor.
  - intros x y [[q Q] _] H. pose proof (dw_inv _ _ H) as (S1 & S2 & F1 & F2 & Y). eexists. split; [apply dw_ok; auto|]. rewrite Y. apply arr_same.
    eapply arr_eq_trans; [|apply (dwo_rows q); auto].
    destruct (pads_flip_rows MZeros (fst p) (snd p) x eq_refl) as (P1 & P2 & P3).
    split; [reflexivity|]. split; [reflexivity|]. cbn [dwo a_h a_w a_px]. intros i j Hi Hj. extensionality b. extensionality c.
    assert (SF : same_field (S c) (dwo (pads MZeros (fst p) (snd p) (flip_rows x))) (dwo (flip_rows (pads MZeros (fst p) (snd p) x)))).
    { apply dwo_same; auto. apply arr_same. split; [exact P1|]. split; [exact P2|exact P3]. }
    apply SF; auto.
  - intros x y [_ [q Q]] H. pose proof (dw_inv _ _ H) as (S1 & S2 & F1 & F2 & Y). eexists. split; [apply dw_ok; auto|]. rewrite Y.
    eapply same_field_trans; [|apply arr_same, (dwo_cols q); auto]. apply dwo_same; auto. apply arr_same, pads_flip_cols. reflexivity.
  - intros x y [E1 E2] _ H. pose proof (dw_inv _ _ H) as (S1 & S2 & F1 & F2 & Y). eexists. split; [apply dw_ok; auto; cbn [transpose a_h a_w]; lia|]. rewrite Y.
    eapply same_field_trans; [|apply arr_same, dwo_tr; auto]. apply dwo_same; auto; cbn [pads transpose a_h a_w]; try lia. apply arr_same. rewrite E2. apply pads_transpose.
  - intros h w [E1 E2] [D1 D2]. unfold dtiled2 in *. rewrite E1, E2 in *. auto.
  - intros x x' y S H. pose proof (dw_inv _ _ H) as (S1 & S2 & F1 & F2 & Y). pose proof S as (W1 & W2 & _). eexists. split; [apply dw_ok; auto; lia|]. rewrite Y.
    apply dwo_same; auto. apply pads_same; auto.
  - intros A x y _ H. pose proof (dw_inv _ _ H) as (S1 & S2 & F1 & F2 & Y). eexists. split; [apply dw_ok; auto|]. rewrite Y.
    eapply same_field_trans; [|apply dwo_lin]. apply dwo_same; auto. apply arr_same, pads_lin.
Qed.
End Depth.

Lemma gauss_rows fs sigma a b : (a < fs)%nat -> (b < fs)%nat -> gauss_filter fs sigma (fs - 1 - a) b = gauss_filter fs sigma a b.
Proof.
  intros Ha Hb. unfold gauss_filter. f_equal. unfold gauss_weight. cbv zeta. rewrite !minus_INR by lia. change (INR 1) with 1.
  replace ((INR fs - 1 - INR a - (INR fs - 1) / 2) ^ 2) with ((INR a - (INR fs - 1) / 2) ^ 2) by field. reflexivity.
Qed.
Lemma gauss_tr fs sigma a b : gauss_filter fs sigma a b = gauss_filter fs sigma b a.
Proof. unfold gauss_filter. f_equal. unfold gauss_weight. cbv zeta. rewrite (Rplus_comm ((INR b - _) ^ 2)). reflexivity. Qed.

(** ** the matrices of field types *)
Lemma bdiag_selects (l : list (nat * mat)) : Forall (fun q => selects (fst q) (snd q)) l -> selects (bsize l) (bdiag l).
Proof.
  induction l as [|[m A] l IH]; intros F. { exists (fun i => i). intros i Hi. cbn in Hi. lia. }
  pose proof (Forall_inv F) as [s1 H1]. destruct (IH (Forall_inv_tail F)) as [s2 H2]. cbn [fst snd] in H1.
  exists (fun i => if (i <? m)%nat then s1 i else (m + s2 (i - m))%nat). intros i Hi. cbn [bsize] in Hi.
  change (bsize ((m, A) :: l)) with (m + bsize l)%nat in *.
  destruct (Nat.ltb_spec i m) as [L|L].
  - destruct (H1 i L) as [K1 K2]. split; [lia|]. intros j Hj. cbn [bdiag]. destruct (Nat.ltb_spec i m); [|lia]. destruct (Nat.ltb_spec j m); [apply K2; auto|].
    cbn [andb]. destruct (Nat.eqb_spec j (s1 i)); [lia|reflexivity].
  - destruct (H2 (i - m)%nat ltac:(lia)) as [K1 K2]. split; [lia|]. intros j Hj. cbn [bdiag]. destruct (Nat.ltb_spec i m); [lia|]. destruct (Nat.ltb_spec j m).
    + cbn [andb]. destruct (Nat.eqb_spec j (m + s2 (i - m)%nat)%nat); [lia|reflexivity].
    + cbn [andb]. rewrite K2 by lia. destruct (Nat.eqb_spec (j - m) (s2 (i - m)%nat)); destruct (Nat.eqb_spec j (m + s2 (i - m)%nat)%nat); try lia; reflexivity.
Qed.
Lemma trep_selects {G} (reps : list (rep G)) g : (forall r, In r reps -> is_perm (rp_size r) (rp_mat r g)) -> selects (nsum (map rp_size reps)) (trep reps g).
Proof.
  intros H. unfold trep. rewrite <- (bsize_map_rep reps g). apply bdiag_selects. apply Forall_forall. intros q Hq. apply in_map_iff in Hq as (r & <- & Hr). cbn [fst snd].
  destruct (H r Hr) as (s & Bs & E). exists s. intros i Hi. split; [apply Bs; auto|]. intros j Hj. apply E; auto.
Qed.
