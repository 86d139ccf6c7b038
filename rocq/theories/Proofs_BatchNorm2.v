(** Transformed batches; histories; NormBatchNorm and InducedNormBatchNorm. *)
From Coq Require Import Reals ZArith String Ascii Decimal DecimalString List Bool Lia Lra Permutation Sorted FunctionalExtensionality.
From Verif Require Import Base LinAlg Spec Spec_Fields Model_Groups Model_Rep Model_FieldType Model_Tensor Model_Utils Model_Modules Model_Fieldwise Model_BatchNorm Spec_Fieldwise Spec_Fieldwise2 Spec_Dropout Spec_BatchNorm
  Proofs_FieldType Proofs_FieldType2 Proofs_Tensor Proofs_Utils Proofs_Modules Proofs_Modules2 Proofs_Modules3 Proofs_Fieldwise Proofs_Fieldwise2 Proofs_Fieldwise3 Proofs_Fieldwise4 Proofs_Fieldwise5 Proofs_Fieldwise8 Proofs_Dropout Proofs_BatchNorm.
Import ListNotations.
Open Scope R_scope.

Notation chan := (nat -> R).
(** one field, transformed point by point *)
Definition moved_each (n s : nat) (A : nat -> mat) (pi : nat -> nat) (b b' : list chan) : Prop :=
  length b = s /\ length b' = s /\ forall p a, (p < n)%nat -> (a < s)%nat -> val b' a p = rsum s (fun c => A p a c * val b c (pi p)).

Section Each.
Context {G : Type}.
Implicit Types (reps : list (rep G)) (d : list chan) (pi : nat -> nat).
Lemma acts_each_moved n reps gs pi d d' : length d = nsum (map rp_size reps) -> acts_each n reps gs pi d d' ->
  forall f r b b', nth_error reps f = Some r -> nth_error (fields reps d) f = Some b -> nth_error (fields reps d') f = Some b' ->
  moved_each n (rp_size r) (fun p => rp_mat r (gs p)) pi b b'.
Proof.
  intros L (L' & T) f r b b' Hr Hb Hb'. destruct (fields_val _ _ _ _ _ L Hr Hb) as [B1 B2].
  destruct (fields_val reps d' f r b' ltac:(congruence) Hr Hb') as [B1' B2']. split; [auto|]. split; [auto|]. intros p a Hp Ha.
  rewrite B2' by auto. assert (FO : (field_offset reps f + a < length d)%nat).
  { rewrite L. unfold field_offset. apply nth_error_split in Hr as (l1 & l2 & -> & <-).
    rewrite firstn_app, Nat.sub_diag, firstn_all. cbn [firstn]. rewrite app_nil_r, map_app, nsum_app. cbn [map].
    change (nsum (rp_size r :: map rp_size l2)) with (rp_size r + nsum (map rp_size l2))%nat. lia. }
  destruct (T p Hp) as (t' & T1 & V). rewrite V by auto. rewrite (transform_fieldwise _ _ _ _ T1 p f r a Hr Ha). apply rsum_ext. intros c Hc. rewrite B2 by auto. reflexivity.
Qed.
Lemma moved_acts_each n reps gs pi d d' : reps <> [] -> length d = nsum (map rp_size reps) -> length d' = nsum (map rp_size reps) ->
  (forall f r b b', nth_error reps f = Some r -> nth_error (fields reps d) f = Some b -> nth_error (fields reps d') f = Some b' ->
     moved_each n (rp_size r) (fun p => rp_mat r (gs p)) pi b b') -> acts_each n reps gs pi d d'.
Proof.
  intros NE L L' H. split; [congruence|]. intros p Hp. destruct (transform_total reps (gs p) (fun q i => val d i (pi q)) NE) as [t' T]. exists t'. split; [auto|].
  intros i Hi. rewrite L in Hi. destruct (channel_in_field reps i Hi) as (f & r & a & Hr & Ha & ->).
  destruct (fields_at reps d f r Hr) as [b Hb]. destruct (fields_at reps d' f r Hr) as [b' Hb'].
  destruct (H f r b b' Hr Hb Hb') as (_ & _ & M). destruct (fields_val _ _ _ _ _ L Hr Hb) as [B1 B2]. destruct (fields_val _ _ _ _ _ L' Hr Hb') as [B1' B2'].
  rewrite <- B2' by auto. rewrite M by auto. rewrite (transform_fieldwise _ _ _ _ T p f r a Hr Ha). apply rsum_ext. intros c Hc. rewrite B2 by auto. reflexivity.
Qed.
(** the usual action of one element on all samples is a special case *)
Lemma acts_acts_each n reps g pi d d' : acts reps g pi d d' -> acts_each n reps (fun _ => g) pi d d'.
Proof. intros (L & t' & T & V). split; [auto|]. intros p _. exists t'. split; [auto|]. intros i Hi. apply V. auto. Qed.
End Each.

Lemma orth_cols n A u : orthogonal n A -> rsum n (fun a => rsum n (fun c => A a c * u c) * rsum n (fun c => A a c * u c)) = rsum n (fun c => u c * u c).
Proof.
  intros [_ O]. rewrite (rsum_ext n _ (fun a => rsum n (fun c => rsum n (fun e => A a c * A a e * (u c * u e))))).
  2:{ intros a Ha. rewrite <- rsum_scal_r. apply rsum_ext. intros c Hc. rewrite <- rsum_scal. apply rsum_ext. intros e He. ring. }
  rewrite rsum_swap. apply rsum_ext. intros c Hc. rewrite rsum_swap.
  rewrite (rsum_ext n _ (fun e => if Nat.eqb e c then u c * u e else 0)).
  - rewrite (rsum_at' n c (fun e => u c * u e)) by auto. reflexivity.
  - intros e He. rewrite rsum_scal_r. specialize (O c e Hc He). unfold mmul, mtr, mid in O. rewrite O. rewrite Nat.eqb_sym. destruct (Nat.eqb e c); ring.
Qed.
Lemma mean_square_moved n s A pi b b' : bij n pi -> (forall p, (p < n)%nat -> orthogonal s (A p)) -> moved_each n s A pi b b' -> mean_square n b' = mean_square n b.
Proof.
  intros B O (L & L' & M). unfold mean_square. rewrite L, L'. f_equal. rewrite <- (rsum_bij n pi (fun p => rsum s (fun i => val b i p * val b i p)) B).
  apply rsum_ext. intros p Hp. rewrite <- (orth_cols s (A p) (fun c => val b c (pi p))) by auto. apply rsum_ext. intros a Ha. rewrite M by auto. reflexivity.
Qed.
Lemma moved_each_scaled n s A pi (c : R) b b' : moved_each n s A pi b b' -> moved_each n s A pi (scaled (fun _ => c) b) (scaled (fun _ => c) b').
Proof.
  intros (L & L' & M). assert (LS : forall e, length (scaled (fun _ : nat => c) e) = length e) by (intros; apply map_length).
  split; [rewrite LS; auto|]. split; [rewrite LS; auto|]. intros p a Hp Ha. rewrite val_scaled by lia. rewrite M by auto. rewrite <- rsum_scal_r. apply rsum_ext. intros e He.
  rewrite val_scaled by lia. ring.
Qed.

(** * Histories *)
Section Run.
Context {GS G M W : Type}.
Notation gtensor := (gtensor GS (rep G) chan).
Variable (reps : list (rep G)) (fwd : bool -> nat -> M -> gtensor -> result (gtensor * M)) (other : W -> M -> M).
Variable (inv : M -> M -> Prop) (okb : bool -> nat -> (nat -> G) -> (nat -> nat) -> gtensor -> gtensor -> Prop) (okw : W -> Prop).
Hypothesis F : forall tr n gs pi x x' m m', inv m m' -> okb tr n gs pi x x' ->
  exists y y' m1 m1', fwd tr n m x = Ok (y, m1) /\ fwd tr n m' x' = Ok (y', m1') /\ inv m1 m1' /\ acts_each n reps gs pi (gt_data y) (gt_data y').
Hypothesis O : forall w m m', inv m m' -> okw w -> inv (other w m) (other w m').
Definition event_ok (e : event2 G gtensor W) : Prop := match e with Batch2 tr n gs pi x x' => okb tr n gs pi x x' | Other2 w => okw w end.
Lemma run_follow : forall h m m', inv m m' -> Forall event_ok h ->
  exists ys ys' m1 m1', run fwd other m (map left_of h) = Ok (ys, m1) /\ run fwd other m' (map right_of h) = Ok (ys', m1') /\ inv m1 m1' /\ follow reps h ys ys'.
Proof.
  induction h as [|e h IH]; intros m m' I H.
  - exists [], [], m, m'. cbn. auto.
  - inversion H as [|? ? He Hh]; subst. destruct e as [tr n gs pi x x'|w]; cbn [map left_of right_of run].
    + destruct (F tr n gs pi x x' m m' I He) as (y & y' & m1 & m1' & E & E' & I1 & A). rewrite E, E'.
      destruct (IH m1 m1' I1 Hh) as (ys & ys' & m2 & m2' & R & R' & I2 & FO). rewrite R, R'. exists (y :: ys), (y' :: ys'), m2, m2'. cbn [follow]. auto.
    + destruct (IH (other w m) (other w m') (O w m m' I He) Hh) as (ys & ys' & m2 & m2' & R & R' & I2 & FO). exists ys, ys', m2, m2'. cbn [follow]. auto.
Qed.
End Run.

(** * NormBatchNorm and InducedNormBatchNorm *)
Lemma zip_eq_ok {A B} (l : list A) (l' : list B) : length l = length l' -> zip_eq l l' = Ok (combine l l').
Proof. intros H. unfold zip_eq. apply Nat.eqb_eq in H. rewrite H. reflexivity. Qed.
Lemma rmap_pure {A B} (h : A -> result B) (g : A -> B) l : (forall a, In a l -> h a = Ok (g a)) -> rmap h l = Ok (map g l).
Proof. induction l as [|a l IH]; intros H; [reflexivity|]. cbn [rmap map]. rewrite H by (cbn; auto). cbn [rbind]. rewrite IH by (intros; apply H; cbn; auto). reflexivity. Qed.
Lemma fold_rsum_map {A} (h : A -> R) (l : list A) d : fold_right Rplus 0 (map h l) = rsum (length l) (fun i => h (nth i l d)).
Proof.
  induction l as [|a l IH]; [reflexivity|]. cbn [map fold_right length]. rewrite rsum_S_l. cbn [nth]. rewrite IH. reflexivity.
Qed.
Lemma bessel_unbias N : bessel N = unbias N.
Proof. unfold bessel, unbias. destruct (Nat.ltb_spec 1 N), (Nat.leb_spec N 1); auto; lia. Qed.
Lemma ema_average f o v : ema f o v = average f o v.
Proof. unfold ema, average. ring. Qed.
Lemma factor_weight mo k : factor mo k = weight_of mo k.
Proof. destruct mo; [reflexivity|]. unfold factor, weight_of. unfold Rdiv. ring. Qed.
Lemma unbias_pos N : 0 <= unbias N.
Proof.
  unfold unbias. destruct (Nat.leb_spec N 1); [lra|]. assert (2 <= INR N) by (change 2 with (INR 2); apply le_INR; lia).
  apply Rmult_le_pos; [lra|]. left. apply Rinv_0_lt_compat. lra.
Qed.
Lemma weight_range mo k : momentum_ok mo -> (0 < k)%nat -> 0 <= weight_of mo k <= 1.
Proof.
  intros H K. destruct mo; [auto|]. cbn. assert (1 <= INR k) by (change 1 with (INR 1); apply le_INR; lia). split.
  - left. apply Rinv_0_lt_compat. lra.
  - rewrite <- Rinv_1. apply Rinv_le_contravar; lra.
Qed.
Lemma average_pos f o v : 0 <= f <= 1 -> 0 <= o -> 0 <= v -> 0 <= average f o v.
Proof. intros. unfold average. assert (0 <= (1 - f) * o) by (apply Rmult_le_pos; lra). assert (0 <= f * v) by (apply Rmult_le_pos; lra). lra. Qed.
Lemma mean_square_pos n b : 0 <= mean_square n b.
Proof.
  unfold mean_square. apply Rmult_le_pos.
  - apply rsum_nonneg. intros p _. apply rsum_nonneg. intros i _. apply Rle_0_sqr.
  - destruct (Nat.eq_dec n 0) as [->|N]; [rewrite Rmult_0_l, Rinv_0; lra|]. destruct (Nat.eq_dec (length b) 0) as [->|L]; [rewrite Rmult_0_r, Rinv_0; lra|].
    left. apply Rinv_0_lt_compat. apply Rmult_lt_0_compat; apply lt_0_INR; lia.
Qed.
(** the code's variance of a field *)
Lemma field_var_spec n sub q (b : list chan) : (0 < n)%nat -> (0 < sub)%nat -> (0 < q)%nat -> length b = (q * sub)%nat ->
  exists subs, view_fields sub b = Ok subs /\ field_var n sub subs = mean_square n b * unbias (q * n).
Proof.
  intros N0 S0 Q0 L. assert (V : view_fields sub b = Ok (blocks sub b)). { apply view_blocks; [lia|]. rewrite L. apply Nat.mod_mul. lia. }
  exists (blocks sub b). split; [auto|]. unfold field_var. assert (LB : length (blocks sub b) = q) by (rewrite blocks_len2, L; apply Nat.div_mul; lia).
  rewrite LB, bessel_unbias. f_equal. unfold mean_square. rewrite L. rewrite (fold_rsum_map _ _ []). rewrite LB.
  assert (E : rsum q (fun i => rsum n (sq_norm (nth i (blocks sub b) []))) = rsum n (fun p => rsum (q * sub) (fun i => val b i p * val b i p))).
  { rewrite rsum_swap. apply rsum_ext. intros p _. rewrite rsum_blocks. apply rsum_ext. intros i Hi. unfold sq_norm.
    destruct (nth_error (blocks sub b) i) as [c|] eqn:Ec; [|apply nth_error_None in Ec; lia]. rewrite (nth_error_nth _ _ _ Ec).
    assert (Lc : length c = sub) by (eapply blocks_len, nth_error_In; eauto). rewrite (fold_rsum_map _ _ (fun _ => 0)), Lc. apply rsum_ext. intros j Hj.
    destruct (blocks_val sub q b i j p ltac:(lia) L Hi Hj) as (c0 & E0 & _ & V0). assert (c0 = c) by congruence. subst c0. unfold val in V0 at 1. rewrite V0. reflexivity. }
  rewrite E. rewrite !mult_INR. assert (INR q <> 0 /\ INR n <> 0 /\ INR sub <> 0) as (H1 & H2 & H3) by (split; [|split]; apply not_0_INR; lia). field. auto.
Qed.
