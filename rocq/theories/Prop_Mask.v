(** C46: the mask is symmetric. *)
From Coq Require Import Reals ZArith String List Bool Lia Lra.
From Verif Require Import Base LinAlg Spec Model_Groups Proofs_Groups Proofs_Cont Model_GSpace Spec_GSpace Proofs_GSpace Model_Mask.
Import ListNotations.
Open Scope R_scope.

(** distance of the centre of pixel (i, j) of an s x s image from the centre of the image *)
Definition dist_centre (s i j : nat) : R := let p := centre s s i j in sqrt (fst p ^ 2 + snd p ^ 2).
(** radius of the disk: half the width between the outermost pixel centres, less margin per cent *)
Definition radius (s : nat) (margin : R) : R := Rabs ((INR s - 1) / 2 * (1 - margin / 100)).

Lemma sqrt_le_abs a b : 0 <= a -> (sqrt a <= Rabs b <-> a <= b ^ 2).
Proof.
  intros H. rewrite <- (sqrt_Rsqr_abs b). unfold Rsqr. replace (b * b) with (b ^ 2) by ring. split; intros K.
  - apply sqrt_le_0; auto. apply pow2_ge_0.
  - apply sqrt_le_1; auto. apply pow2_ge_0.
Qed.
(** The mask is 1 on the pixels whose centres lie in the disk and strictly between 0 and 1 on all others; it decreases with
    the distance. *)
Theorem C46_disk : forall s margin,
  a_h (build_mask s margin) = s /\ a_w (build_mask s margin) = s /\
  forall i j, (i < s)%nat -> (j < s)%nat ->
    (dist_centre s i j <= radius s margin -> a_px (build_mask s margin) i j = 1) /\
    (radius s margin < dist_centre s i j -> 0 < a_px (build_mask s margin) i j < 1).
Proof.
  intros s margin. split; [reflexivity|]. split; [reflexivity|]. intros i j _ _.
  assert (D : dist_centre s i j <= radius s margin <-> (INR i - (INR s - 1) / 2) ^ 2 + (INR j - (INR s - 1) / 2) ^ 2 <= ((INR s - 1) / 2 - margin / 100 * ((INR s - 1) / 2)) ^ 2).
  { unfold dist_centre, radius, centre. cbn [fst snd]. rewrite sqrt_le_abs.
    - replace ((INR s - 1) / 2 * (1 - margin / 100)) with ((INR s - 1) / 2 - margin / 100 * ((INR s - 1) / 2)) by ring.
      replace ((INR j - (INR s - 1) / 2) ^ 2 + ((INR s - 1) / 2 - INR i) ^ 2) with ((INR i - (INR s - 1) / 2) ^ 2 + (INR j - (INR s - 1) / 2) ^ 2) by ring. tauto.
    - assert (0 <= (INR j - (INR s - 1) / 2) ^ 2) by apply pow2_ge_0. assert (0 <= ((INR s - 1) / 2 - INR i) ^ 2) by apply pow2_ge_0. lra. }
  unfold build_mask. cbv zeta. cbn [a_px]. set (t := ((INR s - 1) / 2 - margin / 100 * ((INR s - 1) / 2)) ^ 2) in *. set (r := (INR i - (INR s - 1) / 2) ^ 2 + (INR j - (INR s - 1) / 2) ^ 2) in *. split; intros H.
  - apply D in H. destruct (Rlt_dec t r); lra.
  - destruct (Rlt_dec t r) as [L|L].
    + split; [apply exp_pos|]. rewrite <- exp_0. apply exp_increasing. replace ((t - r) / 2 ^ 2) with (- ((r - t) * / 4)) by field. assert (0 < (r - t) * / 4) by (apply Rmult_lt_0_compat; lra). lra.
    + exfalso. assert (dist_centre s i j <= radius s margin) by (apply D; lra). lra.
Qed.
Print Assumptions C46_disk.

Lemma mask_flip_rows s margin : arr_eq (flip_rows (build_mask s margin)) (build_mask s margin).
Proof.
  split; [reflexivity|]. split; [reflexivity|]. cbn [flip_rows build_mask a_h a_w a_px]. cbv zeta. intros i j Hi Hj.
  rewrite !minus_INR by lia. change (INR 1) with 1.
  replace ((INR s - 1 - INR i - (INR s - 1) / 2) ^ 2) with ((INR i - (INR s - 1) / 2) ^ 2) by field. reflexivity.
Qed.
Lemma mask_transpose s margin : arr_eq (transpose (build_mask s margin)) (build_mask s margin).
Proof.
  split; [reflexivity|]. split; [reflexivity|]. cbn [transpose build_mask a_h a_w a_px]. cbv zeta. intros i j Hi Hj.
  rewrite (Rplus_comm ((INR j - _) ^ 2)). reflexivity.
Qed.
Lemma mask_flip_cols s margin : arr_eq (flip_cols (build_mask s margin)) (build_mask s margin).
Proof.
  split; [reflexivity|]. split; [reflexivity|]. cbn [flip_cols build_mask a_h a_w a_px]. cbv zeta. intros i j Hi Hj.
  rewrite !minus_INR by lia. change (INR 1) with 1.
  replace ((INR s - 1 - INR j - (INR s - 1) / 2) ^ 2) with ((INR j - (INR s - 1) / 2) ^ 2) by field. reflexivity.
Qed.
Lemma mask_rot90 s margin k : arr_eq (rot90 (build_mask s margin) k) (build_mask s margin).
Proof.
  unfold rot90. cbv zeta. destruct (k mod 4 =? 0)%Z; [apply arr_eq_refl|]. destruct (k mod 4 =? 2)%Z.
  - eapply arr_eq_trans; [apply flip_cols_eq, mask_flip_rows|apply mask_flip_cols].
  - destruct (k mod 4 =? 1)%Z.
    + eapply arr_eq_trans; [apply transpose_eq, mask_flip_cols|apply mask_transpose].
    + eapply arr_eq_trans; [apply flip_cols_eq, mask_transpose|apply mask_flip_cols].
Qed.
(** every exact element of every space acts as mirror and quarter turns *)
Lemma exact_form interp s g : constructed s -> fg_is_element (sp_group s) g = true -> grid_exact s g ->
  exists (f : bool) k, forall A (x : arr A), basespace_action interp s x g = Ok (rot90 (if f then flip_rows x else x) k).
Proof.
  intros Hc Hel Hex. apply grid_exact_iff in Hex; auto. destruct Hex as [k Hk]. exists (gflip s g), k. intros A x.
  rewrite action_form by auto. rewrite Hk, rotate_array_exact. reflexivity.
Qed.
(** The mask does not change under quarter turns and mirrors, nor under any exact element of any space. *)
Theorem C46_symmetric : forall s margin,
  (forall k, arr_eq (rot90 (build_mask s margin) k) (build_mask s margin)) /\
  arr_eq (flip_rows (build_mask s margin)) (build_mask s margin) /\
  arr_eq (flip_cols (build_mask s margin)) (build_mask s margin) /\
  arr_eq (transpose (build_mask s margin)) (build_mask s margin) /\
  (forall interp sp g, constructed sp -> fg_is_element (sp_group sp) g = true -> grid_exact sp g ->
    exists y, basespace_action interp sp (build_mask s margin) g = Ok y /\ arr_eq y (build_mask s margin)).
Proof.
  intros s margin. split; [intros; apply mask_rot90|]. split; [apply mask_flip_rows|]. split; [apply mask_flip_cols|]. split; [apply mask_transpose|].
  intros interp sp g Hc Hel Hex. destruct (exact_form interp sp g Hc Hel Hex) as (f & k & F). rewrite F. eexists. split; [reflexivity|].
  eapply arr_eq_trans; [|apply mask_rot90]. apply rot90_eq. destruct f; [apply mask_flip_rows|apply arr_eq_refl].
Qed.
Print Assumptions C46_symmetric.

Definition scale_by {B} (m : arr R) (x : arr (B -> vec)) : arr (B -> vec) := MkArr (a_h x) (a_w x) (fun i j b c => a_px x i j b c * a_px m i j).
Lemma scale_rot90 {B} (m : arr R) (x : arr (B -> vec)) k : a_h m = a_h x -> a_w m = a_w x -> rot90 (scale_by m x) k = scale_by (rot90 m k) (rot90 x k).
Proof.
  destruct m as [h w pm], x as [h' w' px]. cbn [a_h a_w]. intros -> ->. unfold rot90. cbv zeta.
  destruct (k mod 4 =? 0)%Z; [reflexivity|]. destruct (k mod 4 =? 2)%Z; [reflexivity|]. destruct (k mod 4 =? 1)%Z; reflexivity.
Qed.
Lemma scale_flip {B} (m : arr R) (x : arr (B -> vec)) : a_h m = a_h x -> a_w m = a_w x -> flip_rows (scale_by m x) = scale_by (flip_rows m) (flip_rows x).
Proof. destruct m as [h w pm], x as [h' w' px]. cbn [a_h a_w]. intros -> ->. reflexivity. Qed.
Lemma rot90_dims {A} (x : arr A) k s : a_h x = s -> a_w x = s -> a_h (rot90 x k) = s /\ a_w (rot90 x k) = s.
Proof.
  intros H W. unfold rot90. cbv zeta. destruct (k mod 4 =? 0)%Z; [auto|]. destruct (k mod 4 =? 2)%Z; [auto|]. destruct (k mod 4 =? 1)%Z; cbn; auto.
Qed.
Lemma rsum_mul_r n (u v : nat -> R) c : (forall i, (i < n)%nat -> v i = u i * c) -> rsum n v = rsum n u * c.
Proof. induction n as [|n IH]; intros H; cbn; [ring|]. rewrite IH, H by auto. ring. Qed.

(** MaskModule commutes with the action on feature fields of every representation, and only accepts images of its own size. *)
Theorem C46_module : forall (B : Type) interp sp n (rho : gelt -> mat) g s margin (x : arr (B -> vec)),
  constructed sp -> fg_is_element (sp_group sp) g = true -> grid_exact sp g ->
  ((exists y, mask_forward s margin x = Ok y) <-> a_h x = s /\ a_w x = s) /\
  (a_h x = s -> a_w x = s ->
   exists y x' gy y', mask_forward s margin x = Ok y /\ featurefield_action interp sp (sp_group sp) n rho x g = Ok x' /\
     featurefield_action interp sp (sp_group sp) n rho y g = Ok gy /\ mask_forward s margin x' = Ok y' /\ same_field n gy y').
Proof.
  intros B interp sp n rho g s margin x Hc Hel Hex.
  assert (MF : forall z : arr (B -> vec), a_h z = s -> a_w z = s -> mask_forward s margin z = Ok (scale_by (build_mask s margin) z)).
  { intros z H W. unfold mask_forward. rewrite H, W, Nat.eqb_refl. cbn [andb assert_]. unfold scale_by. rewrite H, W. reflexivity. }
  split.
  - split; [|intros [H W]; eauto]. intros [y H]. unfold mask_forward in H. destruct (Nat.eqb_spec (a_h x) s), (Nat.eqb_spec (a_w x) s); cbn in H; try discriminate. auto.
  - intros H W. destruct (exact_form interp sp g Hc Hel Hex) as (f & k & F). unfold featurefield_action. rewrite fg_eqb_refl. cbn [assert_].
    rewrite (MF x H W). eexists. eexists. eexists. eexists. split; [reflexivity|]. rewrite F. split; [reflexivity|]. rewrite F. split; [reflexivity|].
    set (u := MkArr (a_h x) (a_w x) (fun i j b => mvec n (rho g) (a_px x i j b))).
    assert (U : a_h (if f then flip_rows u else u) = s /\ a_w (if f then flip_rows u else u) = s) by (destruct f; cbn; auto).
    destruct U as [UH UW]. destruct (rot90_dims _ k s UH UW) as [RH RW]. rewrite (MF _ RH RW). split; [reflexivity|].
    set (v := MkArr (a_h (scale_by (build_mask s margin) x)) (a_w (scale_by (build_mask s margin) x)) (fun i j b => mvec n (rho g) (a_px (scale_by (build_mask s margin) x) i j b))).
    assert (V : same_field n v (scale_by (build_mask s margin) u)).
    { split; [reflexivity|]. split; [reflexivity|]. intros i j b c _ _ Hcn. unfold v, u, scale_by. cbn [a_px]. unfold mvec. apply rsum_mul_r. intros e He. ring. }
    (* both sides *)
    assert (SF : forall a a' : arr (B -> vec), a_h a = s -> a_w a = s -> same_field n a a' -> same_field n (rot90 (if f then flip_rows a else a) k) (rot90 (if f then flip_rows a' else a') k)).
    { intros a a' H1 H2 (E1 & E2 & E3). destruct a as [h w p], a' as [h' w' p']. cbn [a_h a_w a_px] in *. subst h' w' h w.
      assert (Q : forall p p' : nat -> nat -> B -> vec, (forall i j b c, (i < s)%nat -> (j < s)%nat -> (c < n)%nat -> p i j b c = p' i j b c) -> same_field n (rot90 (MkArr s s p) k) (rot90 (MkArr s s p') k)).
      { intros q q' E. unfold rot90. cbv zeta. destruct (k mod 4 =? 0)%Z; [split; [auto|split; auto]|]. destruct (k mod 4 =? 2)%Z; [|destruct (k mod 4 =? 1)%Z];
          (split; [reflexivity|]; split; [reflexivity|]; cbn; intros; apply E; auto; lia). }
      destruct f; apply Q; intros; [|apply E3; auto]. cbn. apply E3; auto. lia. }
    assert (D : forall a b c : arr (B -> vec), same_field n a b -> b = c -> same_field n a c) by (intros; subst; auto).
    assert (MS : arr_eq (rot90 (if f then flip_rows (build_mask s margin) else build_mask s margin) k) (build_mask s margin)).
    { eapply arr_eq_trans; [|apply mask_rot90]. apply rot90_eq. destruct f; [apply mask_flip_rows|apply arr_eq_refl]. }
    assert (ST : same_field n (rot90 (if f then flip_rows v else v) k) (scale_by (rot90 (if f then flip_rows (build_mask s margin) else build_mask s margin) k) (rot90 (if f then flip_rows u else u) k))).
    { eapply D; [apply (SF v (scale_by (build_mask s margin) u)); auto|]. replace (if f then flip_rows (scale_by (build_mask s margin) u) else scale_by (build_mask s margin) u)
        with (scale_by (if f then flip_rows (build_mask s margin) else build_mask s margin) (if f then flip_rows u else u)).
      2:{ destruct f; [symmetry; apply scale_flip; cbn; auto|reflexivity]. }
      apply scale_rot90; destruct f; cbn; auto. }
    destruct ST as (T1 & T2 & T3). cbn [scale_by a_h a_w] in T1, T2. split; [exact T1|]. split; [exact T2|]. intros i j b c Hi Hj Hcn. rewrite T3 by auto. cbn [scale_by a_px]. f_equal.
    destruct MS as (M1 & M2 & M3). rewrite T1, RH in Hi. rewrite T2, RW in Hj. cbn [build_mask a_h a_w] in M1, M2. apply M3; congruence.
Qed.
Print Assumptions C46_module.

(** concrete cases: every quarter turn and mirror of the spaces on the pixel grid; pixels inside and outside the disk of a
    5 x 5 mask without margin *)
Example C46_ex_elements : forall m : Z, constructed (SpRot (GC 4)) /\ constructed (SpFlipRot (GD 4) 0) /\ fg_is_element (GC 4) (EI 1) = true /\ fg_is_element (GD 4) (EFI 1 3) = true /\
  grid_exact (SpRot (GC 4)) (EI 1) /\ grid_exact (SpFlipRot (GD 4) 0) (EFI 1 3).
Proof.
  intros m. split; [split; reflexivity|]. split; [split; reflexivity|]. split; [reflexivity|]. split; [reflexivity|].
  assert (C : forall k, cos (IZR k * (PI / 2)) = 0 \/ sin (IZR k * (PI / 2)) = 0).
  { intros k. pose proof (cos_sin_quarter k) as H. destruct (mod4 k) as [F|[F|[F|F]]]; rewrite F in H; tauto. }
  split; unfold grid_exact; cbn [plane_action fst snd].
  - replace (2 * PI * 1 / 4) with (IZR 1 * (PI / 2)) by field. unfold rotate_pt. cbn [fst snd]. destruct (C 1%Z) as [->| ->]; [left|right]; ring.
  - change (1 =? 1)%Z with true. cbv iota. unfold mirror_pt. cbn [fst snd]. rewrite cos_0, sin_0. replace (2 * PI * 3 / 4) with (IZR 3 * (PI / 2)) by field. unfold rotate_pt. cbn [fst snd].
    destruct (C 3%Z) as [->| ->]; [left|right]; ring.
Qed.
Example C46_ex_disk : dist_centre 5 2 4 <= radius 5 0 /\ radius 5 0 < dist_centre 5 0 0.
Proof.
  unfold dist_centre, radius, centre. cbn [fst snd]. replace ((INR 5 - 1) / 2 * (1 - 0 / 100)) with 2 by (cbn; field). rewrite (Rabs_right 2) by lra.
  replace ((INR 4 - (INR 5 - 1) / 2) ^ 2 + ((INR 5 - 1) / 2 - INR 2) ^ 2) with (2 * 2) by (cbn; field). rewrite sqrt_square by lra. split; [lra|].
  rewrite <- (sqrt_square 2) at 1 by lra. apply sqrt_lt_1; cbn; lra.
Qed.
