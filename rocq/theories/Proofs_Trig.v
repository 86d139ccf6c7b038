(** Finite Fourier sums: coefficients of trigonometric polynomials are unique. *)
From Coq Require Import Reals ZArith List Bool Lia Lra.
From Verif Require Import Base Model_Groups Proofs_Groups Proofs_Cont Proofs_Regular2.
Import ListNotations.
Open Scope R_scope.

(** ** sums over a multiple of the full circle *)
Lemma sin_sum_zero n (g : Z) : (0 < n)%nat ->
  rsum n (fun k => sin (INR k * (IZR g * (2 * PI / INR n)))) = 0.
Proof.
  intros Hn. assert (Pn : 0 < INR n) by (apply lt_0_INR; lia).
  destruct n as [|n]; [lia|]. rewrite rsum_S_l. change (INR 0) with 0. rewrite Rmult_0_l, sin_0, Rplus_0_l.
  set (x := IZR g * (2 * PI / INR (S n))).
  assert (E : rsum n (fun i => sin (INR (S i) * x)) = - rsum n (fun i => sin (INR (S i) * x))).
  { rewrite <- rsum_opp. rewrite rsum_rev at 1. apply rsum_ext. intros i Hi.
    replace (INR (S (n - 1 - i)) * x) with (- (INR (S i) * x) + 2 * IZR g * PI).
    - rewrite sin_period_Z, sin_neg. reflexivity.
    - replace (S (n - 1 - i)) with (S n - S i)%nat by lia. rewrite minus_INR by lia. unfold x. field. lra. }
  lra.
Qed.

Lemma cos_sum n (d : Z) : (0 < n)%nat -> (Z.abs d < Z.of_nat n)%Z ->
  rsum n (fun k => cos (INR k * (IZR d * (2 * PI / INR n)))) = if Z.eqb d 0 then INR n else 0.
Proof.
  intros Hn Hd. destruct (Z.eqb_spec d 0) as [->|Hne].
  - rewrite (rsum_ext _ _ (fun _ => 1)).
    + rewrite rsum_const. ring.
    + intros. rewrite <- cos_0. f_equal. ring.
  - rewrite <- (cos_sum_zero n (Z.abs d)) by lia. apply rsum_ext. intros k _.
    destruct (Z.abs_spec d) as [[? ->]|[? ->]]; auto.
    rewrite <- cos_neg. f_equal. rewrite opp_IZR. ring.
Qed.

(** ** sums over -F..F *)
Definition zsum (F : nat) (f : Z -> R) : R := rsum (2 * F + 1) (fun i => f (Z.of_nat i - Z.of_nat F)%Z).

Lemma zsum_ext F f g : (forall k, (Z.abs k <= Z.of_nat F)%Z -> f k = g k) -> zsum F f = zsum F g.
Proof. intros H. apply rsum_ext. intros i Hi. apply H. lia. Qed.
Lemma zsum_plus F f g : zsum F (fun k => f k + g k) = zsum F f + zsum F g.
Proof. apply rsum_plus. Qed.
Lemma zsum_minus F f g : zsum F (fun k => f k - g k) = zsum F f - zsum F g.
Proof. apply rsum_minus. Qed.
Lemma zsum_scal F c f : zsum F (fun k => c * f k) = c * zsum F f.
Proof. apply rsum_scal. Qed.
Lemma zsum_scal_r F c f : zsum F (fun k => f k * c) = zsum F f * c.
Proof. apply rsum_scal_r. Qed.
Lemma zsum_0 F f : (forall k, (Z.abs k <= Z.of_nat F)%Z -> f k = 0) -> zsum F f = 0.
Proof. intros H. apply rsum_0. intros i Hi. apply H. lia. Qed.
Lemma zsum_single F (l : Z) f : (Z.abs l <= Z.of_nat F)%Z ->
  (forall k, (Z.abs k <= Z.of_nat F)%Z -> k <> l -> f k = 0) -> zsum F f = f l.
Proof.
  intros Hl H. unfold zsum. set (g := fun i => f (Z.of_nat i - Z.of_nat F)%Z).
  assert (Hk : (Z.to_nat (l + Z.of_nat F) < 2 * F + 1)%nat) by lia.
  rewrite (rsum_single (2 * F + 1) (Z.to_nat (l + Z.of_nat F)) g Hk).
  - unfold g. f_equal. lia.
  - intros i Hi Hne. unfold g. apply H; lia.
Qed.
Lemma rsum_zsum n F f : rsum n (fun j => zsum F (fun k => f j k)) = zsum F (fun k => rsum n (fun j => f j k)).
Proof. unfold zsum. apply rsum_swap. Qed.
(** as a sum over the list of frequencies *)
Definition zlist (F : nat) : list Z := map (fun i => (Z.of_nat i - Z.of_nat F)%Z) (seq 0 (2 * F + 1)).
Lemma zsum_lsum F f : zsum F f = lsum (map f (zlist F)).
Proof. unfold zsum, zlist. rewrite rsum_lsum, map_map. reflexivity. Qed.
Lemma in_zlist F k : In k (zlist F) <-> (Z.abs k <= Z.of_nat F)%Z.
Proof.
  unfold zlist. rewrite in_map_iff. split.
  - intros [i [<- Hi]]. apply in_seq in Hi. lia.
  - intros H. exists (Z.to_nat (k + Z.of_nat F)). rewrite in_seq. lia.
Qed.

(** the real and imaginary parts of sum_k (p_k + i q_k) e^(i k x) *)
Definition re_sum (F : nat) (p q : Z -> R) (x : R) : R := zsum F (fun k => p k * cos (IZR k * x) - q k * sin (IZR k * x)).
Definition im_sum (F : nat) (p q : Z -> R) (x : R) : R := zsum F (fun k => p k * sin (IZR k * x) + q k * cos (IZR k * x)).

Theorem exp_unique F p q :
  (forall x, re_sum F p q x = 0) -> (forall x, im_sum F p q x = 0) ->
  forall k, (Z.abs k <= Z.of_nat F)%Z -> p k = 0 /\ q k = 0.
Proof.
  intros HR HI l Hl. set (n := (2 * F + 1)%nat). set (w := 2 * PI / INR n).
  assert (Hn : (0 < n)%nat) by (unfold n; lia). assert (Pn : 0 < INR n) by (apply lt_0_INR; lia).
  assert (C : forall k, (Z.abs k <= Z.of_nat F)%Z ->
              rsum n (fun j => cos (INR j * (IZR (k - l) * w))) = if Z.eqb (k - l) 0 then INR n else 0)
    by (intros; apply cos_sum; unfold n; lia).
  assert (S : forall k, rsum n (fun j => sin (INR j * (IZR (k - l) * w))) = 0) by (intros; apply sin_sum_zero; auto).
  assert (A : forall k j, INR j * (IZR (k - l) * w) = IZR k * (INR j * w) - IZR l * (INR j * w))
    by (intros; rewrite minus_IZR; ring).
  split.
  - assert (E : rsum n (fun j => re_sum F p q (INR j * w) * cos (IZR l * (INR j * w))
                              + im_sum F p q (INR j * w) * sin (IZR l * (INR j * w))) = INR n * p l).
    { rewrite (rsum_ext _ _ (fun j => zsum F (fun k => p k * cos (INR j * (IZR (k - l) * w)) - q k * sin (INR j * (IZR (k - l) * w))))).
      - rewrite rsum_zsum. rewrite (zsum_ext F _ (fun k => p k * (if Z.eqb (k - l) 0 then INR n else 0))).
        + rewrite (zsum_single F l _ Hl).
          -- rewrite Z.sub_diag. cbn [Z.eqb]. ring.
          -- intros k Hk Hne. destruct (Z.eqb_spec (k - l) 0); [lia|ring].
        + intros k Hk. rewrite rsum_minus, !rsum_scal, C, S by auto. ring.
      - intros j _. unfold re_sum, im_sum. rewrite <- !zsum_scal_r, <- zsum_plus. apply zsum_ext. intros k _.
        rewrite A, cos_minus, sin_minus. ring. }
    rewrite rsum_0 in E by (intros; rewrite HR, HI; ring).
    destruct (Rmult_integral (INR n) (p l)); auto; lra.
  - assert (E : rsum n (fun j => im_sum F p q (INR j * w) * cos (IZR l * (INR j * w))
                              - re_sum F p q (INR j * w) * sin (IZR l * (INR j * w))) = INR n * q l).
    { rewrite (rsum_ext _ _ (fun j => zsum F (fun k => p k * sin (INR j * (IZR (k - l) * w)) + q k * cos (INR j * (IZR (k - l) * w))))).
      - rewrite rsum_zsum. rewrite (zsum_ext F _ (fun k => q k * (if Z.eqb (k - l) 0 then INR n else 0))).
        + rewrite (zsum_single F l _ Hl).
          -- rewrite Z.sub_diag. cbn [Z.eqb]. ring.
          -- intros k Hk Hne. destruct (Z.eqb_spec (k - l) 0); [lia|ring].
        + intros k Hk. rewrite rsum_plus, !rsum_scal, C, S by auto. ring.
      - intros j _. unfold re_sum, im_sum. rewrite <- !zsum_scal_r, <- zsum_minus. apply zsum_ext. intros k _.
        rewrite A, cos_minus, sin_minus. ring. }
    rewrite rsum_0 in E by (intros; rewrite HR, HI; ring).
    destruct (Rmult_integral (INR n) (q l)); auto; lra.
Qed.

(** ** complex trigonometric polynomials of degree at most F *)
Definition ctp (F : nat) (a b : R -> R) : Prop :=
  exists p q, forall x, a x = re_sum F p q x /\ b x = im_sum F p q x.

Lemma ctp_ext F a b a' b' : (forall x, a x = a' x) -> (forall x, b x = b' x) -> ctp F a b -> ctp F a' b'.
Proof. intros Ha Hb [p [q H]]. exists p, q. intros x. rewrite <- Ha, <- Hb. apply H. Qed.

Lemma ctp_add F a b a' b' : ctp F a b -> ctp F a' b' -> ctp F (fun x => a x + a' x) (fun x => b x + b' x).
Proof.
  intros [p [q H]] [p' [q' H']]. exists (fun k => p k + p' k), (fun k => q k + q' k). intros x.
  destruct (H x) as [-> ->]. destruct (H' x) as [-> ->].
  split; unfold re_sum, im_sum; rewrite <- zsum_plus; apply zsum_ext; intros; ring.
Qed.

(** multiplication by a complex number *)
Lemma ctp_mul F u v a b : ctp F a b -> ctp F (fun x => u * a x - v * b x) (fun x => u * b x + v * a x).
Proof.
  intros [p [q H]]. exists (fun k => u * p k - v * q k), (fun k => u * q k + v * p k). intros x.
  destruct (H x) as [-> ->].
  split; unfold re_sum, im_sum; rewrite <- !zsum_scal; [rewrite <- zsum_minus|rewrite <- zsum_plus]; apply zsum_ext; intros; ring.
Qed.

Lemma ctp_shift F t a b : ctp F a b -> ctp F (fun x => a (x + t)) (fun x => b (x + t)).
Proof.
  intros [p [q H]].
  exists (fun k => p k * cos (IZR k * t) - q k * sin (IZR k * t)), (fun k => p k * sin (IZR k * t) + q k * cos (IZR k * t)).
  intros x. destruct (H (x + t)) as [-> ->]. split; unfold re_sum, im_sum; apply zsum_ext; intros k _;
  rewrite Rmult_plus_distr_l, cos_plus, sin_plus; ring.
Qed.

Lemma ctp_zero F : ctp F (fun _ => 0) (fun _ => 0).
Proof.
  exists (fun _ => 0), (fun _ => 0). intros x. unfold re_sum, im_sum.
  split; symmetry; apply zsum_0; intros; ring.
Qed.

Definition ind (c : bool) (v : R) : R := if c then v else 0.
Lemma zsum_ind F l v : (Z.abs l <= Z.of_nat F)%Z -> zsum F (fun k => ind (Z.eqb k l) (v k)) = v l.
Proof.
  intros H. rewrite (zsum_single F l).
  - unfold ind. rewrite Z.eqb_refl. reflexivity.
  - auto.
  - intros k _ Hne. unfold ind. destruct (Z.eqb_spec k l); [contradiction|reflexivity].
Qed.

Lemma ctp_cos F (k : Z) : (Z.abs k <= Z.of_nat F)%Z -> ctp F (fun x => cos (IZR k * x)) (fun _ => 0).
Proof.
  intros Hk. exists (fun m => ind (Z.eqb m k) (1/2) + ind (Z.eqb m (- k)) (1/2)), (fun _ => 0). intros x.
  unfold re_sum, im_sum. split.
  - rewrite (zsum_ext F _ (fun m => ind (Z.eqb m k) (1/2 * cos (IZR m * x)) + ind (Z.eqb m (- k)) (1/2 * cos (IZR m * x)))).
    + rewrite zsum_plus, !zsum_ind by lia. rewrite opp_IZR, Ropp_mult_distr_l_reverse, cos_neg. lra.
    + intros m _. unfold ind. destruct (Z.eqb m k), (Z.eqb m (- k)); ring.
  - rewrite (zsum_ext F _ (fun m => ind (Z.eqb m k) (1/2 * sin (IZR m * x)) + ind (Z.eqb m (- k)) (1/2 * sin (IZR m * x)))).
    + rewrite zsum_plus, !zsum_ind by lia. rewrite opp_IZR, Ropp_mult_distr_l_reverse, sin_neg. lra.
    + intros m _. unfold ind. destruct (Z.eqb m k), (Z.eqb m (- k)); ring.
Qed.

Lemma ctp_sin F (k : Z) : (Z.abs k <= Z.of_nat F)%Z -> ctp F (fun x => sin (IZR k * x)) (fun _ => 0).
Proof.
  intros Hk. exists (fun _ => 0), (fun m => ind (Z.eqb m k) (-1/2) + ind (Z.eqb m (- k)) (1/2)). intros x.
  unfold re_sum, im_sum. split.
  - rewrite (zsum_ext F _ (fun m => ind (Z.eqb m k) (1/2 * sin (IZR m * x)) + ind (Z.eqb m (- k)) (-1/2 * sin (IZR m * x)))).
    + rewrite zsum_plus, !zsum_ind by lia. rewrite opp_IZR, Ropp_mult_distr_l_reverse, sin_neg. lra.
    + intros m _. unfold ind. destruct (Z.eqb m k), (Z.eqb m (- k)); lra.
  - rewrite (zsum_ext F _ (fun m => ind (Z.eqb m k) (-1/2 * cos (IZR m * x)) + ind (Z.eqb m (- k)) (1/2 * cos (IZR m * x)))).
    + rewrite zsum_plus, !zsum_ind by lia. rewrite opp_IZR, Ropp_mult_distr_l_reverse, cos_neg. lra.
    + intros m _. unfold ind. destruct (Z.eqb m k), (Z.eqb m (- k)); ring.
Qed.

(** ** angles with the same cosine and sine *)
Lemma cos_1_cong x : cos x = 1 -> cong2pi x 0.
Proof.
  intros H. assert (P := PI_RGT_0). destruct (cong2pi_rmod x) as [k Hk].
  exists (-k)%Z. rewrite opp_IZR.
  assert (B : 0 <= rmod x (2 * PI) < 2 * PI).
  { unfold rmod. destruct (base_Int_part (x / (2 * PI))) as [B1 B2].
    assert (E : x = 2 * PI * (x / (2 * PI))) by (field; lra).
    set (i := IZR (Int_part (x / (2 * PI)))) in *. set (u := x / (2 * PI)) in *. split.
    - assert (0 <= 2 * PI * (u - i)) by (apply Rmult_le_pos; lra). nra.
    - assert (2 * PI * (u - i) < 2 * PI * 1) by (apply Rmult_lt_compat_l; lra). nra. }
  assert (C : cos (rmod x (2 * PI)) = 1) by (rewrite <- H; apply cos_cong; exists k; exact Hk).
  set (r := rmod x (2 * PI)) in *.
  assert (r = 0); [|lra].
  destruct (Rle_lt_dec r PI) as [L|L].
  - destruct (Req_dec r 0); auto. exfalso.
    assert (cos r < cos 0) by (apply cos_decreasing_1; lra). rewrite cos_0 in H1. lra.
  - exfalso. assert (cos r < cos (2 * PI)) by (apply cos_increasing_1; lra).
    rewrite cos_2PI in H0. lra.
Qed.

Lemma cos_sin_cong a b : cos a = cos b -> sin a = sin b -> cong2pi a b.
Proof.
  intros Hc Hs. destruct (cos_1_cong (a - b)) as [k Hk].
  - rewrite cos_minus, Hc, Hs. generalize (sc2 b). lra.
  - exists k. lra.
Qed.
