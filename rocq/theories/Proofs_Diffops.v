(** Evaluation of the polynomials of diffops/utils.py. *)
From Coq Require Import Reals ZArith String List Bool Arith Lia Lra.
From Verif Require Import Base Model_Groups Model_Diffops Spec_Diffops.
Import ListNotations.
Open Scope R_scope.

(** ** values as sums *)
Lemma hom_sum c x y : hom_value c x y = rsum (length c) (fun k => nth k c 0 * (x ^ (length c - 1 - k) * y ^ k)).
Proof.
  induction c as [|a c IH]; [reflexivity|]. cbn [hom_value length]. rewrite rsum_S_l, IH. cbn [nth]. rewrite <- rsum_scal.
  f_equal.
  - replace (S (length c) - 1 - 0)%nat with (length c) by lia. cbn [pow]. ring.
  - apply rsum_ext. intros i Hi. replace (S (length c) - 1 - S i)%nat with (length c - 1 - i)%nat by lia. cbn [pow]. ring.
Qed.
Lemma hom_map n f x y : hom_value (map f (seq 0 (n + 1))) x y = rsum (n + 1) (fun k => f k * (x ^ (n - k) * y ^ k)).
Proof.
  rewrite hom_sum, map_length, seq_length. apply rsum_ext. intros i Hi.
  rewrite (nth_indep _ 0 (f 0%nat)) by (rewrite map_length, seq_length; lia). rewrite map_nth, seq_nth by lia.
  replace (n + 1 - 1 - i)%nat with (n - i)%nat by lia. reflexivity.
Qed.
Lemma eval_poly_value c x y : c <> [] -> eval_poly c x y = hom_value c x y.
Proof.
  intros H. unfold eval_poly. rewrite <- rsum_lsum, hom_sum. destruct c as [|a c]; [congruence|]. cbn [length].
  replace (S (length c) - 1 + 1)%nat with (S (length c)) by lia. apply rsum_ext. intros i Hi. reflexivity.
Qed.

(** ** Pascal-like recursions *)
Lemma binom_0 n : binom n 0 = 1%nat.
Proof. destruct n; reflexivity. Qed.
Lemma binom_S n k : binom (S n) (S k) = (binom n k + binom n (S k))%nat.
Proof. reflexivity. Qed.
Lemma binom_over n : forall k, (n < k)%nat -> binom n k = 0%nat.
Proof. induction n; intros k H; destruct k; try lia; auto. rewrite binom_S, !IHn by lia. reflexivity. Qed.

(** if f(n+1, 0) = f(n, 0), f(n+1, k+1) = f(n, k+1) + g(n, k) and f(n, n+1) = 0 then F(n+1) = x F(n) + y G(n) *)
Definition psum (f : nat -> nat -> R) (n : nat) (x y : R) : R := rsum (n + 1) (fun k => f n k * (x ^ (n - k) * y ^ k)).
Lemma psum_S f g n x y : f (S n) 0%nat = f n 0%nat -> (forall k, f (S n) (S k) = f n (S k) + g n k) -> f n (S n) = 0 ->
  psum f (S n) x y = x * psum f n x y + y * psum g n x y.
Proof.
  intros H0 HS HZ. unfold psum. replace (S n + 1)%nat with (S (n + 1)) by lia. rewrite rsum_S_l.
  replace (n + 1)%nat with (S n) by lia.
  rewrite (rsum_ext (S n) (fun i => f (S n) (S i) * (x ^ (S n - S i) * y ^ S i))
             (fun i => f n (S i) * (x ^ (n - i) * y ^ S i) + y * (g n i * (x ^ (n - i) * y ^ i)))).
  2:{ intros i _. rewrite HS. replace (S n - S i)%nat with (n - i)%nat by lia. cbn [pow]. ring. }
  rewrite rsum_plus, rsum_scal. rewrite H0.
  rewrite <- (rsum_scal (S n) x). rewrite (rsum_S_l n (fun i => x * (f n i * (x ^ (n - i) * y ^ i)))).
  change (rsum (S n) (fun i => f n (S i) * (x ^ (n - i) * y ^ S i))) with
    (rsum n (fun i => f n (S i) * (x ^ (n - i) * y ^ S i)) + f n (S n) * (x ^ (n - n) * y ^ S n)).
  rewrite HZ. rewrite (rsum_ext n (fun i => x * (f n (S i) * (x ^ (n - S i) * y ^ S i))) (fun i => f n (S i) * (x ^ (n - i) * y ^ S i))).
  2:{ intros i Hi. replace (n - i)%nat with (S (n - S i)) by lia. cbn [pow]. ring. }
  replace (S n - 0)%nat with (S n) by lia. replace (n - 0)%nat with n by lia. cbn [pow]. ring.
Qed.

Lemma binomial_value n x y : psum (fun n k => INR (binom n k)) n x y = (x + y) ^ n.
Proof.
  induction n; [unfold psum; cbn; ring|].
  rewrite (psum_S _ (fun n k => INR (binom n k))).
  - rewrite IHn. cbn [pow]. ring.
  - rewrite !binom_0. reflexivity.
  - intros k. rewrite binom_S, plus_INR. ring.
  - rewrite binom_over by lia. reflexivity.
Qed.

(** ** expand_binomial *)
Lemma expand_binomial_length a b e : length (expand_binomial a b e) = (e + 1)%nat.
Proof. unfold expand_binomial. rewrite map_length, seq_length. reflexivity. Qed.
Lemma expand_binomial_value a b e x y : hom_value (expand_binomial a b e) x y = (a * x + b * y) ^ e.
Proof.
  unfold expand_binomial. rewrite hom_map. rewrite <- binomial_value. unfold psum. apply rsum_ext. intros k Hk.
  rewrite !Rpow_mult_distr. ring.
Qed.

(** ** homogenized_cheby *)
Definition tc (n k : nat) : R := if Nat.even k then INR (binom n k) * (-1) ^ (k / 2) else 0.
Definition uc (n k : nat) : R := if Nat.odd k then INR (binom n k) * (-1) ^ ((k - 1) / 2) else 0.
Lemma half_even k : Nat.even k = true -> ((S k - 1) / 2 = k / 2)%nat.
Proof. intros _. f_equal. lia. Qed.
Lemma half_odd k : Nat.odd k = true -> (S k / 2 = S ((k - 1) / 2))%nat.
Proof.
  intros H. apply Nat.odd_spec in H. destruct H as [m ->].
  replace (S (2 * m + 1)) with (S m * 2)%nat by lia. replace (2 * m + 1 - 1)%nat with (m * 2)%nat by lia.
  rewrite !Nat.div_mul by lia. reflexivity.
Qed.
Lemma tc_S n k : tc (S n) (S k) = tc n (S k) + (- uc n k).
Proof.
  unfold tc, uc. rewrite Nat.even_succ. destruct (Nat.odd k) eqn:E; [|ring].
  rewrite binom_S, plus_INR, (half_odd k E). cbn [pow]. ring.
Qed.
Lemma uc_S n k : uc (S n) (S k) = uc n (S k) + tc n k.
Proof.
  unfold tc, uc. rewrite Nat.odd_succ. destruct (Nat.even k) eqn:E; [|ring].
  rewrite binom_S, plus_INR, (half_even k E). ring.
Qed.
Lemma tc_uc_value n x y r a : x = r * cos a -> y = r * sin a ->
  psum tc n x y = r ^ n * cos (INR n * a) /\ psum uc n x y = r ^ n * sin (INR n * a).
Proof.
  intros Hx Hy. induction n.
  - unfold psum, tc, uc. cbn. rewrite Rmult_0_l, cos_0, sin_0. split; ring.
  - destruct IHn as [I1 I2]. rewrite (psum_S tc (fun n k => - uc n k)), (psum_S uc tc).
    + assert (N : psum (fun n k => - uc n k) n x y = - psum uc n x y).
      { unfold psum. rewrite <- rsum_opp. apply rsum_ext. intros. ring. }
      rewrite N, I1, I2, Hx, Hy, S_INR. replace ((INR n + 1) * a) with (INR n * a + a) by ring. rewrite cos_plus, sin_plus. cbn [pow].
      split; ring.
    + unfold uc. cbn. reflexivity.
    + intros k. apply uc_S.
    + unfold uc. rewrite binom_over by lia. destruct (Nat.odd (S n)); [cbn [INR]|]; ring.
    + unfold tc. rewrite !binom_0. reflexivity.
    + intros k. apply tc_S.
    + unfold tc. rewrite binom_over by lia. destruct (Nat.even (S n)); [cbn [INR]|]; ring.
Qed.
Lemma cheby_length n u : length (cheby_poly n u) = S (Z.abs_nat n).
Proof. unfold cheby_poly. rewrite map_length, seq_length. lia. Qed.
Lemma cheby_t_value n r a : hom_value (cheby_poly n false) (r * cos a) (r * sin a) = r ^ Z.abs_nat n * cos (IZR n * a).
Proof.
  unfold cheby_poly. rewrite hom_map. change (rsum _ _) with (psum tc (Z.abs_nat n) (r * cos a) (r * sin a)).
  destruct (tc_uc_value (Z.abs_nat n) _ _ r a eq_refl eq_refl) as [-> _]. f_equal.
  rewrite INR_IZR_INZ, Zabs2Nat.id_abs. destruct (Z.abs_spec n) as [[_ ->]|[_ ->]]; auto.
  rewrite opp_IZR. replace (- IZR n * a) with (- (IZR n * a)) by ring. apply cos_neg.
Qed.
Lemma cheby_u_value n r a : hom_value (cheby_poly n true) (r * cos a) (r * sin a) = r ^ Z.abs_nat n * sin (IZR n * a).
Proof.
  unfold cheby_poly. rewrite hom_map.
  transitivity (IZR (Z.sgn n) * psum uc (Z.abs_nat n) (r * cos a) (r * sin a)).
  { unfold psum. rewrite <- rsum_scal. apply rsum_ext. intros i _. unfold uc. destruct (Nat.odd i); ring. }
  destruct (tc_uc_value (Z.abs_nat n) _ _ r a eq_refl eq_refl) as [_ ->].
  rewrite INR_IZR_INZ, Zabs2Nat.id_abs. destruct (Z.lt_trichotomy n 0) as [H|[->|H]].
  - rewrite (Z.sgn_neg n H), (Z.abs_neq n) by lia. rewrite opp_IZR. replace (- IZR n * a) with (- (IZR n * a)) by ring. rewrite sin_neg. ring.
  - change (Z.sgn 0) with 0%Z. change (Z.abs 0) with 0%Z. replace (IZR 0 * a) with 0 by ring. rewrite sin_0. ring.
  - rewrite (Z.sgn_pos n H), (Z.abs_eq n) by lia. ring.
Qed.

(** ** laplacian_power *)
Lemma rsum_even k g : rsum (2 * k + 1) (fun i => if Nat.even i then g (i / 2)%nat else 0) = rsum (k + 1) g.
Proof.
  induction k; [cbn; reflexivity|].
  replace (2 * S k + 1)%nat with (S (S (2 * k + 1))) by lia. cbn [rsum]. rewrite IHk.
  replace (S k + 1)%nat with (S (k + 1)) by lia. cbn [rsum].
  replace (Nat.even (2 * k + 1)) with false by (symmetry; rewrite Nat.add_1_r, Nat.even_succ, Nat.odd_mul; reflexivity).
  replace (Nat.even (S (2 * k + 1))) with true by (symmetry; rewrite Nat.even_succ, Nat.add_1_r, Nat.odd_succ, Nat.even_mul; reflexivity).
  replace (S (2 * k + 1) / 2)%nat with (k + 1)%nat by (replace (S (2 * k + 1)) with ((k + 1) * 2)%nat by lia; rewrite Nat.div_mul; lia).
  ring.
Qed.
Lemma laplacian_length k : length (laplacian_power k) = (2 * k + 1)%nat.
Proof. unfold laplacian_power. rewrite map_length, seq_length. reflexivity. Qed.
Lemma laplacian_value k x y : hom_value (laplacian_power k) x y = (x * x + y * y) ^ k.
Proof.
  unfold laplacian_power. rewrite hom_map.
  rewrite (rsum_ext _ _ (fun i => if Nat.even i then INR (binom k (i / 2)) * ((x * x) ^ (k - i / 2) * (y * y) ^ (i / 2)) else 0)).
  - rewrite (rsum_even k (fun j => INR (binom k j) * ((x * x) ^ (k - j) * (y * y) ^ j))).
    rewrite <- binomial_value. reflexivity.
  - intros i Hi. destruct (Nat.even i) eqn:E; [|ring]. apply Nat.even_spec in E. destruct E as [m ->].
    replace (2 * m / 2)%nat with m by (rewrite Nat.mul_comm, Nat.div_mul; lia).
    replace (2 * k - 2 * m)%nat with (2 * (k - m))%nat by lia. rewrite !pow_mult. cbn [pow]. rewrite !Rmult_1_r. reflexivity.
Qed.

(** ** multiply_polynomials *)
Lemma lsum_filter (p : nat -> bool) (f : nat -> R) n : lsum (map f (filter p (seq 0 n))) = rsum n (fun i => if p i then f i else 0).
Proof.
  rewrite rsum_lsum. generalize 0%nat. induction n; intros s; [reflexivity|]. cbn [seq filter map lsum fold_right].
  destruct (p s); cbn [map fold_right]; unfold lsum in *; cbn [fold_right]; rewrite IHn; ring.
Qed.
Lemma multiply_length a b : length (multiply_polynomials a b) = (length a + length b - 1)%nat.
Proof. unfold multiply_polynomials. rewrite map_length, seq_length. reflexivity. Qed.
(** sum over k of the terms with l + j = k *)
Lemma rsum_shift N m l (g : nat -> R) : (l + m <= N)%nat ->
  rsum N (fun k => if ((l <=? k) && (k - l <? m))%nat%bool then g (k - l)%nat else 0) = rsum m g.
Proof.
  intros H. replace N with (l + (m + (N - l - m)))%nat by lia. rewrite !rsum_split.
  rewrite (rsum_0 l), (rsum_0 (N - l - m)).
  - rewrite (rsum_ext m _ g); [ring|]. intros i Hi. replace (l <=? l + i)%nat with true by (symmetry; apply Nat.leb_le; lia).
    replace (l + i - l)%nat with i by lia. replace (i <? m)%nat with true by (symmetry; apply Nat.ltb_lt; lia). reflexivity.
  - intros i Hi. replace (l + (m + i) - l <? m)%nat with false by (symmetry; apply Nat.ltb_ge; lia). rewrite andb_false_r. reflexivity.
  - intros i Hi. replace (l <=? i)%nat with false by (symmetry; apply Nat.leb_gt; lia). reflexivity.
Qed.
Lemma multiply_value a b x y : a <> [] -> b <> [] -> hom_value (multiply_polynomials a b) x y = hom_value a x y * hom_value b x y.
Proof.
  intros Ha Hb. set (n := length a). set (m := length b).
  assert (Hn : (0 < n)%nat) by (unfold n; destruct a; [congruence|cbn; lia]).
  assert (Hm : (0 < m)%nat) by (unfold m; destruct b; [congruence|cbn; lia]).
  unfold multiply_polynomials. fold n m. replace (n + m - 1)%nat with (n + m - 2 + 1)%nat by lia. rewrite hom_map.
  rewrite (rsum_ext _ _ (fun k => rsum n (fun l => if ((l <=? k) && (k - l <? m))%nat%bool then
     (nth l a 0 * x ^ (n - 1 - l) * y ^ l) * (nth (k - l) b 0 * x ^ (m - 1 - (k - l)) * y ^ (k - l)) else 0))).
  - rewrite rsum_swap. rewrite (hom_sum a), <- rsum_scal_r. fold n. apply rsum_ext. intros l Hl.
    rewrite (rsum_shift (n + m - 2 + 1) m l (fun j => nth l a 0 * x ^ (n - 1 - l) * y ^ l * (nth j b 0 * x ^ (m - 1 - j) * y ^ j))) by lia.
    rewrite rsum_scal, (hom_sum b). fold m. f_equal; [ring|]. apply rsum_ext. intros. ring.
  - intros k Hk. rewrite (lsum_filter (fun l => ((l <? n) && (k - l <? m))%nat%bool) (fun l => nth l a 0 * nth (k - l) b 0)).
    rewrite <- rsum_scal_r.
    (* both sums over a common range *)
    set (M := (n + k + 1)%nat).
    transitivity (rsum M (fun l => if ((l <? n) && ((l <=? k) && (k - l <? m)))%nat%bool then
      (nth l a 0 * x ^ (n - 1 - l) * y ^ l) * (nth (k - l) b 0 * x ^ (m - 1 - (k - l)) * y ^ (k - l)) else 0)).
    + unfold M. replace (n + k + 1)%nat with ((k + 1) + n)%nat by lia. rewrite (rsum_split (k + 1) n).
      rewrite (rsum_0 n) by (intros i Hi; replace (k + 1 + i <=? k)%nat with false by (symmetry; apply Nat.leb_gt; lia); rewrite andb_false_r; reflexivity).
      rewrite Rplus_0_r. apply rsum_ext. intros l Hl. replace (l <=? k)%nat with true by (symmetry; apply Nat.leb_le; lia). cbn [andb].
      destruct (l <? n)%nat eqn:E1; [|cbn [andb]; ring]. destruct (k - l <? m)%nat eqn:E2; cbn [andb]; [|ring].
      apply Nat.ltb_lt in E1, E2.
      replace (n + m - 2 - k)%nat with ((n - 1 - l) + (m - 1 - (k - l)))%nat by lia.
      replace k with (l + (k - l))%nat at 3 by lia. rewrite !pow_add. ring.
    + unfold M. replace (n + k + 1)%nat with (n + (k + 1))%nat by lia. rewrite (rsum_split n (k + 1)).
      rewrite (rsum_0 (k + 1)) by (intros i Hi; replace (n + i <? n)%nat with false by (symmetry; apply Nat.ltb_ge; lia); reflexivity).
      rewrite Rplus_0_r. apply rsum_ext. intros l Hl. replace (l <? n)%nat with true by (symmetry; apply Nat.ltb_lt; lia). reflexivity.
Qed.

(** ** transform_polynomial *)
Lemma poly_add_length p q : length q = length p -> length (poly_add p q) = length p.
Proof. intros H. unfold poly_add. rewrite map_length, combine_length. lia. Qed.
Lemma poly_scale_length c p : length (poly_scale c p) = length p.
Proof. apply map_length. Qed.
Lemma poly_add_value p : forall q x y, length q = length p -> hom_value (poly_add p q) x y = hom_value p x y + hom_value q x y.
Proof.
  induction p as [|a p IH]; intros [|b q] x y H; try discriminate; [cbn; ring|]. injection H as H.
  unfold poly_add. cbn [combine map hom_value fst snd]. fold (poly_add p q). rewrite IH by auto. rewrite poly_add_length by auto. rewrite H. ring.
Qed.
Lemma poly_scale_value c p x y : hom_value (poly_scale c p) x y = c * hom_value p x y.
Proof. induction p as [|a p IH]; [cbn; ring|]. cbn [poly_scale map hom_value]. unfold poly_scale in IH. rewrite IH, map_length. ring. Qed.
Lemma repeat0_value n x y : hom_value (repeat 0 n) x y = 0.
Proof. induction n; [reflexivity|]. cbn [repeat hom_value]. rewrite IHn. ring. Qed.

Lemma transform_ok c A : c <> [] ->
  length (transform_polynomial c A) = length c /\
  forall x y, hom_value (transform_polynomial c A) x y =
    hom_value c (A 0%nat 0%nat * x + A 1%nat 0%nat * y) (A 0%nat 1%nat * x + A 1%nat 1%nat * y).
Proof.
  intros Hc. set (n := (length c - 1)%nat). assert (Ln : length c = (n + 1)%nat) by (unfold n; destruct c; [congruence|cbn; lia]).
  unfold transform_polynomial. fold n.
  set (X := fun x y => A 0%nat 0%nat * x + A 1%nat 0%nat * y). set (Y := fun x y => A 0%nat 1%nat * x + A 1%nat 1%nat * y).
  set (step := fun transformed i => poly_add transformed (poly_scale (nth i c 0)
      (multiply_polynomials (expand_binomial (A 0%nat 0%nat) (A 1%nat 0%nat) (n - i)) (expand_binomial (A 0%nat 1%nat) (A 1%nat 1%nat) i)))).
  assert (H : forall m s t, (s + m <= n + 1)%nat -> length t = (n + 1)%nat ->
    length (fold_left step (seq s m) t) = (n + 1)%nat /\
    forall x y, hom_value (fold_left step (seq s m) t) x y =
      hom_value t x y + rsum m (fun i => nth (s + i) c 0 * (X x y ^ (n - (s + i)) * Y x y ^ (s + i)))).
  { induction m; intros s t Hs Ht; cbn [seq fold_left].
    - split; auto. intros. cbn. ring.
    - assert (Lt : length (poly_scale (nth s c 0) (multiply_polynomials (expand_binomial (A 0%nat 0%nat) (A 1%nat 0%nat) (n - s))
               (expand_binomial (A 0%nat 1%nat) (A 1%nat 1%nat) s))) = length t).
      { rewrite poly_scale_length, multiply_length, !expand_binomial_length. lia. }
      destruct (IHm (S s) (step t s)) as [L V]; [lia|unfold step; rewrite poly_add_length; auto|]. split; auto.
      intros x y. rewrite V, rsum_S_l. unfold step at 1. rewrite poly_add_value by auto. rewrite poly_scale_value, multiply_value, !expand_binomial_value.
      + rewrite Nat.add_0_r. fold (X x y) (Y x y). rewrite (rsum_ext m (fun i => nth (S s + i) c 0 * (X x y ^ (n - (S s + i)) * Y x y ^ (S s + i)))
          (fun i => nth (s + S i) c 0 * (X x y ^ (n - (s + S i)) * Y x y ^ (s + S i)))).
        * ring.
        * intros i _. replace (S s + i)%nat with (s + S i)%nat by lia. reflexivity.
      + intros E. apply (f_equal (@length R)) in E. rewrite expand_binomial_length in E. cbn in E. lia.
      + intros E. apply (f_equal (@length R)) in E. rewrite expand_binomial_length in E. cbn in E. lia. }
  destruct (H (n + 1)%nat 0%nat (repeat 0 (n + 1))) as [L V]; [lia|apply repeat_length|].
  split; [rewrite Ln; exact L|]. intros x y. etransitivity; [apply V|]. rewrite repeat0_value, Rplus_0_l.
  rewrite (hom_sum c). rewrite Ln. apply rsum_ext. intros i _. replace (n + 1 - 1 - i)%nat with (n - i)%nat by lia. reflexivity.
Qed.
