(** How the pixels with the largest norm move with the image. *)
From Coq Require Import Reals ZArith String List Bool Lia Lra.
From Verif Require Import Base LinAlg Model_Groups Model_Rep Model_FieldType Model_GSpace Spec_GSpace Proofs_GSpace Model_Conv Spec_Conv Proofs_Conv Proofs_Conv2 Proofs_Conv3 Proofs_Conv4 Proofs_Conv5 Proofs_Conv6
  Proofs_Tensor Spec_Fieldwise Proofs_Fieldwise8 Model_Pool Spec_Pool Proofs_Pool Proofs_Pool2 Model_NormMax Spec_NormMax Proofs_NormMax.
Import ListNotations.
Open Scope R_scope.

Lemma in_window_flip h k p d s q i r : (h + 2 * p = q * s + d * (k - 1) + 1)%nat -> (i < q + 1)%nat -> in_window h k p d s i r ->
  in_window h k p d s (q + 1 - 1 - i) (h - 1 - r).
Proof.
  intros T Hi (R & ky & K & E). split; [lia|]. exists (k - 1 - ky)%nat. split; [lia|].
  assert (E1 : ((q + 1 - 1 - i) * s + i * s = q * s)%nat) by (rewrite <- Nat.mul_add_distr_r; f_equal; lia).
  assert (E2 : ((k - 1 - ky) * d + ky * d = d * (k - 1))%nat) by (rewrite <- Nat.mul_add_distr_r; replace (k - 1 - ky + ky)%nat with (k - 1)%nat by lia; apply Nat.mul_comm).
  revert T E E1 E2. generalize ((q + 1 - 1 - i) * s)%nat (i * s)%nat (q * s)%nat ((k - 1 - ky) * d)%nat (ky * d)%nat (d * (k - 1))%nat. intros; lia.
Qed.

Section U.
Context {G B : Type} (reps : list (rep G)) (k s p d : nat * nat).
Notation n := (nsum (map rp_size reps)).
Notation in_win := (in_win k s p d).
Notation wins := (wins k s p d).
(** wherever the norm is largest in a window of x, y has the field of x *)
Definition unique (x y : arr (B -> vec)) : Prop :=
  forall i j b f r u v, (i < a_h y)%nat -> (j < a_w y)%nat -> nth_error reps f = Some r -> wins x i j b (rp_size r) (start reps f) u v ->
  forall a, (a < rp_size r)%nat -> a_px y i j b (start reps f + a)%nat = a_px x u v b (start reps f + a)%nat.
Definition alike (v v' : B -> vec) : Prop := forall b c, (c < n)%nat -> v b c = v' b c.
Lemma chan_lt f r a : nth_error reps f = Some r -> (a < rp_size r)%nat -> (start reps f + a < n)%nat.
Proof.
  intros Hr Ha. assert (Hf : (f < length reps)%nat) by (apply nth_error_Some; congruence).
  pose proof (field_lt 1 ltac:(lia) reps f r a (length reps) Hr Ha Hf) as Q. unfold field_offset in Q at 2. rewrite firstn_all in Q. exact Q.
Qed.
Lemma alike_norm v v' b f r : alike v v' -> nth_error reps f = Some r -> norm2 (rp_size r) (start reps f) (v b) = norm2 (rp_size r) (start reps f) (v' b).
Proof. intros A Hr. unfold norm2. apply rsum_ext. intros a Ha. rewrite !A by (eapply chan_lt; eauto). reflexivity. Qed.

Lemma unique_move (x x' y y' : arr (B -> vec)) :
  (forall i' j', (i' < a_h y')%nat -> (j' < a_w y')%nat -> exists i j, (i < a_h y)%nat /\ (j < a_w y)%nat /\ alike (a_px y' i' j') (a_px y i j) /\
     (forall u' v', in_win x' i' j' u' v' -> exists u v, in_win x i j u v /\ alike (a_px x' u' v') (a_px x u v)) /\
     (forall u v, in_win x i j u v -> exists u' v', in_win x' i' j' u' v' /\ alike (a_px x' u' v') (a_px x u v))) ->
  unique x y -> unique x' y'.
Proof.
  intros M U i' j' b f r u' v' Hi Hj Hr [W1 W2] a Ha. destruct (M i' j' Hi Hj) as (i & j & Ii & Jj & Y & F1 & F2).
  destruct (F1 u' v' W1) as (u & v & V1 & V2). rewrite Y, V2 by (eapply chan_lt; eauto). apply (U i j b f r u v Ii Jj Hr); auto.
  split; [exact V1|]. intros u2 v2 I2. destruct (F2 u2 v2 I2) as (u3 & v3 & I3 & A3). rewrite <- (alike_norm _ _ b f r A3 Hr), <- (alike_norm _ _ b f r V2 Hr). auto.
Qed.

(** the output has one pixel for each of the windows, which tile the image *)
Definition tiles (x y : arr (B -> vec)) : Prop :=
  exists q1 q2, (a_h x + 2 * fst p = q1 * fst s + fst d * (fst k - 1) + 1)%nat /\ (a_w x + 2 * snd p = q2 * snd s + snd d * (snd k - 1) + 1)%nat /\
    a_h y = (q1 + 1)%nat /\ a_w y = (q2 + 1)%nat.
Lemma flip_back a b : (a < b)%nat -> (b - 1 - (b - 1 - a))%nat = a.
Proof. lia. Qed.
Lemma unique_rows x y : tiles x y -> unique x y -> unique (flip_rows x) (flip_rows y).
Proof.
  intros (q1 & q2 & T1 & T2 & Y1 & Y2) U. apply (unique_move x _ y); auto. cbn [flip_rows a_h a_w]. intros i j Hi Hj.
  exists (a_h y - 1 - i)%nat, j. split; [lia|]. split; [auto|]. split; [intros b c _; reflexivity|]. cbn [flip_rows a_px]. rewrite Y1 in *. split.
  - intros u v [W1 W2]. cbn [flip_rows a_h a_w] in W1, W2. exists (a_h x - 1 - u)%nat, v. split; [|intros b c _; reflexivity]. split; [|exact W2]. apply in_window_flip; auto.
  - intros u v [W1 W2]. pose proof (in_window_flip _ _ _ _ _ q1 (q1 + 1 - 1 - i) u T1 ltac:(lia) W1) as W1'. rewrite flip_back in W1' by lia.
    exists (a_h x - 1 - u)%nat, v. split; [split; auto|]. destruct W1 as [W1 _]. rewrite flip_back by auto. intros b c _. reflexivity.
Qed.
Lemma unique_cols x y : tiles x y -> unique x y -> unique (flip_cols x) (flip_cols y).
Proof.
  intros (q1 & q2 & T1 & T2 & Y1 & Y2) U. apply (unique_move x _ y); auto. cbn [flip_cols a_h a_w]. intros i j Hi Hj.
  exists i, (a_w y - 1 - j)%nat. split; [auto|]. split; [lia|]. split; [intros b c _; reflexivity|]. cbn [flip_cols a_px]. rewrite Y2 in *. split.
  - intros u v [W1 W2]. cbn [flip_cols a_h a_w] in W1, W2. exists u, (a_w x - 1 - v)%nat. split; [|intros b c _; reflexivity]. split; [exact W1|]. apply in_window_flip; auto.
  - intros u v [W1 W2]. pose proof (in_window_flip _ _ _ _ _ q2 (q2 + 1 - 1 - j) v T2 ltac:(lia) W2) as W2'. rewrite flip_back in W2' by lia.
    exists u, (a_w x - 1 - v)%nat. split; [split; auto|]. destruct W2 as [W2 _]. rewrite flip_back by auto. intros b c _. reflexivity.
Qed.
Lemma unique_tr x y : square p k d s -> unique x y -> unique (transpose x) (transpose y).
Proof.
  intros (E1 & E2 & E3 & E4) U. apply (unique_move x _ y); auto. cbn [transpose a_h a_w]. intros i j Hi Hj. exists j, i. split; [auto|]. split; [auto|]. split; [intros b c _; reflexivity|].
  unfold Spec_NormMax.in_win. cbn [transpose a_h a_w a_px]. rewrite E1, E2, E3, E4. split.
  - intros u v [W1 W2]. exists v, u. split; [auto|intros b c _; reflexivity].
  - intros u v [W1 W2]. exists v, u. split; [auto|intros b c _; reflexivity].
Qed.
Lemma unique_same x x' y y' : same_field n x x' -> same_field n y y' -> unique x y -> unique x' y'.
Proof.
  intros (X1 & X2 & X3) (Y1 & Y2 & Y3) U. apply (unique_move x _ y); auto. intros i j Hi Hj. rewrite <- Y1 in Hi. rewrite <- Y2 in Hj.
  exists i, j. split; [auto|]. split; [auto|]. split; [intros b c Hc; symmetry; auto|]. unfold Spec_NormMax.in_win. rewrite <- X1, <- X2.
  split; intros u v W; exists u, v; (split; [exact W|]); destruct W as [[W1 _] [W2 _]]; intros b c Hc; symmetry; auto.
Qed.
Lemma norm2_orth g v f r : nth_error reps f = Some r -> orthogonal (rp_size r) (rp_mat r g) ->
  norm2 (rp_size r) (start reps f) (mvec n (trep reps g) v) = norm2 (rp_size r) (start reps f) v.
Proof.
  intros Hr [_ O]. unfold norm2. set (m := rp_size r) in *. set (A := rp_mat r g) in *. set (w := fun b => v (start reps f + b)%nat).
  rewrite (rsum_ext m _ (fun a => rsum m (fun c => rsum m (fun e => A a c * A a e * (w c * w e))))).
  2:{ intros a Ha. change (start reps f) with (field_offset reps f). change n with (csum reps). rewrite (mvec_trep reps g v f r a Hr Ha). change (field_offset reps f) with (start reps f).
      fold w m A. unfold mvec. rewrite <- rsum_scal_r. apply rsum_ext. intros c Hc. rewrite <- rsum_scal. apply rsum_ext. intros e He. ring. }
  rewrite rsum_swap. apply rsum_ext. intros c Hc. rewrite rsum_swap.
  rewrite (rsum_ext m _ (fun e => if Nat.eqb e c then w c * w c else 0)).
  - apply (rsum_at m c (fun e => w e * w e)). auto.
  - intros e He. rewrite rsum_scal_r. specialize (O c e Hc He). unfold mmul, mtr, mid in O. rewrite O. rewrite Nat.eqb_sym. destruct (Nat.eqb_spec e c); subst; ring.
Qed.
Lemma unique_lin g x y : (forall r, In r reps -> orthogonal (rp_size r) (rp_mat r g)) -> unique x y ->
  unique (amap (fun v b => mvec n (trep reps g) (v b)) x) (amap (fun v b => mvec n (trep reps g) (v b)) y).
Proof.
  intros O U i j b f r u v Hi Hj Hr [W1 W2] a Ha. cbn [amap a_px a_h a_w] in *. change (start reps f) with (field_offset reps f). change n with (csum reps).
  rewrite !(mvec_trep reps g _ f r a Hr Ha). unfold mvec. apply rsum_ext. intros c Hc. apply f_equal. apply (U i j b f r u v); auto. split; [exact W1|].
  intros u' v' I'. specialize (W2 u' v' I'). cbn [amap a_px] in W2. rewrite !norm2_orth in W2 by (auto; apply O; eapply nth_error_In; eauto). exact W2.
Qed.

Lemma tiles_rows x y : tiles x y -> tiles (flip_rows x) (flip_rows y). Proof. auto. Qed.
Lemma tiles_cols x y : tiles x y -> tiles (flip_cols x) (flip_cols y). Proof. auto. Qed.
Lemma tiles_tr x y : square p k d s -> tiles x y -> tiles (transpose x) (transpose y).
Proof.
  intros (E1 & E2 & E3 & E4) (q1 & q2 & T1 & T2 & Y1 & Y2). exists q2, q1. cbn [transpose a_h a_w]. rewrite E1, E2, E3, E4 in *. auto.
Qed.
Lemma unique_turn f kk x y : square p k d s \/ Z.even kk = true -> tiles x y -> unique x y -> unique (turn f kk x) (turn f kk y).
Proof.
  intros Q T U. unfold turn.
  assert (X : forall x y, tiles x y -> unique x y -> unique (rot90 x kk) (rot90 y kk)).
  { clear x y T U. intros x y T U. assert (E : forall j, (kk mod 4 = j -> Z.even kk = Z.even j)%Z).
    { intros j <-. rewrite (Z.div_mod kk 4) at 1 by lia. rewrite Z.even_add, Z.even_mul. cbn [Z.even orb]. destruct (Z.even (kk mod 4)); reflexivity. }
    rewrite (rot90_red x), (rot90_red y). destruct (mod4 kk) as [W|[W|[W|W]]]; rewrite W.
    - exact U.
    - assert (S : square p k d s) by (destruct Q as [Q|Q]; auto; rewrite (E _ W) in Q; discriminate). cbn. apply unique_tr, unique_cols; auto.
    - cbn. apply unique_cols, unique_rows; auto using tiles_rows.
    - assert (S : square p k d s) by (destruct Q as [Q|Q]; auto; rewrite (E _ W) in Q; discriminate). cbn. apply unique_cols; [apply tiles_tr; auto|apply unique_tr; auto]. }
  destruct f; apply X; auto using tiles_rows, unique_rows.
Qed.
Lemma unique_pooled x y y' : a_h y = a_h y' -> a_w y = a_w y' -> unique x y -> norm_pooled reps k s p d x y' -> same_field n y' y.
Proof.
  intros H1 H2 U P. split; [auto|]. split; [auto|]. intros i j b c Hi Hj Hc. destruct (channel_in_field reps c Hc) as (f & r & a & Hr & Ha & ->).
  destruct (P i j b f r Hi Hj Hr) as (u & v & W & V). change (field_offset reps f) with (start reps f). rewrite V by auto. symmetry. apply (U i j b f r u v); auto; congruence.
Qed.
End U.
