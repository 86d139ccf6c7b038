(** Transposed convolution commutes with flips, transposition and quarter turns. *)
From Coq Require Import Reals ZArith String List Bool Lia Lra FunctionalExtensionality.
From Verif Require Import Base Model_Groups Model_FieldType Model_GSpace Spec_GSpace Proofs_GSpace Model_Conv Proofs_Conv Proofs_Conv4 Proofs_Conv6 Model_ConvT.
Import ListNotations.
Open Scope R_scope.

Definition tsize (s d p k H : nat) : nat := ((H - 1) * s + d * (k - 1) + 1 + 0 - 2 * p)%nat.
Definition cvt {B} (n s d p : nat) (F : arr mat) (X : arr (B -> vec)) : arr (B -> vec) :=
  MkArr (tsize s d p (a_h F) (a_h X)) (tsize s d p (a_w F) (a_w X)) (fun u v b o =>
    rsum (a_h X) (fun i => rsum (a_w X) (fun j => rsum (a_h F) (fun ky => rsum (a_w F) (fun kx =>
      if ((i * s + ky * d =? u + p) && (j * s + kx * d =? v + p))%nat%bool
      then rsum n (fun c => a_px F ky kx o c * a_px X i j b c) else 0))))).

Lemma ct_idx_flip s d p k H u i ky : (u < tsize s d p k H)%nat -> (i < H)%nat -> (ky < k)%nat ->
  ((H - 1 - i) * s + (k - 1 - ky) * d =? u + p)%nat = (i * s + ky * d =? (tsize s d p k H - 1 - u) + p)%nat.
Proof.
  intros Hu Hi Hk. unfold tsize in *.
  assert (E1 : ((H - 1) * s = (H - 1 - i) * s + i * s)%nat) by (rewrite <- Nat.mul_add_distr_r; f_equal; lia).
  assert (E2 : (d * (k - 1) = (k - 1 - ky) * d + ky * d)%nat) by (rewrite <- Nat.mul_add_distr_r, Nat.mul_comm; f_equal; lia).
  destruct (Nat.eqb_spec ((H - 1 - i) * s + (k - 1 - ky) * d) (u + p)) as [Q|Q]; symmetry; [apply Nat.eqb_eq|apply Nat.eqb_neq]; lia.
Qed.

Lemma cvt_flip_rows {B} n s d p F (X : arr (B -> vec)) : arr_eq (cvt n s d p (flip_rows F) (flip_rows X)) (flip_rows (cvt n s d p F X)).
Proof.
  split; [reflexivity|]. split; [reflexivity|]. cbn [cvt flip_rows a_h a_w a_px]. intros u v Hu Hv. extensionality b. extensionality o.
  rewrite rsum_rev. apply rsum_ext. intros i Hi. apply rsum_ext. intros j Hj. rewrite rsum_rev. apply rsum_ext. intros ky Hky. apply rsum_ext. intros kx Hkx.
  rewrite (ct_idx_flip s d p (a_h F) (a_h X) u i ky Hu Hi Hky). replace (a_h F - 1 - (a_h F - 1 - ky))%nat with ky by lia. replace (a_h X - 1 - (a_h X - 1 - i))%nat with i by lia. reflexivity.
Qed.
Lemma cvt_flip_cols {B} n s d p F (X : arr (B -> vec)) : arr_eq (cvt n s d p (flip_cols F) (flip_cols X)) (flip_cols (cvt n s d p F X)).
Proof.
  split; [reflexivity|]. split; [reflexivity|]. cbn [cvt flip_cols a_h a_w a_px]. intros u v Hu Hv. extensionality b. extensionality o.
  apply rsum_ext. intros i Hi. rewrite rsum_rev. apply rsum_ext. intros j Hj. apply rsum_ext. intros ky Hky. rewrite rsum_rev. apply rsum_ext. intros kx Hkx.
  rewrite (ct_idx_flip s d p (a_w F) (a_w X) v j kx Hv Hj Hkx). replace (a_w F - 1 - (a_w F - 1 - kx))%nat with kx by lia. replace (a_w X - 1 - (a_w X - 1 - j))%nat with j by lia. reflexivity.
Qed.
Lemma cvt_transpose {B} n s d p F (X : arr (B -> vec)) : arr_eq (cvt n s d p (transpose F) (transpose X)) (transpose (cvt n s d p F X)).
Proof.
  split; [reflexivity|]. split; [reflexivity|]. cbn [cvt transpose a_h a_w a_px]. intros u v Hu Hv. extensionality b. extensionality o.
  rewrite rsum_swap. apply rsum_ext. intros i Hi. apply rsum_ext. intros j Hj. rewrite rsum_swap. apply rsum_ext. intros ky Hky. apply rsum_ext. intros kx Hkx.
  rewrite andb_comm. reflexivity.
Qed.
Lemma cvt_eq {B} n s d p F F' (X X' : arr (B -> vec)) : arr_eq F F' -> arr_eq X X' -> arr_eq (cvt n s d p F X) (cvt n s d p F' X').
Proof.
  intros (F1 & F2 & F3) (X1 & X2 & X3). split; [cbn; congruence|]. split; [cbn; congruence|]. cbn [cvt a_h a_w a_px]. intros u v Hu Hv. extensionality b. extensionality o.
  rewrite <- F1, <- F2, <- X1, <- X2. apply rsum_ext. intros i Hi. apply rsum_ext. intros j Hj. apply rsum_ext. intros ky Hky. apply rsum_ext. intros kx Hkx.
  rewrite F3, X3 by auto. reflexivity.
Qed.
Lemma cvt_rot90 {B} n s d p F (X : arr (B -> vec)) k : arr_eq (cvt n s d p (rot90 F k) (rot90 X k)) (rot90 (cvt n s d p F X) k).
Proof.
  rewrite !rot90_red. destruct (mod4 k) as [Q|[Q|[Q|Q]]]; rewrite Q.
  - apply arr_eq_refl.
  - eapply arr_eq_trans; [apply cvt_transpose|]. apply transpose_eq. apply cvt_flip_cols.
  - eapply arr_eq_trans; [apply cvt_flip_cols|]. apply flip_cols_eq. apply cvt_flip_rows.
  - eapply arr_eq_trans; [apply cvt_flip_cols|]. apply flip_cols_eq. apply cvt_transpose.
Qed.
Lemma cvt_turn {B} n s d p F (X : arr (B -> vec)) f k : arr_eq (cvt n s d p (turn f k F) (turn f k X)) (turn f k (cvt n s d p F X)).
Proof.
  unfold turn. eapply arr_eq_trans; [apply cvt_rot90|]. apply rot90_eq. destruct f; [|apply arr_eq_refl]. apply cvt_flip_rows.
Qed.
Lemma cvt_same {B} n q s d p F (x y : arr (B -> vec)) : same_field n x y -> same_field q (cvt n s d p F x) (cvt n s d p F y).
Proof.
  intros (H1 & H2 & H3). split; [cbn; congruence|]. split; [cbn; congruence|]. cbn [cvt a_h a_w a_px]. intros u v b o Hu Hv _. rewrite <- H1, <- H2.
  apply rsum_ext. intros i Hi. apply rsum_ext. intros j Hj. apply rsum_ext. intros ky Hky. apply rsum_ext. intros kx Hkx.
  destruct (_ && _)%bool; [|reflexivity]. apply rsum_ext. intros c Hc. f_equal. apply H3; auto.
Qed.

Section Equivariance.
Context {B : Type}.
Variables (n m : nat) (M N N' : mat) (f : bool) (k : Z).
Hypothesis Hinv : meq n n (mmul n N' N) mid.
Variable F : arr mat.
Hypothesis Hsq : a_h F = a_w F.
Hypothesis HF : forall i j, (i < a_h F)%nat -> (j < a_w F)%nat -> meq m n (a_px F i j) (mmul n (mmul m M (a_px (turn f k F) i j)) N').

Lemma cvt_equivariant s d p (X : arr (B -> vec)) :
  same_field m (cvt n s d p F (amap (fun v b => mvec n N (v b)) (turn f k X))) (amap (fun v b => mvec m M (v b)) (turn f k (cvt n s d p F X))).
Proof.
  assert (P := amap_eq (fun v (b : B) => mvec m M (v b)) _ _ (cvt_turn n s d p F X f k)).
  destruct P as (P1 & P2 & P3).
  assert (TF : a_h (turn f k F) = a_h F /\ a_w (turn f k F) = a_w F) by (destruct (turn_dims f k F); lia).
  destruct TF as [TF1 TF2].
  cbn [amap cvt a_h a_w] in P1, P2. rewrite TF1 in P1. rewrite TF2 in P2.
  split; [cbn [amap cvt a_h]; rewrite <- P1; reflexivity|]. split; [cbn [amap cvt a_w]; rewrite <- P2; reflexivity|].
  intros u v b o Hu Hv Ho. assert (Hu' : (u < a_h (amap (fun v (b : B) => mvec m M (v b)) (cvt n s d p (turn f k F) (turn f k X))))%nat) by (cbn [amap cvt a_h] in *; rewrite TF1; exact Hu).
  assert (Hv' : (v < a_w (amap (fun v (b : B) => mvec m M (v b)) (cvt n s d p (turn f k F) (turn f k X))))%nat) by (cbn [amap cvt a_w] in *; rewrite TF2; exact Hv).
  assert (Q := f_equal (fun v => v b o) (P3 u v Hu' Hv')). cbn beta in Q. rewrite <- Q. clear Q P3.
  cbn [amap cvt a_px a_h a_w]. rewrite TF1, TF2. unfold mvec at 2.
  set (hX := a_h (turn f k X)). set (wX := a_w (turn f k X)).
  rewrite (rsum_ext m _ (fun o' => rsum hX (fun i => rsum wX (fun j => rsum (a_h F) (fun ky => rsum (a_w F) (fun kx => M o o' *
    (if ((i * s + ky * d =? u + p) && (j * s + kx * d =? v + p))%nat%bool
     then rsum n (fun c => a_px (turn f k F) ky kx o' c * a_px (turn f k X) i j b c) else 0))))))).
  2:{ intros o' Ho'. rewrite <- rsum_scal. apply rsum_ext. intros. rewrite <- rsum_scal. apply rsum_ext. intros. rewrite <- rsum_scal. apply rsum_ext. intros. rewrite <- rsum_scal. reflexivity. }
  symmetry. rewrite rsum_swap. apply rsum_ext. intros i Hi. rewrite rsum_swap. apply rsum_ext. intros j Hj. rewrite rsum_swap. apply rsum_ext. intros ky Hky. rewrite rsum_swap. apply rsum_ext. intros kx Hkx. symmetry.
  destruct (_ && _)%bool; [|rewrite rsum_0; [reflexivity|intros; ring]].
  set (V := a_px (turn f k X) i j b). set (T := a_px (turn f k F) ky kx).
  change (mvec n (a_px F ky kx) (mvec n N V) o = mvec m M (mvec n T V) o).
  transitivity (mvec n (mmul n (mmul m M T) N') (mvec n N V) o).
  { refine (mvec_compat m n _ _ _ _ (HF ky kx Hky Hkx) (fun c _ => eq_refl) o Ho). }
  rewrite mvec_mmul. transitivity (mvec n (mmul m M T) V o); [|apply mvec_mmul].
  refine (mvec_compat m n _ _ _ _ (fun i j _ _ => eq_refl) _ o Ho). intros c Hc. rewrite <- mvec_mmul.
  rewrite (mvec_compat n n _ _ _ _ Hinv (fun c _ => eq_refl) c Hc). apply mvec_id. exact Hc.
Qed.
End Equivariance.

(** ** the filter of a grouped transposed convolution as one of a plain one *)
Definition fullt (cg og : nat) (f : nat -> nat -> nat -> R) (s : nat) : mat :=
  fun o c => if (c / cg =? o / og)%nat then f (o mod og)%nat c s else 0.

Lemma conv_transpose_spec {B} cin cout k f bias stride dil groups p (x y : arr (B -> vec)) cg og :
  conv_transpose cin cout k (fun c o s => f o c s) bias stride dil groups p 0 x = Ok y ->
  (cin = groups * cg)%nat -> (cout = groups * og)%nat -> let F := MkArr k k (fun i j => fullt cg og f (i * k + j)%nat) in
  a_h y = a_h (cvt cin stride dil p F x) /\ a_w y = a_w (cvt cin stride dil p F x) /\
  forall u v b o, (o < cout)%nat -> a_px y u v b o = (match bias with Some w => w o | None => 0 end) + a_px (cvt cin stride dil p F x) u v b o.
Proof.
  unfold conv_transpose. cbv zeta. match goal with |- context [if ?c then _ else _] => destruct c eqn:E; [|discriminate] end. intros H. injection H as <-. intros Ecin Ecout. cbn [a_h a_w a_px cvt].
  rewrite !andb_true_iff, !Nat.ltb_lt in E. destruct E as [[[[[[[[[[E1 E2] E3] E4] E5] E6] E7] E8] E9] E10] E11].
  split; [reflexivity|]. split; [reflexivity|]. intros u v b o Ho. f_equal.
  assert (cin / groups = cg)%nat as -> by (rewrite Ecin, Nat.mul_comm, Nat.div_mul; lia).
  assert (cout / groups = og)%nat as -> by (rewrite Ecout, Nat.mul_comm, Nat.div_mul; lia).
  apply rsum_ext. intros i Hi. apply rsum_ext. intros j Hj. apply rsum_ext. intros ky Hky. apply rsum_ext. intros kx Hkx. destruct (_ && _)%bool; [|reflexivity].
  rewrite Ecin, rsum_groups.
  assert (Ho2 : (o / og < groups)%nat) by (apply Nat.div_lt_upper_bound; lia).
  rewrite (rsum_single groups (o / og)%nat _ Ho2).
  - apply rsum_ext. intros c Hc. unfold fullt. rewrite Nat.div_add_l by lia. rewrite (Nat.div_small c cg), Nat.add_0_r, Nat.eqb_refl by lia. reflexivity.
  - intros g Hg N. apply rsum_0. intros c Hc. unfold fullt. rewrite Nat.div_add_l by lia. rewrite (Nat.div_small c cg), Nat.add_0_r by lia.
    destruct (Nat.eqb_spec g (o / og)); [congruence|ring].
Qed.
Lemma conv_transpose_ok {B} cin cout k f bias stride dil groups p op (x x' y : arr (B -> vec)) : conv_transpose cin cout k f bias stride dil groups p op x = Ok y ->
  ((a_h x' = a_h x /\ a_w x' = a_w x) \/ (a_h x' = a_w x /\ a_w x' = a_h x)) -> exists y', conv_transpose cin cout k f bias stride dil groups p op x' = Ok y'.
Proof.
  unfold conv_transpose. cbv zeta. match goal with |- (if ?c then _ else _) = _ -> _ => destruct c eqn:E; [|discriminate] end. intros _ H.
  match goal with |- exists y, (if ?c then _ else _) = _ => assert (E' : c = true) end.
  { rewrite !andb_true_iff in *. destruct H as [[-> ->]|[-> ->]]; tauto. }
  rewrite E'. eauto.
Qed.
