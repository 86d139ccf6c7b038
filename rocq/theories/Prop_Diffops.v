(** C35: the polynomials of diffops/utils.py.  C38: the sizes of stencils. *)
From Coq Require Import Reals ZArith String List Bool Arith Lia Lra.
From Verif Require Import Base Model_Groups Model_Rep Model_Diffops Spec_Diffops Spec_Fd Proofs_Diffops Proofs_Fd.
Import ListNotations.
Open Scope R_scope.

(** * C35 *)
(** homogenized_cheby(n, "t") and homogenized_cheby(n, "u") are homogeneous polynomials of degree |n| (they have |n| + 1
    coefficients) with the values r^|n| cos(n a) and r^|n| sin(n a) at (r cos a, r sin a). *)
Theorem C35_cheby : forall n : Z, exists t u,
  homogenized_cheby n "t" = Ok t /\ homogenized_cheby n "u" = Ok u /\
  length t = S (Z.abs_nat n) /\ length u = S (Z.abs_nat n) /\
  forall r a, hom_value t (r * cos a) (r * sin a) = r ^ Z.abs_nat n * cos (IZR n * a) /\
              hom_value u (r * cos a) (r * sin a) = r ^ Z.abs_nat n * sin (IZR n * a).
Proof.
  intros n. exists (cheby_poly n false), (cheby_poly n true). split; [reflexivity|]. split; [reflexivity|].
  split; [apply cheby_length|]. split; [apply cheby_length|]. intros r a. split; [apply cheby_t_value|apply cheby_u_value].
Qed.
Print Assumptions C35_cheby.
(** other kinds are rejected *)
Theorem C35_kind : forall n kind, (exists c, homogenized_cheby n kind = Ok c) <-> kind = "t"%string \/ kind = "T"%string \/ kind = "u"%string \/ kind = "U"%string.
Proof.
  intros n kind. unfold homogenized_cheby. split.
  - intros [c H]. destruct (String.eqb_spec kind "t"); [auto|]. destruct (String.eqb_spec kind "T"); [auto|].
    destruct (String.eqb_spec kind "u"); [auto|]. destruct (String.eqb_spec kind "U"); [auto|]. discriminate.
  - intros [H|[H|[H|H]]]; subst kind; eexists; reflexivity.
Qed.
Print Assumptions C35_kind.
(** frequency -2: x^2 - y^2 and - 2 x y *)
Example C35_example : homogenized_cheby (-2) "t" = Ok [1; 0; -1] /\ homogenized_cheby (-2) "u" = Ok [0; -2; 0].
Proof. unfold homogenized_cheby, cheby_poly. cbn. assert (E : forall a b c a' b' c' : R, a = a' -> b = b' -> c = c' -> Ok [a; b; c] = Ok [a'; b'; c']) by (intros; subst; reflexivity). split; apply E; cbv [Nat.even Nat.odd negb Nat.div Nat.divmod fst Nat.sub pow]; cbn; change (Pos.to_nat 2) with 2%nat; cbn; ring. Qed.

(** The operations on polynomials used to assemble the operators: product, Laplacian, evaluation, change of coordinates.
    transform_polynomial(c, A) is the polynomial x -> P(A^T x); for the rotations with which the code calls it this is a rotation
    by the opposite angle (its docstring says P(A x)). *)
Theorem C35_operations : forall c d, c <> [] -> d <> [] ->
  (length (multiply_polynomials c d) = length c + length d - 1)%nat /\
  (forall k, length (laplacian_power k) = 2 * k + 1)%nat /\
  (forall A, length (transform_polynomial c A) = length c) /\
  forall x y,
    hom_value (multiply_polynomials c d) x y = hom_value c x y * hom_value d x y /\
    (forall k, hom_value (laplacian_power k) x y = (x * x + y * y) ^ k) /\
    (forall A : mat, hom_value (transform_polynomial c A) x y =
       hom_value c (A 0%nat 0%nat * x + A 1%nat 0%nat * y) (A 0%nat 1%nat * x + A 1%nat 1%nat * y)) /\
    eval_poly c x y = hom_value c x y.
Proof.
  intros c d Hc Hd. split; [apply multiply_length|]. split; [apply laplacian_length|]. split; [intros A; apply transform_ok; auto|].
  intros x y. split; [apply multiply_value; auto|]. split; [intros; apply laplacian_value|]. split; [intros A; apply transform_ok; auto|]. apply eval_poly_value; auto.
Qed.
Print Assumptions C35_operations.
Example C35_operations_example : [1; 0; -1] <> [] /\ multiply_polynomials [1; 0; -1] [0; 2; 0] = [0; 2; 0; -2; 0].
Proof. split; [discriminate|]. unfold multiply_polynomials. cbn. repeat (f_equal; try ring). Qed.

(** * C38 *)
(** A stencil of required_points(order, accuracy) points supports the order and the accuracy: the weights that the code computes
    on them exist and give the derivative of that order of all polynomials of degree less than order + accuracy. *)
Theorem C38_required_points_suffice : forall order accuracy : Z, forall dil,
  (0 <= order)%Z -> (1 <= accuracy)%Z -> dil <> 0 ->
  let N := Z.to_nat (required_points order accuracy) in
  exists w, discretize_1d_monomial (Z.to_nat order) (symmetric_points N dil) = Ok w /\ length w = N /\
    centred N dil (symmetric_points N dil) /\
    derives (Z.to_nat order) (Z.to_nat (order + accuracy)) (symmetric_points N dil) w.
Proof.
  intros o a dil Ho Ha Hd N. destruct (required_spec o a Ho Ha) as [H1 H2]. fold N in H1, H2 |- *.
  assert (HN : (Z.to_nat o < N)%nat) by (unfold N; lia).
  exists (fd_weights (Z.to_nat o) (symmetric_points N dil)). unfold discretize_1d_monomial, assert_. rewrite sym_length.
  replace (Z.to_nat o <? N)%nat with true by (symmetry; apply Nat.ltb_lt; auto). split; [reflexivity|]. split; [rewrite fd_length; apply sym_length|].
  split; [apply sym_centred|]. apply enough_points; auto.
  assert (H3 := proj2 (H2 (required_points o a) H1) (Z.le_refl _)). rewrite even_Z. rewrite Nat2Z.inj_sub by lia. unfold N. rewrite !Z2Nat.id by lia.
  destruct (Z.eqb _ 0); lia.
Qed.
Print Assumptions C38_required_points_suffice.

(** A stencil of fewer points does not: whatever the weights, some polynomial of degree less than order + accuracy is
    differentiated wrongly. *)
Theorem C38_fewer_points_fail : forall order accuracy : Z, forall dil N ps w,
  (1 <= order)%Z -> (1 <= accuracy)%Z -> dil <> 0 ->
  centred N dil ps -> (Z.of_nat N < required_points order accuracy)%Z ->
  ~ derives (Z.to_nat order) (Z.to_nat (order + accuracy)) ps w.
Proof.
  intros o a dil N ps w Ho Ha Hd C HN D. rewrite (centred_sym _ _ _ C) in D.
  destruct (required_spec o a ltac:(lia) Ha) as [H1 H2]. destruct (le_lt_dec N (Z.to_nat o)) as [L|L].
  - revert D. apply sym_limit_small. lia.
  - revert D. apply too_few_points; auto; [lia|].
    assert (H3 := proj1 (H2 (Z.of_nat N) ltac:(lia))). rewrite even_Z, Nat2Z.inj_sub, Z2Nat.id by lia.
    destruct (Z.eqb _ 0); lia.
Qed.
Print Assumptions C38_fewer_points_fail.
(** first derivative with accuracy 2: two points; with accuracy 3: four points; second derivative with accuracy 4: five *)
Example C38_example : required_points 1 2 = 2%Z /\ required_points 1 3 = 4%Z /\ required_points 2 4 = 5%Z /\
  exists w, discretize_1d_monomial 2 (symmetric_points 3 1) = Ok w /\ w = [1; -2; 1].
Proof.
  split; [reflexivity|]. split; [reflexivity|]. split; [reflexivity|]. eexists. split; [reflexivity|].
  unfold fd_weights, symmetric_points. cbn. repeat (f_equal; try field).
Qed.
(** For order 0 the code may ask for more points than needed: the centre alone gives the value exactly. *)
Theorem C38_order_zero : forall d dil, centred 1 dil (symmetric_points 1 dil) /\ derives 0 d (symmetric_points 1 dil) [1].
Proof.
  intros d dil. split; [apply sym_centred|]. intros j Hj. unfold symmetric_points. cbn. destruct j; cbn; [ring|]. field.
Qed.
Print Assumptions C38_order_zero.

(** guaranteed_accuracy is the accuracy of the stencil with that many points: it is attained, and no weights reach one more
    (for order at least 1). *)
Theorem C38_guaranteed_accuracy : forall N order dil, (order < N)%nat -> dil <> 0 ->
  exists a w, guaranteed_accuracy (Z.of_nat N) (Z.of_nat order) = Ok (Z.of_nat a) /\ (1 <= a)%nat /\
    discretize_1d_monomial order (symmetric_points N dil) = Ok w /\
    derives order (order + a) (symmetric_points N dil) w /\
    ((1 <= order)%nat -> forall w', ~ derives order (order + a + 1) (symmetric_points N dil) w').
Proof.
  intros N o dil Ho Hd. set (a := if Nat.even (N - o) then (N - o)%nat else S (N - o)). exists a, (fd_weights o (symmetric_points N dil)).
  split.
  { unfold guaranteed_accuracy, assert_. replace (0 <=? Z.of_nat N - Z.of_nat o)%Z with true by (symmetry; apply Z.leb_le; lia).
    unfold a. rewrite even_Z, Nat2Z.inj_sub by lia. destruct (Z.eqb _ 0); f_equal; lia. }
  split; [unfold a; destruct (Nat.even (N - o)); lia|].
  split. { unfold discretize_1d_monomial, assert_. rewrite sym_length. replace (o <? N)%nat with true by (symmetry; apply Nat.ltb_lt; auto). reflexivity. }
  split.
  - apply enough_points; auto. unfold a. destruct (Nat.even (N - o)); lia.
  - intros H1 w' D. revert D. apply too_few_points; auto; unfold a; destruct (Nat.even (N - o)); lia.
Qed.
Print Assumptions C38_guaranteed_accuracy.
(** and the three functions agree with each other *)
Theorem C38_consistent : forall order accuracy points : Z, (0 <= order)%Z -> (1 <= accuracy)%Z -> (order < points)%Z ->
  exists a, guaranteed_accuracy points order = Ok a /\ ((accuracy <= a)%Z <-> (required_points order accuracy <= points)%Z).
Proof.
  intros o a N Ho Ha HN. destruct (required_spec o a Ho Ha) as [_ H]. specialize (H N HN).
  unfold guaranteed_accuracy, assert_. replace (0 <=? N - o)%Z with true by (symmetry; apply Z.leb_le; lia).
  destruct (Z.eqb ((N - o) mod 2) 0); eexists; (split; [reflexivity|]); exact H.
Qed.
Print Assumptions C38_consistent.

(** largest_possible_order(N, accuracy) is the largest order with which N points have that accuracy *)
Theorem C38_largest_possible_order : forall accuracy points : Z, (1 <= accuracy)%Z ->
  ((accuracy <= points)%Z -> exists o, largest_possible_order points accuracy = Ok o /\ (0 <= o)%Z /\
     (forall o', (0 <= o')%Z -> ((o' <= o)%Z <-> (required_points o' accuracy <= points)%Z))) /\
  ((points < accuracy)%Z -> largest_possible_order points accuracy = Err "AssertionError").
Proof.
  intros a N Ha. unfold largest_possible_order, assert_. split.
  - intros H. replace (0 <=? N - a)%Z with true by (symmetry; apply Z.leb_le; lia). replace (N - (N - a + 1))%Z with (a - 1)%Z by lia.
    destruct (Z.eqb_spec ((a - 1) mod 2) 0) as [E|E]; eexists; (split; [reflexivity|]); (split; [lia|]); intros o' Ho'; unfold required_points;
    [rewrite E; cbn [Z.eqb]|replace (Z.eqb ((a - 1) mod 2) 0) with false by (symmetry; apply Z.eqb_neq; auto)]; lia.
  - intros H. replace (0 <=? N - a)%Z with false by (symmetry; apply Z.leb_gt; lia). reflexivity.
Qed.
Print Assumptions C38_largest_possible_order.
Example C38_largest_example : largest_possible_order 5 2 = Ok 4%Z /\ largest_possible_order 1 2 = Err "AssertionError".
Proof. split; reflexivity. Qed.
