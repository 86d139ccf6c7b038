(** Elementary linear algebra over R: homogeneous systems, one-sided inverses, vectors in blocks. *)
From Coq Require Import Reals List Lia Lra Arith Setoid Morphisms.
From Verif Require Import Base.
Import ListNotations.
Open Scope R_scope.

(** more unknowns than equations: a non-zero solution exists *)
Lemma homogeneous_solution : forall m n (A : mat), (m < n)%nat ->
  exists x : vec, (exists k, (k < n)%nat /\ x k <> 0) /\ forall i, (i < m)%nat -> rsum n (fun j => A i j * x j) = 0.
Proof.
  induction m as [|m IH]; intros n A Hmn.
  - exists (fun _ => 1). split; [exists 0%nat; split; [lia|lra]|intros; lia].
  - destruct (Nat.eq_dec 0 0) as [_|]; [|lia].
    assert (Hcase : (forall j, (j < n)%nat -> A m j = 0) \/ exists p, (p < n)%nat /\ A m p <> 0).
    { clear. induction n as [|n [H|[p [Hp H]]]].
      - left; intros; lia.
      - destruct (Req_EM_T (A m n) 0) as [E|E].
        + left. intros j Hj. destruct (Nat.eq_dec j n) as [->|]; auto. apply H; lia.
        + right. exists n; auto.
      - right. exists p; split; auto. }
    destruct Hcase as [Hz|[p [Hp Hn0]]].
    + destruct (IH n A) as [x [Hx Hs]]; [lia|]. exists x. split; auto.
      intros i Hi. destruct (Nat.eq_dec i m) as [->|]; [|apply Hs; lia].
      apply rsum_0. intros j Hj. rewrite Hz by auto. ring.
    + destruct n as [|n]; [lia|].
      (* swap columns p and n *)
      set (sw := fun j => if Nat.eqb j p then n else if Nat.eqb j n then p else j).
      assert (Bsw : bij (S n) sw).
      { split; unfold sw; intros.
        - destruct (Nat.eqb_spec i p); [lia|]. destruct (Nat.eqb_spec i n); lia.
        - destruct (Nat.eqb_spec i p); destruct (Nat.eqb_spec j p); destruct (Nat.eqb_spec i n); destruct (Nat.eqb_spec j n); lia. }
      assert (Ssw : forall j, sw (sw j) = j).
      { intros j. unfold sw. destruct (Nat.eqb_spec j p).
        - destruct (Nat.eqb_spec n p); [lia|]. rewrite Nat.eqb_refl. lia.
        - destruct (Nat.eqb_spec j n).
          + rewrite Nat.eqb_refl. lia.
          + destruct (Nat.eqb_spec j p); [lia|]. destruct (Nat.eqb_spec j n); lia. }
      set (B := fun i j => A i (sw j)).
      assert (HB : B m n <> 0).
      { unfold B, sw. destruct (Nat.eqb_spec n p) as [->|]; auto. rewrite Nat.eqb_refl. auto. }
      destruct (IH n (fun i j => B i j - B i n * B m j / B m n)) as [y [[k [Hk Hy]] Hs]]; [lia|].
      set (t := - rsum n (fun j => B m j * y j) / B m n).
      set (z := fun j => if Nat.eqb j n then t else y j).
      assert (Z1 : forall i, rsum (S n) (fun j => B i j * z j) = rsum n (fun j => B i j * y j) + B i n * t).
      { intros i. simpl. f_equal.
        - apply rsum_ext. intros j Hj. unfold z. destruct (Nat.eqb_spec j n); [lia|auto].
        - unfold z. rewrite Nat.eqb_refl. auto. }
      exists (fun j => z (sw j)). split.
      * exists (sw k). split; [apply Bsw; lia|]. rewrite Ssw. unfold z.
        destruct (Nat.eqb_spec k n); [lia|auto].
      * assert (Q : forall i, rsum (S n) (fun j => A i j * z (sw j)) = rsum (S n) (fun j => B i j * z j)).
        { intros i. rewrite <- (rsum_bij (S n) sw (fun j => B i j * z j) Bsw).
          apply rsum_ext. intros j Hj. unfold B. rewrite Ssw. reflexivity. }
        intros i Hi. rewrite Q, Z1. destruct (Nat.eq_dec i m) as [->|Hne].
        -- unfold t. field. auto.
        -- specialize (Hs i). assert (Hi' : (i < m)%nat) by lia. specialize (Hs Hi').
           assert (E : rsum n (fun j => (B i j - B i n * B m j / B m n) * y j) =
                   rsum n (fun j => B i j * y j) - B i n / B m n * rsum n (fun j => B m j * y j)).
           { rewrite <- rsum_scal, <- rsum_minus. apply rsum_ext. intros j Hj. field. auto. }
           rewrite E in Hs. unfold t. rewrite <- Hs. field. auto.
Qed.

(** a left inverse of a square matrix is a right inverse *)
Lemma square_inverse n A B : meq n n (mmul n A B) mid -> meq n n (mmul n B A) mid.
Proof.
  intros H.
  assert (Inj : forall x : vec, veq n (mvec n B x) (fun _ => 0) -> veq n x (fun _ => 0)).
  { intros x Hx i Hi.
    assert (E : mvec n (mmul n A B) x i = x i).
    { rewrite (mvec_compat n n _ mid x x H (reflexivity x) i Hi). apply mvec_id; auto. }
    rewrite mvec_mmul in E. rewrite <- E. unfold mvec at 1. apply rsum_0.
    intros k Hk. rewrite Hx by auto. ring. }
  assert (Surj : forall j, (j < n)%nat -> exists x : vec, veq n (mvec n B x) (fun i => mid i j)).
  { intros j Hj.
    destruct (homogeneous_solution n (S n) (fun i k => if Nat.eqb k n then - mid i j else B i k)) as [z [[k [Hk Hz]] Hs]]; [lia|].
    assert (E : forall i, (i < n)%nat -> rsum n (fun k => B i k * z k) = mid i j * z n).
    { intros i Hi. specialize (Hs i Hi). simpl in Hs. rewrite Nat.eqb_refl in Hs.
      assert (Q : rsum n (fun j0 => (if Nat.eqb j0 n then - mid i j else B i j0) * z j0) = rsum n (fun k => B i k * z k)).
      { apply rsum_ext. intros q Hq. destruct (Nat.eqb_spec q n); [lia|auto]. }
      rewrite Q in Hs. lra. }
    destruct (Req_EM_T (z n) 0) as [Z0|Z0].
    - exfalso. apply Hz. destruct (Nat.eq_dec k n) as [->|]; auto.
      apply (Inj z); [|lia]. intros i Hi. unfold mvec. rewrite E by auto. rewrite Z0. ring.
    - exists (fun k => z k / z n). intros i Hi. unfold mvec.
      transitivity (rsum n (fun k => B i k * z k) / z n).
      + unfold Rdiv. rewrite <- rsum_scal_r. apply rsum_ext. intros; ring.
      + rewrite E by auto. field. auto. }
  intros i j Hi Hj. destruct (Surj j Hj) as [x Hx].
  assert (Ax : forall k, (k < n)%nat -> A k j = x k).
  { intros k Hk.
    assert (E1 : mvec n (mmul n A B) x k = x k).
    { rewrite (mvec_compat n n _ mid x x H (reflexivity x) k Hk). apply mvec_id; auto. }
    rewrite <- E1, mvec_mmul.
    rewrite (mvec_compat n n A A _ _ (reflexivity A) Hx k Hk).
    unfold mvec, mid. rewrite (rsum_single n j); auto.
    - rewrite Nat.eqb_refl. ring.
    - intros q _ Hq. destruct (Nat.eqb_spec q j); [lia|ring]. }
  unfold mmul. rewrite <- (Hx i Hi). unfold mvec. apply rsum_ext. intros k Hk. rewrite Ax; auto.
Qed.

Lemma square_inverse_pair n A B : meq n n (mmul n A B) mid -> inverse_pair n A B.
Proof. intros H; split; auto. apply square_inverse; auto. Qed.

(** vectors given by blocks *)
Fixpoint vcat (l : list (nat * vec)) : vec :=
  match l with
  | [] => fun _ => 0
  | (n, v) :: l' => fun i => if (i <? n)%nat then v i else vcat l' (i - n)%nat
  end.

Definition qform (n : nat) (u : vec) (A : mat) (w : vec) : R :=
  rsum n (fun i => rsum n (fun j => u i * A i j * w j)).

Lemma qform_bdiag (L : list (nat * (vec * mat * vec))) :
  qform (nsum (map fst L)) (vcat (map (fun p => (fst p, fst (fst (snd p)))) L))
        (bdiag (map (fun p => (fst p, snd (fst (snd p)))) L))
        (vcat (map (fun p => (fst p, snd (snd p))) L))
  = lsum (map (fun p => qform (fst p) (fst (fst (snd p))) (snd (fst (snd p))) (snd (snd p))) L).
Proof.
  induction L as [|[n [[u A] w]] L IH]; [reflexivity|].
  cbn [map fst snd nsum fold_right lsum]. fold (nsum (map fst L)).
  fold (lsum (map (fun p => qform (fst p) (fst (fst (snd p))) (snd (fst (snd p))) (snd (snd p))) L)).
  rewrite <- IH. unfold qform. rewrite rsum_split. f_equal.
  - apply rsum_ext. intros i Hi. rewrite rsum_split. rewrite (rsum_0 (nsum (map fst L))).
    + rewrite Rplus_0_r. apply rsum_ext. intros j Hj. cbn [vcat bdiag].
      destruct (Nat.ltb_spec i n); [|lia]. destruct (Nat.ltb_spec j n); [|lia]. reflexivity.
    + intros j Hj. cbn [vcat bdiag].
      destruct (Nat.ltb_spec i n); [|lia]. destruct (Nat.ltb_spec (n + j) n); [lia|]. ring.
  - apply rsum_ext. intros i Hi. rewrite rsum_split. rewrite (rsum_0 n).
    + rewrite Rplus_0_l. apply rsum_ext. intros j Hj. cbn [vcat bdiag].
      destruct (Nat.ltb_spec (n + i) n); [lia|]. destruct (Nat.ltb_spec (n + j) n); [lia|].
      replace (n + i - n)%nat with i by lia. replace (n + j - n)%nat with j by lia. reflexivity.
    + intros j Hj. cbn [vcat bdiag].
      destruct (Nat.ltb_spec (n + i) n); [lia|]. destruct (Nat.ltb_spec j n); [|lia]. ring.
Qed.

Lemma qform_ext n u u' A A' w w' : veq n u u' -> meq n n A A' -> veq n w w' ->
  qform n u A w = qform n u' A' w'.
Proof.
  intros Hu HA Hw. unfold qform. apply rsum_ext; intros i Hi. apply rsum_ext; intros j Hj.
  rewrite Hu, HA, Hw; auto.
Qed.

(** u^T (A B) w with A^T on the left moved over *)
Lemma qform_mvec n u A B w : 
  rsum n (fun k => mvec n A u k * mvec n B w k) = qform n u (mmul n (mtr A) B) w.
Proof.
  unfold qform, mvec, mmul, mtr.
  transitivity (rsum n (fun k => rsum n (fun i => rsum n (fun j => u i * (A k i * B k j) * w j)))).
  - apply rsum_ext; intros k Hk. rewrite <- rsum_scal_r. apply rsum_ext; intros i Hi.
    rewrite <- rsum_scal. apply rsum_ext; intros j Hj. ring.
  - rewrite rsum_swap. apply rsum_ext; intros i Hi. rewrite rsum_swap. apply rsum_ext; intros j Hj.
    rewrite <- rsum_scal, <- rsum_scal_r. apply rsum_ext; intros; ring.
Qed.

Definition trace (n : nat) (A : mat) : R := rsum n (fun i => A i i).
