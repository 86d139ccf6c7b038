(** Matrices made of blocks: inverses, block-diagonal parts. *)
From Coq Require Import Reals ZArith String List Bool Lia Lra.
From Verif Require Import Base Model_Groups Model_Rep.
Import ListNotations.
Open Scope R_scope.

Lemma rsum_filter (p : nat -> bool) (f : nat -> R) n :
  rsum (length (filter p (seq 0 n))) (fun k => f (nth k (filter p (seq 0 n)) 0%nat)) = rsum n (fun c => if p c then f c else 0).
Proof.
  induction n as [|n IH]; [reflexivity|]. rewrite seq_S, filter_app, app_length, rsum_split. cbn [Nat.add filter].
  rewrite (rsum_ext (length (filter p (seq 0 n))) _ (fun k => f (nth k (filter p (seq 0 n)) 0%nat))) by (intros; rewrite app_nth1 by auto; auto).
  rewrite IH. cbn [rsum]. destruct (p n) eqn:E; cbn [length rsum]; [|lra]. rewrite Nat.add_0_r, app_nth2, Nat.sub_diag by auto. cbn. lra.
Qed.
Lemma filter_count (p : nat -> bool) n : INR (length (filter p (seq 0 n))) = rsum n (fun c => if p c then 1 else 0).
Proof. rewrite <- (rsum_filter p (fun _ => 1)). rewrite rsum_const. lra. Qed.

Section Labelled.
Variables (n : nat) (A Ai : mat) (lr lc : nat -> nat).
Hypothesis INV : inverse_pair n A Ai.
Hypothesis ZERO : forall i j, (i < n)%nat -> (j < n)%nat -> lr i <> lc j -> A i j = 0.
Notation at_r b := (filter (fun i => (lr i =? b)%nat) (seq 0 n)).
Notation at_c b := (filter (fun i => (lc i =? b)%nat) (seq 0 n)).

Lemma lab_swap b i j : (i < n)%nat -> (j < n)%nat -> (if (lr i =? b)%nat then A i j else 0) = (if (lc j =? b)%nat then A i j else 0).
Proof.
  intros Hi Hj. destruct (Nat.eqb_spec (lr i) b) as [E1|E1], (Nat.eqb_spec (lc j) b) as [E2|E2]; auto; [|symmetry]; apply ZERO; auto; congruence.
Qed.
Lemma lab_count b : length (at_r b) = length (at_c b).
Proof.
  apply INR_eq. rewrite !filter_count. destruct INV as [I1 I2].
  transitivity (rsum n (fun i => rsum n (fun j => (if (lr i =? b)%nat then A i j else 0) * Ai j i))).
  - apply rsum_ext. intros i Hi. specialize (I1 i i Hi Hi). unfold mmul, mid in I1. rewrite Nat.eqb_refl in I1. destruct (lr i =? b)%nat; [rewrite I1; auto|].
    symmetry. apply rsum_0. intros; lra.
  - rewrite rsum_swap. apply rsum_ext. intros j Hj. rewrite (rsum_ext n _ (fun i => (if (lc j =? b)%nat then 1 else 0) * (Ai j i * A i j))).
    + rewrite rsum_scal. specialize (I2 j j Hj Hj). unfold mmul, mid in I2. rewrite Nat.eqb_refl in I2. rewrite I2. lra.
    + intros i Hi. rewrite lab_swap by auto. destruct (lc j =? b)%nat; ring.
Qed.
Lemma lab_inv j i : (j < n)%nat -> (i < n)%nat -> lr i <> lc j -> Ai j i = 0.
Proof.
  intros Hj Hi N. destruct INV as [I1 I2]. set (b := lr i).
  (* Ai P = Q Ai *)
  assert (E : (if (lr i =? b)%nat then Ai j i else 0) = (if (lc j =? b)%nat then Ai j i else 0)).
  { transitivity (rsum n (fun k => rsum n (fun l => Ai j k * (if (lr k =? b)%nat then A k l else 0) * Ai l i))).
    - transitivity (rsum n (fun k => (if (lr k =? b)%nat then Ai j k else 0) * mid k i)).
      + rewrite (rsum_single n i); auto; [unfold mid; rewrite (Nat.eqb_refl i); ring|]. intros k _ Hk. unfold mid. destruct (Nat.eqb_spec k i); [congruence|lra].
      + apply rsum_ext. intros k Hk. rewrite <- (I1 k i Hk Hi). unfold mmul. rewrite <- rsum_scal. apply rsum_ext. intros l _. destruct (lr k =? b)%nat; ring.
    - rewrite (rsum_ext n _ (fun k => rsum n (fun l => (if (lc l =? b)%nat then 1 else 0) * (Ai j k * A k l * Ai l i)))).
      2:{ intros k Hk. apply rsum_ext. intros l Hl. rewrite lab_swap by auto. destruct (lc l =? b)%nat; ring. }
      rewrite rsum_swap. rewrite (rsum_ext n _ (fun l => (if (lc l =? b)%nat then 1 else 0) * Ai l i * mid j l)).
      2:{ intros l Hl. rewrite <- (I2 j l Hj Hl). unfold mmul. rewrite <- rsum_scal. apply rsum_ext. intros; ring. }
      rewrite (rsum_single n j); auto; [unfold mid; rewrite (Nat.eqb_refl j); destruct (lc j =? b)%nat; ring|]. intros l _ Hl. unfold mid. destruct (Nat.eqb_spec j l); [congruence|lra]. }
  unfold b in E. rewrite Nat.eqb_refl in E. destruct (Nat.eqb_spec (lc j) (lr i)); [congruence|auto].
Qed.
Lemma at_r_nth b i : (i < length (at_r b))%nat -> (nth i (at_r b) 0 < n)%nat /\ lr (nth i (at_r b) 0%nat) = b.
Proof. intros H. pose proof (nth_In _ 0%nat H) as I. apply filter_In in I as [I1 I2]. apply in_seq in I1. apply Nat.eqb_eq in I2. split; [lia|auto]. Qed.
Lemma at_c_nth b i : (i < length (at_c b))%nat -> (nth i (at_c b) 0 < n)%nat /\ lc (nth i (at_c b) 0%nat) = b.
Proof. intros H. pose proof (nth_In _ 0%nat H) as I. apply filter_In in I as [I1 I2]. apply in_seq in I1. apply Nat.eqb_eq in I2. split; [lia|auto]. Qed.
Lemma filter_nodup p : NoDup (filter p (seq 0 n)).
Proof. apply NoDup_filter, seq_NoDup. Qed.
Lemma mid_nth (l : list nat) i j : NoDup l -> (i < length l)%nat -> (j < length l)%nat -> mid (nth i l 0%nat) (nth j l 0%nat) = mid i j.
Proof.
  intros ND Hi Hj. unfold mid. destruct (Nat.eqb_spec i j) as [->|N]; [rewrite Nat.eqb_refl; auto|].
  destruct (Nat.eqb_spec (nth i l 0%nat) (nth j l 0%nat)) as [E|]; auto. exfalso. apply N. apply (proj1 (NoDup_nth l 0%nat) ND); auto.
Qed.
Lemma lab_inverse b : inverse_pair (length (at_r b)) (fun i j => A (nth i (at_r b) 0%nat) (nth j (at_c b) 0%nat)) (fun i j => Ai (nth i (at_c b) 0%nat) (nth j (at_r b) 0%nat)).
Proof.
  pose proof (lab_count b) as LC. destruct INV as [I1 I2]. split; intros i j Hi Hj.
  - destruct (at_r_nth b i Hi) as [A1 A2], (at_r_nth b j Hj) as [B1 B2]. rewrite <- (mid_nth (at_r b)) by (auto using filter_nodup). rewrite <- (I1 _ _ A1 B1). unfold mmul.
    rewrite LC. rewrite (rsum_filter (fun i => (lc i =? b)%nat) (fun k => A (nth i (at_r b) 0%nat) k * Ai k (nth j (at_r b) 0%nat))).
    apply rsum_ext. intros k Hk. destruct (Nat.eqb_spec (lc k) b) as [E|E]; auto. rewrite (ZERO _ k A1 Hk) by congruence. lra.
  - rewrite LC in Hi, Hj. destruct (at_c_nth b i Hi) as [A1 A2], (at_c_nth b j Hj) as [B1 B2]. rewrite <- (mid_nth (at_c b)) by (auto using filter_nodup). rewrite <- (I2 _ _ A1 B1). unfold mmul.
    rewrite (rsum_filter (fun i => (lr i =? b)%nat) (fun k => Ai (nth i (at_c b) 0%nat) k * A k (nth j (at_c b) 0%nat))).
    apply rsum_ext. intros k Hk. destruct (Nat.eqb_spec (lr k) b) as [E|E]; auto. rewrite (ZERO k _ Hk B1) by congruence. lra.
Qed.
(** conjugates of a matrix with the block structure of the columns *)
Variable D : mat.
Hypothesis DZ : forall i j, (i < n)%nat -> (j < n)%nat -> lc i <> lc j -> D i j = 0.
Notation rho := (mmul n (mmul n A D) Ai).
Lemma rho_sum i j : rho i j = rsum n (fun k => rsum n (fun l => A i l * D l k * Ai k j)).
Proof. unfold mmul. apply rsum_ext. intros k _. rewrite <- rsum_scal_r. auto. Qed.
Lemma rho_zero i j : (i < n)%nat -> (j < n)%nat -> lr i <> lr j -> rho i j = 0.
Proof.
  intros Hi Hj N. rewrite rho_sum. apply rsum_0. intros k Hk. apply rsum_0. intros l Hl.
  destruct (Nat.eq_dec (lr i) (lc l)) as [E1|E1]; [|rewrite ZERO by auto; lra]. destruct (Nat.eq_dec (lr j) (lc k)) as [E2|E2]; [|rewrite (lab_inv k j) by auto; lra].
  rewrite (DZ l k) by (auto; congruence). lra.
Qed.
Lemma rho_block b i j : (i < length (at_r b))%nat -> (j < length (at_r b))%nat ->
  mmul (length (at_r b)) (mmul (length (at_r b)) (fun i j => A (nth i (at_r b) 0%nat) (nth j (at_c b) 0%nat)) (fun i j => D (nth i (at_c b) 0%nat) (nth j (at_c b) 0%nat)))
    (fun i j => Ai (nth i (at_c b) 0%nat) (nth j (at_r b) 0%nat)) i j = rho (nth i (at_r b) 0%nat) (nth j (at_r b) 0%nat).
Proof.
  intros Hi Hj. destruct (at_r_nth b i Hi) as [A1 A2], (at_r_nth b j Hj) as [B1 B2]. rewrite rho_sum. unfold mmul. rewrite lab_count.
  rewrite (rsum_filter (fun i => (lc i =? b)%nat) (fun k => rsum (length (at_c b)) (fun l => A (nth i (at_r b) 0%nat) (nth l (at_c b) 0%nat) * D (nth l (at_c b) 0%nat) k) * Ai k (nth j (at_r b) 0%nat))).
  apply rsum_ext. intros k Hk. destruct (Nat.eqb_spec (lc k) b) as [E|E].
  - rewrite (rsum_filter (fun i => (lc i =? b)%nat) (fun l => A (nth i (at_r b) 0%nat) l * D l k)). rewrite <- rsum_scal_r. apply rsum_ext. intros l Hl.
    destruct (Nat.eqb_spec (lc l) b) as [E'|E']; auto. rewrite (ZERO _ l A1 Hl) by congruence. lra.
  - symmetry. apply rsum_0. intros l Hl. rewrite (lab_inv k _ Hk B1) by congruence. lra.
Qed.
End Labelled.

(** a matrix that vanishes across pieces is, on the concatenated pieces, the block-diagonal matrix of its parts *)
Lemma bdiag_pieces (D : mat) (ps : list (list nat)) :
  ForallOrdPairs (fun p q => forall x y, In x p -> In y q -> D x y = 0 /\ D y x = 0) ps ->
  forall i j, (i < length (concat ps))%nat -> (j < length (concat ps))%nat ->
  bdiag (map (fun p => (length p, fun i j => D (nth i p 0%nat) (nth j p 0%nat))) ps) i j = D (nth i (concat ps) 0%nat) (nth j (concat ps) 0%nat).
Proof.
  induction 1 as [|p ps FP OP IH]; intros i j Hi Hj; [cbn in Hi; lia|]. cbn [map bdiag concat] in *. rewrite app_length in Hi, Hj.
  assert (Q : forall k, (k < length (concat ps))%nat -> exists q, In q ps /\ In (nth k (concat ps) 0%nat) q).
  { intros k Hk. pose proof (nth_In _ 0%nat Hk) as I. apply in_concat in I as (q & I1 & I2). eauto. }
  rewrite Forall_forall in FP.
  destruct (Nat.ltb_spec i (length p)) as [Li|Li], (Nat.ltb_spec j (length p)) as [Lj|Lj].
  - rewrite !app_nth1 by auto. auto.
  - rewrite app_nth1, app_nth2 by auto. destruct (Q (j - length p)%nat ltac:(lia)) as (q & Q1 & Q2). symmetry. apply (FP q Q1 _ _ (nth_In _ _ Li) Q2).
  - rewrite app_nth2, app_nth1 by auto. destruct (Q (i - length p)%nat ltac:(lia)) as (q & Q1 & Q2). symmetry. apply (FP q Q1 _ _ (nth_In _ _ Lj) Q2).
  - rewrite !app_nth2 by auto. apply IH; lia.
Qed.
