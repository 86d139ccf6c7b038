(** Mathematical toolbox (not a model of any code): finite sums over R,
    matrices as functions with explicit dimensions, block-diagonal matrices,
    trigonometric periodicity over Z. *)
From Coq Require Import Reals Lra Lia List ZArith Arith Bool.
From Coq Require Import Setoid Morphisms.
Import ListNotations.
Open Scope R_scope.

(** * Finite sums *)

Fixpoint rsum (n : nat) (f : nat -> R) : R :=
  match n with
  | O => 0
  | S m => rsum m f + f m
  end.

Lemma rsum_ext n f g : (forall i, (i < n)%nat -> f i = g i) -> rsum n f = rsum n g.
Proof.
  induction n; simpl; intros H; auto.
  rewrite IHn, H; auto.
Qed.

Lemma rsum_0 n f : (forall i, (i < n)%nat -> f i = 0) -> rsum n f = 0.
Proof.
  induction n; simpl; intros H; auto.
  rewrite IHn, H; auto; lra.
Qed.

Lemma rsum_plus n f g : rsum n (fun i => f i + g i) = rsum n f + rsum n g.
Proof. induction n; simpl; [lra|rewrite IHn; lra]. Qed.

Lemma rsum_minus n f g : rsum n (fun i => f i - g i) = rsum n f - rsum n g.
Proof. induction n; simpl; [lra|rewrite IHn; lra]. Qed.

Lemma rsum_scal n c f : rsum n (fun i => c * f i) = c * rsum n f.
Proof. induction n; simpl; [lra|rewrite IHn; lra]. Qed.

Lemma rsum_scal_r n c f : rsum n (fun i => f i * c) = rsum n f * c.
Proof. induction n; simpl; [lra|rewrite IHn; lra]. Qed.

Lemma rsum_opp n f : rsum n (fun i => - f i) = - rsum n f.
Proof. induction n; simpl; [lra|rewrite IHn; lra]. Qed.

Lemma rsum_const n c : rsum n (fun _ => c) = INR n * c.
Proof.
  induction n; [simpl; lra|].
  change (rsum (S n) (fun _ => c)) with (rsum n (fun _ => c) + c).
  rewrite IHn, S_INR. lra.
Qed.

Lemma rsum_swap n m f :
  rsum n (fun i => rsum m (fun j => f i j)) = rsum m (fun j => rsum n (fun i => f i j)).
Proof.
  induction n; simpl.
  - symmetry; apply rsum_0; auto.
  - rewrite IHn, <- rsum_plus. reflexivity.
Qed.

Lemma rsum_single n k f : (k < n)%nat ->
  (forall i, (i < n)%nat -> i <> k -> f i = 0) -> rsum n f = f k.
Proof.
  induction n; simpl; intros Hk H; [lia|].
  destruct (Nat.eq_dec k n) as [->|Hn].
  - rewrite rsum_0; [lra|]. intros; apply H; lia.
  - rewrite IHn; [rewrite (H n); [lra|lia|lia]|lia|]. intros; apply H; lia.
Qed.

Lemma rsum_split n m f : rsum (n + m) f = rsum n f + rsum m (fun i => f (n + i)%nat).
Proof.
  induction m.
  - rewrite Nat.add_0_r; simpl; lra.
  - rewrite Nat.add_succ_r; simpl. rewrite IHm. lra.
Qed.

Lemma rsum_S_l n f : rsum (S n) f = f O + rsum n (fun i => f (S i)).
Proof. change (S n) with (1 + n)%nat. rewrite rsum_split; simpl; lra. Qed.

Lemma rsum_rev n f : rsum n f = rsum n (fun i => f (n - 1 - i)%nat).
Proof.
  induction n; [reflexivity|].
  rewrite (rsum_S_l n (fun i => f (S n - 1 - i)%nat)).
  change (rsum (S n) f) with (rsum n f + f n).
  rewrite IHn. replace (S n - 1 - 0)%nat with n by lia.
  rewrite Rplus_comm. f_equal. apply rsum_ext; intros; f_equal; lia.
Qed.

Lemma rsum_nonneg n f : (forall i, (i < n)%nat -> 0 <= f i) -> 0 <= rsum n f.
Proof.
  induction n; simpl; intros H; [lra|].
  assert (0 <= rsum n f) by (apply IHn; auto). specialize (H n). assert (0 <= f n) by auto. lra.
Qed.

Lemma rsum_le n f g : (forall i, (i < n)%nat -> f i <= g i) -> rsum n f <= rsum n g.
Proof.
  intros H. assert (0 <= rsum n (fun i => g i - f i)).
  { apply rsum_nonneg; intros i Hi; specialize (H i Hi); lra. }
  rewrite rsum_minus in H0; lra.
Qed.

Lemma rsum_telescope n g : rsum n (fun i => g (S i) - g i) = g n - g O.
Proof. induction n; simpl; [lra|rewrite IHn; lra]. Qed.

(** * Sums over lists and reindexing by permutations *)

Definition lsum (l : list R) : R := fold_right Rplus 0 l.

Lemma lsum_app l1 l2 : lsum (l1 ++ l2) = lsum l1 + lsum l2.
Proof. induction l1; simpl; [lra|rewrite IHl1; lra]. Qed.

Lemma rsum_lsum n f : rsum n f = lsum (map f (seq 0 n)).
Proof.
  induction n; [reflexivity|].
  rewrite seq_S, map_app, lsum_app. simpl. rewrite IHn; lra.
Qed.

From Coq Require Import Permutation.

Lemma lsum_perm l1 l2 : Permutation l1 l2 -> lsum l1 = lsum l2.
Proof. induction 1; simpl; lra. Qed.

(** a bijection of [0,n) *)
Definition bij (n : nat) (s : nat -> nat) : Prop :=
  (forall i, (i < n)%nat -> (s i < n)%nat) /\
  (forall i j, (i < n)%nat -> (j < n)%nat -> s i = s j -> i = j).

Lemma bij_perm n s : bij n s -> Permutation (map s (seq 0 n)) (seq 0 n).
Proof.
  intros [Hr Hi]. apply NoDup_Permutation_bis.
  - assert (forall l, NoDup l -> (forall x, In x l -> (x < n)%nat) -> NoDup (map s l)).
    { induction l; simpl; intros Hnd Hl; constructor.
      - inversion Hnd; subst. intros Hin. apply in_map_iff in Hin as [y [Hy Hin]].
        apply Hi in Hy; [subst; contradiction| apply Hl; auto | apply Hl; auto].
      - inversion Hnd; subst; apply IHl; auto. }
    apply H; [apply seq_NoDup|]. intros x Hx; apply in_seq in Hx; lia.
  - rewrite map_length; lia.
  - intros x Hx. apply in_map_iff in Hx as [y [<- Hy]]. apply in_seq in Hy.
    apply in_seq. specialize (Hr y). lia.
Qed.

Lemma rsum_bij n s f : bij n s -> rsum n (fun i => f (s i)) = rsum n f.
Proof.
  intros H. rewrite !rsum_lsum.
  rewrite <- (map_map s f). apply lsum_perm, Permutation_map, bij_perm, H.
Qed.

(** * Matrices *)

Definition mat := nat -> nat -> R.

Definition meq (r c : nat) (A B : mat) : Prop :=
  forall i j, (i < r)%nat -> (j < c)%nat -> A i j = B i j.

Definition mmul (n : nat) (A B : mat) : mat := fun i j => rsum n (fun k => A i k * B k j).
Definition mtr (A : mat) : mat := fun i j => A j i.
Definition mid : mat := fun i j => if Nat.eqb i j then 1 else 0.
Definition mzero : mat := fun _ _ => 0.
Definition mscal (c : R) (A : mat) : mat := fun i j => c * A i j.
Definition madd (A B : mat) : mat := fun i j => A i j + B i j.

Global Instance meq_equiv r c : Equivalence (meq r c).
Proof.
  split.
  - intros A i j _ _; reflexivity.
  - intros A B H i j Hi Hj; symmetry; auto.
  - intros A B C H1 H2 i j Hi Hj; rewrite H1, H2; auto.
Qed.

Lemma mmul_compat r n c A A' B B' :
  meq r n A A' -> meq n c B B' -> meq r c (mmul n A B) (mmul n A' B').
Proof.
  intros HA HB i j Hi Hj. unfold mmul. apply rsum_ext; intros k Hk.
  rewrite HA, HB; auto.
Qed.

Global Instance mmul_proper n : Proper (meq n n ==> meq n n ==> meq n n) (mmul n).
Proof. intros A A' HA B B' HB; apply mmul_compat; auto. Qed.

Lemma mmul_assoc n m A B C i j :
  mmul m (mmul n A B) C i j = mmul n A (mmul m B C) i j.
Proof.
  unfold mmul.
  transitivity (rsum m (fun k => rsum n (fun l => A i l * B l k * C k j))).
  { apply rsum_ext; intros. rewrite <- rsum_scal_r. reflexivity. }
  rewrite rsum_swap. apply rsum_ext; intros.
  rewrite <- rsum_scal. apply rsum_ext; intros; ring.
Qed.

Lemma mmul_assoc_eq n m r c A B C :
  meq r c (mmul m (mmul n A B) C) (mmul n A (mmul m B C)).
Proof. intros i j _ _; apply mmul_assoc. Qed.

Lemma mmul_id_l n c A : meq n c (mmul n mid A) A.
Proof.
  intros i j Hi Hj. unfold mmul, mid.
  rewrite (rsum_single n i); auto.
  - rewrite Nat.eqb_refl; lra.
  - intros k _ Hk. destruct (Nat.eqb_spec i k); [lia|lra].
Qed.

Lemma mmul_id_r n r A : meq r n (mmul n A mid) A.
Proof.
  intros i j Hi Hj. unfold mmul, mid.
  rewrite (rsum_single n j); auto.
  - rewrite Nat.eqb_refl; lra.
  - intros k _ Hk. destruct (Nat.eqb_spec k j); [lia|lra].
Qed.

Lemma mtr_mmul n A B i j : mtr (mmul n A B) i j = mmul n (mtr B) (mtr A) i j.
Proof. unfold mtr, mmul. apply rsum_ext; intros; ring. Qed.

Lemma meq_tr r c A B : meq r c A B -> meq c r (mtr A) (mtr B).
Proof. intros H i j Hi Hj; unfold mtr; apply H; auto. Qed.

Lemma mtr_id : forall i j, mtr mid i j = mid i j.
Proof. intros; unfold mtr, mid. rewrite Nat.eqb_sym; reflexivity. Qed.

(** [inverse_pair n A B]: A and B are mutually inverse n x n matrices *)
Definition inverse_pair (n : nat) (A B : mat) : Prop :=
  meq n n (mmul n A B) mid /\ meq n n (mmul n B A) mid.

Definition orthogonal (n : nat) (A : mat) : Prop := inverse_pair n A (mtr A).

Lemma inverse_pair_compat n A A' B B' :
  meq n n A A' -> meq n n B B' -> inverse_pair n A B -> inverse_pair n A' B'.
Proof.
  intros HA HB [H1 H2]; split.
  - rewrite <- HA, <- HB; auto.
  - rewrite <- HA, <- HB; auto.
Qed.

Lemma inverse_pair_mid n : inverse_pair n mid mid.
Proof. split; apply mmul_id_l. Qed.

Lemma inverse_pair_sym n A B : inverse_pair n A B -> inverse_pair n B A.
Proof. intros [H1 H2]; split; auto. Qed.

Lemma inverse_pair_mmul n A A' B B' :
  inverse_pair n A A' -> inverse_pair n B B' -> inverse_pair n (mmul n A B) (mmul n B' A').
Proof.
  intros [HA1 HA2] [HB1 HB2]; split.
  - rewrite mmul_assoc_eq, <- (mmul_assoc_eq n n n n B B' A'), HB1, mmul_id_l; auto.
  - rewrite mmul_assoc_eq, <- (mmul_assoc_eq n n n n A' A B), HA2, mmul_id_l; auto.
Qed.

Lemma orthogonal_mmul n A B : orthogonal n A -> orthogonal n B -> orthogonal n (mmul n A B).
Proof.
  unfold orthogonal; intros HA HB.
  eapply inverse_pair_compat; [reflexivity| |apply (inverse_pair_mmul _ _ _ _ _ HA HB)].
  intros i j _ _; symmetry; apply mtr_mmul.
Qed.

Lemma inverse_pair_unique n A B C : inverse_pair n A B -> inverse_pair n A C -> meq n n B C.
Proof.
  intros [H1 H2] [H3 H4].
  rewrite <- (mmul_id_l n n B), <- H4, mmul_assoc_eq, H1, mmul_id_r. reflexivity.
Qed.

(** * Block-diagonal matrices (square blocks with their sizes) *)

Fixpoint bdiag (l : list (nat * mat)) : mat :=
  match l with
  | [] => mzero
  | (n, A) :: l' => fun i j =>
      if (i <? n)%nat then (if (j <? n)%nat then A i j else 0)
      else (if (j <? n)%nat then 0 else bdiag l' (i - n)%nat (j - n)%nat)
  end.

Definition nsum (l : list nat) : nat := fold_right Nat.add O l.
Definition bsize (l : list (nat * mat)) : nat := nsum (map fst l).

Lemma nsum_app l1 l2 : nsum (l1 ++ l2) = (nsum l1 + nsum l2)%nat.
Proof. induction l1; simpl; [auto|rewrite IHl1; lia]. Qed.

Lemma bdiag_mul l1 l2 : map fst l1 = map fst l2 ->
  meq (bsize l1) (bsize l1) (mmul (bsize l1) (bdiag l1) (bdiag l2))
    (bdiag (map (fun p => (fst (fst p), mmul (fst (fst p)) (snd (fst p)) (snd (snd p)))) (combine l1 l2))).
Proof.
  revert l2; induction l1 as [|[n A] l1 IH]; intros [|[m B] l2] H; simpl in *; try discriminate.
  - intros i j Hi; unfold bsize in Hi; simpl in Hi; lia.
  - injection H as -> H. specialize (IH _ H).
    unfold bsize in *; simpl in *. set (s := nsum (map fst l1)) in *.
    intros i j Hi Hj. unfold mmul at 1. rewrite rsum_split.
    destruct (Nat.ltb_spec i m) as [Him|Him]; destruct (Nat.ltb_spec j m) as [Hjm|Hjm].
    + rewrite (rsum_0 s), Rplus_0_r.
      * unfold mmul; apply rsum_ext; intros k Hk.
        destruct (Nat.ltb_spec k m); [auto|lia].
      * intros k Hk. destruct (Nat.ltb_spec (m+k) m); [lia|lra].
    + rewrite !rsum_0; [lra| |].
      * intros k Hk. destruct (Nat.ltb_spec (m+k) m); [lia|lra].
      * intros k Hk. destruct (Nat.ltb_spec k m); [lra|lia].
    + rewrite !rsum_0; [lra| |].
      * intros k Hk. destruct (Nat.ltb_spec (m+k) m); [lia|lra].
      * intros k Hk. destruct (Nat.ltb_spec k m); [lra|lia].
    + rewrite (rsum_0 m), Rplus_0_l.
      * rewrite <- IH by lia. unfold mmul; apply rsum_ext; intros k Hk.
        destruct (Nat.ltb_spec (m+k) m); [lia|].
        replace (m + k - m)%nat with k by lia. auto.
      * intros k Hk. destruct (Nat.ltb_spec k m); [lra|lia].
Qed.

Lemma bdiag_ext l1 l2 :
  Forall2 (fun p q => fst p = fst q /\ meq (fst p) (fst p) (snd p) (snd q)) l1 l2 ->
  meq (bsize l1) (bsize l1) (bdiag l1) (bdiag l2).
Proof.
  induction 1 as [|[n A] [m B] l1 l2 [H1 H2] HF IH]; simpl in *.
  - intros i j Hi; unfold bsize in Hi; simpl in Hi; lia.
  - subst m. unfold bsize in *; simpl. intros i j Hi Hj.
    destruct (Nat.ltb_spec i n); destruct (Nat.ltb_spec j n); auto.
    apply IH; lia.
Qed.

Lemma bdiag_mid l : Forall (fun p => meq (fst p) (fst p) (snd p) mid) l ->
  meq (bsize l) (bsize l) (bdiag l) mid.
Proof.
  induction 1 as [|[n A] l HA HF IH]; simpl in *.
  - intros i j Hi; unfold bsize in Hi; simpl in Hi; lia.
  - unfold bsize in *; simpl. intros i j Hi Hj.
    destruct (Nat.ltb_spec i n); destruct (Nat.ltb_spec j n).
    + apply HA; auto.
    + unfold mid; destruct (Nat.eqb_spec i j); [lia|auto].
    + unfold mid; destruct (Nat.eqb_spec i j); [lia|auto].
    + rewrite IH by lia. unfold mid.
      destruct (Nat.eqb_spec i j); destruct (Nat.eqb_spec (i-n) (j-n)); try lia; auto.
Qed.

Lemma bdiag_tr l i j : mtr (bdiag l) i j = bdiag (map (fun p => (fst p, mtr (snd p))) l) i j.
Proof.
  revert i j; induction l as [|[n A] l IH]; intros i j; simpl; [reflexivity|].
  unfold mtr in *.
  destruct (Nat.ltb_spec i n); destruct (Nat.ltb_spec j n); auto.
Qed.

Lemma bdiag_app l1 l2 i j :
  bdiag (l1 ++ l2) i j = bdiag [(bsize l1, bdiag l1); (bsize l2, bdiag l2)] i j \/
  (bsize l1 + bsize l2 <= i)%nat \/ (bsize l1 + bsize l2 <= j)%nat.
Proof.
  destruct (le_lt_dec (bsize l1 + bsize l2) i) as [|Hi]; [auto|].
  destruct (le_lt_dec (bsize l1 + bsize l2) j) as [|Hj]; [auto|].
  left. revert i j Hi Hj.
  induction l1 as [|[n A] l1 IH]; intros i j Hi Hj.
  - unfold bsize in *; simpl in *. rewrite !Nat.sub_0_r.
    destruct (Nat.ltb_spec i (nsum (map fst l2))); [|lia].
    destruct (Nat.ltb_spec j (nsum (map fst l2))); [|lia]. reflexivity.
  - unfold bsize in *; simpl in *. set (s1 := nsum (map fst l1)) in *.
    set (s2 := nsum (map fst l2)) in *.
    destruct (Nat.ltb_spec i n); destruct (Nat.ltb_spec j n);
      destruct (Nat.ltb_spec i (n + s1)); destruct (Nat.ltb_spec j (n + s1)); auto; try lia.
    + rewrite IH by lia.
      destruct (Nat.ltb_spec (i-n) s1); [|lia].
      destruct (Nat.ltb_spec (j-n) s1); [|lia]. reflexivity.
    + rewrite IH by lia.
      destruct (Nat.ltb_spec (i-n) s1); [|lia].
      destruct (Nat.ltb_spec (j-n) s1); [lia|]. reflexivity.
    + rewrite IH by lia.
      destruct (Nat.ltb_spec (i-n) s1); [lia|].
      destruct (Nat.ltb_spec (j-n) s1); [|lia]. reflexivity.
    + rewrite IH by lia.
      destruct (Nat.ltb_spec (i-n) s1); [lia|].
      destruct (Nat.ltb_spec (j-n) s1); [lia|].
      destruct (Nat.ltb_spec (i-n-s1) s2); [|lia].
      destruct (Nat.ltb_spec (j-n-s1) s2); [|lia].
      destruct (Nat.ltb_spec (i-(n+s1)) s2); [|lia].
      destruct (Nat.ltb_spec (j-(n+s1)) s2); [|lia].
      f_equal; lia.
Qed.

Lemma bdiag_app_eq l1 l2 :
  meq (bsize l1 + bsize l2) (bsize l1 + bsize l2)
    (bdiag (l1 ++ l2)) (bdiag [(bsize l1, bdiag l1); (bsize l2, bdiag l2)]).
Proof. intros i j Hi Hj. destruct (bdiag_app l1 l2 i j) as [?|[?|?]]; auto; lia. Qed.

Lemma bdiag_inverse_pair l :
  Forall (fun p => inverse_pair (fst p) (fst (snd p)) (snd (snd p))) l ->
  inverse_pair (nsum (map fst l))
     (bdiag (map (fun p => (fst p, fst (snd p))) l))
     (bdiag (map (fun p => (fst p, snd (snd p))) l)).
Proof.
  intros H.
  assert (E1 : nsum (map fst l) = bsize (map (fun p => (fst p, fst (snd p))) l))
    by (unfold bsize; rewrite map_map; reflexivity).
  assert (E2 : nsum (map fst l) = bsize (map (fun p => (fst p, snd (snd p))) l))
    by (unfold bsize; rewrite map_map; reflexivity).
  split.
  - rewrite E1. rewrite bdiag_mul by (rewrite !map_map; reflexivity).
    match goal with |- meq _ _ (bdiag ?L) _ =>
      assert (E3 : bsize (map (fun p => (fst p, fst (snd p))) l) = bsize L) end.
    { clear. unfold bsize. rewrite !map_map. induction l; simpl; auto. }
    rewrite E3. apply bdiag_mid.
    clear -H. induction H; simpl; constructor; simpl; auto. apply H.
  - rewrite E2. rewrite bdiag_mul by (rewrite !map_map; reflexivity).
    match goal with |- meq _ _ (bdiag ?L) _ =>
      assert (E3 : bsize (map (fun p => (fst p, snd (snd p))) l) = bsize L) end.
    { clear. unfold bsize. rewrite !map_map. induction l; simpl; auto. }
    rewrite E3. apply bdiag_mid.
    clear -H. induction H; simpl; constructor; simpl; auto. apply H.
Qed.

(** * Matrix acting on a vector *)
Definition vec := nat -> R.
Definition mvec (n : nat) (A : mat) (v : vec) : vec := fun i => rsum n (fun k => A i k * v k).
Definition veq (n : nat) (u v : vec) : Prop := forall i, (i < n)%nat -> u i = v i.

Global Instance veq_equiv n : Equivalence (veq n).
Proof.
  split.
  - intros A i _; reflexivity.
  - intros A B H i Hi; symmetry; auto.
  - intros A B C H1 H2 i Hi; rewrite H1, H2; auto.
Qed.

Lemma mvec_compat r n A A' u v : meq r n A A' -> veq n u v -> veq r (mvec n A u) (mvec n A' v).
Proof. intros HA HV i Hi. unfold mvec. apply rsum_ext; intros; rewrite HA, HV; auto. Qed.

Lemma mvec_mmul n m A B v i : mvec m (mmul n A B) v i = mvec n A (mvec m B v) i.
Proof.
  unfold mvec, mmul.
  transitivity (rsum m (fun k => rsum n (fun l => A i l * B l k * v k))).
  { apply rsum_ext; intros. rewrite <- rsum_scal_r. reflexivity. }
  rewrite rsum_swap. apply rsum_ext; intros.
  rewrite <- rsum_scal. apply rsum_ext; intros; ring.
Qed.

Lemma mvec_id n v : veq n (mvec n mid v) v.
Proof.
  intros i Hi. unfold mvec, mid. rewrite (rsum_single n i); auto.
  - rewrite Nat.eqb_refl; lra.
  - intros k _ Hk. destruct (Nat.eqb_spec i k); [lia|lra].
Qed.

(** * Trigonometry with integer multiples of the period *)

Lemma cos_period_Z x (k : Z) : cos (x + 2 * IZR k * PI) = cos x.
Proof.
  destruct (Z_le_gt_dec 0 k) as [Hk|Hk].
  - rewrite <- (Z2Nat.id k) by lia. rewrite <- INR_IZR_INZ. apply cos_period.
  - rewrite <- (cos_period (x + 2 * IZR k * PI) (Z.to_nat (- k))).
    f_equal. rewrite INR_IZR_INZ, Z2Nat.id by lia. rewrite opp_IZR. lra.
Qed.

Lemma sin_period_Z x (k : Z) : sin (x + 2 * IZR k * PI) = sin x.
Proof.
  destruct (Z_le_gt_dec 0 k) as [Hk|Hk].
  - rewrite <- (Z2Nat.id k) by lia. rewrite <- INR_IZR_INZ. apply sin_period.
  - rewrite <- (sin_period (x + 2 * IZR k * PI) (Z.to_nat (- k))).
    f_equal. rewrite INR_IZR_INZ, Z2Nat.id by lia. rewrite opp_IZR. lra.
Qed.

(** two angles equal modulo a full turn *)
Definition cong2pi (a b : R) : Prop := exists k : Z, a = b + 2 * IZR k * PI.

Lemma cos_cong a b : cong2pi a b -> cos a = cos b.
Proof. intros [k ->]; apply cos_period_Z. Qed.
Lemma sin_cong a b : cong2pi a b -> sin a = sin b.
Proof. intros [k ->]; apply sin_period_Z. Qed.

Lemma cos_kpi_sq (k : Z) : cos (IZR k * PI) * cos (IZR k * PI) = 1.
Proof.
  assert (sin (IZR k * PI) = 0) by (apply sin_eq_0_1; exists k; lra).
  generalize (sin2_cos2 (IZR k * PI)). unfold Rsqr. rewrite H. lra.
Qed.

Lemma sin_kpi (k : Z) : sin (IZR k * PI) = 0.
Proof. apply sin_eq_0_1; exists k; lra. Qed.

Lemma sc2 x : cos x * cos x + sin x * sin x = 1.
Proof. generalize (sin2_cos2 x); unfold Rsqr; lra. Qed.
