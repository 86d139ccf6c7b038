(** For C67: reordering blocks, traces, counting. *)
From Coq Require Import Reals ZArith String List Bool Lia Lra Permutation.
From Verif Require Import Base LinAlg Spec Model_Groups Model_Rep Model_Regular Proofs_Groups Proofs_Irreps Proofs_Rep Proofs_Regular Proofs_Regular2 Proofs_Trig Proofs_Cont.
Import ListNotations.
Open Scope R_scope.

(** * reordering the blocks of a block diagonal matrix *)
Definition shift (a b i : nat) : nat := if (i <? a)%nat then (i + b)%nat else if (i <? a + b)%nat then (i - a)%nat else i.
Lemma shift_lt a b c i : (i < a + (b + c))%nat -> (shift a b i < a + (b + c))%nat.
Proof. unfold shift. intros H. destruct (Nat.ltb_spec i a), (Nat.ltb_spec i (a + b)); lia. Qed.
Lemma shift_inv a b i : shift b a (shift a b i) = i.
Proof. unfold shift. destruct (Nat.ltb_spec i a); [destruct (Nat.ltb_spec (i + b) b), (Nat.ltb_spec (i + b) (b + a)); lia|]. destruct (Nat.ltb_spec i (a + b)); [destruct (Nat.ltb_spec (i - a) b), (Nat.ltb_spec (i - a) (b + a)); lia|]. destruct (Nat.ltb_spec i b), (Nat.ltb_spec i (b + a)); lia. Qed.
Definition pmat (s : nat -> nat) : mat := fun i j => if (j =? s i)%nat then 1 else 0.
Lemma pmat_l n s (M : mat) i j : (s i < n)%nat -> mmul n (pmat s) M i j = M (s i) j.
Proof.
  intros H. unfold mmul, pmat. rewrite (rsum_single n (s i)); [rewrite Nat.eqb_refl; ring|exact H|]. intros k _ Hk. destruct (Nat.eqb_spec k (s i)); [contradiction|ring].
Qed.
Lemma pmat_r n s t (M : mat) i j : (forall k, t (s k) = k) -> (forall k, s (t k) = k) -> (t j < n)%nat -> mmul n M (pmat s) i j = M i (t j).
Proof.
  intros A B H. unfold mmul, pmat. rewrite (rsum_single n (t j)); [rewrite B, Nat.eqb_refl; ring|exact H|]. intros k _ Hk. destruct (Nat.eqb_spec j (s k)) as [->|]; [rewrite A in Hk; contradiction|ring].
Qed.
Lemma bdiag_cons n A l m : meq (n + m) (n + m) (bdiag ((n, A) :: l)) (bdiag [(n, A); (m, bdiag l)]).
Proof.
  intros i j Hi Hj. cbn [bdiag]. destruct (Nat.ltb_spec i n), (Nat.ltb_spec j n); auto. destruct (Nat.ltb_spec (i - n) m), (Nat.ltb_spec (j - n) m); auto; lia.
Qed.
Lemma inverse_pair_mul n A A' B B' : inverse_pair n A A' -> inverse_pair n B B' -> inverse_pair n (mmul n A B) (mmul n B' A').
Proof.
  intros [A1 A2] [B1 B2]. split.
  - rewrite mmul_assoc_eq. rewrite <- (mmul_assoc_eq n n n n B B' A'). rewrite B1. rewrite mmul_id_l. exact A1.
  - rewrite mmul_assoc_eq. rewrite <- (mmul_assoc_eq n n n n A' A B). rewrite A2. rewrite mmul_id_l. exact B2.
Qed.
Lemma blocks_perm {G} (l l' : list (irrep G)) : Permutation l l' -> isizes l' = isizes l /\
  exists S T, inverse_pair (isizes l) S T /\ forall e, meq (isizes l) (isizes l) (mmul (isizes l) S (bdiag (blocks l' e))) (mmul (isizes l) (bdiag (blocks l e)) S).
Proof.
  induction 1 as [|x l l' P [Z1 (S & T & I & E)]|x y l|l l' l'' P [Z1 (S & T & I & E)] Q [Z2 (S' & T' & I' & E')]].
  - split; [reflexivity|]. exists mid, mid. split; [apply inverse_pair_mid|]. intros e i j Hi. cbn in Hi. lia.
  - split; [change (ir_size x + isizes l' = ir_size x + isizes l)%nat; lia|]. set (n := isizes l) in *. set (s := ir_size x). change (isizes (x :: l)) with (s + n)%nat.
    exists (bdiag [(s, mid); (n, S)]), (bdiag [(s, mid); (n, T)]). destruct I as [I1 I2].
    assert (N2 : forall A B C D, meq (s + n) (s + n) (mmul (s + n) (bdiag [(s, A); (n, B)]) (bdiag [(s, C); (n, D)])) (bdiag [(s, mmul s A C); (n, mmul n B D)])).
    { intros A B C D. pose proof (bdiag_mul [(s, A); (n, B)] [(s, C); (n, D)] eq_refl) as M. unfold bsize, nsum in M. cbn [map fst snd fold_right combine] in M. rewrite Nat.add_0_r in M. exact M. }
    split; [split|].
    + rewrite N2. intros i j Hi Hj. rewrite (bdiag_pair_ext s n _ mid _ mid (mmul_id_l s s mid) I1 i j) by assumption. cbn [bdiag]. unfold mid. destruct (Nat.ltb_spec i s), (Nat.ltb_spec j s); try reflexivity.
      * destruct (Nat.eqb_spec i j); [lia|reflexivity].
      * destruct (Nat.eqb_spec i j); [lia|reflexivity].
      * destruct (Nat.ltb_spec (i - s) n), (Nat.ltb_spec (j - s) n); try lia. destruct (Nat.eqb_spec i j), (Nat.eqb_spec (i - s) (j - s)); try lia; reflexivity.
    + rewrite N2. intros i j Hi Hj. rewrite (bdiag_pair_ext s n _ mid _ mid (mmul_id_l s s mid) I2 i j) by assumption. cbn [bdiag]. unfold mid. destruct (Nat.ltb_spec i s), (Nat.ltb_spec j s); try reflexivity.
      * destruct (Nat.eqb_spec i j); [lia|reflexivity].
      * destruct (Nat.eqb_spec i j); [lia|reflexivity].
      * destruct (Nat.ltb_spec (i - s) n), (Nat.ltb_spec (j - s) n); try lia. destruct (Nat.eqb_spec i j), (Nat.eqb_spec (i - s) (j - s)); try lia; reflexivity.
    + intros e. change (blocks (x :: l') e) with ((s, ir_mat x e) :: blocks l' e). change (blocks (x :: l) e) with ((s, ir_mat x e) :: blocks l e). rewrite (bdiag_cons s _ (blocks l' e) n), (bdiag_cons s _ (blocks l e) n), !N2.
      intros i j Hi Hj. apply bdiag_pair_ext; [|apply E|exact Hi|exact Hj]. rewrite mmul_id_l, mmul_id_r. reflexivity.
  - split; [change (ir_size x + (ir_size y + isizes l) = ir_size y + (ir_size x + isizes l))%nat; lia|]. set (n := isizes l). set (a := ir_size y). set (b := ir_size x). change (isizes (y :: x :: l)) with (a + (b + n))%nat.
    exists (pmat (shift a b)), (pmat (shift b a)).
    assert (LT : forall i, (i < a + (b + n))%nat -> (shift b a i < a + (b + n))%nat) by (intros i Hi; replace (a + (b + n))%nat with (b + (a + n))%nat in * by lia; apply shift_lt; exact Hi).
    split; [split|].
    + intros i j Hi Hj. rewrite pmat_l by (apply shift_lt; exact Hi). unfold pmat, mid. rewrite shift_inv. rewrite Nat.eqb_sym. reflexivity.
    + intros i j Hi Hj. rewrite pmat_l by (apply LT; exact Hi). unfold pmat, mid. rewrite shift_inv. rewrite Nat.eqb_sym. reflexivity.
    + intros e i j Hi Hj. rewrite pmat_l by (apply shift_lt; exact Hi). rewrite (pmat_r _ (shift a b) (shift b a)) by (try apply shift_inv; apply LT; exact Hj).
      change (blocks (x :: y :: l) e) with ((b, ir_mat x e) :: (a, ir_mat y e) :: blocks l e). change (blocks (y :: x :: l) e) with ((a, ir_mat y e) :: (b, ir_mat x e) :: blocks l e). cbn [bdiag]. unfold shift.
      destruct (Nat.ltb_spec i a), (Nat.ltb_spec j b); try destruct (Nat.ltb_spec i (a + b)); try destruct (Nat.ltb_spec j (b + a)); try lia;
      repeat match goal with |- context [(?u <? ?v)%nat] => destruct (Nat.ltb_spec u v); try lia end; try reflexivity; f_equal; lia.
  - split; [lia|]. rewrite Z1 in I', E'. exists (mmul (isizes l) S S'), (mmul (isizes l) T' T). split; [apply inverse_pair_mul; assumption|].
    intros e. rewrite mmul_assoc_eq. rewrite (E' e). rewrite <- mmul_assoc_eq. rewrite (E e). rewrite mmul_assoc_eq. reflexivity.
Qed.

(** * traces *)
Lemma trace_ext n A B : meq n n A B -> trace n A = trace n B.
Proof. intros H. apply rsum_ext. intros i Hi. apply H; exact Hi. Qed.
Lemma trace_comm n A B : trace n (mmul n A B) = trace n (mmul n B A).
Proof. unfold trace, mmul. rewrite rsum_swap. apply rsum_ext. intros i _. apply rsum_ext. intros j _. ring. Qed.
Lemma trace_bdiag l : trace (nsum (map fst l)) (bdiag l) = lsum (map (fun p => trace (fst p) (snd p)) l).
Proof.
  induction l as [|[n A] l IH]; [reflexivity|]. change (nsum (map fst ((n, A) :: l))) with (n + nsum (map fst l))%nat. change (lsum (map (fun p => trace (fst p) (snd p)) ((n, A) :: l))) with (trace n A + lsum (map (fun p => trace (fst p) (snd p)) l)). rewrite <- IH. unfold trace. rewrite rsum_split. f_equal.
  - apply rsum_ext. intros i Hi. cbn [bdiag]. destruct (Nat.ltb_spec i n); [reflexivity|lia].
  - apply rsum_ext. intros i Hi. cbn [bdiag]. destruct (Nat.ltb_spec (n + i) n); [lia|]. replace (n + i - n)%nat with i by lia. reflexivity.
Qed.
Lemma rep_trace {G} (r : rep G) e : rep_accepted r -> trace (rp_size r) (rp_mat r e) = lsum (map (fun ir => ir_character ir e) (rp_irreps r)).
Proof.
  intros [_ I]. unfold rp_mat. cbv zeta. rewrite trace_comm. rewrite (trace_ext _ _ (bdiag (blocks (rp_irreps r) e))).
  - transitivity (trace (nsum (map fst (blocks (rp_irreps r) e))) (bdiag (blocks (rp_irreps r) e))).
    + f_equal. unfold rp_size, isizes, blocks. rewrite map_map. reflexivity.
    + rewrite trace_bdiag. unfold blocks. rewrite map_map. reflexivity.
  - rewrite <- mmul_assoc_eq. rewrite I. apply mmul_id_l.
Qed.

(** * counting *)
Lemma count_repeat {A} (dec : forall x y : A, {x = y} + {x <> y}) a b n : count_occ dec (repeat a n) b = if dec a b then n else 0%nat.
Proof. induction n as [|n IH]; cbn; [destruct (dec a b); reflexivity|]. rewrite IH. destruct (dec a b); reflexivity. Qed.
Lemma count_grouped {A} (dec : forall x y : A, {x = y} + {x <> y}) (c : A -> nat) ks b : NoDup ks -> count_occ dec (flat_map (fun k => repeat k (c k)) ks) b = if in_dec dec b ks then c b else 0%nat.
Proof.
  induction ks as [|k ks IH]; intros ND; cbn [flat_map]; [reflexivity|]. inversion ND as [|? ? N1 N2]; subst. rewrite count_occ_app, count_repeat, IH by assumption.
  destruct (dec k b) as [->|NE]; destruct (in_dec dec b ks); destruct (in_dec dec b (b :: ks)); try destruct (in_dec dec b (k :: ks)); try contradiction; try lia; cbn in *; try tauto; try lia.
Qed.
Lemma grouped_perm {A} (dec : forall x y : A, {x = y} + {x <> y}) (l ks : list A) : NoDup ks -> (forall a, In a l -> In a ks) -> Permutation (flat_map (fun k => repeat k (count_occ dec l k)) ks) l.
Proof.
  intros ND IN. apply (Permutation_count_occ dec). intros b. rewrite count_grouped by exact ND. destruct (in_dec dec b ks); [reflexivity|]. symmetry. apply count_occ_not_In. intros H. apply n, IN, H.
Qed.
Lemma count_sum {A} (dec : forall x y : A, {x = y} + {x <> y}) (c : R) (l : list A) k : lsum (map (fun a => if dec a k then c else 0) l) = INR (count_occ dec l k) * c.
Proof.
  induction l as [|a l IH]; [cbn; ring|]. change (lsum (map (fun a => if dec a k then c else 0) (a :: l))) with ((if dec a k then c else 0) + lsum (map (fun a => if dec a k then c else 0) l)). cbn [count_occ]. rewrite IH. destruct (dec a k); [rewrite S_INR|]; ring.
Qed.
