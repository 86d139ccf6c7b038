(** For C64: nearly equal orthogonal changes of basis give nearly equal matrices. *)
From Coq Require Import Reals ZArith String List Bool Lia Lra Psatz.
From Verif Require Import Base Spec Model_Groups Model_Rep Proofs_Rep Proofs_Groups Proofs_Cont Proofs_Irreps Proofs_Restrict Model_FieldType Proofs_FieldType Model_GSpace Model_Tensor Model_Conv Spec_Conv Proofs_Conv4 Proofs_Conv5
  Proofs_Net Proofs_Export Model_Equality Spec_Equality.
Import ListNotations.
Open Scope R_scope.

Lemma unit_cs n a b : rsum n (fun k => b k * b k) = 1 -> rsum n (fun k => a k * b k) * rsum n (fun k => a k * b k) <= rsum n (fun k => a k * a k).
Proof.
  intros H. set (c := rsum n (fun k => a k * b k)).
  assert (P : 0 <= rsum n (fun k => (a k - c * b k) * (a k - c * b k))) by (apply rsum_nonneg; intros; apply Rle_0_sqr).
  assert (E : rsum n (fun k => (a k - c * b k) * (a k - c * b k)) = rsum n (fun k => a k * a k) - 2 * c * c + c * c * rsum n (fun k => b k * b k)).
  { rewrite (rsum_ext _ _ (fun k => (a k * a k + (- (2 * c)) * (a k * b k)) + (c * c) * (b k * b k))) by (intros; ring). rewrite !rsum_plus, !rsum_scal. fold c. ring. }
  rewrite H in E. nra.
Qed.
Lemma unit_cs_abs n a b q : 0 <= q -> rsum n (fun k => b k * b k) = 1 -> rsum n (fun k => a k * a k) <= q * q -> Rabs (rsum n (fun k => a k * b k)) <= q.
Proof. intros Q H K. pose proof (unit_cs n a b H). apply Rabs_le. nra. Qed.

Lemma row_unit n Q i : orthogonal n Q -> (i < n)%nat -> rsum n (fun k => Q i k * Q i k) = 1.
Proof. intros [H _] Hi. specialize (H i i Hi Hi). unfold mmul, mtr, mid in H. rewrite Nat.eqb_refl in H. exact H. Qed.
Lemma col_unit n Q j : orthogonal n Q -> (j < n)%nat -> rsum n (fun k => Q k j * Q k j) = 1.
Proof. intros [_ H] Hj. specialize (H j j Hj Hj). unfold mmul, mtr, mid in H. rewrite Nat.eqb_refl in H. exact H. Qed.
Lemma orthogonal_tr n Q : orthogonal n Q -> orthogonal n (mtr Q).
Proof. intros [H1 H2]. split; [exact H2|exact H1]. Qed.

(** the entries are within numpy's tolerance *)
Definition close_to (n : nat) (A B : mat) : Prop := forall i j, (i < n)%nat -> (j < n)%nat -> Rabs (A i j - B i j) <= 1 / 100000000 + 1 / 100000 * Rabs (B i j).
Definition half_slack (n : nat) : R := sqrt (INR n) / 100000000 + 1 / 100000.

Lemma sqrt_INR_sq n : sqrt (INR n) * sqrt (INR n) = INR n.
Proof. apply sqrt_sqrt, pos_INR. Qed.
Lemma abs_sum n b : rsum n (fun k => b k * b k) = 1 -> rsum n (fun k => Rabs (b k)) <= sqrt (INR n).
Proof.
  intros H. assert (H' : rsum n (fun k => Rabs (b k) * Rabs (b k)) = 1) by (rewrite <- H; apply rsum_ext; intros k _; symmetry; apply Rsqr_abs).
  pose proof (unit_cs n (fun _ => 1) (fun k => Rabs (b k)) H') as C. cbv beta in C. rewrite (rsum_ext n (fun k => 1 * Rabs (b k)) (fun k => Rabs (b k))) in C by (intros; ring).
  rewrite rsum_const in C. pose proof (sqrt_pos (INR n)). pose proof (sqrt_INR_sq n). assert (0 <= rsum n (fun k => Rabs (b k))) by (apply rsum_nonneg; intros; apply Rabs_pos). nra.
Qed.
Lemma error_row n A B i : orthogonal n B -> close_to n A B -> (i < n)%nat -> rsum n (fun k => (A i k - B i k) * (A i k - B i k)) <= half_slack n * half_slack n.
Proof.
  intros O C Hi. pose proof (row_unit n B i O Hi) as U. pose proof (abs_sum n _ U) as S. pose proof (sqrt_INR_sq n) as Q.
  set (al := 1 / 100000000). set (be := 1 / 100000).
  apply Rle_trans with (rsum n (fun k => (al * al + (2 * al * be) * Rabs (B i k)) + be * be * (B i k * B i k))).
  { apply rsum_le. intros k Hk. specialize (C i k Hi Hk). fold al be in C. pose proof (Rabs_pos (A i k - B i k)). pose proof (Rabs_pos (B i k)).
    assert (E1 : (A i k - B i k) * (A i k - B i k) = Rabs (A i k - B i k) * Rabs (A i k - B i k)) by apply Rsqr_abs.
    assert (E2 : B i k * B i k = Rabs (B i k) * Rabs (B i k)) by apply Rsqr_abs. rewrite E1, E2.
    assert (0 <= al) by (unfold al; lra). assert (0 <= be) by (unfold be; lra).
    apply Rle_trans with ((al + be * Rabs (B i k)) * (al + be * Rabs (B i k))); [apply Rmult_le_compat; auto|right; ring]. }
  rewrite !rsum_plus, !rsum_scal, rsum_const, U. unfold half_slack. fold be. unfold Rdiv at 1. set (s := sqrt (INR n)) in *.
  replace (/ 100000000) with al by (unfold al; lra). unfold Rdiv. replace (/ 100000000) with al by (unfold al; lra).
  assert (0 <= al * be) by (unfold al, be; lra). assert (al * be * rsum n (fun k => Rabs (B i k)) <= al * be * s) by (apply Rmult_le_compat_l; auto).
  rewrite <- Q. nra.
Qed.
Lemma half_slack_pos n : 0 <= half_slack n.
Proof. unfold half_slack. pose proof (sqrt_pos (INR n)). lra. Qed.

Lemma sandwich n A B D : orthogonal n A -> orthogonal n B -> orthogonal n D -> close_to n A B ->
  within (2 * half_slack n) n (mmul n (mmul n A D) (mtr A)) (mmul n (mmul n B D) (mtr B)).
Proof.
  intros OA OB OD C i j Hi Hj.
  assert (E : mmul n (mmul n A D) (mtr A) i j - mmul n (mmul n B D) (mtr B) i j =
    rsum n (fun k => (A i k - B i k) * mmul n D (mtr A) k j) + rsum n (fun k => (A j k - B j k) * mmul n B D i k)).
  { rewrite !mmul_assoc. rewrite (rsum_ext n (fun k => (A i k - B i k) * _) (fun k => A i k * mmul n D (mtr A) k j - B i k * mmul n D (mtr A) k j)) by (intros; ring).
    rewrite (rsum_ext n (fun k => (A j k - B j k) * _) (fun k => mmul n B D i k * mtr A k j - mmul n B D i k * mtr B k j)) by (intros; unfold mtr; ring).
    rewrite !rsum_minus. change (rsum n (fun k => A i k * mmul n D (mtr A) k j)) with (mmul n A (mmul n D (mtr A)) i j).
    change (rsum n (fun k => B i k * mmul n D (mtr A) k j)) with (mmul n B (mmul n D (mtr A)) i j).
    change (rsum n (fun k => mmul n B D i k * mtr A k j)) with (mmul n (mmul n B D) (mtr A) i j).
    change (rsum n (fun k => mmul n B D i k * mtr B k j)) with (mmul n (mmul n B D) (mtr B) i j). rewrite !mmul_assoc. ring. }
  rewrite E. eapply Rle_trans; [apply Rabs_triang|]. replace (2 * half_slack n) with (half_slack n + half_slack n) by ring. pose proof (half_slack_pos n). apply Rplus_le_compat.
  - apply (unit_cs_abs n (fun k => A i k - B i k) (fun k => mmul n D (mtr A) k j)); auto; [|apply error_row; auto].
    apply (col_unit n (mmul n D (mtr A)) j); auto. apply orthogonal_mmul; auto using orthogonal_tr.
  - apply (unit_cs_abs n (fun k => A j k - B j k) (fun k => mmul n B D i k)); auto; [|apply error_row; auto].
    apply (row_unit n (mmul n B D) i); auto. apply orthogonal_mmul; auto.
Qed.

(** the irreps of a group are orthogonal *)
Lemma irreps_orthogonal {G} (sp : space G) isrep : planar_space G sp isrep -> forall r e g, isrep r -> fg_is_element (sp_group (sp_obj sp)) e = true -> sp_prj sp e = Some g ->
  Forall (fun ir => orthogonal (ir_size ir) (ir_mat ir g)) (rp_irreps r).
Proof.
  intros PS r e g H He Hg. destruct PS; cbn [sp_obj sp_group space_CN space_SO2 space_DN space_O2 space_flip space_trivial sp_prj] in *; destruct H as [_ H];
    (eapply Forall_impl; [|exact H]); cbv beta; destruct e; try discriminate Hg; injection Hg as <-; cbn [fg_is_element] in He.
  - intros ir [k E]. apply (cyc_irrep_rep N k ir); auto; lia.
  - intros ir [k E]. destruct (so2_irrep_rep k ir E) as (_ & O & _). apply O. exact I.
  - intros ir (j & k & E). apply (dih_irrep_rep N j k ir); auto; lia.
  - intros ir (j & k & E). destruct (o2_irrep_rep j k ir E) as (_ & O & _). apply O. exact He.
  - intros ir [k E]. apply (cyc_irrep_rep 2 k ir); auto; lia.
  - intros ir [k E]. apply (cyc_irrep_rep 1 k ir); auto; lia.
Qed.
Lemma blocks_orthogonal {G} (l : list (irrep G)) g : Forall (fun ir => orthogonal (ir_size ir) (ir_mat ir g)) l -> orthogonal (isizes l) (bdiag (blocks l g)).
Proof.
  intros H. set (L := map (fun ir => (ir_size ir, (ir_mat ir g, mtr (ir_mat ir g)))) l).
  assert (F : Forall (fun p => inverse_pair (fst p) (fst (snd p)) (snd (snd p))) L) by (unfold L; apply Forall_forall; intros p Hp; apply in_map_iff in Hp as (ir & <- & Hi); rewrite Forall_forall in H; exact (H ir Hi)).
  apply bdiag_inverse_pair in F. unfold L in F. rewrite !map_map in F. cbn [fst snd] in F. unfold orthogonal, isizes, blocks.
  eapply inverse_pair_compat; [reflexivity| |exact F]. intros i j _ _. rewrite bdiag_tr, map_map. reflexivity.
Qed.

(** ** what a successful comparison says *)
Lemma isclose_iff a b : isclose a b = true <-> Rabs (a - b) <= 1 / 100000000 + 1 / 100000 * Rabs b.
Proof. unfold isclose, Rleb. destruct (Rle_dec _ _); split; auto; discriminate. Qed.
Lemma allclose_same n a b : np_allclose n n a b = Ok true <-> close_to n a b.
Proof.
  unfold np_allclose. rewrite Nat.eqb_refl. cbn [orb]. replace (if (n =? 1)%nat then n else n) with n by (destruct (n =? 1)%nat; auto).
  assert (B : forall i, (i < n)%nat -> bcast n i = i) by (intros i Hi; unfold bcast; destruct (Nat.eqb_spec n 1); [lia|auto]). split.
  - intros E i j Hi Hj. injection E as E. rewrite forallb_forall in E. specialize (E i ltac:(apply in_seq; lia)). rewrite forallb_forall in E. specialize (E j ltac:(apply in_seq; lia)).
    rewrite !B in E by auto. apply isclose_iff. exact E.
  - intros C. f_equal. apply forallb_forall. intros i Hi. apply forallb_forall. intros j Hj. apply in_seq in Hi, Hj. rewrite !B by lia. apply isclose_iff, C; lia.
Qed.
Section Reps.
Context {G : Type}.
Lemma rep_equal_true gr gr' (a b : rep G) : rep_equal gr gr' a b = Ok true <->
  rp_name a = rp_name b /\ fg_eqb gr gr' = true /\ list_eqb irrep_same (rp_irreps a) (rp_irreps b) = true /\ close_to (rp_size a) (rp_cob a) (rp_cob b) /\
  forall s, In s (rp_nonlin a) <-> In s (rp_nonlin b).
Proof.
  unfold rep_equal. destruct (String.eqb_spec (rp_name a) (rp_name b)) as [E|E]; cbn [negb]; [|split; [discriminate|tauto]].
  destruct (fg_eqb gr gr') eqn:F; cbn [negb]; [|split; [discriminate|intros (_ & K & _); discriminate]].
  assert (SET : set_eqb (rp_nonlin a) (rp_nonlin b) = true <-> forall s, In s (rp_nonlin a) <-> In s (rp_nonlin b)).
  { unfold set_eqb. rewrite andb_true_iff, !subset_iff. unfold incl. split; [intros [? ?] s; split; auto|intros H; split; intros s; apply H]. }
  destruct (list_eqb irrep_same (rp_irreps a) (rp_irreps b)) eqn:L; cbn [negb].
  - assert (S : rp_size b = rp_size a) by (symmetry; exact (irrep_same_size _ _ L)). rewrite S. split.
    + intros H. apply rbind_ok in H as (c & H1 & H2). destruct c; cbn [negb] in H2; [|discriminate]. apply allclose_same in H1. injection H2 as H2. pose proof (proj1 SET H2) as H3. repeat split; auto; apply H3.
    + intros (_ & _ & _ & H1 & H2). apply allclose_same in H1. rewrite H1. cbn [rbind negb]. f_equal. exact (proj2 SET H2).
  - split; [|intros (_ & _ & K & _); discriminate]. intros H. apply rbind_ok in H as (c & _ & H2). destruct c; discriminate.
Qed.

Lemma rep_equal_close (sp : space G) isrep gr gr' (a b : rep G) : planar_space G sp isrep -> isrep a -> isrep b -> rep_equal gr gr' a b = Ok true -> same_header a b /\
  (orthonormal a -> orthonormal b -> forall e g, fg_is_element (sp_group (sp_obj sp)) e = true -> sp_prj sp e = Some g -> within (slack (rp_size a)) (rp_size a) (rp_mat a g) (rp_mat b g)).
Proof.
  intros PS Ia Ib E. apply rep_equal_true in E as (E1 & _ & E2 & E3 & E4). destruct (same_irreps _ _ PS) as (P & H1 & H2). destruct (H1 _ Ia) as [A1 A2]. destruct (H1 _ Ib) as [B1 B2].
  pose proof (list_eqb_eq _ P _ _ H2 A2 B2 E2) as EI. assert (ES : rp_size a = rp_size b) by (unfold rp_size; rewrite EI; reflexivity).
  split; [repeat split; auto; apply E4|]. intros Oa Ob e g He Hg. pose proof (blocks_orthogonal _ g (irreps_orthogonal _ _ PS a e g Ia He Hg)) as OD.
  unfold orthonormal in *. rewrite <- ES in Ob. unfold rep_accepted in A1, B1. rewrite <- ES in B1.
  assert (Va : meq (rp_size a) (rp_size a) (rp_inv a) (mtr (rp_cob a))) by (exact (inverse_pair_unique _ _ _ _ A1 Oa)).
  assert (Vb : meq (rp_size a) (rp_size a) (rp_inv b) (mtr (rp_cob b))) by (exact (inverse_pair_unique _ _ _ _ B1 Ob)).
  intros i j Hi Hj. pose proof (sandwich (rp_size a) (rp_cob a) (rp_cob b) (bdiag (blocks (rp_irreps a) g)) Oa Ob OD E3 i j Hi Hj) as W.
  unfold rp_mat. rewrite <- ES, <- EI. unfold slack. fold (half_slack (rp_size a)).
  rewrite (mmul_compat (rp_size a) (rp_size a) (rp_size a) _ _ _ _ (fun _ _ _ _ => eq_refl) Va i j Hi Hj), (mmul_compat (rp_size a) (rp_size a) (rp_size a) _ _ _ _ (fun _ _ _ _ => eq_refl) Vb i j Hi Hj). exact W.
Qed.

Lemma items_equal_true {A} (eq : A -> A -> result bool) l l' : items_equal eq l l' = Ok true <-> Forall2 (fun a b => eq a b = Ok true) l l'.
Proof.
  revert l'. induction l as [|a l IH]; intros [|b l']; cbn [items_equal]; split; intros H; try discriminate; try (inversion H; fail); auto.
  - apply rbind_ok in H as (c & H1 & H2). destruct c; [|discriminate]. constructor; auto. apply IH. exact H2.
  - inversion H; subst. rewrite H3. cbn [rbind]. apply IH. exact H5.
Qed.
Lemma list_equal_true {A} (eq : A -> A -> result bool) l l' : list_equal eq l l' = Ok true <-> Forall2 (fun a b => eq a b = Ok true) l l'.
Proof.
  unfold list_equal. destruct (Nat.eqb_spec (length l) (length l')) as [E|E]; [apply items_equal_true|]. split; [discriminate|]. intros H. exfalso. apply E. clear E. induction H; cbn; congruence.
Qed.
End Reps.

(** ** block diagonal matrices *)
Lemma half_slack_mono n m : (n <= m)%nat -> half_slack n <= half_slack m.
Proof. intros H. unfold half_slack. assert (sqrt (INR n) <= sqrt (INR m)) by (apply sqrt_le_1_alt, le_INR; auto). lra. Qed.
Lemma within_mono d d' n A B : d <= d' -> within d n A B -> within d' n A B.
Proof. intros H W i j Hi Hj. eapply Rle_trans; [apply W; auto|exact H]. Qed.
Lemma bdiag_within d l l' : 0 <= d -> Forall2 (fun p q => fst p = fst q /\ within d (fst p) (snd p) (snd q)) l l' -> forall i j, (i < bsize l)%nat -> (j < bsize l)%nat -> Rabs (bdiag l i j - bdiag l' i j) <= d.
Proof.
  intros D H. induction H as [|[n A] [n' A'] l l' [E W] _ IH]; intros i j Hi Hj; cbn [fst snd] in *; [cbn in Hi; lia|]. subst n'. unfold bsize, nsum in *. cbn [map fold_right fst] in Hi, Hj. cbn [bdiag].
  destruct (Nat.ltb_spec i n), (Nat.ltb_spec j n); [apply W; auto| | |apply IH; lia]; rewrite Rminus_0_r, Rabs_R0; exact D.
Qed.
Lemma rsum_abs n f : Rabs (rsum n f) <= rsum n (fun k => Rabs (f k)).
Proof. induction n as [|n IH]; cbn [rsum]; [rewrite Rabs_R0; lra|]. eapply Rle_trans; [apply Rabs_triang|]. lra. Qed.
Lemma mvec_within d n A B v i : 0 <= d -> within d n A B -> (i < n)%nat -> Rabs (mvec n A v i - mvec n B v i) <= d * rsum n (fun k => Rabs (v k)).
Proof.
  intros D W Hi. unfold mvec. rewrite <- rsum_minus. eapply Rle_trans; [apply rsum_abs|]. rewrite <- rsum_scal. apply rsum_le. intros k Hk.
  replace (A i k * v k - B i k * v k) with ((A i k - B i k) * v k) by ring. rewrite Rabs_mult. apply Rmult_le_compat_r; [apply Rabs_pos|apply W; auto].
Qed.
