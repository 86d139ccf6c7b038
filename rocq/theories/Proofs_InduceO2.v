(** The change of basis computed for the representations of O(2) induced from SO(2). *)
From Coq Require Import Reals ZArith String List Bool Lia Lra RelationClasses Morphisms.
From Verif Require Import Base LinAlg Spec Model_Groups Model_Rep Model_Regular Model_Support Model_InduceO2 Spec_InduceO2
  Proofs_Groups Proofs_Cont Proofs_Irreps Proofs_Rep Proofs_Restrict.
Import ListNotations.
Open Scope R_scope.

Definition rows (l : list (list R)) : mat := fun i j => nth j (nth i l []) 0.

Lemma commuting_1 t : build_commuting_matrix 1 t 0%nat 0%nat = 1.
Proof.
  assert (P := PI_neq0). unfold build_commuting_matrix. cbn -[PI sqrt INR Rdiv Nat.modulo].
  unfold mscal, mid, mat1; cbn -[PI sqrt INR Rdiv].
  replace ((0 + 2 * PI * 1 * 1) / (2 * PI)) with 1 by (field; exact P).
  replace ((0 + (0 + 1 * 1)) / INR 1) with 1 by (cbn; field). rewrite sqrt_1. field.
Qed.

Lemma sqrt2_sq : sqrt 2 * sqrt 2 = 2.
Proof. apply sqrt_sqrt. lra. Qed.
Lemma sqrt2_neq : sqrt 2 <> 0.
Proof. assert (H := sqrt2_sq). intros E. rewrite E in H. lra. Qed.

Lemma commuting_2 t i j : (i < 2)%nat -> (j < 2)%nat ->
  build_commuting_matrix 2 t i j = (if (t mod 2 =? 0)%nat then rows [[1; 1]; [-1; 1]] i j else rows [[1; -1]; [1; 1]] i j) / sqrt 2.
Proof.
  intros Hi Hj. assert (P := PI_neq0). assert (S2 := sqrt2_neq).
  unfold build_commuting_matrix. change (2 =? 1)%nat with false. cbv iota zeta.
  destruct (t mod 2 =? 0)%nat;
  unfold mtr, mscal, madd, mid, mat2, rows;
  cbn -[PI sqrt INR Rdiv].
  all: match goal with |- _ / sqrt (?a / INR 2) = _ => replace (a / INR 2) with 2 by (cbn; field; exact P) end.
  all: destruct i as [|[|i]]; [| |lia]; destruct j as [|[|j]]; [| |lia| | |lia]; cbn -[PI sqrt INR Rdiv]; field; auto.
Qed.

(** the restriction of an irrep of O(2) to SO(2) *)
Lemma inverse_of_id n D E : inverse_pair n D E -> meq n n D mid -> meq n n E mid.
Proof.
  intros [H1 H2] HD. transitivity (mmul n D E); [|exact H1]. transitivity (mmul n mid E); [symmetry; apply mmul_id_l|].
  intros i j Hi Hj. unfold mmul. apply rsum_ext. intros q Hq. rewrite HD by lia. reflexivity.
Qed.

Lemma restrict_spec linv j k ir : inverts_id linv -> o2_irrep j k = Ok ir -> exists q sir, o2_restrict linv ir = Ok q /\ so2_irrep k = Ok sir /\
  rp_irreps q = [sir] /\ ir_freq sir = k /\ ir_size sir = ir_size ir /\ meq (ir_size ir) (ir_size ir) (rp_inv q) mid.
Proof.
  intros [L1 L2] E. destruct (o2_irrep_inv _ _ _ E) as (HK & EF & EJ & C).
  assert (SO : exists sir, so2_irrep k = Ok sir /\ ir_freq sir = k /\ ir_size sir = ir_size ir).
  { unfold so2_irrep, assert_. destruct (Z.leb_spec 0 k); [|lia]. destruct (Z.eqb_spec k 0) as [K|K].
    - eexists; split; [reflexivity|]. cbn. split; [auto|]. destruct C as [C|[C|C]]; try (symmetry; tauto).
    - eexists; split; [reflexivity|]. cbn. split; [auto|]. destruct C as [C|[C|C]]; try tauto. symmetry; tauto. }
  destruct SO as (sir & SO & SF & SS).
  assert (RI : o2_restrict_one_S (None, (-1)%Z) ir = Ok (mid, [sir])).
  { unfold o2_restrict_one_S, o2_restrict_irrep. cbn -[so2_irrep]. rewrite EF, SO. reflexivity. }
  unfold o2_restrict, restrict_representation. cbn -[o2_restrict_one_S mmul bdiag rp_size]. rewrite RI. cbn -[mmul bdiag rp_size].
  set (D := mmul _ mid _).
  assert (HD : meq (ir_size ir) (ir_size ir) D mid).
  { unfold D. change (rp_size (rep_of_irrep "irr" ir)) with (ir_size ir + 0)%nat. rewrite Nat.add_0_r.
    etransitivity; [apply mmul_id_l|]. intros i i' Hi Hi'. cbn [bdiag]. apply Nat.ltb_lt in Hi. apply Nat.ltb_lt in Hi'. rewrite Hi, Hi'. reflexivity. }
  destruct (L2 (ir_size ir) D HD) as (inv & LI).
  rewrite LI. eexists _, sir. split; [reflexivity|]. cbn. repeat split; auto. exact (inverse_of_id _ _ _ (L1 _ _ _ LI) HD).
Qed.

Definition C2 : mat := rows [[1 / sqrt 2; 1 / sqrt 2]; [1 / sqrt 2; - 1 / sqrt 2]].
Definition C4 : mat := rows [[1/2; 1/2; 1/2; -1/2]; [-1/2; 1/2; 1/2; 1/2]; [1/2; -1/2; 1/2; 1/2]; [-1/2; -1/2; 1/2; -1/2]].

Lemma induced_pos linv name k sir : inverts_id linv -> (0 < k)%Z -> so2_irrep k = Ok sir -> exists ir r, o2_irrep 1 k = Ok ir /\
  o2_induced_representation linv name (None, (-1)%Z) sir = Ok r /\ rp_irreps r = [ir; ir] /\ rp_inv r = mtr (rp_cob r) /\ meq 4 4 (rp_cob r) C4 /\
  rp_name r = name /\ rp_nonlin r = induced_nonlinearities (ir_size sir) (ir_nonlin sir).
Proof.
  intros L HK E. destruct (proj2 (o2_irrep_ok 1 k) ltac:(lia)) as (ir & EI). destruct (restrict_spec _ _ _ _ L EI) as (q & sir' & RQ & SO & RI & SF & SS & INV).
  rewrite SO in E. injection E as <-. destruct (o2_irrep_inv _ _ _ EI) as (_ & _ & _ & C). destruct C as [C|[C|C]]; try lia. destruct C as (K0 & _ & SZ & IM).
  rewrite SZ in SS, INV.
  exists ir. eexists. split; [exact EI|]. unfold o2_induced_representation, o2_induced_from_irrep. rewrite SF, SS.
  destruct (Z.ltb_spec 0 k); [|lia]. rewrite EI. cbn -[mult_loop isizes mmul blocks bdiag induced_nonlinearities].
  cbn [mult_loop]. rewrite SZ, RQ. cbn [rbind rp_irreps Nat.leb Nat.ltb assert_]. rewrite RI. cbn [filter]. rewrite SF, Z.eqb_refl. cbn [length Nat.mul Nat.add Nat.leb assert_].
  cbn [rbind]. split; [reflexivity|]. cbn [rp_irreps rp_inv rp_cob rp_name rp_nonlin fst snd]. split; [reflexivity|]. split; [reflexivity|]. split; [|split; reflexivity].
  assert (I00 := INV 0%nat 0%nat ltac:(lia) ltac:(lia)). assert (I01 := INV 0%nat 1%nat ltac:(lia) ltac:(lia)). assert (I10 := INV 1%nat 0%nat ltac:(lia) ltac:(lia)). assert (I11 := INV 1%nat 1%nat ltac:(lia) ltac:(lia)).
  cbn in I00, I01, I10, I11.
  change (isizes [ir; ir]) with (ir_size ir + (ir_size ir + 0))%nat. rewrite SZ. change (2 + (2 + 0))%nat with 4%nat.
  replace (sqrt (INR 4)) with 2 by (change (INR 4) with (1+1+1+1); replace (1+1+1+1) with (2*2) by ring; symmetry; apply sqrt_square; lra).
  change (seq 0 2) with [0%nat; 1%nat].
  assert (V : forall i j, (i < 2)%nat -> (j < 4)%nat -> snd (fold_left (shift_step 2 k ir q 1) [0%nat; 1%nat] (0%nat, mzero)) i j / 2 = C4 i j).
  { intros i j Hi Hj. cbn [fold_left]. unfold shift_step. rewrite RI, SZ. cbn [place]. rewrite SF, Z.eqb_refl. rewrite !Nat.mod_1_r, !Nat.div_1_r. cbn [andb Nat.eqb].
    set (X0 := build_commuting_matrix 2 0). set (X1 := build_commuting_matrix 2 1). 
    assert (HX0 : forall i j, (i < 2)%nat -> (j < 2)%nat -> X0 i j = rows [[1; 1]; [-1; 1]] i j / sqrt 2) by (intros; unfold X0; rewrite commuting_2 by assumption; reflexivity).
    assert (HX1 : forall i j, (i < 2)%nat -> (j < 2)%nat -> X1 i j = rows [[1; -1]; [1; 1]] i j / sqrt 2) by (intros; unfold X1; rewrite commuting_2 by assumption; reflexivity).
    assert (S2 := sqrt2_neq). unfold C4, set_cols, cols_from, mscal, mmul, mzero. change (INR 2) with 2.
    destruct j as [|[|[|[|j]]]]; [| | | |lia]; cbn [snd Nat.leb Nat.ltb andb Nat.add Nat.sub rsum]; rewrite ?I00, ?I01, ?I10, ?I11; rewrite ?HX0, ?HX1 by lia;
    destruct i as [|[|i]]; try lia; unfold rows; cbn [nth]; field; exact S2. }
  generalize dependent (snd (fold_left (shift_step 2 k ir q 1) [0%nat; 1%nat] (0%nat, mzero))). intros v V.
  intros i j Hi Hj. change (blocks [ir; ir]) with (fun g : Z * R => [(ir_size ir, ir_mat ir g); (ir_size ir, ir_mat ir g)]). cbv beta. rewrite SZ, IM.
  destruct i as [|[|[|[|i]]]]; [| | | |lia]; cbn [Nat.ltb Nat.leb Nat.sub]; unfold mmul; cbn [rsum]; cbv beta; rewrite !V by lia; unfold C4, rows, psichi, o2_identity, o2_reflection; cbn [fst snd sgn];
  rewrite ?Rmult_0_r, ?Rplus_0_r, ?cos_0, ?sin_0; (destruct j as [|[|[|[|j]]]]; [| | | |lia]); cbn; lra.
Qed.

Lemma induced_zero linv name sir : inverts_id linv -> so2_irrep 0 = Ok sir -> exists a b r, o2_irrep 0 0 = Ok a /\ o2_irrep 1 0 = Ok b /\
  o2_induced_representation linv name (None, (-1)%Z) sir = Ok r /\ rp_irreps r = [a; b] /\ rp_inv r = mtr (rp_cob r) /\ meq 2 2 (rp_cob r) C2 /\
  rp_name r = name /\ rp_nonlin r = induced_nonlinearities (ir_size sir) (ir_nonlin sir).
Proof.
  intros L E. destruct (proj2 (o2_irrep_ok 0 0) ltac:(lia)) as (a & EA). destruct (proj2 (o2_irrep_ok 1 0) ltac:(lia)) as (b & EB).
  destruct (restrict_spec _ _ _ _ L EA) as (q & sir' & RQ & SO & RI & SF & SS & INV). rewrite SO in E. injection E as <-.
  destruct (restrict_spec _ _ _ _ L EB) as (q' & sir'' & RQ' & SO' & RI' & _ & _ & INV'). rewrite SO in SO'. injection SO' as <-.
  destruct (o2_irrep_inv _ _ _ EA) as (_ & _ & _ & C). destruct C as [C|[C|C]]; try lia. destruct C as (_ & _ & SZ & IM).
  destruct (o2_irrep_inv _ _ _ EB) as (_ & _ & _ & C). destruct C as [C|[C|C]]; try lia. destruct C as (_ & _ & SZ' & IM').
  rewrite SZ in SS, INV. rewrite SZ' in INV'.
  exists a, b. eexists. split; [exact EA|]. split; [exact EB|]. unfold o2_induced_representation, o2_induced_from_irrep. rewrite SF, SS.
  destruct (Z.ltb_spec 0 0); [lia|]. rewrite EA, EB. cbn -[mult_loop isizes mmul blocks bdiag induced_nonlinearities].
  cbn [mult_loop]. rewrite SZ, SZ', RQ, RQ'. cbn [rbind rp_irreps Nat.leb Nat.ltb assert_]. rewrite RI, RI'. cbn [filter]. rewrite SF, Z.eqb_refl. cbn [length Nat.mul Nat.add Nat.leb assert_].
  cbn [rbind]. split; [reflexivity|]. cbn [rp_irreps rp_inv rp_cob rp_name rp_nonlin fst snd]. split; [reflexivity|]. split; [reflexivity|]. split; [|split; reflexivity].
  assert (I := INV 0%nat 0%nat ltac:(lia) ltac:(lia)). assert (I' := INV' 0%nat 0%nat ltac:(lia) ltac:(lia)). cbn in I, I'.
  change (isizes [a; b]) with (ir_size a + (ir_size b + 0))%nat. rewrite SZ, SZ'. change (1 + (1 + 0))%nat with 2%nat. change (INR 2) with 2.
  change (seq 0 1) with [0%nat]. assert (S2 := sqrt2_neq).
  assert (V : forall j, (j < 2)%nat -> snd (fold_left (shift_step 1 0 b q' 1) [0%nat] (fold_left (shift_step 1 0 a q 1) [0%nat] (0%nat, mzero))) 0%nat j / sqrt 2 = 1 / sqrt 2).
  { intros j Hj. cbn [fold_left]. unfold shift_step. rewrite RI, RI', SZ, SZ'. cbn [place]. rewrite SF, Z.eqb_refl. rewrite !Nat.mod_1_r, !Nat.div_1_r. cbn [andb Nat.eqb].
    set (X0 := build_commuting_matrix 1 0). assert (HX : X0 0%nat 0%nat = 1) by apply commuting_1.
    unfold set_cols, cols_from, mscal, mmul, mzero. change (INR 1) with 1. rewrite sqrt_1.
    destruct j as [|[|j]]; [| |lia]; cbn [snd Nat.leb Nat.ltb andb Nat.add Nat.sub rsum]; rewrite ?I, ?I', ?HX; field; exact S2. }
  generalize dependent (snd (fold_left (shift_step 1 0 b q' 1) [0%nat] (fold_left (shift_step 1 0 a q 1) [0%nat] (0%nat, mzero)))). intros v V.
  intros i j Hi Hj. change (blocks [a; b]) with (fun g : Z * R => [(ir_size a, ir_mat a g); (ir_size b, ir_mat b g)]). cbv beta. rewrite SZ, SZ', IM, IM'.
  destruct i as [|[|i]]; [| |lia]; cbn [Nat.ltb Nat.leb Nat.sub]; unfold mmul; cbn [rsum]; cbv beta; rewrite !V by lia; unfold C2, rows, o2_identity, o2_reflection, mat1, flip_sign; cbn [fst snd sgn];
  (destruct j as [|[|j]]; [| |lia]); cbn; unfold mid; cbn; lra.
Qed.

Lemma C4_orth : orthogonal 4 C4.
Proof. split; intros i j Hi Hj; do 4 (destruct i as [|i]; [do 4 (destruct j as [|j]; [unfold mmul, mtr, mid, C4, rows; cbn; lra|]); lia|]); lia. Qed.
Lemma C2_orth : orthogonal 2 C2.
Proof.
  assert (S2 := sqrt2_neq). assert (Q : 1 / sqrt 2 * (1 / sqrt 2) = 1 / 2) by (replace (1 / sqrt 2 * (1 / sqrt 2)) with (1 / (sqrt 2 * sqrt 2)) by (field; exact S2); rewrite sqrt2_sq; reflexivity).
  assert (Q' : - 1 / sqrt 2 = - (1 / sqrt 2)) by (field; exact S2).
  split; intros i j Hi Hj; do 2 (destruct i as [|i]; [do 2 (destruct j as [|j]; [unfold mmul, mtr, mid, C2, rows; cbn; rewrite ?Q'; lra|]); lia|]); lia.
Qed.
Lemma orth_ext n A B : meq n n A B -> orthogonal n B -> orthogonal n A.
Proof.
  intros H [O1 O2]. split; [etransitivity; [|exact O1]|etransitivity; [|exact O2]]; intros i j Hi Hj; unfold mmul, mtr; apply rsum_ext; intros q Hq; rewrite !H by lia; reflexivity.
Qed.
Lemma conj_ext n A B D : meq n n A B -> meq n n (mmul n (mmul n A D) (mtr A)) (mmul n (mmul n B D) (mtr B)).
Proof.
  intros H i j Hi Hj. unfold mmul, mtr. apply rsum_ext. intros q Hq. rewrite (H j q) by lia. f_equal. apply rsum_ext. intros q' Hq'. rewrite H by lia. reflexivity.
Qed.

Lemma psi_neg a k : psi (- a) k 0 = mat2 (cos (IZR k * a + 0)) (sin (IZR k * a + 0)) (- sin (IZR k * a + 0)) (cos (IZR k * a + 0)).
Proof. unfold psi. replace (IZR k * - a + 0) with (- (IZR k * a + 0)) by ring. rewrite cos_neg, sin_neg, Ropp_involutive. reflexivity. Qed.

Lemma induced_mat_pos k r ir e : o2_irrep 1 k = Ok ir -> (0 < k)%Z -> rp_irreps r = [ir; ir] -> rp_inv r = mtr (rp_cob r) -> meq 4 4 (rp_cob r) C4 -> o2_el e ->
  meq 4 4 (rp_mat r e) (induced_at 2 (fun a => psi a k 0) e).
Proof.
  intros EI HK RI RV RC HE. destruct (o2_irrep_inv _ _ _ EI) as (_ & _ & _ & C). destruct C as [C|[C|C]]; try lia. destruct C as (_ & _ & SZ & IM).
  unfold rp_mat, rp_size. rewrite RI, RV. change (isizes [ir; ir]) with (ir_size ir + (ir_size ir + 0))%nat. rewrite SZ. change (2 + (2 + 0))%nat with 4%nat.
  etransitivity; [apply conj_ext, RC|]. change (blocks [ir; ir] e) with [(ir_size ir, ir_mat ir e); (ir_size ir, ir_mat ir e)]. rewrite SZ, IM. destruct e as [f a]. apply o2_el_iff in HE.
  intros i j Hi Hj. destruct HE as [-> | ->]; do 4 (destruct i as [|i]; [do 4 (destruct j as [|j]; [cbn -[psi psichi mmul C4 bdiag]; rewrite ?psi_neg; unfold psi, mmul, mtr, C4, rows, psichi; set (x := IZR k * a + 0); cbn; lra|]); lia|]); lia.
Qed.
Lemma induced_mat_zero r a b e : o2_irrep 0 0 = Ok a -> o2_irrep 1 0 = Ok b -> rp_irreps r = [a; b] -> rp_inv r = mtr (rp_cob r) -> meq 2 2 (rp_cob r) C2 -> o2_el e ->
  meq 2 2 (rp_mat r e) (induced_at 1 (fun _ => mid) e).
Proof.
  intros EA EB RI RV RC HE. destruct (o2_irrep_inv _ _ _ EA) as (_ & _ & _ & C). destruct C as [C|[C|C]]; try lia. destruct C as (_ & _ & SZ & IM).
  destruct (o2_irrep_inv _ _ _ EB) as (_ & _ & _ & C). destruct C as [C|[C|C]]; try lia. destruct C as (_ & _ & SZ' & IM').
  unfold rp_mat, rp_size. rewrite RI, RV. change (isizes [a; b]) with (ir_size a + (ir_size b + 0))%nat. rewrite SZ, SZ'. change (1 + (1 + 0))%nat with 2%nat.
  etransitivity; [apply conj_ext, RC|]. change (blocks [a; b] e) with [(ir_size a, ir_mat a e); (ir_size b, ir_mat b e)]. rewrite SZ, SZ', IM, IM'. destruct e as [f x]. apply o2_el_iff in HE.
  assert (S2 := sqrt2_neq). assert (Q : 1 / sqrt 2 * (1 / sqrt 2) = 1 / 2) by (replace (1 / sqrt 2 * (1 / sqrt 2)) with (1 / (sqrt 2 * sqrt 2)) by (field; exact S2); rewrite sqrt2_sq; reflexivity).
  assert (Q' : - 1 / sqrt 2 = - (1 / sqrt 2)) by (field; exact S2).
  unfold induced_at. cbn [fst snd].
  intros i j Hi Hj. destruct HE as [-> | ->]; do 2 (destruct i as [|i]; [do 2 (destruct j as [|j]; [unfold mmul, mtr, C2, rows, mid, mat1, flip_sign; cbn; rewrite ?Q'; lra|]); lia|]); lia.
Qed.

Lemma o2_induced_spec linv name k sir : inverts_id linv -> so2_irrep k = Ok sir -> exists r, o2_induced_representation linv name (None, (-1)%Z) sir = Ok r /\
  rp_name r = name /\ o2_rep r /\ rp_size r = (2 * ir_size sir)%nat /\ orthogonal (rp_size r) (rp_cob r) /\ rp_inv r = mtr (rp_cob r) /\
  forall e, o2_el e -> meq (rp_size r) (rp_size r) (rp_mat r e) (induced_at (ir_size sir) (ir_mat sir) e).
Proof.
  intros L E. destruct (so2_irrep_inv _ _ E) as (HK & _ & _ & C).
  destruct (Z.eq_dec k 0) as [->|K0].
  - destruct (induced_zero linv name sir L E) as (a & b & r & EA & EB & ER & RI & RV & RC & RN & _). exists r. split; [exact ER|]. split; [exact RN|].
    destruct (o2_irrep_inv _ _ _ EA) as (_ & _ & _ & D). destruct D as [D|[D|D]]; try lia. destruct D as (_ & _ & SZ & _).
    destruct (o2_irrep_inv _ _ _ EB) as (_ & _ & _ & D). destruct D as [D|[D|D]]; try lia. destruct D as (_ & _ & SZ' & _).
    assert (RS : rp_size r = 2%nat) by (unfold rp_size; rewrite RI; change (isizes [a; b]) with (ir_size a + (ir_size b + 0))%nat; rewrite SZ, SZ'; reflexivity).
    destruct C as [C|C]; [|tauto]. destruct C as (_ & S1 & M1). rewrite RS, S1, M1.
    assert (OR := orth_ext _ _ _ RC C2_orth). split; [split|].
    + unfold rep_accepted. rewrite RS, RV. exact OR.
    + rewrite RI. repeat constructor; eauto.
    + repeat split; auto; try apply OR. intros e HE. apply (induced_mat_zero r a b e); assumption.
  - assert (HP : (0 < k)%Z) by lia. destruct (induced_pos linv name k sir L HP E) as (ir & r & EI & ER & RI & RV & RC & RN & _). exists r. split; [exact ER|]. split; [exact RN|].
    destruct (o2_irrep_inv _ _ _ EI) as (_ & _ & _ & D). destruct D as [D|[D|D]]; try lia. destruct D as (_ & _ & SZ & _).
    assert (RS : rp_size r = 4%nat) by (unfold rp_size; rewrite RI; change (isizes [ir; ir]) with (ir_size ir + (ir_size ir + 0))%nat; rewrite SZ; reflexivity).
    destruct C as [C|C]; [tauto|]. destruct C as (_ & S1 & M1). rewrite RS, S1, M1.
    assert (OR := orth_ext _ _ _ RC C4_orth). split; [split|].
    + unfold rep_accepted. rewrite RS, RV. exact OR.
    + rewrite RI. repeat constructor; eauto.
    + repeat split; auto; try apply OR. intros e HE. apply (induced_mat_pos k r ir e); assumption.
Qed.

Lemma induced_unique linv name k sir r : inverts_id linv -> so2_irrep k = Ok sir -> o2_induced_representation linv name (None, (-1)%Z) sir = Ok r ->
  rp_name r = name /\ o2_rep r /\ rp_size r = (2 * ir_size sir)%nat /\ orthogonal (rp_size r) (rp_cob r) /\
  forall e, o2_el e -> meq (rp_size r) (rp_size r) (rp_mat r e) (induced_at (ir_size sir) (ir_mat sir) e).
Proof. intros L E ER. destruct (o2_induced_spec linv name k sir L E) as (r' & ER' & A & B & C & D & _ & F). rewrite ER in ER'. injection ER' as <-. auto. Qed.

Lemma induced_rep linv name k sir r : inverts_id linv -> so2_irrep k = Ok sir -> o2_induced_representation linv name (None, (-1)%Z) sir = Ok r ->
  is_representation o2_el o2_combine o2_identity (rp_size r) (rp_mat r) /\ is_orthogonal_rep o2_el (rp_size r) (rp_mat r).
Proof.
  intros L E ER. destruct (induced_unique _ _ _ _ _ L E ER) as (_ & OR & _ & OC & _). split; [apply o2_rep_is, OR|].
  destruct OR as [RA RF]. apply (rep_is_orth o2_el r RA OC). eapply Forall_impl; [|exact RF]. intros ir (j & q & EQ). apply (o2_irrep_rep j q ir EQ).
Qed.
