(** C68: the representations of O(2) induced from SO(2). *)
From Coq Require Import Reals ZArith String List Bool Lia Lra RelationClasses Morphisms.
From Verif Require Import Base LinAlg Spec Model_Groups Model_Rep Model_Regular Model_Fieldwise Model_Support Model_InduceO2 Spec_InduceO2 Spec_Fieldwise Proofs_Regular2 Spec_Support
  Proofs_Groups Proofs_Cont Proofs_Irreps Proofs_Rep Proofs_Restrict Proofs_Induced Proofs_InduceO2 Proofs_Support2.
Import ListNotations.
Open Scope R_scope.

(** For every irrep of SO(2), the induced representation is built.  It has twice the size, irreps of O(2) and an orthogonal change of basis whose
    transpose is its inverse, and at every element its matrix is the one of the induced representation. *)
Theorem C68_induced linv name k sir : inverts_id linv -> so2_irrep k = Ok sir -> exists r, o2_induced_representation linv name (None, (-1)%Z) sir = Ok r /\
  rp_name r = name /\ o2_rep r /\ rp_size r = (2 * ir_size sir)%nat /\ orthogonal (rp_size r) (rp_cob r) /\ rp_inv r = mtr (rp_cob r) /\
  forall e, o2_el e -> meq (rp_size r) (rp_size r) (rp_mat r e) (induced_at (ir_size sir) (ir_mat sir) e).
Proof. apply o2_induced_spec. Qed.
Print Assumptions C68_induced.

(** It is an orthogonal representation of O(2). *)
Theorem C68_representation linv name k sir r : inverts_id linv -> so2_irrep k = Ok sir -> o2_induced_representation linv name (None, (-1)%Z) sir = Ok r ->
  is_representation o2_el o2_combine o2_identity (rp_size r) (rp_mat r) /\ is_orthogonal_rep o2_el (rp_size r) (rp_mat r).
Proof. apply induced_rep. Qed.
Print Assumptions C68_representation.

(** Its irreps: frequency k twice, or, from the trivial representation, the trivial one and the sign of the reflection. *)
Theorem C68_irreps linv name k sir r : inverts_id linv -> so2_irrep k = Ok sir -> o2_induced_representation linv name (None, (-1)%Z) sir = Ok r ->
  map (fun ir => (ir_flip ir, ir_freq ir)) (rp_irreps r) = if (k =? 0)%Z then [(0, 0); (1, 0)]%Z else [(1, k); (1, k)]%Z.
Proof.
  intros L E ER. destruct (so2_irrep_inv _ _ E) as (HK & _). destruct (Z.eqb_spec k 0) as [->|K0].
  - destruct (induced_zero linv name sir L E) as (a & b & r' & EA & EB & ER' & RI & _). rewrite ER in ER'. injection ER' as <-. rewrite RI. cbn.
    destruct (o2_irrep_inv _ _ _ EA) as (_ & -> & -> & _). destruct (o2_irrep_inv _ _ _ EB) as (_ & -> & -> & _). reflexivity.
  - destruct (induced_pos linv name k sir L ltac:(lia) E) as (ir & r' & EI & ER' & RI & _). rewrite ER in ER'. injection ER' as <-. rewrite RI. cbn.
    destruct (o2_irrep_inv _ _ _ EI) as (_ & -> & -> & _). reflexivity.
Qed.
Print Assumptions C68_irreps.

(** Restricted to the rotations, the first copy is the representation that was induced; the reflection exchanges the copies. *)
Theorem C68_copies linv name k sir r : inverts_id linv -> so2_irrep k = Ok sir -> o2_induced_representation linv name (None, (-1)%Z) sir = Ok r -> let s := ir_size sir in
  forall i j, (i < s)%nat -> (j < s)%nat ->
  (forall a, rp_mat r (0%Z, a) i j = ir_mat sir a i j /\ rp_mat r (0%Z, a) i (s + j)%nat = 0 /\ rp_mat r (0%Z, a) (s + i)%nat j = 0) /\
  rp_mat r (1%Z, 0) i j = 0 /\ rp_mat r (1%Z, 0) i (s + j)%nat = mid i j /\ rp_mat r (1%Z, 0) (s + i)%nat j = mid i j /\ rp_mat r (1%Z, 0) (s + i)%nat (s + j)%nat = 0.
Proof.
  intros L E ER s i j Hi Hj. destruct (induced_unique _ _ _ _ _ L E ER) as (_ & _ & RS & _ & M). fold s in RS, M.
  destruct (so2_irrep_rep _ _ E) as ([ID _] & _). fold s in ID. assert (I0 := ID i j Hi Hj). unfold so2_identity in I0.
  assert (A : (i <? s = true)%nat) by (apply Nat.ltb_lt; lia). assert (A' : (j <? s = true)%nat) by (apply Nat.ltb_lt; lia).
  assert (B : (s + i <? s = false)%nat) by (apply Nat.ltb_ge; lia). assert (B' : (s + j <? s = false)%nat) by (apply Nat.ltb_ge; lia).
  assert (X : (s + i - s = i)%nat) by lia. assert (X' : (s + j - s = j)%nat) by lia.
  assert (E0 : forall a, o2_el (0%Z, a)) by (intros; apply o2_el_iff; auto). assert (E1 : forall a, o2_el (1%Z, a)) by (intros; apply o2_el_iff; auto).
  split; [intros a|]; repeat split; rewrite M by (auto; lia); unfold induced_at; rewrite ?A, ?A', ?B, ?B', ?X, ?X'; cbn; rewrite ?Ropp_0; auto.
Qed.
Print Assumptions C68_copies.

(** What it declares is true: pointwise non-linearities only if its matrices are permutations, norms only if they are orthogonal; and for InducedNorm the sub-fields
    that are read off the declaration are permuted by every element. *)
Lemma induced_block_perm s rho f a : (s = 1 \/ s = 2)%nat -> (f = 0 \/ f = 1)%Z -> (forall x, orthogonal s (rho x)) -> is_block_perm 2 s (induced_at s rho (f, a)).
Proof.
  intros HS HF O. exists (fun q => if (f =? 0)%Z then q else (1 - q)%nat), (fun q => rho (if (q =? 0)%nat then a else - a)). split; [|split].
  - destruct HF as [-> | ->]; cbn [Z.eqb]; split; intros; lia.
  - intros q _. apply O.
  - intros q q' i j Hq Hq' Hi Hj. assert (F1 : (q * s + i <? s)%nat = (q =? 0)%nat) by (destruct q as [|[|q]]; [apply Nat.ltb_lt; lia|apply Nat.ltb_ge; lia|lia]).
    assert (F2 : (q' * s + j <? s)%nat = (q' =? 0)%nat) by (destruct q' as [|[|q']]; [apply Nat.ltb_lt; lia|apply Nat.ltb_ge; lia|lia]).
    unfold induced_at. rewrite F1, F2. cbn [fst snd].
    destruct q as [|[|q]]; [| |lia]; (destruct q' as [|[|q']]; [| |lia]); destruct HF as [-> | ->]; cbn [Nat.eqb Bool.eqb Z.eqb negb Nat.sub]; try reflexivity;
    rewrite ?Nat.mul_0_l, ?Nat.add_0_l, ?Nat.mul_1_l, ?(Nat.add_comm s), ?Nat.add_sub; reflexivity.
Qed.
Lemma is_block_perm_ext k m A B : meq (k * m) (k * m) A B -> is_block_perm k m B -> is_block_perm k m A.
Proof. intros H (s & O & b & o & X). exists s, O. split; [exact b|]. split; [exact o|]. intros. rewrite H by nia. apply X; assumption. Qed.

Theorem C68_declared linv name k sir r : inverts_id linv -> so2_irrep k = Ok sir -> o2_induced_representation linv name (None, (-1)%Z) sir = Ok r ->
  (forall e, o2_el e -> compatible (rp_nonlin r) (rp_size r) (rp_mat r e)) /\
  field_id "induced_norm" r = Ok (rp_size r, ir_size sir) /\ field_id "induced_gated" r = Ok (rp_size r, ir_size sir) /\
  forall e, o2_el e -> is_block_perm (rp_size r / ir_size sir) (ir_size sir) (rp_mat r e).
Proof.
  intros L E ER. destruct (induced_unique _ _ _ _ _ L E ER) as (_ & OR & RS & _ & M). destruct (C68_representation _ _ _ _ _ L E ER) as [_ RO].
  destruct (so2_irrep_rep _ _ E) as (_ & SO & _). assert (SO' : forall x, orthogonal (ir_size sir) (ir_mat sir x)) by (intros; apply SO; exact I).
  assert (NL : rp_nonlin r = induced_nonlinearities (ir_size sir) (ir_nonlin sir)) by (revert ER; unfold o2_induced_representation; destruct (o2_induced_from_irrep _ _ _) as [p|]; [|discriminate]; intros Q; injection Q as <-; reflexivity).
  assert (S12 : (ir_size sir = 1 \/ ir_size sir = 2)%nat) by (destruct (so2_irrep_inv _ _ E) as (_ & _ & _ & [C|C]); tauto).
  assert (BP : forall e, o2_el e -> is_block_perm 2 (ir_size sir) (rp_mat r e)).
  { intros e HE. apply (is_block_perm_ext _ _ _ (induced_at (ir_size sir) (ir_mat sir) e)); [rewrite <- RS; apply M, HE|]. destruct e as [f a]. apply o2_el_iff in HE. apply induced_block_perm; auto. }
  split; [|split; [|split]].
  - apply (built_sound O2), (built_induced_o2 linv name k sir); assumption.
  - unfold field_id. rewrite NL, RS. revert E. unfold so2_irrep, assert_. destruct (0 <=? k)%Z; [|discriminate]. destruct (k =? 0)%Z; intros Q; injection Q as <-; reflexivity.
  - unfold field_id. rewrite NL, RS. revert E. unfold so2_irrep, assert_. destruct (0 <=? k)%Z; [|discriminate]. destruct (k =? 0)%Z; intros Q; injection Q as <-; reflexivity.
  - rewrite RS, Nat.div_mul by lia. exact BP.
Qed.
Print Assumptions C68_declared.

(** The quotient of O(2) by SO(2): rotations do nothing, reflections exchange the two channels. *)
Theorem C68_quotient linv : inverts_id linv -> exists r, o2_quotient_representation linv (None, (-1)%Z) = Ok r /\ rp_size r = 2%nat /\
  forall e, o2_el e -> meq 2 2 (rp_mat r e) (if (fst e =? 0)%Z then mid else mat2 0 1 1 0).
Proof.
  intros L. destruct (proj2 (so2_irrep_ok 0) ltac:(lia)) as (sir & E). destruct (C68_induced linv "quotient" 0 sir L E) as (r & ER & _ & _ & RS & _ & _ & M).
  exists r. unfold o2_quotient_representation. rewrite E. split; [exact ER|]. destruct (so2_irrep_inv _ _ E) as (_ & _ & _ & C). destruct C as [C|C]; [|tauto]. destruct C as (_ & S1 & M1).
  rewrite S1, M1 in M. rewrite S1 in RS. cbn in RS. split; [exact RS|]. rewrite RS in M. intros e HE i j Hi Hj. rewrite M by assumption. destruct e as [f a]. apply o2_el_iff in HE.
  unfold induced_at. do 2 (destruct i as [|i]; [do 2 (destruct j as [|j]; [destruct HE as [-> | ->]; reflexivity|]); lia|]); lia.
Qed.
Print Assumptions C68_quotient.

(** Every other subgroup is refused. *)
Theorem C68_refused linv name id sir : id <> (None, (-1)%Z) -> o2_induced_representation linv name id sir = Err "ValueError"%string.
Proof. intros H. destruct id as [[x|] m]; [reflexivity|]. unfold o2_induced_representation, o2_induced_from_irrep. destruct m as [|p|[p|p|]]; try reflexivity. exfalso. apply H. reflexivity. Qed.
Print Assumptions C68_refused.

(** A function that inverts the identity, and the representation induced from frequency 3 with it: it has size 4, and the rotation by a acts on the second copy by -a. *)
Definition linv0 (n : nat) (D : mat) : result mat := if meqb n n D mid then Ok mid else Err "LinAlgError"%string.
Example C68_case_inv : inverts_id linv0.
Proof.
  split; unfold linv0.
  - intros n D E. destruct (meqb n n D mid) eqn:B; [|discriminate]. intros Q. injection Q as <-. apply meqb_true in B.
    split; (transitivity (mmul n mid mid); [|apply mmul_id_l]); intros i j Hi Hj; unfold mmul; apply rsum_ext; intros q Hq; rewrite B by lia; reflexivity.
  - intros n D H. assert (B : meqb n n D mid = true); [|rewrite B; eauto].
    unfold meqb. apply forallb_forall. intros i Hi. apply forallb_forall. intros j Hj. apply in_seq in Hi. apply in_seq in Hj. destruct (Req_EM_T (D i j) (mid i j)) as [|N]; [reflexivity|]. exfalso. apply N, H; lia.
Qed.
Example C68_case : exists sir r, so2_irrep 3 = Ok sir /\ o2_induced_representation linv0 "induced" (None, (-1)%Z) sir = Ok r /\ rp_size r = 4%nat /\ length (rp_nonlin r) = 4%nat /\
  forall a, rp_mat r (0%Z, a) 3%nat 2%nat = - sin (3 * a) /\ rp_mat r (1%Z, a) 1%nat 2%nat = sin (3 * a).
Proof.
  destruct (proj2 (so2_irrep_ok 3) ltac:(lia)) as (sir & E). destruct (C68_induced linv0 "induced" 3 sir C68_case_inv E) as (r & ER & _ & _ & RS & _ & _ & M).
  exists sir, r. split; [exact E|]. split; [exact ER|]. injection E as <-. cbn in RS. split; [exact RS|]. split.
  - revert ER. unfold o2_induced_representation. destruct (o2_induced_from_irrep _ _ _) as [p|]; [|discriminate]. intros Q. injection Q as <-. reflexivity.
  - intros a. rewrite RS in M. split; (rewrite M by (try apply o2_el_iff; auto; lia)); unfold induced_at; cbn -[sin cos].
    + replace (3 * - a + 0) with (- (3 * a)) by ring. apply sin_neg.
    + f_equal. ring.
Qed.
