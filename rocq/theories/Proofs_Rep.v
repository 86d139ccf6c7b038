(** Representations assembled from irreps; direct sums, changes of basis, restriction. *)
From Coq Require Import Reals ZArith String List Bool Lia Lra Psatz.
From Verif Require Import Base Spec Model_Groups Model_Rep Proofs_Groups Proofs_Cont Proofs_Irreps.
Import ListNotations.
Open Scope R_scope.

Lemma bsize_blocks {G} (l : list (irrep G)) g : bsize (blocks l g) = isizes l.
Proof. unfold bsize, blocks, isizes. rewrite map_map. reflexivity. Qed.

Lemma isizes_app {G} (l1 l2 : list (irrep G)) : isizes (l1 ++ l2) = (isizes l1 + isizes l2)%nat.
Proof. unfold isizes. rewrite map_app, nsum_app. reflexivity. Qed.

(** every irrep of the list is a representation of the group (el, op, e) *)
Definition all_irreps_rep {G} (el : G -> Prop) op e (l : list (irrep G)) : Prop :=
  Forall (fun ir => is_representation el op e (ir_size ir) (ir_mat ir)) l.

Lemma blocks_rep {G} (el : G -> Prop) op e l : all_irreps_rep el op e l ->
  is_representation el op e (isizes l) (fun g => bdiag (blocks l g)).
Proof.
  intros H. split.
  - rewrite <- (bsize_blocks l e). apply bdiag_mid.
    unfold blocks. apply Forall_map. eapply Forall_impl; [|apply H]. intros ir [Hi _]; exact Hi.
  - intros a b Ha Hb.
    assert (E : meq (isizes l) (isizes l) (mmul (isizes l) (bdiag (blocks l a)) (bdiag (blocks l b)))
       (bdiag (map (fun p => (fst (fst p), mmul (fst (fst p)) (snd (fst p)) (snd (snd p))))
                   (combine (blocks l a) (blocks l b))))).
    { rewrite <- (bsize_blocks l a).
      apply bdiag_mul. unfold blocks; rewrite !map_map; reflexivity. }
    rewrite E. rewrite <- (bsize_blocks l (op a b)).
    apply bdiag_ext. unfold blocks. clear -H Ha Hb.
    induction H as [|ir l [_ Hm] HF IH]; cbn [map combine fst snd]; constructor; [split; [reflexivity|cbn [fst snd]; apply Hm; auto]|auto].
Qed.

Lemma conj_rep {G} (el : G -> Prop) op e n rho C Ci : inverse_pair n C Ci ->
  is_representation el op e n rho ->
  is_representation el op e n (fun g => mmul n (mmul n C (rho g)) Ci).
Proof.
  intros [H1 H2] [R1 R2]. split.
  - rewrite R1, mmul_id_r. auto.
  - intros a b Ha Hb. rewrite R2 by auto.
    rewrite !(mmul_assoc_eq n n n n), <- (mmul_assoc_eq n n n n Ci C), H2, mmul_id_l.
    reflexivity.
Qed.

Lemma rep_is_rep {G} (el : G -> Prop) op e (r : rep G) : rep_accepted r ->
  all_irreps_rep el op e (rp_irreps r) ->
  is_representation el op e (rp_size r) (rp_mat r).
Proof. intros Ha Hi. apply (conj_rep el op e _ _ _ _ Ha). apply blocks_rep; auto. Qed.

Lemma blocks_orth {G} (el : G -> Prop) (l : list (irrep G)) :
  Forall (fun ir => is_orthogonal_rep el (ir_size ir) (ir_mat ir)) l ->
  is_orthogonal_rep el (isizes l) (fun g => bdiag (blocks l g)).
Proof.
  intros H a Ha. unfold orthogonal.
  assert (HP := bdiag_inverse_pair (map (fun ir => (ir_size ir, (ir_mat ir a, mtr (ir_mat ir a)))) l)).
  rewrite !map_map in HP; simpl in HP.
  eapply inverse_pair_compat; [| |apply HP].
  - reflexivity.
  - intros i j _ _. rewrite bdiag_tr. unfold blocks. rewrite map_map. reflexivity.
  - apply Forall_map; simpl. eapply Forall_impl; [|apply H]. intros ir Hi. apply Hi; auto.
Qed.

Lemma inverse_pair_orth_tr n A B : inverse_pair n A B -> orthogonal n A -> meq n n B (mtr A).
Proof. intros H1 H2. eapply inverse_pair_unique; eauto. Qed.

Lemma mtr_orthogonal n A : orthogonal n A -> orthogonal n (mtr A).
Proof. intros H. apply inverse_pair_sym. exact H. Qed.

Lemma rep_is_orth {G} (el : G -> Prop) (r : rep G) : rep_accepted r ->
  orthogonal (rp_size r) (rp_cob r) ->
  Forall (fun ir => is_orthogonal_rep el (ir_size ir) (ir_mat ir)) (rp_irreps r) ->
  is_orthogonal_rep el (rp_size r) (rp_mat r).
Proof.
  intros Ha Ho Hi a Hel. unfold rp_mat.
  apply orthogonal_mmul.
  - apply orthogonal_mmul; auto. apply (blocks_orth el); auto.
  - eapply orthogonal_ext; [symmetry; apply (inverse_pair_orth_tr _ _ _ Ha Ho)|].
    apply mtr_orthogonal; auto.
Qed.

(** ** bdiag of bdiags *)
Lemma bdiag_concat (L : list (list (nat * mat))) :
  meq (nsum (map bsize L)) (nsum (map bsize L))
      (bdiag (concat L)) (bdiag (map (fun l => (bsize l, bdiag l)) L)).
Proof.
  induction L as [|l L IH]; [intros i j Hi; simpl in Hi; lia|].
  cbn [concat map nsum fold_right]. fold (nsum (map bsize L)).
  assert (E : bsize (concat L) = nsum (map bsize L)).
  { clear. induction L as [|l L IH]; [reflexivity|]. simpl. unfold bsize in *. rewrite map_app, nsum_app, IH. reflexivity. }
  rewrite <- E. rewrite bdiag_app_eq. rewrite E.
  intros i j Hi Hj. cbn [bdiag].
  destruct (Nat.ltb_spec i (bsize l)); destruct (Nat.ltb_spec j (bsize l)); auto.
  destruct (Nat.ltb_spec (i - bsize l) (nsum (map bsize L))); [|lia].
  destruct (Nat.ltb_spec (j - bsize l) (nsum (map bsize L))); [|lia].
  apply IH; lia.
Qed.

(** ** directsum *)
Lemma concat_sizes {G} (l : list (rep G)) : isizes (concat (map rp_irreps l)) = nsum (map rp_size l).
Proof. induction l; simpl; auto. rewrite isizes_app, IHl. reflexivity. Qed.

Lemma bdiag_mul3 (l : list (nat * (mat * mat * mat))) :
  let n := nsum (map fst l) in
  meq n n
    (mmul n (mmul n (bdiag (map (fun p => (fst p, fst (fst (snd p)))) l))
                    (bdiag (map (fun p => (fst p, snd (fst (snd p)))) l)))
            (bdiag (map (fun p => (fst p, snd (snd p))) l)))
    (bdiag (map (fun p => (fst p, mmul (fst p) (mmul (fst p) (fst (fst (snd p))) (snd (fst (snd p)))) (snd (snd p)))) l)).
Proof.
  intros n.
  assert (E1 : n = bsize (map (fun p => (fst p, fst (fst (snd p)))) l))
    by (unfold n, bsize; rewrite map_map; reflexivity).
  assert (E2 : n = bsize (map (fun p => (fst p, mmul (fst p) (fst (fst (snd p))) (snd (fst (snd p))))) l))
    by (unfold n, bsize; rewrite map_map; reflexivity).
  assert (M1 : meq n n (mmul n (bdiag (map (fun p => (fst p, fst (fst (snd p)))) l))
                    (bdiag (map (fun p => (fst p, snd (fst (snd p)))) l)))
               (bdiag (map (fun p => (fst p, mmul (fst p) (fst (fst (snd p))) (snd (fst (snd p))))) l))).
  { rewrite E1. rewrite bdiag_mul by (rewrite !map_map; reflexivity).
    match goal with |- meq _ _ (bdiag ?x) (bdiag ?y) => assert (x = y) as -> end; [|reflexivity].
    clear. induction l; simpl; f_equal; auto. }
  rewrite M1. rewrite E2. rewrite bdiag_mul by (rewrite !map_map; reflexivity).
  match goal with |- meq _ _ (bdiag ?x) (bdiag ?y) => assert (x = y) as -> end; [|reflexivity].
  clear. induction l; simpl; f_equal; auto.
Qed.

Lemma directsum_accepted {G} (l : list (rep G)) name r :
  Forall rep_accepted l -> directsum l name = Ok r -> rep_accepted r /\ rp_size r = nsum (map rp_size l).
Proof.
  intros HF H. destruct l as [|r0 l0]; [discriminate|]. set (l := r0 :: l0) in *.
  assert (Hr : r = MkRep (match name with Some n => n | None => ds_name l end)
              (concat (map rp_irreps l))
              (bdiag (map (fun r => (rp_size r, rp_cob r)) l))
              (bdiag (map (fun r => (rp_size r, rp_inv r)) l))
              (nl_inters l)) by (simpl in H; injection H as <-; reflexivity).
  clear H. subst r. unfold rep_accepted, rp_size; cbn [rp_irreps rp_cob rp_inv].
  rewrite concat_sizes. split; [|reflexivity]. clearbody l. clear r0 l0.
  assert (HP := bdiag_inverse_pair (map (fun r => (rp_size r, (rp_cob r, rp_inv r))) l)).
  rewrite !map_map in HP; simpl in HP. apply HP. apply Forall_map; simpl.
  eapply Forall_impl; [|apply HF]. auto.
Qed.

(** the direct sum acts block-diagonally by its summands, in order *)
Lemma directsum_mat {G} (l : list (rep G)) name r g :
  directsum l name = Ok r ->
  meq (nsum (map rp_size l)) (nsum (map rp_size l))
      (rp_mat r g) (bdiag (map (fun s => (rp_size s, rp_mat s g)) l)).
Proof.
  intros H. destruct l as [|r0 l0]; [discriminate|]. set (l := r0 :: l0) in *.
  assert (Hr : r = MkRep (match name with Some n => n | None => ds_name l end)
              (concat (map rp_irreps l))
              (bdiag (map (fun r => (rp_size r, rp_cob r)) l))
              (bdiag (map (fun r => (rp_size r, rp_inv r)) l))
              (nl_inters l)) by (simpl in H; injection H as <-; reflexivity).
  clear H. clearbody l. clear r0 l0.
  assert (Hs : rp_size r = nsum (map rp_size l)) by (rewrite Hr; apply concat_sizes).
  unfold rp_mat at 1. rewrite Hs. rewrite Hr at 1 2 3. cbn [rp_irreps rp_cob rp_inv]. clear Hr Hs r.
  set (n := nsum (map rp_size l)).
  assert (B : meq n n (bdiag (blocks (concat (map rp_irreps l)) g))
                      (bdiag (map (fun s => (rp_size s, bdiag (blocks (rp_irreps s) g))) l))).
  { assert (E : blocks (concat (map rp_irreps l)) g = concat (map (fun s => blocks (rp_irreps s) g) l)).
    { clear. unfold blocks. rewrite concat_map, map_map. reflexivity. }
    rewrite E. assert (E2 : n = nsum (map bsize (map (fun s => blocks (rp_irreps s) g) l))).
    { unfold n. rewrite map_map. f_equal. apply map_ext. intros s. rewrite bsize_blocks. reflexivity. }
    assert (BC := bdiag_concat (map (fun s => blocks (rp_irreps s) g) l)). rewrite <- E2, map_map in BC.
    etransitivity; [exact BC|].
    match goal with |- meq _ _ (bdiag ?x) (bdiag ?y) => assert (x = y) as -> end; [|reflexivity].
    apply map_ext. intros s. rewrite bsize_blocks. reflexivity. }
  rewrite B.
  assert (HB := bdiag_mul3 (map (fun s => (rp_size s, (rp_cob s, bdiag (blocks (rp_irreps s) g), rp_inv s))) l)).
  cbv zeta in HB. rewrite !map_map in HB. simpl in HB. exact HB.
Qed.

Lemma directsum_irreps {G} (l : list (rep G)) name r :
  directsum l name = Ok r -> rp_irreps r = concat (map rp_irreps l).
Proof. destruct l; simpl; [discriminate|]. intros H; injection H as <-; reflexivity. Qed.

(** ** change of basis *)
Lemma change_basis_accepted {G} (r : rep G) Q Qi name nl :
  rep_accepted r -> inverse_pair (rp_size r) Q Qi -> rep_accepted (change_basis r Q Qi name nl).
Proof. intros H1 H2. unfold rep_accepted. apply inverse_pair_mmul; auto. Qed.

Lemma change_basis_mat {G} (r : rep G) Q Qi name nl g :
  meq (rp_size r) (rp_size r) (rp_mat (change_basis r Q Qi name nl) g)
      (mmul (rp_size r) (mmul (rp_size r) Q (rp_mat r g)) Qi).
Proof.
  unfold rp_mat, change_basis. unfold rp_size; cbn [rp_irreps rp_cob rp_inv].
  set (n := isizes (rp_irreps r)). rewrite !(mmul_assoc_eq n n n n). reflexivity.
Qed.

(** ** restriction of representations *)
Section Restrict.
Context {G H : Type}.
Variable parent : H -> G.

(** what a correct restriction of one irrep is *)
Definition irrep_restricted (h : H) (ir : irrep G) (C : mat) (sirrs : list (irrep H)) : Prop :=
  isizes sirrs = ir_size ir /\
  exists Ci, inverse_pair (ir_size ir) C Ci /\
    meq (ir_size ir) (ir_size ir) (ir_mat ir (parent h))
        (mmul (ir_size ir) (mmul (ir_size ir) C (bdiag (blocks sirrs h))) Ci).

Lemma restrict_all_spec one h l p : restrict_all one l = Ok p ->
  (forall ir C s, In ir l -> one ir = Ok (C, s) -> irrep_restricted h ir C s) ->
  isizes (snd p) = isizes l /\ map fst (fst p) = map ir_size l /\
  exists Ci, inverse_pair (isizes l) (bdiag (fst p)) Ci /\
    meq (isizes l) (isizes l) (bdiag (blocks l (parent h)))
        (mmul (isizes l) (mmul (isizes l) (bdiag (fst p)) (bdiag (blocks (snd p) h))) Ci).
Proof.
  revert p. induction l as [|ir l IH]; intros p Hp Hone; simpl in Hp.
  - injection Hp as <-. simpl. repeat split; auto.
    exists mzero. split; [split|]; intros i j Hi; unfold isizes in Hi; simpl in Hi; lia.
  - destruct (one ir) as [[C s]|] eqn:E1; simpl in Hp; [|discriminate].
    destruct (restrict_all one l) as [q|] eqn:E2; simpl in Hp; [|discriminate].
    injection Hp as <-. cbn [fst snd].
    destruct (IH q eq_refl) as [S1 [S2 [Ci [IP M]]]].
    { intros ir' C' s' Hin; apply Hone; simpl; auto. }
    destruct (Hone ir C s (or_introl eq_refl) E1) as [T1 [Ci0 [IP0 M0]]].
    split; [rewrite isizes_app, S1, T1; reflexivity|].
    split; [simpl; rewrite S2; reflexivity|].
    set (n0 := ir_size ir) in *. set (n := isizes l) in *.
    assert (En : isizes (ir :: l) = (n0 + n)%nat) by reflexivity. rewrite En.
    assert (Bq : bsize (fst q) = n) by (unfold bsize; rewrite S2; reflexivity).
    (* view everything as a two-block diagonal *)
    assert (D2 : forall A B, bdiag [(n0, A); (n, B)] = bdiag [(n0, A); (n, B)]) by reflexivity.
    assert (V1 : meq (n0 + n) (n0 + n) (bdiag ((n0, C) :: fst q)) (bdiag [(n0, C); (n, bdiag (fst q))])).
    { intros i j Hi Hj. cbn [bdiag].
      destruct (Nat.ltb_spec i n0); destruct (Nat.ltb_spec j n0); auto.
      destruct (Nat.ltb_spec (i - n0) n); [|lia]. destruct (Nat.ltb_spec (j - n0) n); [|lia]. reflexivity. }
    assert (V2 : meq (n0 + n) (n0 + n) (bdiag (blocks (s ++ snd q) h))
                     (bdiag [(n0, bdiag (blocks s h)); (n, bdiag (blocks (snd q) h))])).
    { unfold blocks. rewrite map_app. fold (blocks s h). fold (blocks (snd q) h).
      assert (B1 : bsize (blocks s h) = n0) by (rewrite bsize_blocks; auto).
      assert (B2 : bsize (blocks (snd q) h) = n) by (rewrite bsize_blocks; auto).
      assert (BA := bdiag_app_eq (blocks s h) (blocks (snd q) h)). rewrite B1, B2 in BA. exact BA. }
    assert (V3 : meq (n0 + n) (n0 + n) (bdiag (blocks (ir :: l) (parent h)))
                     (bdiag [(n0, ir_mat ir (parent h)); (n, bdiag (blocks l (parent h)))])).
    { unfold blocks; cbn [map]. fold (blocks l (parent h)). fold n0.
      intros i j Hi Hj. cbn [bdiag].
      destruct (Nat.ltb_spec i n0); destruct (Nat.ltb_spec j n0); auto.
      destruct (Nat.ltb_spec (i - n0) n); [|lia]. destruct (Nat.ltb_spec (j - n0) n); [|lia]. reflexivity. }
    exists (bdiag [(n0, Ci0); (n, Ci)]). split.
    + eapply inverse_pair_compat; [symmetry; exact V1|reflexivity|].
      assert (HP := bdiag_inverse_pair [(n0, (C, Ci0)); (n, (bdiag (fst q), Ci))]).
      simpl in HP. rewrite Nat.add_0_r in HP. apply HP. constructor; [exact IP0|constructor; [exact IP|constructor]].
    + rewrite V1, V2, V3.
      assert (HB := bdiag_mul3 [(n0, (C, bdiag (blocks s h), Ci0)); (n, (bdiag (fst q), bdiag (blocks (snd q) h), Ci))]).
      cbv zeta in HB. cbn [map fst snd nsum fold_right] in HB. rewrite Nat.add_0_r in HB.
      rewrite HB.
      assert (EX := bdiag_ext [(n0, ir_mat ir (parent h)); (n, bdiag (blocks l (parent h)))]
        [(n0, mmul n0 (mmul n0 C (bdiag (blocks s h))) Ci0); (n, mmul n (mmul n (bdiag (fst q)) (bdiag (blocks (snd q) h))) Ci)]).
      unfold bsize in EX; cbn [map fst snd nsum fold_right] in EX. rewrite Nat.add_0_r in EX. apply EX.
      constructor; [split; [reflexivity|exact M0]|]. constructor; [split; [reflexivity|exact M]|constructor].
Qed.

Lemma restrict_rep_spec prefix one (r : rep G) inv r' h :
  rep_accepted r ->
  restrict_representation prefix one r inv = Ok r' ->
  rep_accepted r' ->
  (forall ir C s, In ir (rp_irreps r) -> one ir = Ok (C, s) -> irrep_restricted h ir C s) ->
  rp_size r' = rp_size r /\ meq (rp_size r) (rp_size r) (rp_mat r' h) (rp_mat r (parent h)).
Proof.
  intros Ha HR Ha' Hone. unfold restrict_representation in HR.
  destruct (restrict_all one (rp_irreps r)) as [p|] eqn:E; simpl in HR; [|discriminate].
  injection HR as <-.
  destruct (restrict_all_spec one h _ _ E Hone) as [S1 [S2 [Ci [IP M]]]].
  unfold rep_accepted, rp_mat, rp_size in *; cbn [rp_irreps rp_cob rp_inv] in *.
  rewrite S1 in *. split; [reflexivity|].
  set (n := isizes (rp_irreps r)) in *.
  assert (E1 : meq n n inv (mmul n Ci (rp_inv r))).
  { eapply inverse_pair_unique; [exact Ha'|]. apply inverse_pair_mmul; auto. }
  rewrite E1, M, !(mmul_assoc_eq n n n n). reflexivity.
Qed.

(** the restriction exists whenever every irrep restricts *)
Lemma restrict_rep_exists prefix one (r : rep G) :
  rep_accepted r ->
  (forall ir, In ir (rp_irreps r) -> exists C s, one ir = Ok (C, s)) ->
  (forall h ir C s, In ir (rp_irreps r) -> one ir = Ok (C, s) -> irrep_restricted h ir C s) ->
  inhabited H ->
  exists inv r', restrict_representation prefix one r inv = Ok r' /\ rep_accepted r'.
Proof.
  intros Ha Hex Hone [h].
  assert (Hall : exists p, restrict_all one (rp_irreps r) = Ok p).
  { clear -Hex. induction (rp_irreps r) as [|ir l IH]; [eexists; reflexivity|].
    destruct (Hex ir) as [C [s E]]; [simpl; auto|]. destruct IH as [p Hp].
    - intros ir' Hin; apply Hex; simpl; auto.
    - simpl. rewrite E, Hp; simpl. eexists; reflexivity. }
  destruct Hall as [p Hp].
  destruct (restrict_all_spec one h _ _ Hp (Hone h)) as [S1 [_ [Ci [IP _]]]].
  unfold restrict_representation. rewrite Hp; simpl.
  exists (mmul (rp_size r) Ci (rp_inv r)). eexists; split; [reflexivity|].
  unfold rep_accepted, rp_size; cbn [rp_irreps rp_cob rp_inv]. rewrite S1.
  apply inverse_pair_mmul; auto.
Qed.
End Restrict.

(** ** restriction of the irreps of each group *)

Lemma bdiag_single n A : meq n n (bdiag [(n, A)]) A.
Proof.
  intros i j Hi Hj. simpl. destruct (Nat.ltb_spec i n); [|lia]. destruct (Nat.ltb_spec j n); [auto|lia].
Qed.

Lemma bdiag_11 a b : meq 2 2 (bdiag [(1%nat, mat1 a); (1%nat, mat1 b)]) (mat2 a 0 0 b).
Proof.
  intros i j Hi Hj. unfold mat1, mat2; simpl.
  destruct i as [|[|]]; destruct j as [|[|]]; try lia; reflexivity.
Qed.

Lemma conj_mid n A : meq n n (mmul n (mmul n mid A) mid) A.
Proof. rewrite mmul_id_r, mmul_id_l. reflexivity. Qed.

(** a rotation by a multiple of pi is plus or minus the identity *)
Lemma pc0_kpi (k : Z) : meq 2 2 (pc 0 (IZR k * PI)) (mat2 (cos (IZR k * PI)) 0 0 (cos (IZR k * PI))).
Proof.
  intros i j Hi Hj. unfold pc, mat2, sgn; simpl. rewrite sin_kpi.
  destruct i as [|[|]]; destruct j as [|[|]]; try lia; simpl; ring.
Qed.

Lemma mid_mat1 : meq 1 1 mid (mat1 1).
Proof. intros i j Hi Hj. assert (i = 0%nat) as -> by lia. assert (j = 0%nat) as -> by lia. reflexivity. Qed.

Lemma bdiag_pair_ext n1 n2 A A' B B' : meq n1 n1 A A' -> meq n2 n2 B B' ->
  meq (n1 + n2) (n1 + n2) (bdiag [(n1, A); (n2, B)]) (bdiag [(n1, A'); (n2, B')]).
Proof.
  intros H1 H2.
  assert (EX := bdiag_ext [(n1, A); (n2, B)] [(n1, A'); (n2, B')]).
  unfold bsize in EX; cbn [map fst snd nsum fold_right] in EX. rewrite Nat.add_0_r in EX. apply EX.
  constructor; [split; auto|]. constructor; [split; auto|constructor].
Qed.
