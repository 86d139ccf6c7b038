(** The regular representation (C09): generic part. *)
From Coq Require Import Reals ZArith String List Bool Lia Lra Setoid Morphisms.
From Verif Require Import Base LinAlg Spec Model_Groups Model_Rep Model_Regular
  Proofs_Groups Proofs_Irreps Proofs_Rep.
Import ListNotations.
Open Scope R_scope.

Lemma Int_part_IZR z : Int_part (IZR z) = z.
Proof.
  destruct (base_Int_part (IZR z)) as [A B].
  assert (IZR (Int_part (IZR z)) > IZR (z - 1)) by (rewrite minus_IZR; lra).
  apply le_IZR in A. apply Rgt_lt, lt_IZR in H. lia.
Qed.

Lemma py_round_IZR z : py_round (IZR z) = z.
Proof.
  unfold py_round. rewrite Int_part_IZR.
  destruct (Rlt_dec (IZR z - IZR z) (1/2)); [auto|lra].
Qed.

Lemma rmap_ok {A B} (f : A -> result B) (g : A -> B) l :
  (forall a, In a l -> f a = Ok (g a)) -> rmap f l = Ok (map g l).
Proof.
  induction l; simpl; intros H; auto. rewrite H by auto. cbn [rbind].
  rewrite IHl by auto. reflexivity.
Qed.

Lemma lsum_map_plus {A} (l : list A) f g :
  lsum (map (fun a => f a + g a) l) = lsum (map f l) + lsum (map g l).
Proof. induction l; simpl; lra. Qed.

Lemma lsum_ext {A} (l : list A) f g :
  (forall a, In a l -> f a = g a) -> lsum (map f l) = lsum (map g l).
Proof. intros H. f_equal. apply map_ext_in; auto. Qed.

Lemma lsum_map_scal {A} (l : list A) c f : lsum (map (fun a => c * f a) l) = c * lsum (map f l).
Proof. induction l; simpl; lra. Qed.

Lemma lsum_concat (L : list (list R)) : lsum (concat L) = lsum (map lsum L).
Proof. induction L; simpl; auto. rewrite lsum_app; lra. Qed.

Lemma lsum_zero {A} (l : list A) f : (forall a, In a l -> f a = 0) -> lsum (map f l) = 0.
Proof. induction l; simpl; intros H; auto. rewrite H, IHl by auto. lra. Qed.

Section Generic.
Context {G : Type}.
Variable grp : fgroup G.
Notation els := (fg_elements grp).
Notation el := (fun e => In e els).
Notation op := (fg_combine grp).
Notation inv := (fg_inverse grp).
Notation e0 := (fg_id grp).

Record fgroup_ok : Prop := {
  fo_laws : group_laws el eq op inv e0;
  fo_nodup : NoDup els;
  fo_eqb : forall a b, fg_eqb grp a b = true <-> a = b;
  fo_irreps : forall ir, In ir (fg_irreps grp) ->
     is_representation el op e0 (ir_size ir) (ir_mat ir) /\ is_orthogonal_rep el (ir_size ir) (ir_mat ir)
}.
Hypothesis OK : fgroup_ok.

Lemma index_in_spec l e : In e l -> (index_in grp l e < length l)%nat /\ forall d, nth (index_in grp l e) l d = e.
Proof.
  induction l as [|x l IH]; simpl; [tauto|]. intros H.
  destruct (fg_eqb grp x e) eqn:E.
  - apply (fo_eqb OK) in E. split; [lia|auto].
  - assert (x <> e). { intros ->. assert (fg_eqb grp e e = true) by (apply (fo_eqb OK); auto). congruence. }
    destruct H as [H|H]; [tauto|]. destruct (IH H). split; [lia|]. auto.
Qed.

Lemma index_lt e : el e -> (index grp e < order grp)%nat.
Proof. intros H. apply index_in_spec; auto. Qed.
Lemma elem_index e : el e -> elem grp (index grp e) = e.
Proof. intros H. apply index_in_spec; auto. Qed.
Lemma elem_el i : (i < order grp)%nat -> el (elem grp i).
Proof. intros H. apply nth_In; auto. Qed.
Lemma index_elem i : (i < order grp)%nat -> index grp (elem grp i) = i.
Proof.
  intros H. assert (E := elem_el i H). generalize (index_lt _ E); intros L.
  generalize (elem_index _ E); intros Q. unfold elem in Q at 1.
  apply (proj1 (NoDup_nth els e0) (fo_nodup OK)); auto.
Qed.
Lemma order_pos : (0 < order grp)%nat.
Proof. generalize (index_lt _ (gl_id_el _ _ _ _ _ (fo_laws OK))). lia. Qed.

Lemma op_el a b : el a -> el b -> el (op a b).
Proof. apply (gl_op_el _ _ _ _ _ (fo_laws OK)). Qed.
Lemma inv_el a : el a -> el (inv a).
Proof. apply (gl_inv_el _ _ _ _ _ (fo_laws OK)). Qed.

Lemma op_cancel_l a b c : el a -> el b -> el c -> op a b = op a c -> b = c.
Proof.
  intros Ha Hb Hc H. destruct (fo_laws OK) as [L1 L2 L3 L4 L5 L6 L7 L8].
  rewrite <- (L5 b Hb), <- (L7 a Ha), (L4 _ _ _ (inv_el _ Ha) Ha Hb), H, <- (L4 _ _ _ (inv_el _ Ha) Ha Hc), L7, L5; auto.
Qed.

Lemma op_id_self a b : el a -> el b -> (op a b = b <-> a = e0).
Proof.
  intros Ha Hb. destruct (fo_laws OK) as [L1 L2 L3 L4 L5 L6 L7 L8]. split.
  - intros H. rewrite <- (L6 a Ha), <- (L8 b Hb), <- (L4 _ _ _ Ha Hb (inv_el _ Hb)), H. reflexivity.
  - intros ->. auto.
Qed.

(** character of the regular representation *)
Lemma reg_character e : el e ->
  trace (order grp) (reg_perm grp e) = if fg_eqb grp e e0 then INR (order grp) else 0.
Proof.
  intros He. unfold trace, reg_perm.
  assert (I0 := gl_id_el _ _ _ _ _ (fo_laws OK)).
  destruct (fg_eqb grp e e0) eqn:E.
  - apply (fo_eqb OK) in E; subst e.
    rewrite (rsum_ext _ _ (fun _ => 1)).
    + rewrite rsum_const; lra.
    + intros i Hi. rewrite (proj2 (op_id_self e0 (elem grp i) I0 (elem_el i Hi)) eq_refl).
      rewrite index_elem, Nat.eqb_refl; auto.
  - apply rsum_0. intros i Hi.
    destruct (Nat.eqb_spec i (index grp (op e (elem grp i)))) as [Q|]; auto. exfalso.
    assert (T : op e (elem grp i) = elem grp i).
    { rewrite Q at 2. rewrite elem_index; auto. apply op_el; auto. apply elem_el; auto. }
    apply op_id_self in T; auto; [|apply elem_el; auto]. subst e.
    assert (fg_eqb grp e0 e0 = true) by (apply (fo_eqb OK); auto). congruence.
Qed.

Lemma lsum_delta (F : G -> R) e : el e ->
  lsum (map (fun g => if fg_eqb grp g e then F g else 0) els) = F e.
Proof.
  intros He. generalize (fo_nodup OK). revert He. generalize els as l.
  induction l as [|x l IH]; simpl; [tauto|]. intros H ND. inversion ND; subst.
  destruct (fg_eqb grp x e) eqn:E.
  - apply (fo_eqb OK) in E; subst x. rewrite lsum_zero; [lra|].
    intros a Ha. destruct (fg_eqb grp a e) eqn:E'; auto. apply (fo_eqb OK) in E'. subst; tauto.
  - destruct H as [->|H].
    + assert (fg_eqb grp e e = true) by (apply (fo_eqb OK); auto). congruence.
    + rewrite IH; auto; lra.
Qed.

(** expected multiplicities *)
Variable md : irrep G -> nat.
Hypothesis Hmd : forall ir, In ir (fg_irreps grp) ->
  (0 < ir_sos ir)%nat /\ ir_size ir = (ir_sos ir * md ir)%nat.
(** the identity of characters on which the construction rests *)
Hypothesis Hcomplete : forall g, el g ->
  lsum (map (fun ir => INR (ir_size ir) * rsum (md ir) (fun a => ir_mat ir g a a)) (fg_irreps grp))
  = if fg_eqb grp g e0 then INR (order grp) else 0.

Lemma rep_id_trace n rho : is_representation el op e0 n rho -> trace n (rho e0) = INR n.
Proof.
  intros [H _]. unfold trace. rewrite (rsum_ext _ _ (fun _ => 1)); [rewrite rsum_const; lra|].
  intros i Hi. rewrite H by auto. unfold mid. rewrite Nat.eqb_refl; auto.
Qed.

Lemma inv_id : inv e0 = e0.
Proof.
  destruct (fo_laws OK) as [L1 L2 L3 L4 L5 L6 L7 L8]. rewrite <- (L5 (inv e0)); auto.
Qed.

Lemma reg_multiplicity ir : In ir (fg_irreps grp) ->
  multiplicity grp (fun e => trace (order grp) (reg_perm grp e)) ir = Ok (md ir).
Proof.
  intros Hir. unfold multiplicity.
  destruct (Hmd ir Hir) as [Hs Hsz].
  assert (E : lsum (map (fun e => trace (order grp) (reg_perm grp e) * ir_character ir (inv e)) els)
           / (INR (order grp) * INR (ir_sos ir)) = IZR (Z.of_nat (md ir))).
  { rewrite (lsum_ext _ _ (fun e => if fg_eqb grp e e0 then INR (order grp) * ir_character ir (inv e) else 0)).
    - rewrite (lsum_delta (fun e => INR (order grp) * ir_character ir (inv e))) by apply (gl_id_el _ _ _ _ _ (fo_laws OK)).
      rewrite inv_id. unfold ir_character. rewrite rep_id_trace by (apply (fo_irreps OK); auto).
      rewrite Hsz, mult_INR, <- INR_IZR_INZ. field. split; apply not_0_INR.
      + lia.
      + generalize order_pos; lia.
    - intros e He. rewrite reg_character by auto. destruct (fg_eqb grp e e0); lra. }
  rewrite E, py_round_IZR. destruct (Req_EM_T _ _); [|tauto]. cbn [assert_]. rewrite Nat2Z.id. auto.
Qed.

Definition reg_ms : list (irrep G * nat) := map (fun ir => (ir, md ir)) (fg_irreps grp).

Lemma reg_mults :
  multiplicities grp (fun e => trace (order grp) (reg_perm grp e)) = Ok reg_ms.
Proof.
  unfold multiplicities. apply rmap_ok. intros ir H. rewrite reg_multiplicity; auto.
Qed.

Lemma reg_ms_ok : forallb (fun p => snd p <=? ir_size (fst p))%nat reg_ms = true.
Proof.
  apply forallb_forall. intros p Hp. apply in_map_iff in Hp. destruct Hp as [ir [<- Hir]].
  cbn [fst snd]. apply Nat.leb_le. destruct (Hmd ir Hir). nia.
Qed.

Lemma expand_in ir : In ir (expand reg_ms) -> In ir (fg_irreps grp).
Proof.
  unfold expand. rewrite in_concat. intros [l [H1 H2]]. apply in_map_iff in H1.
  destruct H1 as [p [<- Hp]]. apply repeat_spec in H2. subst ir.
  apply in_map_iff in Hp. destruct Hp as [ir [<- Hir]]. auto.
Qed.

(** blocks paired with the vectors *)
Definition unit_scaled (s a : nat) : vec := fun i => if (i =? a)%nat then sqrt (INR s) else 0.
Definition reg_L (h : G) : list (nat * (vec * mat * vec)) :=
  concat (map (fun p => map (fun a => (ir_size (fst p),
     (unit_scaled (ir_size (fst p)) a, ir_mat (fst p) h, unit_scaled (ir_size (fst p)) a))) (seq 0 (snd p))) reg_ms).

Lemma repeat_map_seq {A B} (f : A -> B) x m k : map f (repeat x m) = map (fun _ => f x) (seq k m).
Proof. revert k; induction m; simpl; intros; f_equal; auto. Qed.

Lemma map_concat_map {A B C} (f : B -> C) (h : A -> list B) l :
  map f (concat (map h l)) = concat (map (fun a => map f (h a)) l).
Proof. rewrite concat_map, map_map; auto. Qed.

Lemma reg_L_blocks h : map (fun p => (fst p, snd (fst (snd p)))) (reg_L h) = blocks (expand reg_ms) h.
Proof.
  unfold reg_L, blocks, expand. rewrite !map_concat_map. f_equal. apply map_ext; intros p.
  rewrite map_map. cbn [fst snd]. rewrite (repeat_map_seq _ _ _ 0). auto.
Qed.
Lemma reg_L_sizes h : map fst (reg_L h) = map ir_size (expand reg_ms).
Proof.
  unfold reg_L, expand. rewrite !map_concat_map. f_equal. apply map_ext; intros p.
  rewrite map_map. cbn [fst snd]. rewrite (repeat_map_seq _ _ _ 0). auto.
Qed.
Lemma reg_L_vec1 h : map (fun p => (fst p, fst (fst (snd p)))) (reg_L h) =
  concat (map (fun p => map (fun a => (ir_size (fst p), fun i => if (i =? a)%nat then sqrt (INR (ir_size (fst p))) else 0))
        (seq 0 (snd p))) reg_ms).
Proof. unfold reg_L. rewrite !map_concat_map. f_equal. apply map_ext; intros p. rewrite map_map. auto. Qed.
Lemma reg_L_vec2 h : map (fun p => (fst p, snd (snd p))) (reg_L h) =
  concat (map (fun p => map (fun a => (ir_size (fst p), fun i => if (i =? a)%nat then sqrt (INR (ir_size (fst p))) else 0))
        (seq 0 (snd p))) reg_ms).
Proof. unfold reg_L. rewrite !map_concat_map. f_equal. apply map_ext; intros p. rewrite map_map. auto. Qed.

Lemma qform_unit s a A : (a < s)%nat -> qform s (unit_scaled s a) A (unit_scaled s a) = INR s * A a a.
Proof.
  intros Ha. unfold qform, unit_scaled.
  rewrite (rsum_single s a); auto.
  - rewrite (rsum_single s a); auto.
    + rewrite Nat.eqb_refl. replace (sqrt (INR s) * A a a * sqrt (INR s)) with ((sqrt (INR s) * sqrt (INR s)) * A a a) by ring.
      rewrite sqrt_sqrt; auto. apply pos_INR.
    + intros i _ Hi. destruct (Nat.eqb_spec i a); [lia|]. lra.
  - intros i _ Hi. apply rsum_0. intros j _. destruct (Nat.eqb_spec i a); [lia|]. lra.
Qed.

Lemma reg_size : isizes (expand reg_ms) = order grp.
Proof.
  apply INR_eq.
  assert (E := Hcomplete e0 (gl_id_el _ _ _ _ _ (fo_laws OK))).
  assert (X : fg_eqb grp e0 e0 = true) by (apply (fo_eqb OK); auto). rewrite X in E.
  rewrite <- E. unfold isizes, expand, reg_ms.
  assert (Hall : forall ir, In ir (fg_irreps grp) -> is_representation el op e0 (ir_size ir) (ir_mat ir) /\ (md ir <= ir_size ir)%nat).
  { intros ir Hir. split; [apply (fo_irreps OK); auto|]. destruct (Hmd ir Hir); nia. }
  revert Hall. generalize (fg_irreps grp) as l.
  induction l as [|ir l IH]; intros Hall; [reflexivity|].
  cbn [map concat fst snd]. rewrite map_app, nsum_app, plus_INR, IH by (intros; apply Hall; simpl; auto).
  cbn [lsum fold_right]. f_equal.
  destruct (Hall ir (or_introl eq_refl)) as [[R1 _] Hm].
  rewrite (rsum_ext _ _ (fun _ => 1)).
  - rewrite rsum_const, Rmult_1_r, <- mult_INR. f_equal.
    clear. induction (md ir); simpl; lia.
  - intros a Ha. rewrite R1 by lia. unfold mid. rewrite Nat.eqb_refl; auto.
Qed.

Lemma reg_qform h : el h ->
  qform (order grp) (reg_vec reg_ms) (bdiag (blocks (expand reg_ms) h)) (reg_vec reg_ms)
  = if fg_eqb grp h e0 then INR (order grp) else 0.
Proof.
  intros Hh. rewrite <- (Hcomplete h Hh).
  assert (E := qform_bdiag (reg_L h)).
  rewrite reg_L_vec1, reg_L_vec2, reg_L_blocks, reg_L_sizes in E.
  change (nsum (map ir_size (expand reg_ms))) with (isizes (expand reg_ms)) in E.
  rewrite reg_size in E. unfold reg_vec. rewrite E.
  unfold reg_L. rewrite map_concat_map, lsum_concat, map_map. unfold reg_ms. rewrite map_map.
  apply lsum_ext. intros ir Hir. cbn [fst snd]. rewrite map_map. cbn [fst snd].
  rewrite rsum_lsum, <- lsum_map_scal. apply lsum_ext. intros a Ha. apply in_seq in Ha.
  apply qform_unit. destruct (Hmd ir Hir). nia.
Qed.

Definition reg_P (h : G) : mat := bdiag (blocks (expand reg_ms) h).
Lemma reg_P_rep : is_representation el op e0 (order grp) reg_P.
Proof.
  rewrite <- reg_size. apply (blocks_rep el op e0). apply Forall_forall. intros ir Hir.
  apply expand_in in Hir. apply (fo_irreps OK); auto.
Qed.
Lemma reg_P_orth : is_orthogonal_rep el (order grp) reg_P.
Proof.
  rewrite <- reg_size. apply (blocks_orth el). apply Forall_forall. intros ir Hir.
  apply expand_in in Hir. apply (fo_irreps OK); auto.
Qed.

Definition reg_cob : mat := fun i c =>
  mvec (order grp) (bdiag (blocks (expand reg_ms) (elem grp i))) (reg_vec reg_ms) c / sqrt (INR (order grp)).

Lemma reg_P_inv a : el a -> meq (order grp) (order grp) (mtr (reg_P a)) (reg_P (inv a)).
Proof.
  intros Ha. apply (inverse_pair_unique _ (reg_P a)).
  - apply reg_P_orth; auto.
  - destruct reg_P_rep as [R1 R2]. destruct (fo_laws OK) as [L1 L2 L3 L4 L5 L6 L7 L8].
    split; rewrite <- R2; auto.
    + rewrite (L8 a Ha); auto.
    + rewrite (L7 a Ha); auto.
Qed.

(** the key computation *)
Lemma reg_conj g i i' : el g -> (i < order grp)%nat -> (i' < order grp)%nat ->
  mmul (order grp) (mmul (order grp) reg_cob (reg_P g)) (mtr reg_cob) i i' = reg_perm grp g i i'.
Proof.
  intros Hg Hi Hi'.
  assert (Ei := elem_el i Hi). assert (Ei' := elem_el i' Hi').
  destruct reg_P_rep as [R1 R2]. destruct (fo_laws OK) as [L1 L2 L3 L4 L5 L6 L7 L8].
  rewrite mmul_assoc. 
  assert (NZ : INR (order grp) <> 0) by (apply not_0_INR; generalize order_pos; lia).
  assert (P0 : 0 < INR (order grp)) by (apply lt_0_INR, order_pos).
  transitivity (rsum (order grp) (fun k => mvec (order grp) (reg_P (elem grp i)) (reg_vec reg_ms) k *
                  mvec (order grp) (mmul (order grp) (reg_P g) (reg_P (elem grp i'))) (reg_vec reg_ms) k) / INR (order grp)).
  { unfold Rdiv. rewrite <- rsum_scal_r. unfold mmul at 1. apply rsum_ext. intros k Hk.
    rewrite mvec_mmul. unfold reg_cob at 1. fold (reg_P (elem grp i)). unfold Rdiv.
    transitivity (mvec (order grp) (reg_P (elem grp i)) (reg_vec reg_ms) k * / sqrt (INR (order grp)) *
      (mvec (order grp) (reg_P g) (mvec (order grp) (reg_P (elem grp i')) (reg_vec reg_ms)) k * / sqrt (INR (order grp)))).
    - f_equal. unfold mmul, mtr, mvec at 1. rewrite <- rsum_scal_r. apply rsum_ext; intros c Hc.
      unfold reg_cob. fold (reg_P (elem grp i')). unfold Rdiv. ring.
    - replace (/ INR (order grp)) with (/ sqrt (INR (order grp)) * / sqrt (INR (order grp))); [ring|].
      rewrite <- (sqrt_sqrt (INR (order grp))) at 3 by lra. field. apply Rgt_not_eq, sqrt_lt_R0; lra. }
  rewrite qform_mvec.
  assert (M : meq (order grp) (order grp)
    (mmul (order grp) (mtr (reg_P (elem grp i))) (mmul (order grp) (reg_P g) (reg_P (elem grp i'))))
    (reg_P (op (inv (elem grp i)) (op g (elem grp i'))))).
  { rewrite (R2 (inv (elem grp i)) (op g (elem grp i'))) by auto. rewrite (R2 g (elem grp i')) by auto.
    rewrite (reg_P_inv _ Ei). reflexivity. }
  rewrite (qform_ext _ _ (reg_vec reg_ms) _ _ _ (reg_vec reg_ms) (reflexivity _) M (reflexivity _)).
  unfold reg_P. rewrite reg_qform by auto. unfold reg_perm.
  assert (Q : op (inv (elem grp i)) (op g (elem grp i')) = e0 <-> op g (elem grp i') = elem grp i).
  { split; intros H.
    - rewrite <- (L5 (op g (elem grp i'))) by auto. rewrite <- (L8 _ Ei).
      rewrite L4 by auto. rewrite H. auto.
    - rewrite H. auto. }
  destruct (fg_eqb grp _ e0) eqn:E.
  - apply (fo_eqb OK) in E. apply Q in E. rewrite E, index_elem, Nat.eqb_refl by auto. field; auto.
  - destruct (Nat.eqb_spec i (index grp (op g (elem grp i')))) as [E'|_]; [|lra]. exfalso.
    assert (T : fg_eqb grp (op (inv (elem grp i)) (op g (elem grp i'))) e0 = true).
    { apply (fo_eqb OK), Q. rewrite E', elem_index; auto. }
    congruence.
Qed.

Lemma reg_perm_id : meq (order grp) (order grp) (reg_perm grp e0) mid.
Proof.
  intros i j Hi Hj. unfold reg_perm, mid.
  destruct (fo_laws OK) as [L1 L2 L3 L4 L5 L6 L7 L8]. rewrite L5 by (apply elem_el; auto).
  rewrite index_elem; auto.
Qed.

Lemma reg_cob_orth : orthogonal (order grp) reg_cob.
Proof.
  apply square_inverse_pair. intros i j Hi Hj.
  destruct reg_P_rep as [R1 R2].
  assert (I0 := gl_id_el _ _ _ _ _ (fo_laws OK)).
  rewrite <- (reg_perm_id i j Hi Hj), <- (reg_conj e0 i j I0 Hi Hj).
  assert (M : meq (order grp) (order grp) (mmul (order grp) reg_cob (reg_P e0)) reg_cob).
  { rewrite R1. apply mmul_id_r. }
  symmetry. apply (mmul_compat (order grp) (order grp) (order grp)); auto. reflexivity.
Qed.

Theorem regular_spec :
  exists r, regular_representation grp = Ok r /\
    rp_size r = order grp /\
    (forall ir, In ir (rp_irreps r) -> In ir (fg_irreps grp)) /\
    orthogonal (order grp) (rp_cob r) /\
    rep_accepted r /\
    rp_irreps r = concat (map (fun ir => repeat ir (md ir)) (fg_irreps grp)) /\
    rp_nonlin r = ["pointwise"; "norm"; "gated"; "concatenated"]%string /\
    forall g, el g -> meq (order grp) (order grp) (rp_mat r g) (reg_perm grp g).
Proof.
  exists (MkRep "regular" (expand reg_ms) reg_cob (mtr reg_cob) ["pointwise"; "norm"; "gated"; "concatenated"]%string).
  split.
  { unfold regular_representation, build_regular. rewrite reg_mults. cbn [rbind]. rewrite reg_ms_ok. reflexivity. }
  cbn [rp_irreps rp_cob rp_inv rp_nonlin]. unfold rp_size at 1. cbn [rp_irreps].
  split; [apply reg_size|].
  split; [intros; apply expand_in; auto|].
  split; [apply reg_cob_orth|].
  split. { unfold rep_accepted, rp_size. cbn [rp_irreps rp_cob rp_inv]. rewrite reg_size. apply reg_cob_orth. }
  split. { unfold expand, reg_ms. rewrite map_map. reflexivity. }
  split; auto.
  intros g Hg i j Hi Hj. unfold rp_mat, rp_size. cbn [rp_irreps rp_cob rp_inv]. rewrite reg_size.
  apply reg_conj; auto.
Qed.

End Generic.
