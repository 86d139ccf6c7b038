(** A concrete R2Conv: C_4, 3x3 filter, fields of trivial + irrep 1. *)
From Coq Require Import Reals ZArith String List Bool Lia Lra.
From Verif Require Import Base Spec Model_Groups Model_Rep Proofs_Rep Proofs_Restrict Model_FieldType Proofs_FieldType Model_Tensor Proofs_Tensor Model_GSpace Spec_GSpace Proofs_GSpace Proofs_Conv3
  Model_Kernels Spec_Kernels Proofs_Kernels5 Model_Utils Proofs_Utils Model_Expansion Proofs_Expansion Proofs_Expansion2 Model_Conv Spec_Conv Proofs_Conv Proofs_Conv2 Proofs_Conv4 Proofs_Conv5 Proofs_Conv7.
Import ListNotations.
Open Scope R_scope.

Lemma rsum_ge n f i : (forall j, (j < n)%nat -> 0 <= f j) -> (i < n)%nat -> f i <= rsum n f.
Proof.
  induction n as [|n IH]; intros H Hi; [lia|]. cbn [rsum].
  assert (0 <= rsum n f). { clear IH Hi. induction n as [|n IH]; cbn; [lra|]. assert (0 <= f n) by (apply H; lia). assert (0 <= rsum n f) by (apply IH; intros; apply H; lia). lra. }
  destruct (Nat.eq_dec i n) as [->|N]; [lra|]. assert (f i <= rsum n f) by (apply IH; [intros; apply H; lia|lia]). assert (0 <= f n) by (apply H; lia). lra.
Qed.
Lemma sq_norm_ge no ni S e s o i : (s < S)%nat -> (o < no)%nat -> (i < ni)%nat -> e s o i * e s o i <= sq_norm no ni S e.
Proof.
  intros Hs Ho Hi. unfold sq_norm.
  assert (P : forall s o i, 0 <= e s o i * e s o i) by (intros; apply Rle_0_sqr).
  assert (P1 : forall s o, 0 <= rsum ni (fun i => e s o i * e s o i)).
  { intros s' o'. destruct ni; [lia|]. eapply Rle_trans; [apply (P s' o' O)|]. apply (rsum_ge _ (fun i => e s' o' i * e s' o' i) O); [auto|lia]. }
  assert (P2 : forall s, 0 <= rsum no (fun o => rsum ni (fun i => e s o i * e s o i))).
  { intros s'. destruct no; [lia|]. eapply Rle_trans; [apply (P1 s' O)|]. apply (rsum_ge _ (fun o => rsum ni (fun i => e s' o i * e s' o i)) O); [auto|lia]. }
  eapply Rle_trans; [|apply (rsum_ge S (fun s => rsum no (fun o => rsum ni (fun i => e s o i * e s o i))) s); auto].
  eapply Rle_trans; [|apply (rsum_ge no (fun o => rsum ni (fun i => e s o i * e s o i)) o); auto].
  apply (rsum_ge ni (fun i => e s o i * e s o i) i); auto.
Qed.
Lemma is_eye_mid n : is_eye n mid = true.
Proof.
  unfold is_eye. apply forallb_forall. intros i _. apply forallb_forall. intros j _. destruct (Req_EM_T (mid i j) (mid i j)); congruence.
Qed.
Lemma gauss_0 s : gauss_sample ((0, s) :: []) 0 0 = 1.
Proof. unfold gauss_sample. cbn. replace (- (1 / 2) * ((0 - 0) * (0 - 0)) / (s * s)) with 0 by (unfold Rdiv; ring). apply exp_0. Qed.
Lemma radius_0 : radius_of (0, 0) = 0.
Proof. unfold radius_of. cbn. replace (0 * 0 + 0 * 0) with 0 by ring. apply sqrt_0. Qed.
Lemma angle_0 : angle_of (0, 0) = None.
Proof. unfold angle_of. rewrite radius_0. destruct (Rlt_dec _ _); [auto|lra]. Qed.

Definition c4_i0 : irrep Z := match cyc_irrep 4 0 with Ok i => i | Err _ => MkIrrep 0 0 0 0 (fun _ => mid) [] end.
Definition c4_i1 : irrep Z := match cyc_irrep 4 1 with Ok i => i | Err _ => MkIrrep 0 0 0 0 (fun _ => mid) [] end.
(** trivial + irrep_1, of size 3 *)
Definition c4_rep : rep Z := MkRep "r" [c4_i0; c4_i1] mid mid [].
Lemma c4_rep_is : cyc_rep 4 c4_rep.
Proof.
  split; [|constructor; [exists 0%Z; reflexivity|constructor; [exists 1%Z; reflexivity|constructor]]]. apply inverse_pair_mid.
Qed.
Definition c4_type : ctype Z := MkFT (space_CN 4) [c4_rep].

Lemma c4_conv (p : nat) : exists m keep, r2conv_make c4_type c4_type 3 (PadInt p) 1 1 "zeros" 1 true (SigList [1 / 2; 1 / 2]) (FcoFun (fun _ => 2)) (Some [0; 1]) None None = Ok m /\
  cv_bias m = Some (bias_cols 0 [c4_rep]) /\ compute_basis_params 3 (FcoFun (fun _ => 2)) (Some [0; 1]) (SigList [1 / 2; 1 / 2]) 1 None = Ok (keep, [0; 1], [1/2; 1/2], 2%Z).
Proof.
  destruct (params_ex 3 1 [0; 1] [1 / 2; 1 / 2] 2) as [keep [E K]]; [lia|lia|discriminate|reflexivity| |].
  { intros r [<-|[<-|[]]]; (split; [lra|]).
    - exists 4%nat. split; [lia|]. apply sqrt_pos.
    - exists 5%nat. split; [lia|]. unfold radius_of, grid_point. cbn. rewrite <- sqrt_1 at 1. apply sqrt_le_1_alt. lra. }
  assert (G : gauss_make [0; 1] [1 / 2; 1 / 2] = Ok [(0, 1 / 2); (1, 1 / 2)]).
  { unfold gauss_make, assert_. cbn [length Nat.eqb forallb]. unfold Rleb, Rltb.
    destruct (Rle_dec 0 0); [|lra]. destruct (Rle_dec 0 1); [|lra]. destruct (Rlt_dec 0 (1 / 2)); [|lra]. reflexivity. }
  assert (B : exists b, sp_build (space_CN 4) c4_rep c4_rep [0; 1] [1 / 2; 1 / 2] (Some 2%Z) None = Ok b /\
     exists rest, r2_attrs b = MkKA 0 (1 / 2) 0 0 0 0 1 1 0 0 0 :: rest /\ r2_sample b 0 (0, 0) O O = 1).
  { cbn [sp_build space_CN]. rewrite (sigma_gauss _ _ _ _ G). unfold check_limits. cbn [opt_nonneg assert_ Z.leb Z.compare]. unfold kernels_CN_act_R2, r2_make. rewrite G.
    eexists. split; [unfold sk_make; rewrite !is_eye_mid; reflexivity|]. eexists. split; [reflexivity|].
    unfold r2_sample, polar_sample. rewrite radius_0, angle_0. cbn. unfold gauss_sample, kb_sample, kb_sample_el, place, ke_gamma. cbn.
    replace (- (1 / 2) * ((0 - 0) * (0 - 0)) / (1 / 2 * (1 / 2))) with 0 by (unfold Rdiv; ring). rewrite exp_0.
    match goal with |- 1 * cos ?x = 1 => replace x with 0 by ring end. rewrite cos_0. ring. }
  destruct B as [b [B1 [rest [B2 B3]]]].
  destruct (single_block_ok 3 3 (3 * 3) ka_rows keep (r2_elements b 3 1) (MkKA 0 (1 / 2) 0 0 0 0 1 1 0 0 0, fun s => r2_sample b 0 (nth s (grid_coords 3 1) (0, 0)))) as [sb [S1 S2]].
  { unfold r2_elements. rewrite B2. unfold enumerate. cbn [length seq combine map fst snd]. left. reflexivity. }
  { apply K. cbn. lia. }
  { cbn. lia. }
  { cbn [fst snd ka_rows]. eapply Rle_trans; [|apply (sq_norm_ge 3 3 (3 * 3) _ 4 0 0); lia].
    assert (GP : grid_point 3 1 4 = (0, 0)) by (unfold grid_point; cbn; f_equal; lra). cbv beta. rewrite coords_nth by lia. rewrite GP, B3. cbn. lra. }
  destruct (conv_make_ok (space_CN 4) (space_CN 4) c4_rep c4_rep 3 (PadInt p) (p, p) 1 1 "zeros" MZeros true (SigList [1 / 2; 1 / 2]) (FcoFun (fun _ => 2)) (Some [0; 1]) None None keep [0; 1] [1/2; 1/2] 2 sb) as [m [M1 _]]; auto.
  { unfold pair_block. rewrite B1. exact S1. }
  { cbn; lia. }
  { cbn; lia. }
  exists m, keep. split; [exact M1|]. split; [|exact E].
  unfold r2conv_make in M1. repeat (first [apply assert_ok in M1 as [_ M1] | apply rbind_ok in M1 as [? [_ M1]]]). destruct x2 as [[[? ?] ?] ?]. apply rbind_ok in M1 as [e [_ M1]].
  destruct (be_dimension kid_eqb e =? 0)%nat; [discriminate|]. injection M1 as <-. reflexivity.
Qed.
