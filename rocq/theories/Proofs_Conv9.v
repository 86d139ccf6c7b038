(** An R2Conv between fields over mirror spaces with different axes. *)
From Coq Require Import Reals ZArith String List Bool Lia Lra.
From Verif Require Import Base Spec Model_Groups Model_Rep Proofs_Rep Proofs_Restrict Model_FieldType Proofs_FieldType Model_Tensor Proofs_Tensor Model_GSpace Spec_GSpace Proofs_GSpace Proofs_Conv3
  Model_Kernels Spec_Kernels Proofs_Kernels5 Model_Utils Proofs_Utils Model_Expansion Proofs_Expansion Proofs_Expansion2 Model_Conv Spec_Conv Proofs_Conv Proofs_Conv2 Proofs_Conv3 Proofs_Conv4 Proofs_Conv5 Proofs_Conv6 Proofs_Conv7 Proofs_Conv8.
Import ListNotations.
Open Scope R_scope.

Definition c2_i0 : irrep Z := match cyc_irrep 2 0 with Ok i => i | Err _ => MkIrrep 0 0 0 0 (fun _ => mid) [] end.
Definition c2_rep : rep Z := MkRep "t" [c2_i0] mid mid [].
Lemma c2_rep_is : cyc_rep 2 c2_rep.
Proof. split; [|constructor; [exists 0%Z; reflexivity|constructor]]. apply inverse_pair_mid. Qed.

Lemma c2_conv axis axis' : exists m c, r2conv_make (MkFT (space_flip axis) [c2_rep]) (MkFT (space_flip axis') [c2_rep]) 1 (PadInt 0) 1 1 "zeros" 1 false (SigList [1]) (FcoFun (fun _ => 0)) (Some [0]) None None = Ok m /\
  c <> 0 /\ forall (x : arr (unit -> vec)), (0 < a_h x)%nat -> (0 < a_w x)%nat ->
   exists y, conv_forward m (MkCS true [1] [] None None) (MkFT (space_flip axis) [c2_rep]) x = Ok (y, MkFT (space_flip axis') [c2_rep]) /\
     a_h y = a_h x /\ a_w y = a_w x /\ forall i j b, (i < a_h x)%nat -> (j < a_w x)%nat -> a_px y i j b 0%nat = c * a_px x i j b 0%nat.
Proof.
  destruct (params_ex 1 1 [0] [1] 0) as [keep [E K]]; [lia|lia|discriminate|reflexivity| |].
  { intros r [<-|[]]. split; [lra|]. exists 0%nat. split; [lia|]. apply sqrt_pos. }
  assert (G : gauss_make [0] [1] = Ok [(0, 1)]).
  { unfold gauss_make, assert_. cbn [length Nat.eqb forallb]. unfold Rleb, Rltb. destruct (Rle_dec 0 0); [|lra]. destruct (Rlt_dec 0 1); [|lra]. reflexivity. }
  set (a0 := MkKA 0 1 0 0 0 0 1 1 0 0 0).
  assert (B : exists b, sp_build (space_flip axis) c2_rep c2_rep [0] [1] (Some 0%Z) None = Ok b /\
     r2_elements b 1 1 = [(a0, fun s => r2_sample b 0 (nth s (grid_coords 1 1) (0, 0)))] /\ r2_sample b 0 (0, 0) O O = 1).
  { cbn [sp_build space_flip]. rewrite (sigma_gauss _ _ _ _ G). unfold check_limits. cbn [opt_nonneg assert_ Z.leb Z.compare]. unfold kernels_Flip_act_R2, r2_make. cbn [assert_ Z.eqb Pos.eqb]. rewrite G.
    eexists. split; [unfold sk_make; rewrite !is_eye_mid; reflexivity|]. split; [reflexivity|].
    unfold r2_sample, polar_sample. rewrite radius_0, angle_0. cbn. unfold gauss_sample, kb_sample, kb_sample_el, place, ke_gamma. cbn.
    replace (- (1 / 2) * ((0 - 0) * (0 - 0)) / (1 * 1)) with 0 by (unfold Rdiv; ring). rewrite exp_0.
    match goal with |- 1 * cos ?x = 1 => replace x with 0 by ring end. rewrite cos_0. ring. }
  destruct B as [b [B1 [B2 B3]]].
  assert (GP : nth 0 (grid_coords 1 1) (0, 0) = (0, 0)) by (rewrite coords_nth by lia; unfold grid_point; cbn; f_equal; lra).
  set (e0 := fun s => r2_sample b 0 (nth s (grid_coords 1 1) (0, 0))) in *.
  assert (SB : exists e1, single_block 1 1 (1 * 1) ka_rows keep (r2_elements b 1 1) = Ok (MkSB 1 1 [(a0, e1)]) /\ e1 0%nat 0%nat 0%nat <> 0).
  { rewrite B2. unfold single_block. cbn [filter fst]. rewrite (K a0) by (cbn; lia). cbn [map fst snd].
    set (e1 := normalize 1 1 (1 * 1) (INR (ka_rows a0)) e0).
    assert (S1 : sq_norm 1 1 (1 * 1) e0 = 1). { unfold sq_norm. cbn. unfold e0. rewrite GP, B3. ring. }
    assert (V : e1 0%nat 0%nat 0%nat = 1).
    { unfold e1, normalize. rewrite S1. cbn [ka_rows a0]. cbn [INR]. replace (1 / 1) with 1 by field. destruct (Rlt_dec 1 _); [lra|]. rewrite sqrt_1. destruct (Rlt_dec 1 _); [lra|]. unfold e0. rewrite GP, B3. field. }
    exists e1. split; [|rewrite V; lra]. cbn [filter snd]. replace (sq_norm 1 1 (1 * 1) e1) with 1 by (unfold sq_norm; cbn; rewrite V; ring).
    unfold Rltb. destruct (Rlt_dec _ _); [reflexivity|lra]. }
  destruct SB as [e1 [SB NZ]].
  destruct (conv_make_ok (space_flip axis) (space_flip axis') c2_rep c2_rep 1 (PadInt 0) (0, 0)%nat 1 1 "zeros" MZeros false (SigList [1]) (FcoFun (fun _ => 0)) (Some [0]) None None keep [0] [1] 0 (MkSB 1 1 [(a0, e1)])) as [m [M1 M2]]; auto.
  { unfold pair_block. rewrite B1. exact SB. }
  exists m, (e1 0%nat 0%nat 0%nat). split; [exact M1|]. split; [exact NZ|]. intros x Hx1 Hx2.
  destruct (make_made _ _ _ _ 0 _ _ _ _ _ _ _ _ _ _ _ M1 eq_refl) as (ir & keep' & rgs & sig & maxf & E' & MD & EM).
  rewrite E in E'. injection E' as <- <- <- <-.
  assert (Eir : ir = [c2_rep]) by (assert (X := md_groups MD); injection X as <-; reflexivity). subst ir.
  assert (EB := md_exp MD).
  assert (FW : exists f, be_forward rp_name rp_size kid_eqb (cv_exp m) [1] = Ok f /\ f 0%nat 0%nat 0%nat = e1 0%nat 0%nat 0%nat).
  { unfold be_make in EB. cbn [ft_gs ft_reps] in EB.
    assert (EBB : build_blocks rp_name rep_eqb (pair_block (fun rin rout => sp_build (space_flip axis) rin rout [0] [1] (Some 0%Z) None) 1 1 keep) [c2_rep] [c2_rep] = Ok [(("t"%string, "t"%string), MkSB 1 1 [(a0, e1)])]).
    { unfold build_blocks. cbn [set_of filter list_prod map app fold_left rbind fst snd]. unfold pair_block at 1. rewrite B1. cbn [rbind]. change (rp_size c2_rep) with 1%nat. rewrite SB. reflexivity. }
    rewrite EBB in EB. cbn in EB. injection EB as <-. eexists. split; [reflexivity|]. cbn. unfold merged, sb_el. cbn. ring. }
  destruct FW as [f [FW1 FW2]].
  unfold conv_forward, used_params. cbn [cs_training cs_w cs_b]. unfold expand_parameters. rewrite FW1. cbn [rbind]. unfold run_conv.
  rewrite (md_pad MD), (md_in MD), (md_out MD), (md_k MD),
    (md_stride MD), (md_dil MD), (md_grp MD).
  cbn in EM. injection EM as <-.
  assert (NB : cv_bias m = None).
  { unfold r2conv_make in M1. repeat (first [apply assert_ok in M1 as [_ M1] | apply rbind_ok in M1 as [? [_ M1]]]). destruct x3 as [[[? ?] ?] ?]. apply rbind_ok in M1 as [e [_ M1]].
    destruct (be_dimension kid_eqb e =? 0)%nat; [discriminate|]. injection M1 as <-. reflexivity. }
  rewrite NB. cbn [fst snd].
  assert (TE : ft_eqb space_eqb rep_eqb (MkFT (space_flip axis) [c2_rep]) (MkFT (space_flip axis) [c2_rep]) = true). { unfold ft_eqb. cbn. rewrite rep_eqb_refl. reflexivity. }
  rewrite TE. cbn [assert_]. rewrite pad2d_eq. cbn [pad_legal andb rbind]. unfold conv_valid. cbn [pads a_h a_w a_px].
  replace (1 <=? a_h x + 2 * 0)%nat with true by (symmetry; apply Nat.leb_le; lia). replace (1 <=? a_w x + 2 * 0)%nat with true by (symmetry; apply Nat.leb_le; lia).
  cbn [Nat.ltb Nat.leb Nat.mul Nat.sub Nat.add Nat.modulo Nat.eqb andb].
  match goal with |- exists y, rbind (if ?c then _ else _) _ = _ /\ _ => assert (CC : c = true) end.
  { change (ct_size (MkFT (space_flip axis) [c2_rep])) with 1%nat. change (ct_size (MkFT (space_flip axis') [c2_rep])) with 1%nat. destruct (a_h x); [lia|]. destruct (a_w x); [lia|]. reflexivity. }
  rewrite CC. cbn [rbind]. eexists. split; [reflexivity|]. cbn [a_h a_w a_px].
  split; [rewrite Nat.div_1_r; lia|]. split; [rewrite Nat.div_1_r; lia|]. intros i j u Hi Hj.
  change (ct_size (MkFT (space_flip axis) [c2_rep])) with 1%nat. cbn [rsum Nat.div Nat.divmod fst snd Nat.mul Nat.add Nat.sub Nat.modulo]. rewrite FW2.
  change (ct_size (MkFT (space_flip axis') [c2_rep])) with 1%nat.
  assert (P : forall h i, (i < h)%nat -> pad_index MZeros h 0 (i * 1 + 0) = Some i).
  { intros h i' H. cbn [pad_index]. rewrite Nat.mul_1_r, Nat.add_0_r, Nat.sub_0_r. cbn [Nat.leb andb Nat.add]. destruct (Nat.ltb_spec i' h); [auto|lia]. }
  rewrite (P _ _ Hi), (P _ _ Hj). cbn. ring.
Qed.

Lemma c2_mat g : rp_mat c2_rep g 0%nat 0%nat = 1.
Proof. unfold rp_mat. cbn. unfold mmul, mid, rsum. cbn. ring. Qed.

Theorem different_axes (interp : forall A : Type, R -> R -> arr A -> arr A) : exists (m : r2conv Z) (x : arr (unit -> vec)) y x' y' y'',
  let tin := MkFT (space_flip 0) [c2_rep] in let tout := MkFT (space_flip (PI / 2)) [c2_rep] in
  r2conv_make tin tout 1 (PadInt 0) 1 1 "zeros" 1 false (SigList [1]) (FcoFun (fun _ => 0)) (Some [0]) None None = Ok m /\
  let st := MkCS true [1] [] None None in
  conv_forward m st tin x = Ok (y, tout) /\ field_transform interp tin x (EI 1) = Ok x' /\ conv_forward m st tin x' = Ok (y', tout) /\
  field_transform interp tout y (EI 1) = Ok y'' /\ ~ same_field (ct_size tout) y' y''.
Proof.
  destruct (c2_conv 0 (PI / 2)) as [m [c [M [NZ F]]]]. set (x := MkArr 2 1 (fun i (j : nat) (_ : unit) (_ : nat) => INR i)).
  destruct (F x) as [y [Y1 [Y2 [Y3 Y4]]]]; [cbn; lia|cbn; lia|].
  destruct (space_ok _ _ _ (PS_flip 0)) as (code & el & inv & SF). destruct (space_ok _ _ _ (PS_flip (PI / 2))) as (code' & el' & inv' & SF').
  destruct (transform_exact (space_flip 0) _ _ _ _ SF interp (MkFT (space_flip 0) [c2_rep]) (EI 1) 1%Z 0%Z x) as [x' [X1 X2]]; [reflexivity|discriminate|reflexivity|reflexivity|cbn; ring|].
  destruct (transform_exact (space_flip (PI / 2)) _ _ _ _ SF' interp (MkFT (space_flip (PI / 2)) [c2_rep]) (EI 1) 1%Z 2%Z y) as [y'' [Z1 Z2]]; [reflexivity|discriminate|reflexivity|reflexivity|cbn; field|].
  destruct X2 as (X2 & X3 & X4). destruct Z2 as (Z2 & Z3 & Z4). cbn [sp_obj space_flip gflip Z.eqb negb] in *.
  assert (Hx' : a_h x' = 2%nat /\ a_w x' = 1%nat) by (rewrite X2, X3; split; reflexivity). destruct Hx' as [Hx1 Hx2].
  destruct (F x') as [y' [U1 [U2 [U3 U4]]]]; [lia|lia|].
  exists m, x, y, x', y', y''. split; [exact M|]. split; [exact Y1|]. split; [exact X1|]. split; [exact U1|]. split; [exact Z1|].
  intros (S1 & S2 & S3). specialize (S3 0%nat 0%nat tt 0%nat).
  rewrite (U4 0%nat 0%nat tt), (X4 0%nat 0%nat tt 0%nat) in S3 by (try lia; cbn; lia).
  rewrite (Z4 0%nat 0%nat tt 0%nat) in S3; [| | |cbn; lia].
  - change (ct_size (MkFT (space_flip 0) [c2_rep])) with 1%nat in S3. change (ct_size (MkFT (space_flip (PI / 2)) [c2_rep])) with 1%nat in S3.
    cbn [ft_reps] in S3. unfold amap, mvec in S3. cbn [a_px rsum] in S3.
    assert (T : trep [c2_rep] 1%Z 0%nat 0%nat = 1). { change (rp_mat c2_rep 1%Z 0%nat 0%nat = 1). apply c2_mat. }
    rewrite T in S3.
    assert (A : a_px (turn true 0 x) 0 0 tt 0%nat = 1) by reflexivity.
    assert (B : a_px (turn true 2 y) 0 0 tt 0%nat = 0).
    { change (a_px y (a_h y - 1 - (a_h y - 1 - 0))%nat (a_w y - 1 - 0)%nat tt 0%nat = 0). rewrite Y2, Y3.
      change (a_px y 0 0 tt 0%nat = 0). rewrite Y4 by (cbn; lia). cbn. ring. }
    apply NZ. rewrite U2, U3, Hx1, Hx2 in S3.
    specialize (S3 (Nat.lt_0_succ 1) (Nat.lt_0_succ 0) (Nat.lt_0_succ 0)).
    assert (S4 : c * (0 + 1 * a_px (turn true 0 x) 0 0 tt 0%nat) = 0 + 1 * a_px (turn true 2 y) 0 0 tt 0%nat) by exact S3.
    rewrite A, B in S4. lra.
  - rewrite <- S1, U2, Hx1. lia.
  - rewrite <- S2, U3, Hx2. lia.
Qed.
