(** Concrete R2ConvTransposed modules. *)
From Coq Require Import Reals ZArith String List Bool Lia Lra.
From Verif Require Import Base Spec Model_Groups Model_Rep Proofs_Rep Proofs_Restrict Model_FieldType Proofs_FieldType Model_Tensor Proofs_Tensor Model_GSpace Spec_GSpace Proofs_GSpace
  Model_Kernels Model_Utils Proofs_Utils Model_Expansion Model_Conv Spec_Conv Proofs_Conv Proofs_Conv2 Proofs_Conv3 Proofs_Conv4 Proofs_Conv5 Proofs_Conv6 Proofs_Conv7 Proofs_Conv8 Proofs_Conv9 Model_ConvT Proofs_ConvT Proofs_ConvT2.
Import ListNotations.
Open Scope R_scope.

Lemma rings_of_t k fco rings sigma dil bf keep rgs sig maxf : compute_basis_params_t k fco rings sigma dil bf = Ok (keep, rgs, sig, maxf) ->
  rgs = match rings with Some l => l | None => linspace0 (INR ((k - 1) / 2)) ((k + 1) / 2) end.
Proof.
  unfold compute_basis_params_t. intros H. apply assert_ok in H as [_ H]. cbv zeta in H. apply assert_ok in H as [_ H].
  apply rbind_ok in H as [M [_ H]]. injection H as _ H _ _. auto.
Qed.
Lemma default_rings_nodup_t k : NoDup (linspace0 (INR ((k - 1) / 2)) ((k + 1) / 2)).
Proof.
  assert (X := default_rings_nodup k 1 (Nat.lt_0_succ 0)). apply NoDup_map_inv in X. exact X.
Qed.

Lemma coord_norm_ge k dil s r : (s < k * k)%nat -> 0 <= r <= Rabs (fst (grid_point k dil s)) -> r <= max_radius_t k dil.
Proof.
  intros Hs [H0 H]. eapply Rle_trans; [|apply Rmax_l]. unfold coord_norm. apply Rsqr_incr_0_var; [|apply sqrt_pos].
  set (f := fun s => fst (grid_point k dil s) * fst (grid_point k dil s)).
  assert (P : forall j, 0 <= f j) by (intros; apply Rle_0_sqr).
  assert (Q : f s <= rsum (k * k) f) by (apply rsum_ge; auto).
  unfold Rsqr at 2. rewrite sqrt_sqrt.
  - eapply Rle_trans; [|exact Q]. unfold f. set (z := fst (grid_point k dil s)) in *. replace (z * z) with (Rsqr (Rabs z)) by (rewrite <- Rsqr_abs; reflexivity). apply Rsqr_incr_1; lra.
  - eapply Rle_trans; [apply (P s)|exact Q].
Qed.

Lemma tconv_from_conv {G} (tin tout : ctype G) k p op stride stride' dil mode bias sigma fco rings mo bf m :
  r2conv_make tin tout k (PadInt 0) stride dil mode 1 bias sigma fco (Some rings) mo bf = Ok m -> (0 < k)%nat ->
  (forall r, In r rings -> exists s, (s < k * k)%nat /\ 0 <= r <= Rabs (fst (grid_point k dil s))) ->
  tconv_make tin tout k p op stride' dil 1 bias sigma fco (Some rings) mo bf = Ok (MkTConv tin tout k p op stride' dil 1 (cv_bias m) (cv_exp m)).
Proof.
  intros H Hk Hr. unfold r2conv_make in H. apply assert_ok in H as [H1 H]. cbn [parse_padding rbind] in H. apply rbind_ok in H as [md [_ H]].
  cbn [group_in Nat.ltb Nat.leb rbind] in H. cbv zeta in H. apply rbind_ok in H as [[[[keep rgs] sig] maxf] [Hc H]]. apply rbind_ok in H as [e [He H]].
  destruct (be_dimension kid_eqb e =? 0)%nat; [discriminate|]. injection H as <-. cbn [cv_bias cv_exp].
  unfold tconv_make. rewrite H1. unfold group_out. cbn [assert_ group_in Nat.ltb Nat.leb rbind]. cbv zeta.
  assert (C : compute_basis_params_t k fco (Some rings) sigma dil bf = Ok (keep, rgs, sig, maxf)).
  { unfold compute_basis_params in Hc. apply rbind_ok in Hc as [mr [_ Hc]]. cbv zeta in Hc. apply assert_ok in Hc as [_ Hc].
    unfold compute_basis_params_t. destruct (Nat.ltb_spec 0 k); [|lia]. cbn [assert_]. cbv zeta.
    assert (A : forallb (fun r => (Rleb r (max_radius_t k dil) && Rleb 0 r)%bool) rings = true).
    { apply forallb_forall. intros r Hi. destruct (Hr r Hi) as [s [S1 S2]]. assert (X := coord_norm_ge k dil s r S1 S2). unfold Rleb. destruct (Rle_dec r _); [|lra]. destruct (Rle_dec 0 r); [reflexivity|lra]. }
    rewrite A. cbn [assert_]. exact Hc. }
  rewrite C. cbn [rbind]. rewrite He. reflexivity.
Qed.

(** the mirror space, a 1 x 1 filter *)
Definition c2_type : ctype Z := MkFT (space_flip 0) [c2_rep].
Lemma c2_tconv p op stride : exists e c f, tconv_make c2_type c2_type 1 p op stride 1 1 false (SigList [1]) (FcoFun (fun _ => 0)) (Some [0]) None None =
    Ok (MkTConv c2_type c2_type 1 p op stride 1 1 None e) /\ be_forward rp_name rp_size kid_eqb e [1] = Ok f /\ f 0%nat 0%nat 0%nat = c /\ c <> 0.
Proof.
  destruct (c2_conv 0 0) as [m [c [M [NZ F]]]].
  assert (T := tconv_from_conv c2_type c2_type 1 p op 1 stride 1 _ _ _ _ _ _ _ m M (Nat.lt_0_succ 0)).
  assert (NB : cv_bias m = None).
  { clear -M. unfold r2conv_make in M. apply assert_ok in M as [_ M]. cbn [parse_padding rbind] in M. apply rbind_ok in M as [md [_ M]]. apply rbind_ok in M as [i [_ M]]. cbv zeta in M.
    apply rbind_ok in M as [[[[a b] c] d] [_ M]]. apply rbind_ok in M as [e [_ M]]. destruct (_ =? 0)%nat; [discriminate|]. injection M as <-. reflexivity. }
  rewrite NB in T. exists (cv_exp m), c.
  destruct (F (MkArr 1 1 (fun _ _ _ _ => 1))) as [y [Y1 [Y2 [Y3 Y4]]]]; [cbn; lia|cbn; lia|]. specialize (Y4 0%nat 0%nat tt (Nat.lt_0_succ 0) (Nat.lt_0_succ 0)). cbn [a_px] in Y4.
  destruct (make_made _ _ _ _ 0%nat _ _ _ _ _ _ _ _ _ _ _ M eq_refl) as (ir & keep' & rgs & sig & maxf & _ & MD & EM).
  unfold conv_forward in Y1. apply assert_ok in Y1 as [_ Y1]. apply rbind_ok in Y1 as [fb [U Y1]]. apply rbind_ok in Y1 as [y0 [R Y1]].
  assert (y0 = y) by congruence. subst y0. clear Y1.
  unfold used_params in U. cbn [cs_training cs_w cs_b] in U. unfold expand_parameters in U. apply rbind_ok in U as [f [U1 U]]. rewrite NB in U. injection U as <-.
  exists f. split; [|split; [exact U1|split; [|exact NZ]]].
  - apply T. intros r [<-|[]]. exists 0%nat. split; [lia|]. split; [lra|apply Rabs_pos].
  - unfold run_conv in R. rewrite (md_pad MD), (md_in MD), (md_out MD), (md_k MD), (md_stride MD), (md_dil MD), (md_grp MD) in R. cbn in EM. injection EM as E0. rewrite <- E0 in R.
    cbn in R. injection R as <-. cbn in Y4. lra.
Qed.

Lemma c2_refl : ft_eqb space_eqb rep_eqb c2_type c2_type = true.
Proof. unfold ft_eqb. cbn. rewrite rep_eqb_refl. reflexivity. Qed.

(** ** output padding: 1 x 1 filter, stride 2, one pixel *)
Theorem output_padding_refuted (interp : forall A : Type, R -> R -> arr A -> arr A) : exists (m : tconv Z) (x : arr (unit -> vec)) y x' y' y'',
  tconv_make c2_type c2_type 1 0 1 2 1 1 false (SigList [1]) (FcoFun (fun _ => 0)) (Some [0]) None None = Ok m /\
  let st := MkCS true [1] [] None None in
  tconv_forward m st c2_type x = Ok (y, c2_type) /\ field_transform interp c2_type x (EI 1) = Ok x' /\ tconv_forward m st c2_type x' = Ok (y', c2_type) /\
  field_transform interp c2_type y (EI 1) = Ok y'' /\ ~ same_field (ct_size c2_type) y' y''.
Proof.
  destruct (c2_tconv 0 1 2) as [e [c [f [T [Hf [Hc NZ]]]]]]. set (m := MkTConv c2_type c2_type 1 0 1 2 1 1 None e) in *.
  assert (FW : forall v : R, forall x : arr (unit -> vec), a_h x = 1%nat -> a_w x = 1%nat -> a_px x 0%nat 0%nat tt 0%nat = v ->
     exists y, tconv_forward m (MkCS true [1] [] None None) c2_type x = Ok (y, c2_type) /\ a_h y = 2%nat /\ a_w y = 2%nat /\ a_px y 0%nat 0%nat tt 0%nat = c * v /\ a_px y 1%nat 0%nat tt 0%nat = 0).
  { intros v x Hh Hw Hv. unfold tconv_forward. cbn [m tc_in]. rewrite c2_refl. cbn [assert_]. unfold used_params_t. cbn [cs_training cs_w cs_b]. unfold expand_parameters_t. change (tc_exp m) with e. rewrite Hf. cbn [rbind]. change (tc_bias m) with (@None (list vec)). cbn iota.
    unfold run_tconv. unfold m. cbn [tc_in tc_out tc_k tc_stride tc_dil tc_groups tc_pad tc_opad fst snd]. change (ct_size c2_type) with 1%nat. unfold conv_transpose. rewrite Hh, Hw. cbn -[rsum].
    eexists. split; [reflexivity|]. split; [reflexivity|]. split; [reflexivity|]. split.
    - cbn. rewrite Hv. change (f 0%nat 0%nat 0%nat) with (f 0%nat 0%nat 0%nat) in *. rewrite Hc. ring.
    - cbn. ring. }
  set (x := MkArr 1 1 (fun (i j : nat) (_ : unit) (_ : nat) => 1)).
  destruct (FW 1 x eq_refl eq_refl eq_refl) as [y [Y1 [Y2 [Y3 [Y4 Y5]]]]].
  destruct (space_ok _ _ _ (PS_flip 0)) as (code & el & inv & SF).
  destruct (transform_exact (space_flip 0) _ _ _ _ SF interp c2_type (EI 1) 1%Z 0%Z x) as [x' [X1 X2]]; [reflexivity|discriminate|reflexivity|reflexivity|cbn; ring|].
  destruct (transform_exact (space_flip 0) _ _ _ _ SF interp c2_type (EI 1) 1%Z 0%Z y) as [y'' [Z1 Z2]]; [reflexivity|discriminate|reflexivity|reflexivity|cbn; ring|].
  destruct X2 as (X2 & X3 & X4). destruct Z2 as (Z2 & Z3 & Z4). cbn [sp_obj space_flip gflip Z.eqb negb] in *.
  assert (Hx' : a_h x' = 1%nat /\ a_w x' = 1%nat) by (rewrite X2, X3; split; reflexivity). destruct Hx' as [Hx1 Hx2].
  assert (TR : trep [c2_rep] 1%Z 0%nat 0%nat = 1). { change (rp_mat c2_rep 1%Z 0%nat 0%nat = 1). apply c2_mat. }
  assert (V : a_px x' 0%nat 0%nat tt 0%nat = 1).
  { rewrite X4 by (try lia; cbn; lia). change (ct_size c2_type) with 1%nat. change (ft_reps c2_type) with [c2_rep]. unfold amap, mvec. cbn [a_px rsum]. rewrite TR. change (a_px (turn true 0 x) 0%nat 0%nat tt 0%nat) with 1. ring. }
  destruct (FW 1 x' Hx1 Hx2 V) as [y' [W1 [W2 [W3 [W4 W5]]]]].
  exists m, x, y, x', y', y''. split; [exact T|]. split; [exact Y1|]. split; [exact X1|]. split; [exact W1|]. split; [exact Z1|].
  intros (S1 & S2 & S3). specialize (S3 0%nat 0%nat tt 0%nat). rewrite W2, W3, W4 in S3. specialize (S3 (Nat.lt_0_succ 1) (Nat.lt_0_succ 1) (Nat.lt_0_succ 0)).
  rewrite Z4 in S3; [| | |cbn; lia].
  - change (ct_size c2_type) with 1%nat in S3. change (ft_reps c2_type) with [c2_rep] in S3. unfold amap, mvec in S3. cbn [a_px rsum] in S3. rewrite TR in S3.
    assert (B : a_px (turn true 0 y) 0 0 tt 0%nat = 0).
    { change (a_px y (a_h y - 1 - 0)%nat 0%nat tt 0%nat = 0). rewrite Y2. exact Y5. }
    rewrite B in S3. apply NZ. lra.
  - rewrite <- S1, W2. lia.
  - rewrite <- S2, W3. lia.
Qed.
