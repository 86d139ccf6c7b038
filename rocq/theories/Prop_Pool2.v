(** C52: examples and counterexamples.  C33 and C48 for the pooling modules. *)
From Coq Require Import Reals ZArith String List Bool Lia Lra.
From Verif Require Import Base LinAlg Spec Model_Groups Model_Rep Proofs_Rep Model_FieldType Proofs_FieldType Model_GSpace Spec_GSpace Proofs_GSpace Model_Conv Spec_Conv Proofs_Conv
  Proofs_Conv2 Proofs_Conv3 Proofs_Conv4 Proofs_Conv5 Proofs_Conv6 Model_Fieldwise Spec_Fieldwise Model_Regular Proofs_Restrict Proofs_Regular2 Prop_Fieldwise3 Model_Pool Spec_Pool Proofs_Pool Proofs_Pool2 Prop_Pool.
Import ListNotations.
Open Scope R_scope.

Lemma exact_c4 : grid_exact (SpRot (GC 4)) (EI 1).
Proof. left. cbn. replace (2 * PI * 1 / 4) with (PI / 2) by field. rewrite cos_PI2. ring. Qed.
Lemma type_refl_CN N (reps : list (rep Z)) : ft_eqb space_eqb rep_eqb (MkFT (space_CN N) reps) (MkFT (space_CN N) reps) = true.
Proof.
  unfold ft_eqb. cbn [ft_gs ft_reps]. apply andb_true_iff. split; [unfold space_eqb; cbn; apply Z.eqb_refl|].
  induction reps as [|r l IH]; [reflexivity|]. cbn [list_eqb]. rewrite rep_eqb_refl. exact IH.
Qed.

(** a quarter turn of a 4 x 6 image of two regular fields of C_4, with windows of 2 x 2 and of 3 x 3 with padding 1 and stride 1 *)
Example C52_ex : exists r, regular_representation (cyc_fg 4) = Ok r /\
  let t := MkFT (space_CN 4) [r; r] in let x := MkArr 4 6 (fun i j (_ : unit) c => INR (i * j + c)) in
  planar_space Z (space_CN 4) (cyc_rep 4) /\ ft_reps t <> [] /\ fg_is_element (GC 4) (EI 1) = true /\ sp_prj (space_CN 4) (EI 1) = Some 1%Z /\ grid_exact (SpRot (GC 4)) (EI 1) /\
  (forall r', In r' (ft_reps t) -> is_perm (rp_size r') (rp_mat r' 1%Z)) /\
  (exists m y, maxpool_make t (IInt 2) None (IInt 0) (IInt 1) false = Ok m /\ maxpool_forward space_eqb rep_eqb m t x = Ok (y, t) /\ a_h y = 2%nat /\ a_w y = 3%nat) /\
  (exists m y, avgpool_make t (IPair 3 3) (Some (IPair 1 1)) (IPair 1 1) false = Ok m /\ avgpool_forward space_eqb rep_eqb m t x = Ok (y, t) /\ tiled 1 3 1 1 (a_h x) /\ tiled 1 3 1 1 (a_w x) /\ a_h y = 4%nat) /\
  (exists m y, adpool_make true t (IPair 3 3) = Ok m /\ adpool_forward space_eqb rep_eqb m t x = Ok (y, t) /\ a_h y = 3%nat).
Proof.
  destruct (cyc_regular 4 ltac:(lia)) as (r & E & SZ & _). destruct (regular_name _ _ E) as [NA NL]. exists r. split; [exact E|]. cbv zeta.
  assert (SU : all_support "pointwise" (MkFT (space_CN 4) [r; r]) = true). { unfold all_support, supports. cbn [ft_reps forallb]. rewrite NL. reflexivity. }
  split; [apply PS_CN; lia|]. split; [discriminate|]. split; [reflexivity|]. split; [reflexivity|]. split; [apply exact_c4|].
  split. { intros r' H. cbn [ft_reps In] in H. assert (r' = r) as -> by (destruct H as [<-|[<-|[]]]; reflexivity). apply (C42_regular_cyclic 4 r 1 ltac:(lia) E). split; lia. }
  split; [|split].
  - unfold maxpool_make. rewrite SU. cbn [assert_]. eexists. eexists. split; [reflexivity|]. unfold maxpool_forward. cbn [mp_in]. rewrite type_refl_CN. cbn [assert_]. split; [reflexivity|]. split; reflexivity.
  - eexists. eexists. split; [reflexivity|]. unfold avgpool_forward. cbn [ap_in]. rewrite type_refl_CN. cbn [assert_]. split; [reflexivity|]. split; [exists 3%nat; reflexivity|]. split; [exists 5%nat; reflexivity|reflexivity].
  - unfold adpool_make. rewrite SU. cbn [assert_]. eexists. eexists. split; [reflexivity|]. unfold adpool_forward. cbn [ad_in]. rewrite type_refl_CN. cbn [assert_]. split; reflexivity.
Qed.

(** the antialiased modules: a 5 x 7 image, sigma = 1, stride 2 *)
Lemma round_4 : py_round (4 * 1) = 4%Z.
Proof.
  assert (I : Int_part (4 * 1) = 4%Z).
  { destruct (base_Int_part (4 * 1)) as [H1 H2]. assert (L1 : IZR (Int_part (4 * 1)) < IZR 5) by lra. assert (L2 : IZR 3 < IZR (Int_part (4 * 1))) by lra. apply lt_IZR in L1, L2. lia. }
  unfold py_round. rewrite I. cbv zeta. destruct (Rlt_dec _ _); [reflexivity|lra].
Qed.
Lemma round_3 : py_round (3 * 1) = 3%Z.
Proof.
  assert (I : Int_part (3 * 1) = 3%Z).
  { destruct (base_Int_part (3 * 1)) as [H1 H2]. assert (L1 : IZR (Int_part (3 * 1)) < IZR 4) by lra. assert (L2 : IZR 2 < IZR (Int_part (3 * 1))) by lra. apply lt_IZR in L1, L2. lia. }
  unfold py_round. rewrite I. cbv zeta. destruct (Rlt_dec _ _); [reflexivity|lra].
Qed.
Example C52_antialiased_ex : exists r, regular_representation (cyc_fg 4) = Ok r /\
  let t := MkFT (space_CN 4) [r; r] in let x := MkArr 5 7 (fun i j (_ : unit) c => INR (i * j + c)) in
  (exists m y, amaxpool_make t (IPair 3 3) (Some (IPair 2 2)) (IPair 1 1) (IInt 1) false 1 = Ok m /\ amaxpool_forward space_eqb rep_eqb m t x = Ok (y, t) /\
    (exists q, a_h x + 4 * 1 = q * 2 + 3)%nat /\ (exists q, a_w x + 4 * 1 = q * 2 + 3)%nat /\ a_h y = 4%nat /\ a_w y = 5%nat) /\
  (exists m y, aavgpool_make t 1 (Some (IPair 2 2)) (Some (IPair 3 3)) = Ok m /\ aavgpool_forward space_eqb rep_eqb m t x = Ok (y, t) /\
    (exists q, a_h x + 2 * 3 = q * 2 + aa_fs m)%nat /\ (exists q, a_w x + 2 * 3 = q * 2 + aa_fs m)%nat /\ a_h y = 3%nat /\ a_w y = 4%nat).
Proof.
  destruct (cyc_regular 4 ltac:(lia)) as (r & E & SZ & _). destruct (regular_name _ _ E) as [NA NL]. exists r. split; [exact E|]. cbv zeta.
  assert (SU : all_support "pointwise" (MkFT (space_CN 4) [r; r]) = true). { unfold all_support, supports. cbn [ft_reps forallb]. rewrite NL. reflexivity. }
  split.
  - unfold amaxpool_make, maxpool_make. rewrite SU, round_4. cbn [assert_ rbind]. destruct (Rlt_dec 0 1); [|lra]. cbn [assert_]. eexists. eexists. split; [reflexivity|].
    unfold amaxpool_forward. cbn [am_base mp_in]. rewrite type_refl_CN. cbn [assert_]. split; [reflexivity|]. split; [exists 3%nat; reflexivity|]. split; [exists 4%nat; reflexivity|]. split; reflexivity.
  - unfold aavgpool_make. rewrite round_3. destruct (Rlt_dec 0 1); [|lra]. cbn [assert_]. eexists. eexists. split; [reflexivity|].
    unfold aavgpool_forward. cbn [aa_in]. rewrite type_refl_CN. cbn [assert_]. split; [reflexivity|]. split; [exists 2%nat; reflexivity|]. split; [exists 3%nat; reflexivity|]. split; reflexivity.
Qed.

(** Without exact tiling the property fails: 2 x 2 windows on a 3 x 3 image.  The result for the turned image is not the turned result. *)
Definition corner (i j : nat) (_ : unit) (c : nat) : R := if (i + j =? 0)%nat then 1 else 0.
Lemma trep_c4_0 : trep [c4 0] 1%Z 0%nat 0%nat = 1.
Proof.
  unfold trep. cbn [map bdiag]. change (rp_size (c4 0)) with 1%nat. cbn [Nat.ltb Nat.leb]. destruct (cyc_irrep 4 0) as [ir|] eqn:E; [|discriminate].
  rewrite (c4_mat 0 ir 1 E 0%nat 0%nat). 2,3: injection E as <-; cbn; lia. injection E as <-. cbn. reflexivity.
Qed.
Theorem C52_untiled_refuted : exists (t : ctype Z) m x y, planar_space Z (ft_gs t) (cyc_rep 4) /\ ft_gs t = space_CN 4 /\ ft_reps t <> [] /\
  maxpool_make t (IInt 2) None (IInt 0) (IInt 1) false = Ok m /\ (forall r, In r (ft_reps t) -> is_perm (rp_size r) (rp_mat r 1%Z)) /\
  maxpool_forward (B := unit) space_eqb rep_eqb m t x = Ok (y, t) /\
  forall interp, exists x' y' y'', field_transform interp t x (EI 1) = Ok x' /\ maxpool_forward space_eqb rep_eqb m t x' = Ok (y', t) /\ field_transform interp t y (EI 1) = Ok y'' /\
    ~ same_field (ct_size t) y' y''.
Proof.
  set (t := MkFT (space_CN 4) [c4 0]). exists t.
  assert (M : maxpool_make t (IInt 2) None (IInt 0) (IInt 1) false = Ok (MkMP t (2, 2) (2, 2) (0, 0) (1, 1) false)%nat) by reflexivity.
  eexists. exists (MkArr 3 3 corner). eexists.
  assert (PS : planar_space Z (space_CN 4) (cyc_rep 4)) by (apply PS_CN; lia).
  split; [exact PS|]. split; [reflexivity|]. split; [discriminate|]. split; [exact M|]. split.
  { intros r [<-|[]]. change (rp_size (c4 0)) with 1%nat. exists (fun i => i). split; [split; auto|]. intros i j Hi Hj. assert (i = 0%nat) as -> by lia. assert (j = 0%nat) as -> by lia. exact trep_c4_0. }
  unfold maxpool_forward. cbn [mp_in mp_k mp_s mp_p mp_d mp_ceil]. assert (TE : ft_eqb space_eqb rep_eqb t t = true) by apply type_refl_CN. rewrite TE. cbn [assert_].
  split; [reflexivity|]. intros interp.
  destruct (space_ok _ _ _ PS) as [code [el [inv SF]]]. assert (A : gangle (SpRot (GC 4)) (EI 1) = IZR 1 * (PI / 2)) by (cbn; field).
  destruct (transform_exact _ _ _ _ _ SF interp t (EI 1) 1%Z 1%Z (MkArr 3 3 corner) eq_refl ltac:(discriminate) eq_refl eq_refl A) as (x' & X1 & X2).
  match goal with |- exists _ _ _, _ /\ _ /\ field_transform interp t ?yy _ = _ /\ _ => set (y0 := yy) end.
  destruct (transform_exact _ _ _ _ _ SF interp t (EI 1) 1%Z 1%Z y0 eq_refl ltac:(discriminate) eq_refl eq_refl A) as (y'' & Y1 & Y2).
  change (ct_size t) with 1%nat in *. cbn [ft_reps t] in X2, Y2.
  assert (DX : a_h x' = 3%nat /\ a_w x' = 3%nat) by (destruct X2 as (D1 & D2 & _); split; [exact D1|exact D2]). destruct DX as [DX1 DX2].
  assert (VX : forall i j, (i < 3)%nat -> (j < 3)%nat -> a_px x' i j tt 0%nat = corner j (3 - 1 - i) tt 0%nat).
  { intros i j Hi Hj. destruct X2 as (_ & _ & V). rewrite V by lia.
    match goal with |- a_px (amap ?f _) i j tt _ = _ => change (a_px (amap f (transpose (flip_cols (MkArr 3 3 corner)))) i j tt 0%nat = corner j (3 - 1 - i) tt 0%nat) end.
    cbn [amap a_px transpose flip_cols a_w]. unfold mvec. cbn [rsum]. rewrite trep_c4_0. ring. }
  assert (VY : a_px y'' 0 0 tt 0%nat = 1).
  { destruct Y2 as (D1 & D2 & V). change (a_h y'' = 1%nat) in D1. change (a_w y'' = 1%nat) in D2. rewrite V by lia.
    match goal with |- a_px (amap ?f _) _ _ tt _ = _ => change (a_px (amap f (transpose (flip_cols y0))) 0 0 tt 0%nat = 1) end. cbn [amap a_px]. unfold mvec. cbn [rsum]. rewrite trep_c4_0. subst y0. cbn -[Rmax]. change (Pos.to_nat 1) with 1%nat. cbn -[Rmax]. unfold corner. cbn -[Rmax]. repeat rewrite (Rmax_left 1 0) by lra. ring. }
  exists x'. eexists. exists y''. split; [exact X1|]. split.
  { unfold max_pool2d. rewrite DX1, DX2. reflexivity. }
  split; [exact Y1|]. intros (_ & _ & V). specialize (V 0%nat 0%nat tt 0%nat ltac:(cbn; lia) ltac:(cbn; lia) ltac:(lia)). rewrite VY in V.
  cbn -[Rmax] in V. rewrite !VX in V by lia. unfold corner in V. cbn -[Rmax] in V. repeat rewrite (Rmax_left 0 0) in V by lra. lra.
Qed.
Print Assumptions C52_untiled_refuted.

(** ** C33 *)
Lemma pool_out_announced h k p d s : pool_legal h k p d s false = true -> Z.of_nat (Z.to_nat (pool_out h k p d s false)) = announced (Z.of_nat h) k p d s false.
Proof.
  unfold pool_legal. rewrite !andb_true_iff. intros [_ L]. apply Z.leb_le in L. rewrite Z2Nat.id by lia. unfold pool_out, announced. cbn [andb]. cbv zeta. rewrite Z.add_0_r. reflexivity.
Qed.
(** Missing for the full property: ceil_mode=True (refuted below) *)
Theorem C33_maxpool_shape_partial : forall G (t : ctype G) k s p d m B (x y : arr (B -> vec)) t' batch,
  maxpool_make t k s p d false = Ok m -> maxpool_forward space_eqb rep_eqb m t x = Ok (y, t') ->
  maxpool_shape m (batch, Z.of_nat (ct_size t), Z.of_nat (a_h x), Z.of_nat (a_w x)) = Ok (batch, Z.of_nat (ct_size t'), Z.of_nat (a_h y), Z.of_nat (a_w y)).
Proof.
  intros G t k s p d m B x y t' batch M F. unfold maxpool_make in M. apply assert_ok in M as [_ M]. injection M as <-.
  unfold maxpool_forward in F. apply assert_ok in F as [_ F]. apply rbind_ok in F as (y0 & F & E). injection E as -> <-.
  cbn [mp_in mp_k mp_s mp_p mp_d mp_ceil] in *. apply max_pool_inv in F as (L1 & L2 & ->). cbn [wpool a_h a_w]. rewrite !pool_out_announced by auto.
  unfold maxpool_shape, pool_shape. cbn [mp_in mp_k mp_s mp_p mp_d mp_ceil]. change (ft_chans t) with (ct_size t). rewrite Z.eqb_refl. cbn [assert_].
  assert (S0 : forall h k p d s, pool_legal h k p d s false = true -> (s =? 0)%nat = false).
  { intros h k0 p0 d0 s0 L. unfold pool_legal in L. rewrite !andb_true_iff in L. destruct L as [[[_ L] _] _]. apply Nat.ltb_lt in L. apply Nat.eqb_neq. lia. }
  rewrite (S0 _ _ _ _ _ L1), (S0 _ _ _ _ _ L2). reflexivity.
Qed.
Print Assumptions C33_maxpool_shape_partial.
(** ceil_mode: a window of 2 x 2 every 3 pixels on a 3 x 3 image gives a 1 x 1 result; 2 x 2 is announced *)
Theorem C33_maxpool_ceil_refuted : exists (t : ctype Z) m x y, maxpool_make t (IInt 2) (Some (IInt 3)) (IInt 0) (IInt 1) true = Ok m /\
  maxpool_forward (B := unit) space_eqb rep_eqb m t x = Ok (y, t) /\ a_h x = 3%nat /\ a_w x = 3%nat /\ a_h y = 1%nat /\ a_w y = 1%nat /\
  forall batch, maxpool_shape m (batch, Z.of_nat (ct_size t), 3%Z, 3%Z) = Ok (batch, Z.of_nat (ct_size t), 2%Z, 2%Z).
Proof.
  set (t := MkFT (space_CN 4) [c4 0]). exists t. eexists. exists (MkArr 3 3 corner). eexists. split; [reflexivity|].
  unfold maxpool_forward. cbn [mp_in]. assert (TE : ft_eqb space_eqb rep_eqb t t = true) by apply type_refl_CN. rewrite TE. cbn [assert_].
  split; [reflexivity|]. split; [reflexivity|]. split; [reflexivity|]. split; [reflexivity|]. split; [reflexivity|]. reflexivity.
Qed.
Print Assumptions C33_maxpool_ceil_refuted.
(** PointwiseAvgPool: evaluate_output_shape raises for every module, also where forward succeeds (C52_ex) *)
Theorem C33_avgpool_refuted : forall G (t : ctype G) k s p ceil m batch h w, avgpool_make t k s p ceil = Ok m ->
  avgpool_shape m (batch, Z.of_nat (ct_size t), h, w) = Err "AttributeError".
Proof. intros G t k s p ceil m batch h w M. injection M as <-. unfold avgpool_shape. cbn [ap_in]. change (ft_chans t) with (ct_size t). rewrite Z.eqb_refl. reflexivity. Qed.
Print Assumptions C33_avgpool_refuted.
Lemma dw_shape p fs s h : (0 < s)%nat -> (0 < fs)%nat -> (fs <= h + 2 * p)%nat -> Z.of_nat ((h + 2 * p - fs) / s + 1) = announced (Z.of_nat h) fs p 1 s false.
Proof.
  intros S0 F0 H. unfold announced. cbv zeta. rewrite Nat2Z.inj_add, Nat2Z.inj_div, Nat2Z.inj_sub, Nat2Z.inj_add, Nat2Z.inj_mul by auto. f_equal. f_equal. lia.
Qed.
Theorem C33_avgpool_antialiased_shape : forall G (t : ctype G) sigma s p m B (x y : arr (B -> vec)) t' batch,
  aavgpool_make t sigma s p = Ok m -> aavgpool_forward space_eqb rep_eqb m t x = Ok (y, t') ->
  aavgpool_shape m (batch, Z.of_nat (ct_size t), Z.of_nat (a_h x), Z.of_nat (a_w x)) = Ok (batch, Z.of_nat (ct_size t'), Z.of_nat (a_h y), Z.of_nat (a_w y)).
Proof.
  intros G t sigma s p m B x y t' batch M F. unfold aavgpool_make in M. apply assert_ok in M as [SG M]. destruct (Rlt_dec 0 sigma) as [SP|]; [|discriminate]. cbv zeta in M. injection M as <-.
  unfold aavgpool_forward in F. apply assert_ok in F as [_ F]. apply rbind_ok in F as (y0 & F & E). injection E as -> <-.
  cbn [aa_in aa_fs aa_sigma aa_s aa_p] in *. set (fs := Z.to_nat _) in *. assert (R0 := round_nonneg (3 * sigma) ltac:(lra)).
  assert (FP : (0 < fs)%nat) by (change fs with (Z.to_nat (2 * py_round (3 * sigma) + 1)); lia). clearbody fs.
  apply dw_inv in F as (S1 & S2 & F1 & F2 & ->). cbn [dwo pads a_h a_w]. rewrite !dw_shape by auto.
  unfold aavgpool_shape, pool_shape. cbn [aa_in aa_fs aa_s aa_p fst snd]. change (ft_chans t) with (ct_size t). rewrite Z.eqb_refl. cbn [assert_].
  destruct (Nat.eqb_spec (fst match s with Some s0 => pair_of s0 | None => (fs, fs) end) 0); [lia|]. destruct (Nat.eqb_spec (snd match s with Some s0 => pair_of s0 | None => (fs, fs) end) 0); [lia|].
  reflexivity.
Qed.
Print Assumptions C33_avgpool_antialiased_shape.
(** PointwiseMaxPoolAntialiased.  Missing for the full property: padding (refuted below) and ceil_mode *)
Theorem C33_maxpool_antialiased_shape_partial : forall G (t : ctype G) k s sigma m B (x y : arr (B -> vec)) t' batch,
  amaxpool_make t k s (IInt 0) (IInt 1) false sigma = Ok m -> amaxpool_forward space_eqb rep_eqb m t x = Ok (y, t') ->
  amaxpool_shape m (batch, Z.of_nat (ct_size t), Z.of_nat (a_h x), Z.of_nat (a_w x)) = Ok (batch, Z.of_nat (ct_size t'), Z.of_nat (a_h y), Z.of_nat (a_w y)).
Proof.
  intros G t k s sigma m B x y t' batch M F.
  unfold amaxpool_make in M. apply rbind_ok in M as (m0 & M0 & M). unfold maxpool_make in M0. apply assert_ok in M0 as [_ M0]. injection M0 as <-.
  apply assert_ok in M as [SG M]. destruct (Rlt_dec 0 sigma) as [SP|]; [|discriminate]. injection M as <-.
  unfold amaxpool_forward, am_pad in F. cbn [am_base am_fs am_sigma mp_in mp_k mp_s mp_p mp_d mp_ceil pair_of fst snd] in F.
  set (fs := Z.to_nat _) in *. assert (R0 := round_nonneg (4 * sigma) ltac:(lra)).
  assert (FS : exists h, (fs = 2 * h + 1)%nat). { exists (Z.to_nat (py_round (4 * sigma))). change fs with (Z.to_nat (2 * py_round (4 * sigma) + 1)). lia. }
  clearbody fs. destruct FS as [hf FS]. assert (HF : ((fs - 1) / 2 = hf)%nat). { rewrite FS. replace (2 * hf + 1 - 1)%nat with (hf * 2)%nat by lia. apply Nat.div_mul. lia. } rewrite HF in F.
  set (st := match s with Some s0 => pair_of s0 | None => pair_of k end) in *. set (kk := pair_of k) in *. clearbody st kk. destruct st as [s1 s2], kk as [k1 k2]. cbn [fst snd] in *.
  apply assert_ok in F as [_ F]. apply rbind_ok in F as (z & F1 & F). apply rbind_ok in F as (y0 & F2 & E). injection E as -> <-.
  apply max_pool_inv in F1 as (L1 & L2 & ->). cbn [fst snd] in L1, L2. apply dw_inv in F2 as (S1 & S2 & D1 & D2 & ->). cbn [wpool a_h a_w fst snd] in *. cbn [dwo pads wpool a_h a_w fst snd].
  unfold amaxpool_shape, maxpool_shape, pool_shape. cbn [am_base mp_in mp_k mp_s mp_p mp_d mp_ceil fst snd]. change (ft_chans t) with (ct_size t). rewrite Z.eqb_refl. cbn [assert_].
  destruct (Nat.eqb_spec s1 0); [lia|]. destruct (Nat.eqb_spec s2 0); [lia|]. cbn [orb].
  assert (W : forall h k s, (0 < s)%nat -> pool_legal h k 0 1 1 false = true -> announced (Z.of_nat h) k 0 1 s false = Z.of_nat ((Z.to_nat (pool_out h k 0 1 1 false) + 2 * (0 + hf) - fs) / s + 1)).
  { intros h k0 s0 S0 L. unfold pool_legal in L. rewrite !andb_true_iff in L. destruct L as [[[[[L1' L2'] _] _] _] L]. apply Nat.ltb_lt in L1', L2'. apply Z.leb_le in L.
    unfold pool_out in *. cbn [andb] in *. cbv zeta in *. change (Z.of_nat 1) with 1%Z in *. change (Z.of_nat 0) with 0%Z in *. rewrite Z.div_1_r in *. unfold announced. cbv zeta.
    change (Z.of_nat 1) with 1%Z. change (Z.of_nat 0) with 0%Z.
    rewrite Nat2Z.inj_add, Nat2Z.inj_div. f_equal. f_equal. lia. }
  rewrite (W _ _ _ S1 L1), (W _ _ _ S2 L2). reflexivity.
Qed.
Print Assumptions C33_maxpool_antialiased_shape_partial.
(** padding 1: a 5 x 7 image gives a 4 x 5 result (C52_antialiased_ex); 3 x 4 is announced *)
Theorem C33_maxpool_antialiased_refuted : exists (t : ctype Z) m x y, amaxpool_make t (IInt 3) (Some (IInt 2)) (IInt 1) (IInt 1) false 1 = Ok m /\
  amaxpool_forward (B := unit) space_eqb rep_eqb m t x = Ok (y, t) /\ a_h x = 5%nat /\ a_w x = 7%nat /\ a_h y = 4%nat /\ a_w y = 5%nat /\
  forall batch, amaxpool_shape m (batch, Z.of_nat (ct_size t), 5%Z, 7%Z) = Ok (batch, Z.of_nat (ct_size t), 3%Z, 4%Z).
Proof.
  set (t := MkFT (space_CN 4) [c4 0]). exists t. eexists. exists (MkArr 5 7 corner). eexists. unfold amaxpool_make. rewrite round_4. destruct (Rlt_dec 0 1); [|lra]. split; [reflexivity|].
  unfold amaxpool_forward. cbn [am_base mp_in]. assert (TE : ft_eqb space_eqb rep_eqb t t = true) by apply type_refl_CN. rewrite TE. cbn [assert_].
  split; [reflexivity|]. split; [reflexivity|]. split; [reflexivity|]. split; [reflexivity|]. split; [reflexivity|]. reflexivity.
Qed.
Print Assumptions C33_maxpool_antialiased_refuted.
(** adaptive pooling: the announced shape is never a shape, its third and fourth entries are pairs *)
Theorem C33_adaptive_refuted : forall G mx (t : ctype G) o m batch h w, adpool_make mx t o = Ok m ->
  exists a b, adpool_shape m (batch, Z.of_nat (ct_size t), h, w) = Ok (batch, Z.of_nat (ct_size t), DPair a b, DPair a b).
Proof.
  intros G mx t o m batch h w M. unfold adpool_make in M. apply assert_ok in M as [_ M]. injection M as <-. unfold adpool_shape. cbn [ad_in ad_o].
  change (ft_chans t) with (ct_size t). rewrite Z.eqb_refl. cbn [assert_]. cbv zeta. eexists. eexists. reflexivity.
Qed.
Print Assumptions C33_adaptive_refuted.

(** ** C48 *)
(** Missing for the full property: ceil_mode=True (refuted below) *)
Theorem C48_maxpool_export_partial : forall G (t : ctype G) k s p d m c, maxpool_make t k s p d false = Ok m -> maxpool_export m = Ok c ->
  forall B (x : arr (B -> vec)), ft_eqb space_eqb rep_eqb t t = true -> maxpool_forward space_eqb rep_eqb m t x = rbind (tmod_forward c x) (fun y => Ok (y, t)).
Proof.
  intros G t k s p d m c M E B x TE. unfold maxpool_make in M. apply assert_ok in M as [_ M]. injection M as <-. injection E as <-. unfold maxpool_forward. cbn [mp_in]. rewrite TE. reflexivity.
Qed.
Print Assumptions C48_maxpool_export_partial.
(** ceil_mode is lost: a window of 2 x 2 every 2 pixels on a 3 x 3 image gives 2 x 2 pixels, and 1 x 1 after export *)
Theorem C48_maxpool_ceil_refuted : exists (t : ctype Z) m c x y y', maxpool_make t (IInt 2) None (IInt 0) (IInt 1) true = Ok m /\ maxpool_export m = Ok c /\
  maxpool_forward (B := unit) space_eqb rep_eqb m t x = Ok (y, t) /\ tmod_forward c x = Ok y' /\ a_h y = 2%nat /\ a_h y' = 1%nat.
Proof.
  set (t := MkFT (space_CN 4) [c4 0]). exists t. eexists. eexists. exists (MkArr 3 3 corner). eexists. eexists. split; [reflexivity|]. split; [reflexivity|].
  unfold maxpool_forward. cbn [mp_in]. assert (TE : ft_eqb space_eqb rep_eqb t t = true) by apply type_refl_CN. rewrite TE. cbn [assert_].
  split; [reflexivity|]. split; [reflexivity|]. split; reflexivity.
Qed.
Print Assumptions C48_maxpool_ceil_refuted.
Theorem C48_maxpool_antialiased_export : forall G (t : ctype G) k s p d ceil sigma m c, amaxpool_make t k s p d ceil sigma = Ok m -> amaxpool_export m = Ok c ->
  forall B (x : arr (B -> vec)), ft_eqb space_eqb rep_eqb t t = true -> amaxpool_forward space_eqb rep_eqb m t x = rbind (tmod_forward c x) (fun y => Ok (y, t)).
Proof.
  intros G t k s p d ceil sigma m c M E B x TE. unfold amaxpool_make in M. destruct d as [[|[|n]]|]; try discriminate.
  apply rbind_ok in M as (m0 & M0 & M). unfold maxpool_make in M0. apply assert_ok in M0 as [_ M0]. injection M0 as <-.
  apply assert_ok in M as [SG M]. injection M as <-. injection E as <-. unfold amaxpool_forward. cbn [am_base mp_in]. rewrite TE. cbn [assert_ tmod_forward fold_left rbind].
  cbn [am_base am_fs am_sigma mp_in mp_k mp_s mp_p mp_d mp_ceil]. destruct (max_pool2d _ _ _ _ _ x); reflexivity.
Qed.
Print Assumptions C48_maxpool_antialiased_export.
Theorem C48_adaptive_export : forall G mx (t : ctype G) o m c, adpool_make mx t o = Ok m -> adpool_export m = Ok c ->
  forall B (x : arr (B -> vec)), ft_eqb space_eqb rep_eqb t t = true -> adpool_forward space_eqb rep_eqb m t x = rbind (tmod_forward c x) (fun y => Ok (y, t)).
Proof.
  intros G mx t o m c M E B x TE. unfold adpool_make in M. apply assert_ok in M as [_ M]. injection M as <-. injection E as <-. unfold adpool_forward. cbn [ad_in]. rewrite TE. reflexivity.
Qed.
Print Assumptions C48_adaptive_export.
