(** C33 for every module and for networks. *)
From Coq Require Import Reals ZArith String List Bool Lia Lra.
From Verif Require Import Base LinAlg Spec Spec_Fields Model_Groups Model_Rep Model_FieldType Proofs_FieldType Model_GSpace Spec_GSpace Model_Tensor Model_Utils Model_Modules Spec_Modules Proofs_Modules Prop_Modules
  Model_Conv Spec_Conv Proofs_Conv5 Proofs_Conv8 Prop_Conv Prop_Conv2 Model_R2Diffop Model_ConvT Model_Fieldwise Spec_Fieldwise Proofs_Fieldwise2 Model_BatchNorm Model_IGated
  Model_Pool Spec_Pool Prop_Pool2 Model_Upsample Model_NormMax Model_Mask Model_Disentangle Model_Dropout Model_Expansion Model_Net Spec_Net Proofs_Net6
  Model_Export Spec_Export Proofs_Export Prop_Export Model_Shape Spec_Shape Proofs_Shape.
Import ListNotations.
Open Scope R_scope.

(** One module: the shape it announces for the shape of its input is the shape of its output.  Missing for the full property: the
    modules and arguments that Spec_Shape.announces excludes, for which it is false. *)
Theorem C33_module_shape_partial : forall G B (bt : batch B) argmax junk junkn cob_id (l : xlayer G) batch x y,
  announces l -> xlayer_forward argmax junk junkn cob_id bt l x = Ok y -> xlayer_shape l (shape_of batch x) = Ok (shape_of batch y).
Proof. intros G B bt argmax junk junkn cob_id l batch [x t] [y t'] A F. exact (announces_tells argmax junk junkn cob_id bt l A batch x t y t' F). Qed.
Print Assumptions C33_module_shape_partial.

Lemma seq_facts {T X} (eqb : T -> T -> bool) (ty : X -> T) attr (mods : list (emodule T X)) s x y : (forall n, attr (py_str n) = false) ->
  seq_make eqb attr mods = Ok s -> seq_forward eqb ty s x = Ok y -> exists m0 l, mods = m0 :: l /\ eqb (ty x) (em_in m0) = true /\ run_all mods x = Ok y.
Proof.
  intros AT MK F. destruct (C39_construction _ _ eqb attr mods AT) as [K1 K2].
  destruct (chained_dec (fun a b : emodule T X => eqb (em_in b) (em_out a)) mods) as [C|C]; [|rewrite (K2 C) in MK; discriminate].
  destruct (K1 C) as (s' & S1 & S2 & S3 & S4 & _). rewrite MK in S1. injection S1 as <-. unfold seq_forward in F. rewrite S2, S3 in F. apply assert_ok in F as [F1 F].
  apply rbind_ok in F as (z & F2 & F). apply assert_ok in F as [_ F]. injection F as <-. destruct mods as [|m0 l]; [discriminate|]. exists m0, l. auto.
Qed.
(** A SequentialModule of any number of such modules. *)
Theorem C33_network_shape_partial : forall G B (bt : batch B) argmax junk junkn cob_id attr (ls : list (xlayer G)) s batch x y,
  (forall n, attr (py_str n) = false) -> Forall announces ls ->
  seq_make (ft_eqb space_eqb rep_eqb) attr (map (xlayer_module argmax junk junkn cob_id bt) ls) = Ok s ->
  seq_forward (ft_eqb space_eqb rep_eqb) snd s x = Ok y ->
  net_shape ls (shape_of batch x) = Ok (shape_of batch y).
Proof.
  intros G B bt argmax junk junkn cob_id attr ls s batch [x t] [y t'] AT A MK F. destruct (seq_facts _ _ _ _ _ _ _ AT MK F) as (m0 & l & E & TE & R).
  destruct ls as [|l0 ls]; [discriminate|]. injection E as <- <-. cbn [snd xlayer_module em_in] in TE. unfold net_shape. unfold shape_of at 1. cbn [fst snd].
  rewrite (teqb_size _ _ TE), Z.eqb_refl. cbn [assert_]. exact (run_tells argmax junk junkn cob_id bt _ A batch x t y t' R).
Qed.
Print Assumptions C33_network_shape_partial.

(** the same for the modules that are not among these: GatedNonLinearity2, InducedGatedNonLinearity1, ReshuffleModule; tensors are lists of
    channels here *)
Notation sized x := (length (gt_data x) = ft_size rp_size (gt_type x)).
Theorem C33_gated2_shape : forall G X junk (m : gated2 (GS := space G) (G := G)) (gates x y : gtensor (space G) (rep G) (X -> R)) batch h w, sized gates -> sized x ->
  gated2_forward space_eqb rep_eqb junk m gates x = Ok y ->
  gated2_shape m (batch, Z.of_nat (length (gt_data gates)), h, w) (batch, Z.of_nat (length (gt_data x)), h, w) = Ok (batch, Z.of_nat (length (gt_data y)), h, w).
Proof.
  intros G X junk m gates x y batch h w S1 S2 F. unfold gated2_forward in F. apply assert_ok in F as [T1 F]. apply assert_ok in F as [T2 F]. apply rbind_ok in F as (g & _ & F). apply rbind_ok in F as (d & _ & F).
  apply mk_gt_ok in F as [-> L]. cbn [gt_data]. unfold gated2_shape. rewrite S1, S2, L. change (ft_size rp_size) with (@ct_size G). rewrite (teqb_size _ _ T1), (teqb_size _ _ T2), !Z.eqb_refl. cbn [assert_].
  assert (D : forall a, dim_eqb a a = true) by (intros [a|a b]; cbn; rewrite !Z.eqb_refl; reflexivity). rewrite !D. reflexivity.
Qed.
Print Assumptions C33_gated2_shape.
Theorem C33_induced_gated_shape : forall G X junk (m : igated1 (GS := space G) (G := G)) (x y : gtensor (space G) (rep G) (X -> R)) batch h w, sized x ->
  igated1_forward space_eqb rep_eqb junk m x = Ok y -> igated1_shape m (batch, Z.of_nat (length (gt_data x)), h, w) = Ok (batch, Z.of_nat (length (gt_data y)), h, w).
Proof.
  intros G X junk m x y batch h w S1 F. unfold igated1_forward in F. apply assert_ok in F as [T1 F].
  do 6 apply rbind_ok in F as (? & _ & F). apply mk_gt_ok in F as [-> L]. cbn [gt_data]. unfold igated1_shape, new_channels. rewrite S1, L. change (ft_size rp_size (gt_type x)) with (ct_size (gt_type x)).
  rewrite (teqb_size _ _ T1). change (ct_size (ig_in m)) with (ft_size rp_size (ig_in m)). rewrite Z.eqb_refl. reflexivity.
Qed.
Print Assumptions C33_induced_gated_shape.
Theorem C33_reshuffle_shape : forall G A (m : reshuffle (GS := space G) (Rp := rep G)) (x y : gtensor (space G) (rep G) A) batch h w, sized x ->
  reshuffle_forward rp_size space_eqb rep_eqb m x = Ok y -> reshuffle_shape rp_size m (batch, Z.of_nat (length (gt_data x)), h, w) = Ok (batch, Z.of_nat (length (gt_data y)), h, w).
Proof.
  intros G A m x y batch h w S1 F. unfold reshuffle_forward in F. apply assert_ok in F as [T1 F].
  apply rbind_ok in F as (? & _ & F). apply mk_gt_ok in F as [-> L]. cbn [gt_data]. unfold reshuffle_shape, new_channels. rewrite S1, L. change (ft_size rp_size (gt_type x)) with (ct_size (gt_type x)).
  rewrite (teqb_size _ _ T1). change (ct_size (rs_in m)) with (ft_size rp_size (rs_in m)). rewrite Z.eqb_refl. reflexivity.
Qed.
Print Assumptions C33_reshuffle_shape.

(** MergeModule: if every submodule announces the shape of what it returns for the given inputs, and these have one height and width,
    MergeModule announces the shape of the tensor it returns. *)
Theorem C33_merge_shape : forall (GS Rp A : Type) (sz : Rp -> nat) fits gs_eqb (modules : list (submodule (GS := GS) (Rp := Rp) A * label_arg)) m labelled
    (tells : list (list shape4 -> result shape4)) (shape : gtensor GS Rp A -> shape4) x y batch h w,
  merge_make fits gs_eqb modules = (Ok m, labelled) -> length tells = length modules ->
  (forall i p f args z, nth_error modules i = Some p -> nth_error tells i = Some f -> rmap (dget x) (label_list (snd p)) = Ok args -> @sm_fwd GS Rp A (fst p) args = Ok z ->
     f (map shape args) = Ok (batch, Z.of_nat (length (gt_data z)), h, w)) ->
  merge_forward sz m x = Ok y ->
  merge_shape (combine tells (map (fun p => label_list (snd p)) modules)) (map (fun p => (fst p, shape (snd p))) x) = Ok (batch, Z.of_nat (length (gt_data y)), h, w).
Proof.
  intros GS Rp A sz fits gs_eqb modules m labelled tells shape x y batch h w MK LT H F. unfold merge_make in MK.
  assert (NE : modules <> []) by (intros ->; discriminate). assert (EM : mg_mods A m = map (fun p => (fst p, label_list (snd p))) modules).
  { injection MK as MK _. destruct modules as [|[m0 a0] mods]; [discriminate|]. destruct (sm_in A m0); [|discriminate]. apply assert_ok in MK as [_ MK]. apply rbind_ok in MK as (t0 & _ & MK). injection MK as <-. reflexivity. }
  unfold merge_forward in F. rewrite EM in F. apply rbind_ok in F as (ys & F & F2). apply mk_gt_ok in F2 as [-> _]. cbn [gt_data].
  assert (DG : forall ls args, rmap (dget x) ls = Ok args -> rmap (dget (map (fun p => (fst p, shape (snd p))) x)) ls = Ok (map shape args)).
  { assert (D1 : forall l a, dget x l = Ok a -> dget (map (fun p => (fst p, shape (snd p))) x) l = Ok (shape a)).
    { clear. intros l a. unfold dget. induction x as [|[k v] x' IH]; cbn [map kget fst snd]; [discriminate|]. destruct (String.eqb k l); [intros E; injection E as <-; reflexivity|exact IH]. }
    induction ls as [|l ls IH]; intros args E; cbn [rmap] in *; [injection E as <-; reflexivity|].
    apply rbind_ok in E as (a & E1 & E). apply rbind_ok in E as (r & E2 & E). injection E as <-. rewrite (D1 _ _ E1). cbn [rbind]. rewrite (IH _ E2). reflexivity. }
  unfold merge_shape.
  assert (R : rmap (fun p => rbind (rmap (dget (map (fun p => (fst p, shape (snd p))) x)) (snd p)) (fst p)) (combine tells (map (fun p => label_list (snd p)) modules)) =
              Ok (map (fun z => (batch, Z.of_nat (length (gt_data z)), h, w)) ys) /\ length ys = length modules).
  { clear MK NE EM. revert tells LT H ys F. induction modules as [|p modules IH]; intros tells LT H ys F; cbn [map rmap combine] in *.
    - injection F as <-. destruct tells; [|discriminate]. auto.
    - destruct tells as [|f tells]; [discriminate|]. apply rbind_ok in F as (z & F1 & F). apply rbind_ok in F as (zs & F2 & F). injection F as <-. cbn [fst snd] in F1.
      apply rbind_ok in F1 as (args & A1 & A2). cbn [combine rmap fst snd]. rewrite (DG _ _ A1). cbn [rbind]. rewrite (H 0%nat p f args z eq_refl eq_refl A1 A2). cbn [rbind].
      destruct (IH tells ltac:(cbn in LT; lia)) with (ys := zs) as [I1 I2]; [intros i; exact (H (S i))|exact F2|]. rewrite I1. cbn [rbind map length]. auto. }
  destruct R as [R1 R2]. rewrite R1. cbn [rbind]. destruct ys as [|z0 zs]; [destruct modules; [congruence|discriminate]|]. cbn [map concat]. rewrite app_length. clear.
  assert (D : forall a, dim_eqb a a = true) by (intros [a|a b]; cbn; rewrite !Z.eqb_refl; reflexivity).
  assert (Q : forall zs c, add_shapes (batch, c, h, w) (map (fun z : gtensor GS Rp A => (batch, Z.of_nat (length (gt_data z)), h, w)) zs) = Ok (batch, (c + Z.of_nat (length (concat (map gt_data zs))))%Z, h, w)).
  { induction zs0 as [|z zs0 IH]; intros c; cbn [map add_shapes concat]; [cbn [length]; rewrite Z.add_0_r; reflexivity|]. rewrite Z.eqb_refl, !D. cbn [assert_ andb]. rewrite IH, app_length. do 3 f_equal. f_equal. lia. }
  rewrite Q. do 3 f_equal. f_equal. lia.
Qed.
Print Assumptions C33_merge_shape.

(** A network with a PointwiseAvgPool, or with an arithmetic module after adaptive pooling, announces nothing: evaluate_output_shape raises. *)
Theorem C33_network_avgpool_refuted : forall G (ls : list (xlayer G)) m shape, In (MOther (LAvgPool m)) ls -> exists er, net_shape ls shape = Err er.
Proof.
  intros G ls m shape H. assert (A : forall s, exists er, shape_all ls s = Err er).
  { induction ls as [|l ls IH]; [destruct H|]. intros s. cbn [shape_all]. destruct H as [->|H].
    - cbn [xlayer_shape layer_shape]. destruct s as [[[b c] hh] w]. unfold with_ints. destruct (c =? Z.of_nat (ct_size (ap_in m)))%Z eqn:E; cbn [assert_]; [|eexists; reflexivity].
      destruct hh, w; try (eexists; reflexivity). unfold avgpool_shape. change (ft_chans (ap_in m)) with (ct_size (ap_in m)). rewrite E. eexists. reflexivity.
    - destruct (xlayer_shape l s); cbn [rbind]; [apply IH; auto|eexists; reflexivity]. }
  destruct ls as [|l ls]; [destruct H|]. unfold net_shape. destruct shape as [[[b c] hh] w]. destruct (c =? _)%Z; cbn [assert_]; [apply A|eexists; reflexivity].
Qed.
Print Assumptions C33_network_avgpool_refuted.

(** not vacuous: R2Conv, IdentityModule, R2Upsampling on a 3 x 4 image; 6 x 8 is announced *)
Example C33_network_ex : exists m st (a : upsampling (GS := space Z) (G := Z)) s y,
  let ls := [MOther (LConv m st); MIdentity c4_type; MOther (LUpsampling a)] in
  let bt := MkBatch 1 (fun _ : unit => 0%nat) (fun _ => tt) in
  let x := MkArr 3 4 (fun i j (_ : unit) c => INR (i + j + c)) in
  Forall announces ls /\
  seq_make (ft_eqb space_eqb rep_eqb) (fun _ => false) (map (xlayer_module (fun _ => 0%nat) (fun _ _ => 0) (fun _ _ => 0) (fun _ => false) bt) ls) = Ok s /\
  seq_forward (ft_eqb space_eqb rep_eqb) snd s (x, c4_type) = Ok y /\ net_shape ls (shape_of 1 (x, c4_type)) = Ok (1%Z, Z.of_nat (ct_size c4_type), DInt 6, DInt 8).
Proof.
  destruct C28_ex as [m [CA M]]. exists m.
  destruct (C28_R2Conv _ _ _ _ _ _ _ _ _ _ _ _ _ _ _ _ _ _ CA (Nat.lt_0_succ 0) M) as [params [_ [D L]]]. destruct L as [first [_ [_ [_ [_ L]]]]].
  set (w := repeat 1 (be_dimension kid_eqb (cv_exp m))). destruct (L D w) as [f [Hf _]]; [apply repeat_length|].
  destruct (make_made _ _ _ _ 1 _ _ _ _ _ _ _ _ _ _ _ M eq_refl) as (ir & keep & rgs & sig & maxf & _ & MD & EM).
  assert (TE : ft_eqb space_eqb rep_eqb c4_type c4_type = true) by apply type_refl_CN.
  set (x := MkArr 3 4 (fun i j (_ : unit) c => INR (i + j + c))).
  destruct (C48_R2Conv_export_exists _ m w [2] (1, 7)%Z (f, match cv_bias m with Some cols => Some (expand_bias cols [2]) | None => None end)) as (c & st' & EX).
  { unfold expand_parameters. rewrite Hf. cbn [rbind]. destruct (cv_bias m); reflexivity. }
  { right. cbn. lia. }
  set (bt := MkBatch 1 (fun _ : unit => 0%nat) (fun _ => tt)). set (ad := MkUp c4_type None (Some 2%nat) "nearest" None : upsampling (GS := space Z) (G := Z)).
  set (ls := [MOther (LConv m (conv_history m (initial_state m w [2]) [])); MIdentity c4_type; MOther (LUpsampling ad)]).
  assert (NB : numbered bt). { split; [intros []; split; [cbn; lia|reflexivity]|]. intros k Hk. cbn in *. lia. }
  assert (FE : Forall exportable ls).
  { constructor; [apply ex_conv|]. constructor; [apply ex_identity|]. constructor; [|constructor]. apply (ex_upsampling c4_type (Some 2%nat) "nearest" false). reflexivity. }
  set (nets := [XConv c; XIdentity; XUpsample (MkTUp None (Some 2%nat) "nearest" None)]).
  assert (NE : net_export (1, 7)%Z ls = Ok (nets, [MOther (LConv m st'); MIdentity c4_type; MOther (LUpsampling ad)])).
  { unfold net_export, ls. cbn [rmap xlayer_export conv_history fold_left]. rewrite EX. reflexivity. }
  assert (AT : forall n : nat, (fun _ : string => false) (py_str n) = false) by reflexivity.
  set (mods := map (xlayer_module (fun _ => 0%nat) (fun _ _ => 0) (fun _ _ => 0) (fun _ => false) bt) [MOther (LConv m st'); MIdentity c4_type; MOther (LUpsampling ad)]).
  destruct (C39_construction _ _ (ft_eqb space_eqb rep_eqb) (fun _ => false) mods AT) as [K _].
  destruct K as (s & S1 & S2 & S3 & S4 & _).
  { intros i p q Hp Hq. destruct i as [|[|[|i]]]; cbn in Hp, Hq; try discriminate; injection Hp as <-; injection Hq as <-; cbn [em_in em_out xlayer_module xlayer_in xlayer_out layer_in layer_out up_in]; try exact TE.
    rewrite (md_out MD). exact TE. }
  assert (SI : sq_in s = Some c4_type). { rewrite S3. unfold mods. cbn [map xlayer_module em_in xlayer_in layer_in]. rewrite (md_in MD). reflexivity. }
  assert (TF : exists z, tnet_forward bt nets (ct_size c4_type, x) = Ok (ct_size c4_type, z) /\ a_h z = 6%nat /\ a_w z = 8%nat).
  { unfold conv_export in EX. apply rbind_ok in EX as (s1 & X1 & EX). apply rbind_ok in EX as (f1 & X2 & EX). apply rbind_ok in EX as (b1 & X3 & EX).
    destruct (match cv_mode m with MZeros => false | _ => _ end); [discriminate|]. injection EX as <- <-.
    unfold nets. cbn [tnet_forward tlayer_forward fst snd c2_in c2_out]. rewrite (md_in MD), (md_out MD). rewrite Nat.eqb_refl.
    unfold conv2d_forward. cbn [c2_in c2_out c2_k c2_pad c2_mode c2_stride c2_dil c2_groups c2_weight c2_bias].
    rewrite (md_pad MD), (md_k MD), (md_stride MD), (md_dil MD), (md_grp MD). cbn in EM. injection EM as EM. rewrite <- EM. eexists. split; [reflexivity|]. split; reflexivity. }
  destruct TF as (z & TF & HZ & WZ).
  destruct (C48_network_partial _ _ bt _ _ _ _ _ (1, 7)%Z _ _ _ s NB AT FE NE S1) as [_ T]. specialize (T c4_type c4_type x SI TE).
  destruct (outcome_ok _ _ _ _ T TF) as (y & u & SF).
  exists st', ad, s, (y, u). cbn zeta. fold x. fold bt.
  assert (FA : Forall announces [MOther (LConv m st'); MIdentity c4_type; MOther (LUpsampling ad)]).
  { constructor; [eapply an_conv; exact M|]. constructor; [apply an_identity|]. constructor; [|constructor]. apply (an_upsampling c4_type (Some 2%nat) None "nearest" false). reflexivity. }
  assert (SF' : seq_forward (ft_eqb space_eqb rep_eqb) snd s (x, c4_type) = Ok (y, u)) by exact SF.
  split; [exact FA|]. split; [exact S1|]. split; [exact SF'|].
  rewrite (C33_network_shape_partial _ _ _ _ _ _ _ _ _ _ 1%Z _ _ AT FA S1 SF').
  assert (T2 : same_outcome (Ok (y, u) : result (arr (unit -> vec) * ctype Z)) (Ok (ct_size c4_type, z))).
  { rewrite <- TF. refine (eq_ind _ (fun r => same_outcome r _) T _ SF). }
  destruct T2 as (E1 & E2 & E3 & _). unfold shape_of. cbn [fst snd]. rewrite <- E1, E2, E3, HZ, WZ. reflexivity.
Qed.
