(** C56: equivariance of whole networks. *)
From Coq Require Import Reals ZArith String List Bool Lia Lra.
From Verif Require Import Base LinAlg Spec Spec_Fields Model_Groups Model_Rep Proofs_Rep Proofs_Restrict Model_FieldType Proofs_FieldType Model_GSpace Spec_GSpace Proofs_GSpace Model_Tensor Model_Utils Model_Modules Spec_Modules
  Prop_Modules Model_Conv Spec_Conv Proofs_Conv Proofs_Conv2 Proofs_Conv3 Proofs_Conv4 Proofs_Conv5 Proofs_Conv6 Proofs_Conv8 Proofs_Tensor Prop_Conv Model_ConvT Model_Fieldwise Spec_Fieldwise Spec_Fieldwise2 Prop_Fieldwise3 Model_BatchNorm Spec_BatchNorm
  Model_Pool Spec_Pool Model_NormMax Model_Support Spec_Support Prop_Support Model_Expansion Prop_Pool Prop_Pool2 Model_Net Spec_Net Proofs_Net Proofs_Net2 Proofs_Net3 Proofs_Net4 Proofs_Net6 Proofs_Irreps Proofs_Support.
Import ListNotations.
Open Scope R_scope.

Lemma network_rel : forall G (sp : space G) isrep B (bt : batch B) e g argmax cob_id fits attr (ls : list (layer G)) (interp : forall A : Type, R -> R -> arr A -> arr A) junk junkn s tin (x y : arr (B -> vec)) (tout : ctype G),
  planar_space G sp isrep -> fg_is_element (sp_group (sp_obj sp)) e = true -> sp_prj sp e = Some g -> grid_exact (sp_obj sp) e ->
  argmax_ok argmax -> numbered bt -> (forall n, attr (py_str n) = false) ->
  Forall (good_layer sp isrep e g cob_id fits) ls -> ok_type sp isrep g tin ->
  seq_make (ft_eqb space_eqb rep_eqb) attr (map (layer_module argmax junk junkn cob_id bt) ls) = Ok s ->
  seq_forward (ft_eqb space_eqb rep_eqb) snd s (x, tin) = Ok (y, tout) ->
  suits_all argmax cob_id bt junk junkn ls (x, tin) ->
  ok_type sp isrep g tout /\ exists kk,
    (forall t x, ft_gs t = sp -> ft_reps t <> [] -> exists x', field_transform (B := B) interp t x e = Ok x' /\ rel sp e g kk t x x') /\
    forall junk' junkn', exists s' x' y',
    seq_make (ft_eqb space_eqb rep_eqb) attr (map (layer_module argmax junk' junkn' cob_id bt) ls) = Ok s' /\
    field_transform interp tin x e = Ok x' /\
    seq_forward (ft_eqb space_eqb rep_eqb) snd s' (x', tin) = Ok (y', tout) /\ rel sp e g kk tout y y'.
Proof.
  intros G sp isrep B bt e g argmax cob_id fits attr ls interp junk junkn s tin x y tout PS He Hg GE AM NB AT GL OT MK F SU.
  destruct (space_ok _ _ _ PS) as [code [el [inv SF]]]. destruct (exact_angle _ _ (sf_constructed _ _ _ _ _ SF) He GE) as (kk & Hk & Ek).
  destruct (C39_construction _ _ (ft_eqb space_eqb rep_eqb) attr (map (layer_module argmax junk junkn cob_id bt) ls) AT) as [K1 K2].
  set (adj := fun a b : emodule (ctype G) (arr (B -> vec) * ctype G) => ft_eqb space_eqb rep_eqb (em_in b) (em_out a) = true).
  assert (CH : chained adj (map (layer_module argmax junk junkn cob_id bt) ls)).
  { destruct (Classical_Prop.classic (chained adj (map (layer_module argmax junk junkn cob_id bt) ls))) as [C|C]; [exact C|]. rewrite (K2 C) in MK. discriminate. }
  destruct (K1 CH) as (s0 & E0 & C1 & C2 & C3 & _). rewrite MK in E0. injection E0 as <-.
  unfold seq_forward in F. apply assert_ok in F as [F1 F]. apply rbind_ok in F as ([y1 t1] & R1 & F). apply assert_ok in F as [F2 F]. injection F as -> ->.
  apply (eq_trans (f_equal (fun l => run_all l (x, tin)) (eq_sym C1))) in R1. pose proof OT as (T1 & T2 & T3).
  destruct (rel_transform sp isrep PS e g kk He Hg Hk interp tin x T1 T2) as (x' & X1 & X2).
  split; [exact (proj1 (run_step sp isrep PS e g kk argmax cob_id bt fits He GE Hg Hk Ek AM NB junk junk junkn junkn ls GL tin x x' y tout OT X2 R1 SU))|].
  exists kk. split; [intros t z A1 A2; exact (rel_transform sp isrep PS e g kk He Hg Hk interp t z A1 A2)|]. intros junk' junkn'.
  destruct (C39_construction _ _ (ft_eqb space_eqb rep_eqb) attr (map (layer_module argmax junk' junkn' cob_id bt) ls) AT) as [K1' _].
  destruct K1' as (s' & E' & D1 & D2 & D3 & _).
  { intros i a b Ha Hb. rewrite nth_error_map in Ha, Hb. specialize (CH i). rewrite !nth_error_map in CH. destruct (nth_error ls i) as [la|], (nth_error ls (S i)) as [lb|]; try discriminate.
    injection Ha as <-. injection Hb as <-. exact (CH _ _ eq_refl eq_refl). }
  assert (I : sq_in s' = sq_in s) by (rewrite C2, D2; destruct ls; reflexivity).
  assert (O : sq_out s' = sq_out s) by (rewrite C3, D3, <- !map_rev; destruct (rev ls); reflexivity).
  destruct (run_step sp isrep PS e g kk argmax cob_id bt fits He GE Hg Hk Ek AM NB junk junk' junkn junkn' ls GL tin x x' y tout OT X2 R1 SU) as (_ & y' & Y1 & Y2).
  exists s', x', y'. split; [exact E'|]. split; [exact X1|]. split; [|exact Y2].
  apply (eq_trans (f_equal (fun l => run_all l (x', tin)) D1)) in Y1. unfold seq_forward. unfold ctype in *. rewrite I, O. cbn [snd] in *. rewrite F1. cbn [assert_].
  refine (eq_trans (f_equal (fun r => rbind r _) Y1) _). cbn [rbind snd]. rewrite F2. reflexivity.
Qed.

(** A SequentialModule of equivariant layers (any number of them, of all the kinds of Spec_Net) maps the transformed input to the transformed
    output, for every element of the group that maps the pixel grid to itself.  The two runs may find different contents in uninitialised memory. *)
Theorem C56_network : forall G (sp : space G) isrep B (bt : batch B) e g argmax cob_id fits attr (ls : list (layer G)) (interp : forall A : Type, R -> R -> arr A -> arr A) junk junkn s tin (x y : arr (B -> vec)) (tout : ctype G),
  planar_space G sp isrep -> fg_is_element (sp_group (sp_obj sp)) e = true -> sp_prj sp e = Some g -> grid_exact (sp_obj sp) e ->
  argmax_ok argmax -> numbered bt -> (forall n, attr (py_str n) = false) ->
  Forall (good_layer sp isrep e g cob_id fits) ls -> ok_type sp isrep g tin ->
  seq_make (ft_eqb space_eqb rep_eqb) attr (map (layer_module argmax junk junkn cob_id bt) ls) = Ok s ->
  seq_forward (ft_eqb space_eqb rep_eqb) snd s (x, tin) = Ok (y, tout) ->
  suits_all argmax cob_id bt junk junkn ls (x, tin) ->
  forall junk' junkn', exists s' x' y' y'',
    seq_make (ft_eqb space_eqb rep_eqb) attr (map (layer_module argmax junk' junkn' cob_id bt) ls) = Ok s' /\
    field_transform interp tin x e = Ok x' /\
    seq_forward (ft_eqb space_eqb rep_eqb) snd s' (x', tin) = Ok (y', tout) /\
    field_transform interp tout y e = Ok y'' /\ same_field (ct_size tout) y' y''.
Proof.
  intros G sp isrep B bt e g argmax cob_id fits attr ls interp junk junkn s tin x y tout PS He Hg GE AM NB AT GL OT MK F SU junk' junkn'.
  destruct (network_rel _ sp isrep B bt e g argmax cob_id fits attr ls interp junk junkn s tin x y tout PS He Hg GE AM NB AT GL OT MK F SU) as ((U1 & U2 & _) & kk & TF & N).
  destruct (N junk' junkn') as (s' & x' & y' & E1 & E2 & E3 & E4). destruct (TF tout y U1 U2) as (y'' & Z1 & Z2).
  exists s', x', y', y''. split; [exact E1|]. split; [exact E2|]. split; [exact E3|]. split; [exact Z1|]. exact (rel_unique sp e g kk tout y y' y'' E4 Z2).
Qed.
Print Assumptions C56_network.

(** An invariant network (the fields of its output are scalars, and its output is one pixel, as that of a classifier) returns the same
    numbers for the transformed input. *)
Theorem C56_invariant : forall G (sp : space G) isrep B (bt : batch B) e g argmax cob_id fits attr (ls : list (layer G)) (interp : forall A : Type, R -> R -> arr A -> arr A) junk junkn s tin (x y : arr (B -> vec)) (tout : ctype G),
  planar_space G sp isrep -> fg_is_element (sp_group (sp_obj sp)) e = true -> sp_prj sp e = Some g -> grid_exact (sp_obj sp) e ->
  argmax_ok argmax -> numbered bt -> (forall n, attr (py_str n) = false) ->
  Forall (good_layer sp isrep e g cob_id fits) ls -> ok_type sp isrep g tin ->
  seq_make (ft_eqb space_eqb rep_eqb) attr (map (layer_module argmax junk junkn cob_id bt) ls) = Ok s ->
  seq_forward (ft_eqb space_eqb rep_eqb) snd s (x, tin) = Ok (y, tout) ->
  suits_all argmax cob_id bt junk junkn ls (x, tin) ->
  (forall r, In r (ft_reps tout) -> is_trivial r = true) -> a_h y = 1%nat -> a_w y = 1%nat ->
  forall junk' junkn', exists s' x' y',
    seq_make (ft_eqb space_eqb rep_eqb) attr (map (layer_module argmax junk' junkn' cob_id bt) ls) = Ok s' /\
    field_transform interp tin x e = Ok x' /\
    seq_forward (ft_eqb space_eqb rep_eqb) snd s' (x', tin) = Ok (y', tout) /\ same_field (ct_size tout) y' y.
Proof.
  intros G sp isrep B bt e g argmax cob_id fits attr ls interp junk junkn s tin x y tout PS He Hg GE AM NB AT GL OT MK F SU TR H1 W1 junk' junkn'.
  destruct (network_rel _ sp isrep B bt e g argmax cob_id fits attr ls interp junk junkn s tin x y tout PS He Hg GE AM NB AT GL OT MK F SU) as ((U1 & U2 & U3) & kk & _ & N).
  destruct (N junk' junkn') as (s' & x' & y' & E1 & E2 & E3 & E4).
  exists s', x', y'. split; [exact E1|]. split; [exact E2|]. split; [exact E3|].
  destruct E4 as (A1 & A2 & A3). cbn [amap a_h a_w a_px] in *. destruct (turn_h (gflip (sp_obj sp) e) kk y) as [T1 T2]. rewrite H1, W1 in T1, T2.
  assert (D : a_h (turn (gflip (sp_obj sp) e) kk (coords 1 1)) = 1%nat /\ a_w (turn (gflip (sp_obj sp) e) kk (coords 1 1)) = 1%nat).
  { unfold turn. rewrite !rot90_red. destruct (mod4 kk) as [Q|[Q|[Q|Q]]]; rewrite Q; destruct (gflip _ _); split; reflexivity. }
  destruct D as [D1 D2]. rewrite T1, D1 in A1. rewrite T2, D2 in A2. split; [congruence|]. split; [congruence|]. intros i j b c Hi Hj Hc. rewrite (A3 i j b c Hi Hj Hc).
  rewrite A1 in Hi. rewrite A2 in Hj. rewrite turn_origin, H1, W1. cbv zeta.
  destruct (origin_in (gflip (sp_obj sp) e) kk 1 1 (i, j)) as [O1 O2]; [rewrite D1; exact Hi|rewrite D2; exact Hj|].
  replace (fst (origin (gflip (sp_obj sp) e) kk 1 1 (i, j))) with i by lia. replace (snd (origin (gflip (sp_obj sp) e) kk 1 1 (i, j))) with j by lia.
  rewrite (mvec_compat (ct_size tout) (ct_size tout) _ mid _ (a_px y i j b)); [apply mvec_id; exact Hc| |intros ? ?; reflexivity|exact Hc].
  assert (SZ : ct_size tout = bsize (map (fun r => (rp_size r, rp_mat r g)) (ft_reps tout))).
  { unfold ct_size, bsize. rewrite map_map. reflexivity. }
  rewrite SZ. apply bdiag_mid. apply Forall_map, Forall_forall. intros r Hr. cbn [fst snd]. destruct (trivial_facts sp isrep PS e g He Hg r (proj1 (U3 r Hr)) (TR r Hr)) as [S1 M1].
  rewrite S1. intros a b' Ha Hb. replace a with 0%nat by lia. replace b' with 0%nat by lia. exact M1.
Qed.
Print Assumptions C56_invariant.

(** ** A network of C_4: R2Conv, NormPool, ReLU and PointwiseAdaptiveAvgPool, on a 3 x 4 image, with the quarter turn *)
Lemma c4_rep_orth : orthogonal (rp_size c4_rep) (rp_mat c4_rep 1%Z).
Proof.
  apply orthogonal_mmul; [apply orthogonal_mmul; [apply mid_orthogonal|]|apply mid_orthogonal].
  assert (HO : forall k ir, cyc_irrep 4 k = Ok ir -> orthogonal (ir_size ir) (ir_mat ir 1%Z)) by (intros k ir E; apply (cyc_irrep_rep 4 k ir ltac:(lia) E); split; lia).
  apply (bdiag_orth (Model_Rep.blocks (rp_irreps c4_rep) 1%Z)). constructor; [exact (HO 0%Z c4_i0 eq_refl)|]. constructor; [exact (HO 1%Z c4_i1 eq_refl)|constructor].
Qed.
Lemma c4_rep_ok : ok_type (space_CN 4) (cyc_rep 4) 1%Z c4_type.
Proof.
  split; [reflexivity|]. split; [discriminate|]. intros r [<-|[]]. split; [apply c4_rep_is|]. split; [cbn; lia|]. constructor; intros [].
Qed.
Definition triv_type : ctype Z := MkFT (space_CN 4) [c4 0].
Lemma c4_triv_ok : ok_type (space_CN 4) (cyc_rep 4) 1%Z triv_type.
Proof.
  split; [reflexivity|]. split; [discriminate|]. intros r [<-|[]].
  assert (BU : built (Cyc 4) (c4 0)). { apply (built_irrep (Cyc 4) _ "irrep_0"); [cbn; lia|]. exists 0%Z. reflexivity. }
  destruct (C53_declared _ _ BU) as (_ & RA & FI & CO). split; [split; [exact RA|exact FI]|]. split; [cbn; lia|]. apply CO. split; lia.
Qed.
Lemma c4_trivial : is_trivial (c4 0) = true.
Proof. unfold is_trivial. cbn. destruct (Req_EM_T _ _) as [|N]; [reflexivity|exfalso; apply N; reflexivity]. Qed.

Example C56_ex : exists m st p r a,
  let ls := [LConv m st; LNormPool p; LPointwise r; LAdaptive a] in
  let bt := MkBatch 1 (fun _ : unit => 0%nat) (fun _ => tt) in
  let x := MkArr 3 4 (fun i j (_ : unit) c => INR (i + j + c)) in
  let fits := fun (_ : space Z) (_ : rep Z) => true in let cob_id := fun _ : rep Z => false in
  planar_space Z (space_CN 4) (cyc_rep 4) /\ fg_is_element (sp_group (sp_obj (space_CN 4))) (EI 1) = true /\ sp_prj (space_CN 4) (EI 1) = Some 1%Z /\ grid_exact (sp_obj (space_CN 4)) (EI 1) /\
  numbered bt /\ Forall (good_layer (space_CN 4) (cyc_rep 4) (EI 1) 1%Z cob_id fits) ls /\ ok_type (space_CN 4) (cyc_rep 4) 1%Z c4_type /\
  forall argmax junk junkn, exists s y,
    seq_make (ft_eqb space_eqb rep_eqb) (fun _ => false) (map (layer_module argmax junk junkn cob_id bt) ls) = Ok s /\
    seq_forward (ft_eqb space_eqb rep_eqb) snd s (x, c4_type) = Ok (y, triv_type) /\
    suits_all argmax cob_id bt junk junkn ls (x, c4_type) /\
    (forall r, In r (ft_reps triv_type) -> is_trivial r = true) /\ a_h y = 1%nat /\ a_w y = 1%nat.
Proof.
  destruct C28_ex as [m [CA M]]. exists m.
  destruct (C28_R2Conv _ _ _ _ _ _ _ _ _ _ _ _ _ _ _ _ _ _ CA (Nat.lt_0_succ 0) M) as [params [_ [D L]]]. destruct L as [first [_ [_ [_ [_ L]]]]].
  set (w := repeat 1 (be_dimension kid_eqb (cv_exp m))). destruct (L D w) as [f [Hf _]]; [apply repeat_length|].
  exists (MkCS true w [2] None None).
  set (x := MkArr 3 4 (fun i j (_ : unit) c => INR (i + j + c))).
  assert (TE : ft_eqb space_eqb rep_eqb c4_type c4_type = true) by apply type_refl_CN.
  destruct (make_made _ _ _ _ 1 _ _ _ _ _ _ _ _ _ _ _ M eq_refl) as (ir & keep & rgs & sig & maxf & _ & MD & EM).
  assert (R : exists y, conv_forward m (MkCS true w [2] None None) c4_type x = Ok (y, c4_type) /\ a_h y = 3%nat /\ a_w y = 4%nat).
  { unfold conv_forward, used_params. cbn [cs_training cs_w cs_b]. unfold expand_parameters. rewrite Hf. cbn [rbind]. unfold run_conv.
    rewrite (md_pad MD), (md_in MD), (md_out MD), (md_k MD), (md_stride MD), (md_dil MD), (md_grp MD).
    cbn in EM. injection EM as <-. rewrite TE. cbn [assert_]. eexists. split; [reflexivity|]. split; reflexivity. }
  destruct R as [y0 [R1 [R2 R3]]].
  assert (NP : exists p, npool_make (fun _ _ => true) (fun _ => c4 0) c4_type = Ok p /\ po_in p = c4_type /\ po_out p = triv_type /\
     forall junk (z : arr (unit -> vec)), exists d, on_channels (npool_forward space_eqb rep_eqb junk p) (z, c4_type) = Ok (d, triv_type) /\ a_h d = a_h z /\ a_w d = a_w z).
  { eexists. split; [reflexivity|]. split; [reflexivity|]. split; [reflexivity|]. intros junk z. unfold on_channels, npool_forward, pool_forward. cbn [gt_type po_in snd]. rewrite TE.
    eexists. split; [reflexivity|]. split; reflexivity. }
  destruct NP as (p & P1 & P2 & P3 & P4).
  eexists p, (MkPW triv_type relu), (MkAD false triv_type (1, 1)%nat). cbv zeta.
  assert (TT : ft_eqb space_eqb rep_eqb triv_type triv_type = true) by apply type_refl_CN.
  split; [apply PS_CN; lia|]. split; [reflexivity|]. split; [reflexivity|]. split; [apply exact_c4|].
  split. { split; [intros []; split; [cbn; lia|reflexivity]|]. intros k Hk. cbn in *. lia. }
  split.
  { constructor.
    { split; [eapply made_conv; [exact CA|exact M|reflexivity|reflexivity]|]. cbn [layer_in layer_out]. rewrite (md_in MD), (md_out MD). split; exact c4_rep_ok. }
    constructor.
    { split; [eapply made_norm_pool; [exact P1|exact c4_trivial|intros q [<-|[]]; exact c4_rep_orth]|]. cbn [layer_in layer_out]. rewrite P2, P3. split; [exact c4_rep_ok|exact c4_triv_ok]. }
    constructor. { split; [apply (made_relu _ _ _ _ _ _ triv_type); reflexivity|]. split; exact c4_triv_ok. }
    constructor; [|constructor]. split; [apply (made_adaptive _ _ _ _ _ _ false triv_type (IPair 1 1)); [reflexivity|left; constructor; [reflexivity|constructor]]|]. split; exact c4_triv_ok. }
  split; [exact c4_rep_ok|]. intros argmax junk junkn.
  destruct (P4 junk y0) as (y1 & Q1 & Q2 & Q3).
  assert (RL : exists y2, on_channels (B := unit) (pointwise_forward space_eqb rep_eqb (MkPW triv_type relu)) (y1, triv_type) = Ok (y2, triv_type) /\ a_h y2 = 3%nat /\ a_w y2 = 4%nat).
  { unfold on_channels, pointwise_forward. cbn [gt_type pw_in snd]. rewrite TT. eexists. split; [reflexivity|]. split; [exact (eq_trans Q2 R2)|exact (eq_trans Q3 R3)]. }
  destruct RL as (y2 & V1 & V2 & V3).
  assert (AD : exists y3, adpool_forward (B := unit) space_eqb rep_eqb (MkAD false triv_type (1, 1)%nat) triv_type y2 = Ok (y3, triv_type) /\ a_h y3 = 1%nat /\ a_w y3 = 1%nat).
  { unfold adpool_forward. cbn [ad_in ad_max ad_o]. rewrite TT. unfold adaptive_pool2d. rewrite V2, V3. eexists. split; [reflexivity|]. split; reflexivity. }
  destruct AD as (y3 & A1 & A2 & A3).
  destruct (C39_construction _ _ (ft_eqb space_eqb rep_eqb) (fun _ => false) (map (layer_module argmax junk junkn (fun _ => false) (MkBatch 1 (fun _ : unit => 0%nat) (fun _ => tt))) [LConv m (MkCS true w [2] None None); LNormPool p; LPointwise (MkPW triv_type relu); LAdaptive (MkAD false triv_type (1, 1)%nat)]) (fun _ => eq_refl)) as [K _].
  destruct K as (s & S1 & S2 & S3 & S4 & _).
  { intros i a b Ha Hb. destruct i as [|[|[|[|i]]]]; cbn in Ha, Hb; try discriminate; injection Ha as <-; injection Hb as <-; cbn [em_in em_out layer_module layer_in layer_out].
    - rewrite P2, (md_out MD). exact TE.
    - rewrite P3. exact TT.
    - exact TT. }
  exists s, y3. split; [exact S1|]. split.
  { unfold seq_forward. unfold ctype in *. rewrite S2, S3, S4. cbn [map rev app layer_module em_in em_out layer_in layer_out opt_eqb snd ad_in]. rewrite (md_in MD), TE. cbn [assert_ run_all em_fwd].
    refine (eq_trans (f_equal (fun r => rbind (rbind r _) _) R1) _). cbn [rbind].
    refine (eq_trans (f_equal (fun r => rbind (rbind r _) _) Q1) _). cbn [rbind]. refine (eq_trans (f_equal (fun r => rbind (rbind r _) _) V1) _). cbn [rbind].
    refine (eq_trans (f_equal (fun r => rbind (rbind r _) _) A1) _). cbn [rbind snd]. rewrite TT. reflexivity. }
  split; [|split; [intros q [<-|[]]; exact c4_trivial|split; assumption]].
  cbn [suits_all]. intros z0 _. split. { cbn [suits fst]. unfold strides. rewrite (md_k MD), (md_stride MD), (md_dil MD), (md_pad MD). split; reflexivity. }
  intros z1 _. split; [exact I|]. intros z2 _. split; [exact I|]. intros z3 _. split; exact I.
Qed.
