(** C58: a network looks at an image in the same way wherever its content lies. *)
From Coq Require Import Reals ZArith String List Bool Lia Lra.
From Verif Require Import Base LinAlg Spec Spec_Fields Model_Groups Model_Rep Proofs_Rep Proofs_Restrict Model_FieldType Proofs_FieldType Model_GSpace Spec_GSpace Proofs_GSpace Model_Tensor Model_Utils Model_Modules Spec_Modules
  Prop_Modules Model_Conv Spec_Conv Proofs_Conv Proofs_Conv2 Proofs_Conv3 Proofs_Conv4 Proofs_Conv5 Proofs_Conv6 Proofs_Conv8 Proofs_Tensor Prop_Conv Model_ConvT Model_Fieldwise Spec_Fieldwise Spec_Fieldwise2 Prop_Fieldwise3 Model_BatchNorm Spec_BatchNorm
  Model_Pool Spec_Pool Model_NormMax Model_Support Spec_Support Prop_Support Model_Expansion Prop_Pool Prop_Pool2 Model_Net Spec_Net Proofs_Net Proofs_Net2 Proofs_Net3 Proofs_Net4 Proofs_Net6 Proofs_Irreps Proofs_Support Prop_Net Spec_Move Proofs_Move4 Proofs_Move5.
Import ListNotations.
Open Scope R_scope.

Section Sequence.
Context {G B : Type} (argmax : list R -> nat) (cob_id : rep G -> bool) (bt : batch B) (attr : string -> bool) (ls : list (layer G)) (AT : forall n, attr (py_str n) = false).
Notation modules jk jkn := (map (layer_module argmax jk jkn cob_id bt) ls).
Notation make jk jkn := (seq_make (ft_eqb space_eqb rep_eqb) attr (modules jk jkn)).
Notation run := (seq_forward (ft_eqb space_eqb rep_eqb) snd).

(** a SequentialModule runs its layers one after another *)
Lemma seq_run junk junkn s (x : arr (B -> vec)) tin y tout : make junk junkn = Ok s -> run s (x, tin) = Ok (y, tout) -> run_all (modules junk junkn) (x, tin) = Ok (y, tout).
Proof.
  intros MK F. destruct (C39_construction _ _ (ft_eqb space_eqb rep_eqb) attr (modules junk junkn) AT) as [K1 K2].
  set (adj := fun a b : emodule (ctype G) (arr (B -> vec) * ctype G) => ft_eqb space_eqb rep_eqb (em_in b) (em_out a) = true).
  assert (CH : chained adj (modules junk junkn)). { destruct (Classical_Prop.classic (chained adj (modules junk junkn))) as [C|C]; [exact C|]. rewrite (K2 C) in MK. discriminate. }
  destruct (K1 CH) as (s0 & E0 & C1 & C2 & C3 & _). rewrite MK in E0. injection E0 as <-.
  unfold seq_forward in F. apply assert_ok in F as [F1 F]. apply rbind_ok in F as ([y1 t1] & R1 & F). apply assert_ok in F as [F2 F]. injection F as -> ->.
  apply (eq_trans (f_equal (fun l => run_all l (x, tin)) (eq_sym C1))) in R1. exact R1.
Qed.
(** the same modules with other contents of uninitialised memory *)
Lemma seq_other junk junkn junk' junkn' s (x x' : arr (B -> vec)) tin y y' tout : make junk junkn = Ok s -> run s (x, tin) = Ok (y, tout) -> run_all (modules junk' junkn') (x', tin) = Ok (y', tout) ->
  exists s', make junk' junkn' = Ok s' /\ run s' (x', tin) = Ok (y', tout).
Proof.
  intros MK F Y1. destruct (C39_construction _ _ (ft_eqb space_eqb rep_eqb) attr (modules junk junkn) AT) as [K1 K2].
  set (adj := fun a b : emodule (ctype G) (arr (B -> vec) * ctype G) => ft_eqb space_eqb rep_eqb (em_in b) (em_out a) = true).
  assert (CH : chained adj (modules junk junkn)). { destruct (Classical_Prop.classic (chained adj (modules junk junkn))) as [C|C]; [exact C|]. rewrite (K2 C) in MK. discriminate. }
  destruct (K1 CH) as (s0 & E0 & C1 & C2 & C3 & _). rewrite MK in E0. injection E0 as <-.
  destruct (C39_construction _ _ (ft_eqb space_eqb rep_eqb) attr (modules junk' junkn') AT) as [K1' _].
  destruct K1' as (s' & E' & D1 & D2 & D3 & _).
  { intros i a b Ha Hb. rewrite nth_error_map in Ha, Hb. specialize (CH i). rewrite !nth_error_map in CH. destruct (nth_error ls i) as [la|], (nth_error ls (S i)) as [lb|]; try discriminate.
    injection Ha as <-. injection Hb as <-. exact (CH _ _ eq_refl eq_refl). }
  assert (I : sq_in s' = sq_in s) by (rewrite C2, D2; destruct ls; reflexivity).
  assert (O : sq_out s' = sq_out s) by (rewrite C3, D3, <- !map_rev; destruct (rev ls); reflexivity).
  exists s'. split; [exact E'|]. unfold seq_forward in F. apply assert_ok in F as [F1 F]. apply rbind_ok in F as ([y1 t1] & R1 & F). apply assert_ok in F as [F2 F]. injection F as -> ->.
  apply (eq_trans (f_equal (fun l => run_all l (x', tin)) D1)) in Y1. unfold seq_forward. unfold ctype in *. rewrite I, O. cbn [snd] in *. rewrite F1. cbn [assert_].
  refine (eq_trans (f_equal (fun r => rbind r _) Y1) _). cbn [rbind snd]. rewrite F2. reflexivity.
Qed.
End Sequence.

(** A SequentialModule, run on two images that are the same in a window, possibly at different places in images of different sizes,
    returns images that are the same in the window that is computed from there. *)
Theorem C58_windows : forall G (sp : space G) isrep B (bt : batch B) g argmax cob_id fits attr (ls : list (layer G)) junk junkn junk' junkn' s s' tin (x x' y y' : arr (B -> vec)) (tout tout' : ctype G) a a2 o o2,
  planar_space G sp isrep -> sp_prj sp (fg_identity (sp_group (sp_obj sp))) = Some g -> argmax_ok argmax -> numbered bt -> (forall n, attr (py_str n) = false) ->
  Forall (good_layer sp isrep (fg_identity (sp_group (sp_obj sp))) g cob_id fits) ls ->
  seq_make (ft_eqb space_eqb rep_eqb) attr (map (layer_module argmax junk junkn cob_id bt) ls) = Ok s ->
  seq_make (ft_eqb space_eqb rep_eqb) attr (map (layer_module argmax junk' junkn' cob_id bt) ls) = Ok s' ->
  seq_forward (ft_eqb space_eqb rep_eqb) snd s (x, tin) = Ok (y, tout) ->
  seq_forward (ft_eqb space_eqb rep_eqb) snd s' (x', tin) = Ok (y', tout') ->
  sees_all ls (a, a2) (o, o2) -> same_window (ct_size tin) x x' a a2 ->
  tout' = tout /\ same_window (ct_size tout) y y' o o2.
Proof.
  intros G sp isrep B bt g argmax cob_id fits attr ls junk junkn junk' junkn' s s' tin x x' y y' tout tout' a a2 o o2 PS Hg AM NB AT GL MK MK' F F' SE W.
  pose proof (seq_run argmax cob_id bt attr ls AT junk junkn s x tin y tout MK F) as R. pose proof (seq_run argmax cob_id bt attr ls AT junk' junkn' s' x' tin y' tout' MK' F') as R'.
  destruct (windows_net sp isrep PS g argmax cob_id bt fits Hg AM NB junk junk' junkn junkn' ls (a, a2) (o, o2) GL SE tin x x' y y' tout tout' R R' W) as [<- V]. auto.
Qed.
Print Assumptions C58_windows.

(** The layers that wrap around: rolling the image rolls the output.  In particular a network that ends with global pooling returns
    the same for the rolled image. *)
Theorem C58_rolls : forall G (sp : space G) isrep B (bt : batch B) g argmax cob_id fits attr (ls : list (layer G)) junk junkn s tin (x x' y : arr (B -> vec)) (tout : ctype G) a b a' b' h' w',
  planar_space G sp isrep -> sp_prj sp (fg_identity (sp_group (sp_obj sp))) = Some g -> argmax_ok argmax -> numbered bt -> (forall n, attr (py_str n) = false) ->
  Forall (good_layer sp isrep (fg_identity (sp_group (sp_obj sp))) g cob_id fits) ls ->
  seq_make (ft_eqb space_eqb rep_eqb) attr (map (layer_module argmax junk junkn cob_id bt) ls) = Ok s ->
  seq_forward (ft_eqb space_eqb rep_eqb) snd s (x, tin) = Ok (y, tout) ->
  wraps_all (bt_n bt) ls ((a_h x, a), (a_w x, b)) ((h', a'), (w', b')) -> rolled (ct_size tin) a b x x' ->
  a_h y = h' /\ a_w y = w' /\
  forall junk' junkn', exists s' y',
    seq_make (ft_eqb space_eqb rep_eqb) attr (map (layer_module argmax junk' junkn' cob_id bt) ls) = Ok s' /\
    seq_forward (ft_eqb space_eqb rep_eqb) snd s' (x', tin) = Ok (y', tout) /\ rolled (ct_size tout) a' b' y y'.
Proof.
  intros G sp isrep B bt g argmax cob_id fits attr ls junk junkn s tin x x' y tout a b a' b' h' w' PS Hg AM NB AT GL MK F WR R.
  pose proof (seq_run argmax cob_id bt attr ls AT junk junkn s x tin y tout MK F) as RN.
  assert (N : forall junk' junkn', a_h y = h' /\ a_w y = w' /\ exists y', run_all (map (layer_module argmax junk' junkn' cob_id bt) ls) (x', tin) = Ok (y', tout) /\ rolled (ct_size tout) a' b' y y')
    by (intros junk' junkn'; exact (rolls_net sp isrep PS g argmax cob_id bt fits Hg AM NB junk junk' junkn junkn' ls _ _ GL WR tin x x' y tout RN eq_refl eq_refl R)).
  split; [apply (N junk junkn)|]. split; [apply (N junk junkn)|]. intros junk' junkn'. destruct (N junk' junkn') as (_ & _ & y' & R' & V).
  destruct (seq_other argmax cob_id bt attr ls AT junk junkn junk' junkn' s x x' tin y y' tout MK F R') as (s' & MK' & F'). exists s', y'. auto.
Qed.
Print Assumptions C58_rolls.

(** ** The network R2Conv (3 x 3, padding 1), NormPool, ReLU of C_4 *)
Lemma c4_rep_orth0 : orthogonal (rp_size c4_rep) (rp_mat c4_rep 0%Z).
Proof.
  apply orthogonal_mmul; [apply orthogonal_mmul; [apply mid_orthogonal|]|apply mid_orthogonal].
  assert (HO : forall k ir, cyc_irrep 4 k = Ok ir -> orthogonal (ir_size ir) (ir_mat ir 0%Z)) by (intros k ir E; apply (cyc_irrep_rep 4 k ir ltac:(lia) E); split; lia).
  apply (bdiag_orth (Model_Rep.blocks (rp_irreps c4_rep) 0%Z)). constructor; [exact (HO 0%Z c4_i0 eq_refl)|]. constructor; [exact (HO 1%Z c4_i1 eq_refl)|constructor].
Qed.
Lemma c4_rep_ok0 : ok_type (space_CN 4) (cyc_rep 4) 0%Z c4_type.
Proof. split; [reflexivity|]. split; [discriminate|]. intros r [<-|[]]. split; [apply c4_rep_is|]. split; [cbn; lia|]. constructor; intros []. Qed.
Lemma c4_triv_ok0 : ok_type (space_CN 4) (cyc_rep 4) 0%Z triv_type.
Proof.
  split; [reflexivity|]. split; [discriminate|]. intros r [<-|[]].
  assert (BU : built (Cyc 4) (c4 0)). { apply (built_irrep (Cyc 4) _ "irrep_0"); [cbn; lia|]. exists 0%Z. reflexivity. }
  destruct (C53_declared _ _ BU) as (_ & RA & FI & CO). split; [split; [exact RA|exact FI]|]. split; [cbn; lia|]. apply CO. split; lia.
Qed.
Lemma other_mode {G} (tin tout : ctype G) k padding stride dil mode mode' md groups bias sigma fco rings mo bf m :
  r2conv_make tin tout k padding stride dil mode groups bias sigma fco rings mo bf = Ok m -> parse_mode mode' = Ok md ->
  exists m', r2conv_make tin tout k padding stride dil mode' groups bias sigma fco rings mo bf = Ok m'.
Proof.
  unfold r2conv_make. intros H PM. apply assert_ok in H as [H1 H]. rewrite H1. cbn [assert_]. apply rbind_ok in H as [pd [E H]]. rewrite E. cbn [rbind].
  apply rbind_ok in H as [md0 [_ H]]. rewrite PM. cbn [rbind]. apply rbind_ok in H as [ir [E2 H]]. rewrite E2. cbn [rbind]. cbv zeta in H |- *. apply rbind_ok in H as [[[[keep rgs] sig] maxf] [Hc H]]. rewrite Hc. cbn [rbind].
  apply rbind_ok in H as [e [E3 H]]. rewrite E3. cbn [rbind]. destruct (be_dimension kid_eqb e =? 0)%nat; [discriminate|]. eexists. reflexivity.
Qed.
Lemma move_net mode md : parse_mode mode = Ok md -> exists m st p,
  let ls := [LConv m st; LNormPool p; LPointwise (MkPW triv_type relu)] in
  let bt := MkBatch 1 (fun _ : unit => 0%nat) (fun _ => tt) in
  Forall (good_layer (space_CN 4) (cyc_rep 4) (EI 0) 0%Z (fun _ => false) (fun _ _ => true)) ls /\
  cv_mode m = md /\ cv_k m = 3%nat /\ cv_stride m = 1%nat /\ cv_dil m = 1%nat /\ cv_pad m = (1, 1)%nat /\
  forall argmax junk junkn x, pad_legal md (a_h x) 1 = true -> pad_legal md (a_w x) 1 = true -> (0 < a_h x)%nat -> (0 < a_w x)%nat -> exists s y,
    seq_make (ft_eqb space_eqb rep_eqb) (fun _ => false) (map (layer_module argmax junk junkn (fun _ => false) bt) ls) = Ok s /\
    seq_forward (ft_eqb space_eqb rep_eqb) snd s (x, c4_type) = Ok (y, triv_type).
Proof.
  intros PM. destruct C28_ex as [m0 [CA M0]]. destruct (other_mode _ _ _ _ _ _ _ _ _ _ _ _ _ _ _ _ _ M0 PM) as [m M]. exists m.
  destruct (C28_R2Conv _ _ _ _ _ _ _ _ _ _ _ _ _ _ _ _ _ _ CA (Nat.lt_0_succ 0) M) as [params [_ [D L]]]. destruct L as [first [_ [_ [_ [_ L]]]]].
  set (w := repeat 1 (be_dimension kid_eqb (cv_exp m))). destruct (L D w) as [f [Hf _]]; [apply repeat_length|].
  exists (MkCS true w [2] None None).
  assert (TE : ft_eqb space_eqb rep_eqb c4_type c4_type = true) by apply type_refl_CN.
  destruct (make_made _ _ _ _ 1 _ _ _ _ _ _ _ _ _ _ _ M eq_refl) as (ir & keep & rgs & sig & maxf & _ & MD & EM). rewrite PM in EM. injection EM as EM.
  assert (R : forall x : arr (unit -> vec), pad_legal md (a_h x) 1 = true -> pad_legal md (a_w x) 1 = true -> (0 < a_h x)%nat -> (0 < a_w x)%nat -> exists y, conv_forward m (MkCS true w [2] None None) c4_type x = Ok (y, c4_type)).
  { intros x P1 P2 H1 H2. unfold conv_forward, used_params. cbn [cs_training cs_w cs_b]. unfold expand_parameters. rewrite Hf. cbn [rbind]. unfold run_conv.
    rewrite (md_pad MD), (md_in MD), (md_out MD), (md_k MD), (md_stride MD), (md_dil MD), (md_grp MD), <- EM, TE. cbn [assert_ fst snd]. unfold pad2d. rewrite P1, P2. cbn [andb rbind]. unfold conv_valid.
    match goal with |- context [if ?c then _ else _] => assert (C : c = true) end.
    { rewrite !andb_true_iff. repeat split; try reflexivity; try (apply Nat.leb_le; cbn; lia); apply Nat.eqb_eq; reflexivity. }
    rewrite C. cbn [rbind]. eexists. reflexivity. }
  assert (NP : exists p, npool_make (fun _ _ => true) (fun _ => c4 0) c4_type = Ok p /\ po_in p = c4_type /\ po_out p = triv_type /\
     forall junk (z : arr (unit -> vec)), exists d, on_channels (npool_forward space_eqb rep_eqb junk p) (z, c4_type) = Ok (d, triv_type)).
  { eexists. split; [reflexivity|]. split; [reflexivity|]. split; [reflexivity|]. intros junk z. unfold on_channels, npool_forward, pool_forward. cbn [gt_type po_in snd]. rewrite TE. eexists. reflexivity. }
  destruct NP as (p & P1 & P2 & P3 & P4). exists p. cbv zeta.
  assert (TT : ft_eqb space_eqb rep_eqb triv_type triv_type = true) by apply type_refl_CN.
  split.
  { constructor.
    { split; [eapply made_conv; [exact CA|exact M|reflexivity|reflexivity]|]. cbn [layer_in layer_out]. rewrite (md_in MD), (md_out MD). split; exact c4_rep_ok0. }
    constructor.
    { split; [eapply made_norm_pool; [exact P1|exact c4_trivial|intros q [<-|[]]; exact c4_rep_orth0]|]. cbn [layer_in layer_out]. rewrite P2, P3. split; [exact c4_rep_ok0|exact c4_triv_ok0]. }
    constructor; [|constructor]. split; [apply (made_relu _ _ _ _ _ _ triv_type); reflexivity|]. split; exact c4_triv_ok0. }
  split; [symmetry; exact EM|]. split; [exact (md_k MD)|]. split; [exact (md_stride MD)|]. split; [exact (md_dil MD)|]. split; [exact (md_pad MD)|].
  intros argmax junk junkn x L1 L2 H1 H2. destruct (R x L1 L2 H1 H2) as [y0 R1]. destruct (P4 junk y0) as (y1 & Q1).
  assert (RL : exists y2, on_channels (B := unit) (pointwise_forward space_eqb rep_eqb (MkPW triv_type relu)) (y1, triv_type) = Ok (y2, triv_type)).
  { unfold on_channels, pointwise_forward. cbn [gt_type pw_in snd]. rewrite TT. eexists. reflexivity. }
  destruct RL as (y2 & V1).
  destruct (C39_construction _ _ (ft_eqb space_eqb rep_eqb) (fun _ => false) (map (layer_module argmax junk junkn (fun _ => false) (MkBatch 1 (fun _ : unit => 0%nat) (fun _ => tt))) [LConv m (MkCS true w [2] None None); LNormPool p; LPointwise (MkPW triv_type relu)]) (fun _ => eq_refl)) as [K _].
  destruct K as (s & S1 & S2 & S3 & S4 & _).
  { intros i a b Ha Hb. destruct i as [|[|[|i]]]; cbn in Ha, Hb; try discriminate; injection Ha as <-; injection Hb as <-; cbn [em_in em_out layer_module layer_in layer_out].
    - rewrite P2, (md_out MD). exact TE.
    - rewrite P3. exact TT. }
  exists s, y2. split; [exact S1|]. unfold seq_forward. unfold ctype in *. rewrite S2, S3, S4. cbn [map rev app layer_module em_in em_out layer_in layer_out opt_eqb snd pw_in]. rewrite (md_in MD), TE. cbn [assert_ run_all em_fwd].
  refine (eq_trans (f_equal (fun r => rbind (rbind r _) _) R1) _). cbn [rbind].
  refine (eq_trans (f_equal (fun r => rbind (rbind r _) _) Q1) _). cbn [rbind]. refine (eq_trans (f_equal (fun r => rbind (rbind r _) _) V1) _). cbn [rbind snd]. rewrite TT. reflexivity.
Qed.

(** zero padding: a 5 x 5 image that lies in a 7 x 8 image, one row and two columns further; the outputs agree where the padding is not seen *)
Example C58_windows_ex : exists ls : list (layer Z),
  let bt := MkBatch 1 (fun _ : unit => 0%nat) (fun _ => tt) in let e := fg_identity (sp_group (sp_obj (space_CN 4))) in
  let x := MkArr 5 5 (fun i j (_ : unit) c => INR (i * j + c)) in let x' := MkArr 7 8 (fun i j (_ : unit) c => if ((i =? 0) || (j <? 2))%nat%bool then 9 else INR ((i - 1) * (j - 2) + c)) in
  planar_space Z (space_CN 4) (cyc_rep 4) /\ sp_prj (space_CN 4) e = Some 0%Z /\ numbered bt /\ Forall (good_layer (space_CN 4) (cyc_rep 4) e 0%Z (fun _ => false) (fun _ _ => true)) ls /\ length ls = 3%nat /\
  (forall argmax junk junkn, exists s y, seq_make (ft_eqb space_eqb rep_eqb) (fun _ => false) (map (layer_module argmax junk junkn (fun _ => false) bt) ls) = Ok s /\ seq_forward (ft_eqb space_eqb rep_eqb) snd s (x, c4_type) = Ok (y, triv_type)) /\
  (forall argmax junk junkn, exists s y, seq_make (ft_eqb space_eqb rep_eqb) (fun _ => false) (map (layer_module argmax junk junkn (fun _ => false) bt) ls) = Ok s /\ seq_forward (ft_eqb space_eqb rep_eqb) snd s (x', c4_type) = Ok (y, triv_type)) /\
  sees_all ls (MkRange 0 1 5, MkRange 0 2 5) (MkRange 1 2 3, MkRange 1 3 3) /\ same_window (ct_size c4_type) x x' (MkRange 0 1 5) (MkRange 0 2 5).
Proof.
  destruct (move_net "zeros" MZeros eq_refl) as (m & st & p & GL & E1 & E2 & E3 & E4 & E5 & RN). exists [LConv m st; LNormPool p; LPointwise (MkPW triv_type relu)]. cbv zeta.
  split; [apply PS_CN; lia|]. split; [reflexivity|]. split. { split; [intros []; split; [cbn; lia|reflexivity]|]. intros k Hk. cbn in *. lia. }
  split; [exact GL|]. split; [reflexivity|].
  split; [intros argmax junk junkn; apply RN; cbn; lia|]. split; [intros argmax junk junkn; apply RN; cbn; lia|]. split.
  - eapply sees_cons; [apply (sees_conv m st _ _ (MkRange 1 2 3) (MkRange 1 3 3))|].
    + rewrite E2, E3, E4, E5. intros q t Hq Ht. cbn [rg_from rg_from' rg_len fst] in *. exists (q + t)%nat. lia.
    + rewrite E2, E3, E4, E5. intros q t Hq Ht. cbn [rg_from rg_from' rg_len snd] in *. exists (q + t)%nat. lia.
    + eapply sees_cons; [apply sees_pixelwise; reflexivity|]. eapply sees_cons; [apply sees_pixelwise; reflexivity|]. constructor.
  - intros i j Hi Hj. cbn [rg_from rg_from' rg_len a_h a_w a_px] in *. split; [lia|]. split; [lia|]. split; [lia|]. split; [lia|]. intros _ c _.
    replace (1 + i =? 0)%nat with false by (symmetry; apply Nat.eqb_neq; lia). replace (2 + j <? 2)%nat with false by (symmetry; apply Nat.ltb_ge; lia). cbn [orb]. f_equal. replace (1 + i - 1)%nat with i by lia. replace (2 + j - 2)%nat with j by lia. lia.
Qed.
(** circular padding: a 3 x 4 image, rolled by two rows and one column *)
Example C58_rolls_ex : exists ls : list (layer Z),
  let bt := MkBatch 1 (fun _ : unit => 0%nat) (fun _ => tt) in let e := fg_identity (sp_group (sp_obj (space_CN 4))) in
  let x := MkArr 3 4 (fun i j (_ : unit) c => INR (i * j + c)) in let x' := MkArr 3 4 (fun i j (_ : unit) c => INR (((i + 2) mod 3) * ((j + 1) mod 4) + c)) in
  planar_space Z (space_CN 4) (cyc_rep 4) /\ sp_prj (space_CN 4) e = Some 0%Z /\ numbered bt /\ Forall (good_layer (space_CN 4) (cyc_rep 4) e 0%Z (fun _ => false) (fun _ _ => true)) ls /\ length ls = 3%nat /\
  (forall argmax junk junkn, exists s y, seq_make (ft_eqb space_eqb rep_eqb) (fun _ => false) (map (layer_module argmax junk junkn (fun _ => false) bt) ls) = Ok s /\ seq_forward (ft_eqb space_eqb rep_eqb) snd s (x, c4_type) = Ok (y, triv_type)) /\
  wraps_all (bt_n bt) ls ((a_h x, 2), (a_w x, 1))%nat ((3, 2), (4, 1))%nat /\ rolled (ct_size c4_type) 2 1 x x'.
Proof.
  destruct (move_net "circular" MCircular eq_refl) as (m & st & p & GL & E1 & E2 & E3 & E4 & E5 & RN). exists [LConv m st; LNormPool p; LPointwise (MkPW triv_type relu)]. cbv zeta.
  split; [apply PS_CN; lia|]. split; [reflexivity|]. split. { split; [intros []; split; [cbn; lia|reflexivity]|]. intros k Hk. cbn in *. lia. }
  split; [exact GL|]. split; [reflexivity|].
  split; [intros argmax junk junkn; apply RN; cbn; try reflexivity; lia|]. split.
  - eapply wraps_cons; [apply (wraps_conv _ m st _ _ (3, 2)%nat (4, 1)%nat)|].
    + rewrite E1, E2, E3, E4, E5. unfold turns. cbn. split; [lia|]. split; [reflexivity|]. split; [reflexivity|]. right. auto.
    + rewrite E1, E2, E3, E4, E5. unfold turns. cbn. split; [lia|]. split; [reflexivity|]. split; [reflexivity|]. right. auto.
    + eapply wraps_cons; [apply wraps_pixelwise; reflexivity|]. eapply wraps_cons; [apply wraps_pixelwise; reflexivity|]. constructor.
  - split; [reflexivity|]. split; [reflexivity|]. intros i j b c Hi Hj Hc. reflexivity.
Qed.
