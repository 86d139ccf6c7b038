(** For C56: every layer obeys the law, and so does a sequence of layers. *)
From Coq Require Import Reals ZArith String List Bool Lia Lra FunctionalExtensionality.
From Verif Require Import Base LinAlg Spec Spec_Fields Model_Groups Model_Rep Proofs_Rep Proofs_Restrict Model_FieldType Proofs_FieldType Model_GSpace Spec_GSpace Proofs_GSpace Model_Tensor Model_Utils Model_Modules Spec_Modules
  Prop_Modules Model_Conv Spec_Conv Proofs_Conv Proofs_Conv2 Proofs_Conv3 Proofs_Conv4 Proofs_Conv5 Proofs_Conv6 Proofs_Tensor Prop_Conv Model_ConvT Model_Diffops Model_Diffops2 Model_R2Diffop Prop_R2Diffop Model_Fieldwise Spec_Fieldwise
  Spec_Fieldwise2 Model_BatchNorm Spec_BatchNorm Model_Pool Spec_Pool Model_Upsample Model_NormMax Spec_NormMax Model_Mask Model_Disentangle Model_Dropout Model_Support Spec_Support Model_Expansion Prop_Pool Model_Net Spec_Net
  Proofs_Net Proofs_Net2 Proofs_Net3 Proofs_Net4 Proofs_Net5.
Import ListNotations.
Open Scope R_scope.

Section Net.
Context {G B : Type} (sp : space G) (isrep : rep G -> Prop) (PS : planar_space G sp isrep) (e : gelt) (g : G) (kk : Z) (argmax : list R -> nat) (cob_id : rep G -> bool) (bt : batch B).
Context (fits : space G -> rep G -> bool).
Hypothesis He : fg_is_element (sp_group (sp_obj sp)) e = true.
Hypothesis GE : grid_exact (sp_obj sp) e.
Hypothesis Hg : sp_prj sp e = Some g.
Hypothesis Hk : gangle (sp_obj sp) e = IZR kk * (PI / 2).
Hypothesis Hev : keeps_axes (sp_obj sp) e -> Z.even kk = true.
Hypothesis AM : argmax_ok argmax.
Hypothesis NB : numbered bt.
Context (junk junk' : nat -> B * (nat * nat) -> R) (junkn junkn' : nat -> nat -> R).
Notation tensor := (arr (B -> vec) * ctype G)%type.
Notation teqb := (ft_eqb space_eqb rep_eqb).
Notation rel := (@rel G B sp e g kk).
Notation law := (@law G B sp e g kk).
Notation fwd := (layer_forward argmax junk junkn cob_id bt).
Notation fwd' := (layer_forward argmax junk' junkn' cob_id bt).
Notation ok_type := (ok_type sp isrep g).
Notation suits := (@suits G B bt).

Lemma reps_refl (l : list (rep G)) : list_eqb rep_eqb l l = true.
Proof. induction l as [|r l IH]; [reflexivity|]. cbn [list_eqb]. rewrite rep_eqb_refl, IH. reflexivity. Qed.
Lemma teqb_refl (t : ctype G) : teqb t t = true.
Proof. unfold ft_eqb, space_eqb. rewrite reps_refl, andb_true_r. unfold sp_eqb. destruct (sp_obj (ft_gs t)); apply fg_eqb_refl. Qed.
Lemma rel_type (t t' : ctype G) x x' : ok_type t -> ok_type t' -> teqb t t' = true -> rel t x x' -> ct_size t = ct_size t' /\ rel t' x x'.
Proof.
  intros (_ & _ & O) (_ & _ & O') E (R1 & R2 & R3). unfold ft_eqb in E. apply andb_true_iff in E as [_ E].
  destruct (reps_eqb_mat sp isrep (ft_reps t) (ft_reps t') PS) as [S M]; auto; try (apply Forall_forall; intros r Hr; apply (O r Hr) || apply (O' r Hr)).
  change (ct_size t = ct_size t') in S. change (nsum (map rp_size (ft_reps t))) with (ct_size t) in M. split; [exact S|]. unfold Proofs_Net2.rel in *. rewrite <- S.
  split; [exact R1|]. split; [exact R2|]. intros i j b c Hi Hj Hc. rewrite R3 by auto. cbn [amap a_px]. unfold mvec. apply rsum_ext. intros a Ha. f_equal. apply M; auto.
Qed.

(** one layer, on tensors of any type that compares equal *)
Definition step (l : layer G) : Prop := forall tt x x' y t', ok_type tt -> rel tt x x' -> fwd l (x, tt) = Ok (y, t') -> suits l x y ->
  ok_type t' /\ exists y', fwd' l (x', tt) = Ok (y', t') /\ rel t' y y'.

Lemma fwd_type l tt x y : fwd l (x, tt) = Ok y -> teqb tt (layer_in l) = true.
Proof.
  destruct l; cbn [layer_forward layer_in fst snd]; unfold on_channels, on_entries; cbn [fst snd];
  unfold conv_forward, tconv_forward, maxpool_forward, amaxpool_forward, avgpool_forward, aavgpool_forward, adpool_forward, nmaxpool_forward, upsampling_forward, pointwise_forward, norm_forward, inorm_forward,
    gated1_forward, conc_forward, vfield_forward, gpool_forward, npool_forward, pool_forward, ipool_forward, nbn_forward, inner_forward, gnorm_forward, dismod_forward, fdrop_forward, pdrop_forward;
  intros F; repeat match goal with H : rbind (assert_ _ _) _ = Ok _ |- _ => apply rbind_ok in H as (? & H & _) | H : rbind (rbind _ _) _ = Ok _ |- _ => apply rbind_ok in H as (? & H & _) end;
  try (apply assert_ok in F as [F _]; exact F).
Qed.
Lemma law_step l ok : law (fwd l) (fwd' l) (layer_in l) (layer_out l) ok -> (forall x y, suits l x y -> ok x y) -> ok_type (layer_in l) -> ok_type (layer_out l) -> step l.
Proof.
  intros L OK O1 O2 tt x x' y t' O R F S. pose proof (fwd_type _ _ _ _ F) as E. destruct (rel_type tt (layer_in l) x x' O O1 E R) as [SZ R'].
  destruct (L tt x x' y t' E (teqb_refl _) SZ R' F (OK x y S)) as (-> & y' & F' & R''). split; [exact O2|]. exists y'. auto.
Qed.
Lemma conv_types tin tout k padding stride dil mode groups bias sigma fco rings mo bf m : @r2conv_make G tin tout k padding stride dil mode groups bias sigma fco rings mo bf = Ok m -> cv_in m = tin /\ cv_out m = tout.
Proof.
  intros M. unfold r2conv_make in M. apply assert_ok in M as [_ M]. apply rbind_ok in M as [pp [_ M]]. apply rbind_ok in M as [md [_ M]]. apply rbind_ok in M as [ir [_ M]]. cbv zeta in M.
  apply rbind_ok in M as [[[[keep rgs] sig] maxf] [_ M]]. apply rbind_ok in M as [ex [_ M]]. destruct (be_dimension kid_eqb ex =? 0)%nat; [discriminate|]. injection M as <-. auto.
Qed.
Lemma diffop_types tin tout ks mo acc padding stride dil mode groups bias bf moff mpow smo aoff m : @r2diffop_make G tin tout ks mo acc padding stride dil mode groups bias bf moff mpow smo aoff = Ok m -> cv_in m = tin /\ cv_out m = tout.
Proof.
  intros M. unfold r2diffop_make in M.
  repeat match goal with H : assert_ _ _ = Ok _ |- _ => apply assert_ok in H as [_ H] | H : rbind _ _ = Ok _ |- _ => apply rbind_ok in H as (? & _ & H)
      | H : (if ?c then _ else _) = Ok _ |- _ => destruct c; try discriminate | H : match ?c with _ => _ end = Ok _ |- _ => destruct c; try discriminate | H : (let _ := _ in _) = Ok _ |- _ => cbv zeta in H end.
  injection M as <-. auto.
Qed.
Lemma tconv_types tin tout k p op stride dil groups bias sigma fco rings mo bf m : @tconv_make G tin tout k p op stride dil groups bias sigma fco rings mo bf = Ok m -> tc_in m = tin /\ tc_out m = tout.
Proof.
  intros M. unfold tconv_make in M. cbv zeta in M.
  repeat match goal with H : assert_ _ _ = Ok _ |- _ => apply assert_ok in H as [_ H] | H : rbind _ _ = Ok _ |- _ => apply rbind_ok in H as (? & _ & H)
      | H : (if ?c then _ else _) = Ok _ |- _ => destruct c; try discriminate | H : match ?c with _ => _ end = Ok _ |- _ => destruct c; try discriminate | H : (let _ := _ in _) = Ok _ |- _ => cbv zeta in H end.
  injection M as <-. auto.
Qed.
Ltac same_in H :=
  repeat match goal with M : assert_ _ _ = Ok _ |- _ => apply assert_ok in M as [_ M] | M : rbind _ _ = Ok _ |- _ => apply rbind_ok in M as (? & _ & M)
      | M : (if ?c then _ else _) = Ok _ |- _ => destruct c; try discriminate | M : match ?c with _ => _ end = Ok _ |- _ => destruct c; try discriminate | M : (let _ := _ in _) = Ok _ |- _ => cbv zeta in M end;
  injection H as <-; reflexivity.
Lemma good_step l : good_layer sp isrep e g cob_id fits l -> step l.
Proof.
  intros (M & O1 & O2). pose proof O1 as (S1 & N1 & K1). pose proof O2 as (S2 & N2 & K2). destruct M; cbn [layer_in layer_out] in *.
  - destruct (conv_types _ _ _ _ _ _ _ _ _ _ _ _ _ _ _ H0) as [E1 E2].
    refine (law_step (LConv m st) _ (conv_law sp isrep PS e g kk He GE Hg Hk _ _ _ _ _ _ _ _ _ _ _ _ _ _ _ m st H H0 H1 H2 _ _) (fun x y S => S) O1 O2); congruence.
  - destruct (diffop_types _ _ _ _ _ _ _ _ _ _ _ _ _ _ _ _ _ H0) as [E1 E2].
    refine (law_step (LConv m st) _ (diffop_law sp isrep PS e g kk He GE Hg Hk _ _ _ _ _ _ _ _ _ _ _ _ _ _ _ _ _ m st H H0 H1 H2 _ _ _) (fun x y S => S) O1 O2); congruence || assumption.
  - destruct (tconv_types _ _ _ _ _ _ _ _ _ _ _ _ _ _ _ H0) as [E1 E2].
    refine (law_step (LConvT m st) _ (tconv_law sp isrep PS e g kk He GE Hg Hk _ _ _ _ _ _ _ _ _ _ _ _ _ m st H H0 H1 H2 _ _) (fun x y S => I) O1 O2); congruence.
  - assert (E : mp_in m = t) by (unfold maxpool_make in H; same_in H).
    refine (law_step (LMaxPool m) _ (maxpool_law sp isrep e g kk Hev t k s p d ceil m H H0 _) (fun x y S => S) O1 O2). rewrite <- E. exact K1.
  - assert (E : mp_in (am_base m) = t) by (clear - H; unfold amaxpool_make in H; destruct d as [[|[|]]|]; try discriminate; apply rbind_ok in H as (m0 & M0 & H); assert (E0 : mp_in m0 = t) by (unfold maxpool_make in M0; same_in M0); rewrite <- E0; same_in H).
    refine (law_step (LMaxPoolA m) _ (amaxpool_law sp isrep e g kk Hev t k s p d ceil sigma m H H0 _) (fun x y S => S) O1 O2). rewrite <- E. exact K1.
  - refine (law_step (LAvgPool m) _ (avgpool_law sp e g kk Hev t k s p ceil m H H0) (fun x y S => S) O1 O2).
  - refine (law_step (LAvgPoolA m) _ (aavgpool_law sp e g kk Hev m H0) (fun x y S => S) O1 O2).
  - assert (E : ad_in m = t) by (unfold adpool_make in H; same_in H).
    refine (law_step (LAdaptive m) _ (adpool_law sp isrep e g kk Hev mx t o m H H0 _) (fun x y S => S) O1 O2). rewrite <- E. exact K1.
  - assert (E : np_in m = t) by (unfold nmaxpool_make in H; same_in H).
    refine (law_step (LNormMax m) _ (norm_max_law sp isrep e g kk Hev argmax junk junk' t k s p d ceil m AM H _ _ H0 H1) (fun x y S => S) O1 O2); rewrite <- E; assumption.
  - refine (law_step (LUpsampling m) _ (upsampling_law sp e g kk Hev t scale size mode align m H H0) (fun x y S => S) O1 O2).
  - refine (law_step (LMask t s margin) _ (mask_law sp e g kk Hev t s margin) (fun x y S => S) O1 O2).
  - assert (E : pw_in m = t) by (unfold pointwise_make in H; same_in H). rewrite E in N1, K1.
    destruct (pointwise_law (B := B) isrep g (@Proofs_Net2.law G B sp e g kk) (channel_law sp e g kk) t m (or_introl (ex_intro _ fn H)) N1 K1) as [_ L]. refine (law_step (LPointwise m) _ _ (fun x y S => S) O1 O2). cbn [layer_in layer_out]. rewrite E. exact L.
  - assert (E : pw_in m = t) by (unfold relu_make in H; same_in H). rewrite E in N1, K1.
    destruct (pointwise_law (B := B) isrep g (@Proofs_Net2.law G B sp e g kk) (channel_law sp e g kk) t m (or_intror (or_introl H)) N1 K1) as [_ L]. refine (law_step (LPointwise m) _ _ (fun x y S => S) O1 O2). cbn [layer_in layer_out]. rewrite E. exact L.
  - assert (E : pw_in m = t) by (unfold elu_make in H; same_in H). rewrite E in N1, K1.
    destruct (pointwise_law (B := B) isrep g (@Proofs_Net2.law G B sp e g kk) (channel_law sp e g kk) t m (or_intror (or_intror (ex_intro _ alpha H))) N1 K1) as [_ L]. refine (law_step (LPointwise m) _ _ (fun x y S => S) O1 O2). cbn [layer_in layer_out]. rewrite E. exact L.
  - assert (E : nn_in m = t) by (unfold norm_make in H; clear - H; same_in H). assert (E' : nn_in (set_logb m lb) = t) by exact E. rewrite E' in N1, K1.
    destruct (norm_law (B := B) isrep g (@Proofs_Net2.law G B sp e g kk) (channel_law sp e g kk) t fn bias m lb junk junk' H H0 N1 K1) as [_ L]. refine (law_step (LNorm (set_logb m lb)) _ _ (fun x y S => S) O1 O2). cbn [layer_in layer_out]. rewrite E'. exact L.
  - assert (E : in_in m = t) by (unfold inorm_make in H; clear - H; same_in H). assert (E' : in_in (set_ilogb m lb) = t) by exact E. rewrite E' in N1, K1.
    destruct (inorm_law (B := B) isrep g (@Proofs_Net2.law G B sp e g kk) (channel_law sp e g kk) t fn bias m lb junk junk' H H0 H1 N1 K1) as [_ L]. refine (law_step (LInducedNorm (set_ilogb m lb)) _ _ (fun x y S => S) O1 O2). cbn [layer_in layer_out]. rewrite E'. exact L.
  - assert (E : g1_in m = t) by (unfold gated1_make in H; clear - H; same_in H). assert (E' : g1_in (set_bias1 m b) = t) by exact E. rewrite E' in N1, K1.
    destruct (gated_law (B := B) sp isrep PS e g He Hg (@Proofs_Net2.law G B sp e g kk) (channel_law sp e g kk) fits t gates drop bias m b junk junk' H H0 N1 K1 N2) as [_ L]. refine (law_step (LGated (set_bias1 m b)) _ _ (fun x y S => S) O1 O2). cbn [layer_in layer_out]. rewrite E'. exact L.
  - assert (E : cc_in m = t) by (unfold conc_make in H1; clear - H1; same_in H1). rewrite E in N1, K1.
    destruct (conc_law (B := B) sp isrep PS e g He Hg (@Proofs_Net2.law G B sp e g kk) (channel_law sp e g kk) fits elements build t fn m H H0 H1 N1 K1 N2) as [_ L]. refine (law_step (LConcatenated m) _ _ (fun x y S => S) O1 O2). cbn [layer_in layer_out]. rewrite E. exact L.
  - assert (E : vf_in m = t) by (unfold vfield_make in H; clear - H; same_in H). rewrite E in N1, K1.
    destruct (vfield_law (B := B) isrep g (@Proofs_Net2.law G B sp e g kk) (channel_law sp e g kk) fits argmax order r1 k t m AM H H0 H1 H2 H3 N1 K1 N2) as [_ L]. rewrite <- E in L. exact (law_step (LVectorField m) _ L (fun x y S => S) O1 O2).
  - assert (E : po_in m = t) by (unfold gpool_make, npool_make, pool_make_with in H; clear - H; same_in H). rewrite E in S1, N1, K1.
    destruct (gpool_law (B := B) sp isrep PS e g He Hg (@Proofs_Net2.law G B sp e g kk) (channel_law sp e g kk) fits triv t m junk junk' S1 H H0 N1 K1 N2 K2) as [_ L]. refine (law_step (LGroupPool m) _ _ (fun x y S => S) O1 O2). cbn [layer_in layer_out]. rewrite E. exact L.
  - assert (E : po_in m = t) by (unfold npool_make, pool_make_with in H; clear - H; same_in H). rewrite E in S1, N1, K1.
    destruct (npool_law (B := B) sp isrep PS e g He Hg (@Proofs_Net2.law G B sp e g kk) (channel_law sp e g kk) fits triv t m junk junk' S1 H H0 H1 N1 K1 N2 K2) as [_ L]. refine (law_step (LNormPool m) _ _ (fun x y S => S) O1 O2). cbn [layer_in layer_out]. rewrite E. exact L.
  - assert (E : ip_in m = t) by (unfold ipool_make in H; clear - H; same_in H). rewrite E in S1, N1, K1.
    destruct (ipool_law (B := B) sp isrep PS e g He Hg (@Proofs_Net2.law G B sp e g kk) (channel_law sp e g kk) fits triv t m junk junk' S1 H H0 H1 N1 K1 N2 K2) as [_ L]. refine (law_step (LInducedPool m) _ _ (fun x y S => S) O1 O2). cbn [layer_in layer_out]. rewrite E. exact L.
  - destruct (norm_bn_law (B := B) isrep g bt (@Proofs_Net2.law G B sp e g kk) (fun S => entries_law sp e g kk bt NB S) (nb_in m) training m H K1 N1) as [_ L]. exact (law_step (LNormBatchNorm training m) _ L (fun x y S => S) O1 O2).
  - destruct (induced_bn_law (B := B) isrep g bt (@Proofs_Net2.law G B sp e g kk) (fun S => entries_law sp e g kk bt NB S) (nb_in m) training m H H0 K1 N1) as [_ L]. exact (law_step (LInducedBatchNorm training m) _ L (fun x y S => S) O1 O2).
  - destruct (inner_bn_law (B := B) isrep g bt (@Proofs_Net2.law G B sp e g kk) (fun S => entries_law sp e g kk bt NB S) (ib_in m) training m junkn junkn' H K1 N1) as [_ L]. exact (law_step (LInnerBatchNorm training m) _ L (fun x y S => S) O1 O2).
  - destruct (gnorm_bn_law (B := B) sp isrep PS e g bt He Hg (@Proofs_Net2.law G B sp e g kk) (fun S => entries_law sp e g kk bt NB S) cob_id (gb_in m) training m junkn junkn' H H0 H1 K1 N1) as [_ L]. exact (law_step (LGNormBatchNorm training m) _ L (fun x y S => S) O1 O2).
  - assert (E : dm_in m = t) by (unfold dismod_make in H; clear - H; same_in H). rewrite E in N1, K1.
    destruct (disentangle_law (B := B) sp isrep PS g (@Proofs_Net2.law G B sp e g kk) (channel_law sp e g kk) t uniq m junk junk' H H0 N1 K1 N2) as [_ L]. refine (law_step (LDisentangle m) _ _ (fun x y S => S) O1 O2). cbn [layer_in layer_out]. rewrite E. exact L.
  - intros tt x x' y t' O R F _. pose proof (fwd_type _ _ _ _ F) as E. cbn [layer_in] in E. cbn [layer_forward] in F |- *. unfold on_channels in F |- *. cbn [fst snd] in F |- *.
    unfold fdrop_forward in F |- *. cbn [gt_type gt_data] in F |- *. rewrite E in F |- *. cbn [assert_ negb rbind fst gt_type gt_data] in F |- *. injection F as <- <-. split; [exact O|].
    eexists. split; [reflexivity|]. destruct O as (_ & N & _). apply (image_rel sp e g kk tt tt); auto; [apply channels_len|]. apply rel_acts; auto.
  - assert (E : pd_in m = t) by (unfold pdrop_make in H; clear - H; same_in H). rewrite E in N1, K1.
    destruct (pdrop_law (B := B) g (@Proofs_Net2.law G B sp e g kk) (channel_law sp e g kk) t p m (fun _ _ => 0) H N1) as [_ L]. refine (law_step (LPointwiseDropout m) _ _ (fun x y S => S) O1 O2). cbn [layer_in layer_out]. rewrite E. exact L.
Qed.

(** ** a sequence of layers *)
Notation modules jk jkn ls := (map (layer_module argmax jk jkn cob_id bt) ls).
Lemma run_step ls : Forall (good_layer sp isrep e g cob_id fits) ls -> forall tt x x' y t', ok_type tt -> rel tt x x' -> run_all (modules junk junkn ls) (x, tt) = Ok (y, t') ->
  suits_all argmax cob_id bt junk junkn ls (x, tt) -> ok_type t' /\ exists y', run_all (modules junk' junkn' ls) (x', tt) = Ok (y', t') /\ rel t' y y'.
Proof.
  induction 1 as [|l ls GL _ IH]; intros tt x x' y t' O R F S; cbn [map run_all suits_all] in *.
  - injection F as <- <-. split; [exact O|]. exists x'. auto.
  - apply rbind_ok in F as ([z t1] & F1 & F2). cbn [layer_module em_fwd] in F1. destruct (S _ F1) as [S1 S2]. cbn [fst] in S1.
    destruct (good_step l GL tt x x' z t1 O R F1 S1) as (O' & z' & F1' & R'). cbn [layer_module em_fwd]. rewrite F1'. cbn [rbind]. apply (IH t1 z z'); auto.
Qed.
End Net.
