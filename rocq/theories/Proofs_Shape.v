(** For C33 and networks: every module announces the shape of its output. *)
From Coq Require Import Reals ZArith String List Bool Lia Lra.
From Verif Require Import Base LinAlg Spec Spec_Fields Model_Groups Model_Rep Model_FieldType Proofs_FieldType Model_GSpace Spec_GSpace Model_Tensor Model_Utils Model_Modules Spec_Modules Proofs_Modules
  Model_Conv Spec_Conv Proofs_Conv5 Prop_Conv2 Model_R2Diffop Prop_R2Diffop Model_ConvT Prop_ConvT Model_Fieldwise Spec_Fieldwise Proofs_Fieldwise2 Model_BatchNorm
  Model_Pool Spec_Pool Prop_Pool2 Model_Upsample Prop_Upsample Model_NormMax Prop_NormMax Model_Mask Model_Disentangle Proofs_Disentangle4 Model_Dropout Model_Net Spec_Net Proofs_Net6
  Model_Export Spec_Export Proofs_Export Model_Shape Spec_Shape.
Import ListNotations.
Open Scope R_scope.

Section Step.
Context {G B : Type} (argmax : list R -> nat) (junk : nat -> B * (nat * nat) -> R) (junkn : nat -> nat -> R) (cob_id : rep G -> bool) (bt : batch B).
Notation teqb := (ft_eqb (@space_eqb G) (@rep_eqb G)).
Notation fwd := (xlayer_forward argmax junk junkn cob_id bt).
Notation lfwd := (layer_forward argmax junk junkn cob_id bt).

(** ** types *)
Lemma fwd_in (l : xlayer G) x t y : fwd l (x, t) = Ok y -> teqb t (xlayer_in l) = true.
Proof.
  destruct l as [m|al m|u|l]; cbn [xlayer_forward xlayer_in snd]; intros F.
  - exact (fwd_type argmax cob_id bt junk junkn (LPointwise m) _ _ _ F).
  - exact (fwd_type argmax cob_id bt junk junkn (LPointwise m) _ _ _ F).
  - apply assert_ok in F as [F _]. exact F.
  - exact (fwd_type argmax cob_id bt junk junkn l _ _ _ F).
Qed.
Lemma out_type (l : layer G) x t y t' : lfwd l (x, t) = Ok (y, t') -> teqb t' (layer_out l) = true.
Proof.
  intros F0. pose proof (fwd_type argmax cob_id bt junk junkn l _ _ _ F0) as TI. revert F0.
  destruct l; cbn [layer_forward layer_in layer_out fst snd] in *; unfold on_channels, on_entries; cbn [fst snd];
  unfold conv_forward, tconv_forward, maxpool_forward, amaxpool_forward, avgpool_forward, aavgpool_forward, adpool_forward, nmaxpool_forward, upsampling_forward, pointwise_forward, norm_forward, inorm_forward,
    gated1_forward, conc_forward, vfield_forward, gpool_forward, npool_forward, pool_forward, ipool_forward, nbn_forward, inner_forward, gnorm_forward, dismod_forward, fdrop_forward, pdrop_forward; cbv zeta;
  intros F.
  all: repeat match goal with
         | H : rbind (mk_gt _ _ _) _ = Ok _ |- _ => apply rbind_ok in H as (? & M & H); apply mk_gt_ok in M as [-> _]
         | H : mk_gt _ _ _ = Ok _ |- _ => apply mk_gt_ok in H as [-> _]
         | H : assert_ _ _ = Ok _ |- _ => apply assert_ok in H as [_ H]
         | H : rbind _ _ = Ok _ |- _ => apply rbind_ok in H as (? & ? & H)
         | H : match ?c with _ => _ end = Ok _ |- _ => destruct c; try discriminate
         | H : Ok _ = Ok _ |- _ => injection H; clear H; intros; subst
         end.
  all: try (cbn [gt_type]; apply teqb_refl). all: try exact TI.
Qed.

(** ** shapes *)
Notation shp batch x t := (shape_of (G := G) (B := B) batch (x, t)).
Definition tells (l : xlayer G) : Prop := forall batch x t y t', fwd l (x, t) = Ok (y, t') -> xlayer_shape l (shp batch x t) = Ok (shp batch y t').
Lemma new_channels_ok cin (t t' out : ctype G) batch (x y : arr (B -> vec)) : ct_size t = cin -> teqb t' out = true -> a_h y = a_h x -> a_w y = a_w x ->
  new_channels cin (ct_size out) (shp batch x t) = Ok (shp batch y t').
Proof. intros S E H W. unfold new_channels, shape_of. cbn [fst snd]. rewrite S, Z.eqb_refl, H, W, (teqb_size _ _ E). reflexivity. Qed.
Lemma with_ints_ok cin f (t t' : ctype G) batch (x y : arr (B -> vec)) : ct_size t = cin ->
  f (batch, Z.of_nat cin, Z.of_nat (a_h x), Z.of_nat (a_w x)) = Ok (batch, Z.of_nat (ct_size t'), Z.of_nat (a_h y), Z.of_nat (a_w y)) ->
  with_ints cin f (shp batch x t) = Ok (shp batch y t').
Proof. intros S F. unfold with_ints, shape_of. cbn [fst snd]. rewrite S, Z.eqb_refl. cbn [assert_]. rewrite F. reflexivity. Qed.
(** modules that keep height and width *)
Definition keeps (l : layer G) : bool :=
  match l with
  | LConv _ _ | LConvT _ _ | LMaxPool _ | LMaxPoolA _ | LAvgPool _ | LAvgPoolA _ | LAdaptive _ | LNormMax _ | LUpsampling _ => false
  | _ => true
  end.
Lemma keeps_dims (l : layer G) x t y t' : keeps l = true -> lfwd l (x, t) = Ok (y, t') -> a_h y = a_h x /\ a_w y = a_w x.
Proof.
  destruct l; try discriminate; intros _; cbn [layer_forward]; unfold on_channels, on_entries; cbn [fst snd]; intros F.
  all: try (apply rbind_ok in F as (z & _ & F); injection F as <- _; auto).
  apply assert_ok in F as [_ F]. apply rbind_ok in F as (z & F1 & F). injection F as <- _. unfold mask_forward in F1. apply assert_ok in F1 as [_ F1]. injection F1 as <-. auto.
Qed.
Lemma announces_tells (l : xlayer G) : announces l -> tells l.
Proof.
  assert (NEW : forall (l : layer G), keeps l = true -> (forall s, layer_shape l s = new_channels (ct_size (layer_in l)) (ct_size (layer_out l)) s) -> tells (MOther l)).
  { intros l0 K E batch x t y t' F. cbn [xlayer_shape xlayer_forward] in *. rewrite E. destruct (keeps_dims _ _ _ _ _ K F). pose proof (fwd_in (MOther l0) _ _ _ F) as TI. cbn [xlayer_in] in TI.
    apply new_channels_ok; auto; [apply teqb_size; exact TI|apply (out_type l0 x t y t' F)]. }
  assert (SAME : forall t0, (forall batch x t y t', teqb t t0 = true -> teqb t' t0 = true -> a_h y = a_h x -> a_w y = a_w x -> same_channels (ct_size t0) (shp batch x t) = Ok (shp batch y t'))).
  { intros t0 batch x t y t' E1 E2 H W. unfold same_channels, shape_of. cbn [fst snd]. rewrite (teqb_size _ _ E1), (teqb_size _ _ E2), Z.eqb_refl, H, W. reflexivity. }
  assert (INT : forall (l : layer G) f, (forall s, layer_shape l s = with_ints (ct_size (layer_in l)) f s) ->
     (forall batch x t y t', lfwd l (x, t) = Ok (y, t') -> f (batch, Z.of_nat (ct_size (layer_in l)), Z.of_nat (a_h x), Z.of_nat (a_w x)) = Ok (batch, Z.of_nat (ct_size t'), Z.of_nat (a_h y), Z.of_nat (a_w y))) -> tells (MOther l)).
  { intros l0 f E H batch x t y t' F. cbn [xlayer_shape xlayer_forward] in *. rewrite E. pose proof (fwd_in (MOther l0) _ _ _ F) as TI. cbn [xlayer_in] in TI.
    apply with_ints_ok; [apply teqb_size; exact TI|]. eapply H. exact F. }
  intros A. destruct A.
  - apply (INT _ (conv_output_shape m)); [reflexivity|]. intros batch x t y t' F. cbn [layer_forward layer_in fst snd] in *. destruct (conv_types _ _ _ _ _ _ _ _ _ _ _ _ _ _ _ H) as [E _].
    rewrite E. eapply C33_R2Conv_shape_partial; eauto.
  - apply (INT _ (conv_output_shape m)); [reflexivity|]. intros batch x t y t' F. cbn [layer_forward layer_in fst snd] in *. destruct (diffop_types _ _ _ _ _ _ _ _ _ _ _ _ _ _ _ _ _ H) as [E _].
    rewrite E. eapply C33_R2Diffop_shape_partial; eauto.
  - apply (INT _ (tconv_output_shape m)); [reflexivity|]. intros batch x t y t' F. cbn [layer_forward layer_in fst snd] in *.
    assert (E : tc_in m = tin) by (unfold tconv_make in H; clear -H; same_in H). rewrite E. eapply C33_transposed_shape_partial; eauto.
  - apply (INT _ (maxpool_shape m)); [reflexivity|]. intros batch x u y t' F. pose proof (fwd_in (MOther (LMaxPool m)) _ _ _ F) as TI. cbn [layer_forward layer_in xlayer_in fst snd] in *.
    assert (E : mp_in m = t) by (unfold maxpool_make in H; clear -H; same_in H). rewrite E in *. eapply C33_maxpool_shape_partial; eauto.
    unfold maxpool_forward in *. unfold ctype in *. rewrite E in *. rewrite TI in F. rewrite (teqb_refl t). exact F.
  - apply (INT _ (amaxpool_shape m)); [reflexivity|]. intros batch x u y t' F. pose proof (fwd_in (MOther (LMaxPoolA m)) _ _ _ F) as TI. cbn [layer_forward layer_in xlayer_in fst snd] in *.
    assert (E : mp_in (am_base m) = t) by (unfold amaxpool_make in H; clear -H; apply rbind_ok in H as (m0 & M & H); apply assert_ok in H as [_ H]; injection H as <-; unfold maxpool_make in M; same_in M).
    rewrite E in *. eapply C33_maxpool_antialiased_shape_partial; eauto.
    unfold amaxpool_forward in *. unfold ctype in *. rewrite E in *. rewrite TI in F. rewrite (teqb_refl t). exact F.
  - apply (INT _ (aavgpool_shape m)); [reflexivity|]. intros batch x u y t' F. pose proof (fwd_in (MOther (LAvgPoolA m)) _ _ _ F) as TI. cbn [layer_forward layer_in xlayer_in fst snd] in *.
    assert (E : aa_in m = t) by (unfold aavgpool_make in H; clear -H; same_in H).
    rewrite E in *. eapply C33_avgpool_antialiased_shape; eauto.
    unfold aavgpool_forward in *. unfold ctype in *. rewrite E in *. rewrite TI in F. rewrite (teqb_refl t). exact F.
  - apply (INT _ (nmaxpool_shape m)); [reflexivity|]. intros batch x u y t' F. pose proof (fwd_in (MOther (LNormMax m)) _ _ _ F) as TI. cbn [layer_forward layer_in xlayer_in fst snd] in *.
    assert (E : np_in m = t) by (unfold nmaxpool_make in H; clear -H; same_in H).
    rewrite E in *. eapply (C33_norm_max_shape _ _ space_eqb rep_eqb t k s p d ceil m B argmax junk x y t' batch); eauto.
    unfold nmaxpool_forward in *. unfold ctype in *. rewrite E in *. rewrite TI in F. rewrite (teqb_refl t). exact F.
  - intros batch x u y t' F. pose proof (fwd_in (MOther (LUpsampling m)) _ _ _ F) as TI. cbn [xlayer_forward xlayer_shape layer_shape layer_forward layer_in xlayer_in fst snd] in *.
    assert (E : up_in m = t) by (unfold upsampling_make in H; clear -H; same_in H). rewrite E in *.
    assert (F' : upsampling_forward space_eqb rep_eqb m t x = Ok (y, t')).
    { unfold upsampling_forward in *. unfold ctype in *. rewrite E in *. rewrite TI in F. rewrite (teqb_refl t). exact F. }
    pose proof (C33_upsampling_shape _ _ _ _ _ _ _ _ _ _ _ batch H F') as C. unfold shape_of at 1. cbn [fst snd].
    destruct (up_size m) as [o|] eqn:EO.
    + unfold upsampling_shape in C. rewrite EO in C. unfold ctype in *. rewrite E in C. change (ft_chans t) with (ct_size t) in C. rewrite Z.eqb_refl in C. cbn [assert_] in C.
      rewrite (teqb_size _ _ TI), Z.eqb_refl. cbn [assert_]. unfold shape_of. cbn [fst snd]. injection C as -> -> ->. reflexivity.
    + apply with_ints_ok; [apply teqb_size; exact TI|exact C].
  - intros batch x u y t' F. cbn [xlayer_forward xlayer_shape layer_shape] in *. destruct (keeps_dims (LMask t s margin) _ _ _ _ eq_refl F) as [H W].
    pose proof (fwd_in (MOther (LMask t s margin)) _ _ _ F) as TI. pose proof (out_type (LMask t s margin) _ _ _ _ F) as TO. cbn [layer_out layer_in xlayer_in] in TI, TO.
    unfold shape_of. cbn [fst snd]. rewrite H, W, (teqb_size _ _ TI), (teqb_size _ _ TO). reflexivity.
  - apply NEW; reflexivity.
  - exact (NEW (LPointwise m) eq_refl (fun _ => eq_refl)).
  - exact (NEW (LPointwise m) eq_refl (fun _ => eq_refl)).
  - apply NEW; reflexivity.
  - apply NEW; reflexivity.
  - apply NEW; reflexivity.
  - apply NEW; reflexivity.
  - apply NEW; reflexivity.
  - apply NEW; reflexivity.
  - apply NEW; reflexivity.
  - apply NEW; reflexivity.
  - apply NEW; reflexivity.
  - apply NEW; reflexivity.
  - apply NEW; reflexivity.
  - apply NEW; reflexivity.
  - intros batch x u y t' F. cbn [xlayer_forward xlayer_shape layer_shape] in *. destruct (keeps_dims (LDisentangle m) _ _ _ _ eq_refl F) as [Hh W].
    pose proof (fwd_in (MOther (LDisentangle m)) _ _ _ F) as TI. pose proof (out_type (LDisentangle m) _ _ _ _ F) as TO. cbn [layer_out layer_in xlayer_in] in TI, TO.
    destruct (dismod_ok t uniq m H H0 H1) as (E1 & _ & E2 & _). unfold shape_of. cbn [fst snd]. rewrite Hh, W, (teqb_size _ _ TI), (teqb_size _ _ TO). unfold ct_size, ctype in *. rewrite E1, E2.
assert (Q : forall l : list (rep G), (forall r, In r l -> rep_accepted r) -> nsum (map rp_size (concat (map dis_reps l))) = nsum (map rp_size l)).
    { clear. induction l as [|r l IH]; intros A; [reflexivity|]. cbn [map concat]. rewrite map_app, nsum_app, IH, dis_sizes by (intros; apply A; cbn; auto). reflexivity. }
    rewrite (Q _ H1). reflexivity.
  - intros batch x u y t' F. cbn [xlayer_forward xlayer_shape layer_shape] in *. destruct (keeps_dims (LFieldDropout m) _ _ _ _ eq_refl F) as [H W].
    pose proof (fwd_in (MOther (LFieldDropout m)) _ _ _ F) as TI. pose proof (out_type (LFieldDropout m) _ _ _ _ F) as TO. apply SAME; auto.
  - intros batch x u y t' F. cbn [xlayer_forward xlayer_shape layer_shape] in *. destruct (keeps_dims (LPointwiseDropout m) _ _ _ _ eq_refl F) as [H W].
    pose proof (fwd_in (MOther (LPointwiseDropout m)) _ _ _ F) as TI. pose proof (out_type (LPointwiseDropout m) _ _ _ _ F) as TO. apply SAME; auto.
  - intros batch x u y t' F. pose proof (fwd_in (MIdentity t) _ _ _ F) as TI. cbn [xlayer_forward xlayer_shape xlayer_in] in *. apply assert_ok in F as [_ F]. injection F as <- <-. apply SAME; auto.
Qed.
Lemma run_tells (ls : list (xlayer G)) : Forall announces ls -> forall batch x t y t', run_all (map (xlayer_module argmax junk junkn cob_id bt) ls) (x, t) = Ok (y, t') ->
  shape_all ls (shp batch x t) = Ok (shp batch y t').
Proof.
  induction 1 as [|l ls A _ IH]; intros batch x t y t' F; cbn [map run_all shape_all] in *.
  - injection F as <- <-. reflexivity.
  - apply rbind_ok in F as ([z u] & F1 & F2). cbn [xlayer_module em_fwd] in F1. rewrite (announces_tells l A _ _ _ _ _ F1). cbn [rbind]. eapply IH; eauto.
Qed.
End Step.
