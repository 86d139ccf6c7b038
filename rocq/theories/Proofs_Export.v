(** For C48: equal types; every module of a network computes what its conversion computes. *)
From Coq Require Import Reals ZArith String List Bool Lia Lra FunctionalExtensionality.
From Verif Require Import Base LinAlg Spec Spec_Fields Model_Groups Model_Rep Model_FieldType Proofs_FieldType Model_GSpace Spec_GSpace Proofs_GSpace Model_Tensor Model_Utils Model_Modules Spec_Modules Proofs_Modules
  Model_Conv Spec_Conv Proofs_Conv5 Proofs_Conv6 Prop_Conv2 Model_ConvT Prop_ConvT Model_Fieldwise Spec_Fieldwise Spec_Fieldwise2 Proofs_Fieldwise2 Proofs_Fieldwise6 Model_BatchNorm Spec_BatchNorm Proofs_BatchNorm5 Proofs_BatchNorm6 Proofs_BatchNorm8 Proofs_BatchNorm9
  Prop_BatchNorm Model_Pool Spec_Pool Proofs_Pool Proofs_Pool2 Prop_Pool Prop_Pool2 Model_Upsample Proofs_Upsample Prop_Upsample Model_NormMax Model_Dropout Model_Net Spec_Net Proofs_Net Proofs_Net3 Proofs_Net5 Proofs_Net6
  Model_Export Spec_Export.
Import ListNotations.
Open Scope R_scope.

(** ** equality of types is an equivalence *)
Section Types.
Context {G : Type}.
Notation teqb := (ft_eqb (@space_eqb G) (@rep_eqb G)).
Lemma list_eqb_sym {A} (eqb : A -> A -> bool) : (forall a b, eqb a b = true -> eqb b a = true) -> forall l l', list_eqb eqb l l' = true -> list_eqb eqb l' l = true.
Proof. intros H. induction l as [|a l IH]; intros [|b l']; cbn; auto. rewrite !andb_true_iff. intros [H1 H2]. auto. Qed.
Lemma list_eqb_trans {A} (eqb : A -> A -> bool) : (forall a b c, eqb a b = true -> eqb b c = true -> eqb a c = true) ->
  forall l l' l'', list_eqb eqb l l' = true -> list_eqb eqb l' l'' = true -> list_eqb eqb l l'' = true.
Proof. intros H. induction l as [|a l IH]; intros [|b l'] [|c l'']; cbn; auto; try discriminate. rewrite !andb_true_iff. intros [H1 H2] [H3 H4]. eauto. Qed.
Lemma irrep_same_size (l l' : list (irrep G)) : list_eqb irrep_same l l' = true -> isizes l = isizes l'.
Proof.
  revert l'. induction l as [|a l IH]; intros [|b l']; cbn [list_eqb]; auto; try discriminate. rewrite andb_true_iff. intros [H1 H2]. specialize (IH _ H2).
  unfold irrep_same in H1. rewrite !andb_true_iff, Nat.eqb_eq in H1. unfold isizes, nsum in *. cbn [map fold_right]. destruct H1 as [_ ->]. congruence.
Qed.
Lemma rep_eqb_size (a b : rep G) : rep_eqb a b = true -> rp_size a = rp_size b.
Proof. unfold rep_eqb. rewrite !andb_true_iff. intros [[[_ H] _] _]. apply irrep_same_size in H. exact H. Qed.
Lemma cob_iff (n : nat) (A B : mat) : forallb (fun i => forallb (fun j => Reqb (A i j) (B i j)) (seq 0 n)) (seq 0 n) = true <-> meq n n A B.
Proof.
  rewrite forallb_forall. split.
  - intros H i j Hi Hj. specialize (H i ltac:(apply in_seq; lia)). rewrite forallb_forall in H. specialize (H j ltac:(apply in_seq; lia)). destruct (Reqb_spec (A i j) (B i j)); [auto|discriminate].
  - intros H i Hi. apply forallb_forall. intros j Hj. apply in_seq in Hi, Hj. rewrite (H i j) by lia. destruct (Reqb_spec (B i j) (B i j)); congruence.
Qed.
Lemma subset_iff (l l' : list string) : forallb (fun x => existsb (String.eqb x) l') l = true <-> incl l l'.
Proof.
  rewrite forallb_forall. unfold incl. split; intros H x Hx; specialize (H x Hx).
  - apply existsb_exists in H as (y & Hy & E). apply String.eqb_eq in E. congruence.
  - apply existsb_exists. exists x. split; [auto|apply String.eqb_refl].
Qed.
Lemma irrep_same_sym (a b : irrep G) : irrep_same a b = true -> irrep_same b a = true.
Proof. unfold irrep_same. rewrite !andb_true_iff, !Z.eqb_eq, !Nat.eqb_eq. intuition congruence. Qed.
Lemma irrep_same_trans (a b c : irrep G) : irrep_same a b = true -> irrep_same b c = true -> irrep_same a c = true.
Proof. unfold irrep_same. rewrite !andb_true_iff, !Z.eqb_eq, !Nat.eqb_eq. intuition congruence. Qed.
Lemma rep_eqb_sym (a b : rep G) : rep_eqb a b = true -> rep_eqb b a = true.
Proof.
  intros H. pose proof (rep_eqb_size _ _ H) as S. unfold rep_eqb in *. rewrite !andb_true_iff, !subset_iff, cob_iff in *. destruct H as [[[H1 H2] H3] [H4 H5]]. rewrite <- S.
  split; [|tauto]. split; [split|]; [|apply list_eqb_sym; auto using irrep_same_sym|symmetry; exact H3].
  apply String.eqb_eq in H1. rewrite H1. apply String.eqb_refl.
Qed.
Lemma rep_eqb_trans (a b c : rep G) : rep_eqb a b = true -> rep_eqb b c = true -> rep_eqb a c = true.
Proof.
  intros H K. pose proof (rep_eqb_size _ _ H) as S. unfold rep_eqb in *. rewrite !andb_true_iff, !subset_iff, !cob_iff in *. rewrite <- S in K.
  destruct H as [[[H1 H2] H3] [H4 H5]], K as [[[K1 K2] K3] [K4 K5]]. split; [|split; eapply incl_tran; eauto]. split; [split|].
  - apply String.eqb_eq in H1, K1. rewrite H1, K1. apply String.eqb_refl.
  - eapply list_eqb_trans; eauto using irrep_same_trans.
  - etransitivity; eauto.
Qed.
Lemma sp_eqb_sym a b : sp_eqb a b = true -> sp_eqb b a = true.
Proof. destruct a, b; cbn; try discriminate; intros H; apply fg_eqb_eq in H; subst; apply fg_eqb_refl. Qed.
Lemma sp_eqb_trans a b c : sp_eqb a b = true -> sp_eqb b c = true -> sp_eqb a c = true.
Proof. destruct a, b, c; cbn; try discriminate; intros H K; apply fg_eqb_eq in H; apply fg_eqb_eq in K; subst; apply fg_eqb_refl. Qed.
Lemma teqb_sym (t t' : ctype G) : teqb t t' = true -> teqb t' t = true.
Proof. unfold ft_eqb, space_eqb. rewrite !andb_true_iff. intros [H1 H2]. split; [apply sp_eqb_sym; auto|apply list_eqb_sym; auto using rep_eqb_sym]. Qed.
Lemma teqb_trans (t t' t'' : ctype G) : teqb t t' = true -> teqb t' t'' = true -> teqb t t'' = true.
Proof. unfold ft_eqb, space_eqb. rewrite !andb_true_iff. intros [H1 H2] [H3 H4]. split; [eapply sp_eqb_trans; eauto|eapply list_eqb_trans; eauto using rep_eqb_trans]. Qed.
Lemma teqb_size (t t' : ctype G) : teqb t t' = true -> ct_size t = ct_size t'.
Proof.
  unfold ft_eqb. rewrite andb_true_iff. intros [_ H]. unfold ct_size. f_equal. revert H. generalize (ft_reps t'). induction (ft_reps t) as [|a l IH]; intros [|b l']; cbn; auto; try discriminate.
  rewrite andb_true_iff. intros [H1 H2]. f_equal; auto. apply rep_eqb_size; auto.
Qed.
End Types.

Ltac same_in H :=
  repeat match goal with M : assert_ _ _ = Ok _ |- _ => apply assert_ok in M as [_ M] | M : rbind _ _ = Ok _ |- _ => apply rbind_ok in M as (? & _ & M)
      | M : (if ?c then _ else _) = Ok _ |- _ => destruct c; try discriminate | M : match ?c with _ => _ end = Ok _ |- _ => destruct c; try discriminate | M : (let _ := _ in _) = Ok _ |- _ => cbv zeta in M end;
  injection H as <-; reflexivity.

(** ** one module *)
Section Step.
Context {G B : Type} (argmax : list R -> nat) (junk : nat -> B * (nat * nat) -> R) (junkn : nat -> nat -> R) (cob_id : rep G -> bool) (bt : batch B).
Hypothesis NB : numbered bt.
Notation teqb := (ft_eqb (@space_eqb G) (@rep_eqb G)).
Notation fwd := (xlayer_forward argmax junk junkn cob_id bt).
Definition agree (out : ctype G) (r : result (arr (B -> vec) * ctype G)) (r' : result (nat * arr (B -> vec))) : Prop :=
  same_outcome r r' /\ forall y t, r = Ok (y, t) -> teqb t out = true.
Definition xstep (l : xlayer G) (m : tlayer) : Prop := forall t x x', teqb t (xlayer_in l) = true -> same_field (ct_size t) x x' ->
  agree (xlayer_out l) (fwd l (x, t)) (tlayer_forward bt m (ct_size t, x')).

(** an operation on images that respects equal channels, with equal types *)
Lemma op_agree (t out : ctype G) n (op : arr (B -> vec) -> result (arr (B -> vec))) x x' :
  (forall x x' y, same_field (ct_size t) x x' -> op x = Ok y -> exists y', op x' = Ok y' /\ same_field n y y') -> n = ct_size out -> same_field (ct_size t) x x' ->
  agree out (rbind (op x) (fun y => Ok (y, out))) (rbind (op x') (fun y => Ok (n, y))).
Proof.
  intros SF E S. split.
  - destruct (op x) as [y|er] eqn:E1.
    + destruct (SF _ _ _ S E1) as (y' & E2 & S2). rewrite E2. cbn [rbind same_outcome]. auto.
    + destruct (op x') as [y'|er'] eqn:E2; [|exact I]. destruct (SF _ _ _ (same_field_sym _ _ _ S) E2) as (y & E3 & _). congruence.
  - intros y u H. apply rbind_ok in H as (z & _ & H). injection H as _ <-. apply teqb_refl.
Qed.

Lemma channels_same n (x x' : arr (B -> vec)) : same_field n x x' -> channels n x = channels n x'.
Proof.
  intros (H1 & H2 & H3). unfold channels. apply map_ext_in. intros c Hc. apply in_seq in Hc. extensionality q. unfold in_image. rewrite <- H1, <- H2.
  destruct (_ && _)%bool eqn:E; [|reflexivity]. apply andb_true_iff in E as [E1 E2]. apply Nat.ltb_lt in E1, E2. apply H3; auto; lia.
Qed.
Lemma flat_channels_same n (x x' : arr (B -> vec)) : same_field n x x' -> flat_channels bt n x = flat_channels bt n x'.
Proof.
  intros (H1 & H2 & H3). unfold flat_channels. rewrite <- H1, <- H2. apply map_ext_in. intros c Hc. apply in_seq in Hc. extensionality p. destruct (Nat.ltb_spec p (bt_n bt * (a_h x * a_w x))%nat) as [Hp|]; [|reflexivity].
  destruct (unflat_in bt NB _ _ _ Hp) as [[U1 U2] _]. apply H3; auto; lia.
Qed.
(** the image of the channels of an image *)
Lemma image_channels n (x : arr (B -> vec)) i j b c : (i < a_h x)%nat -> (j < a_w x)%nat -> (c < n)%nat ->
  nth c (channels n x) (fun _ => 0) (b, (i, j)) = a_px x i j b c.
Proof.
  intros Hi Hj Hc. change (val (channels n x) c (b, (i, j)) = a_px x i j b c). rewrite channels_val by auto. unfold in_image. cbn [fst snd].
  rewrite (proj2 (Nat.ltb_lt _ _) Hi), (proj2 (Nat.ltb_lt _ _) Hj). reflexivity.
Qed.

Lemma conv_xstep version m w b ops c l' : xlayer_export version (MOther (LConv m (conv_history m (initial_state m w b) ops))) = Ok (c, l') -> xstep l' c.
Proof.
  intros E. cbn [xlayer_export] in E. apply rbind_ok in E as ([c0 st'] & E & E'). cbn [fst snd] in E'. injection E' as <- <-. destruct (C48_R2Conv_export _ _ _ _ _ _ _ _ E) as [_ H].
  assert (CI : c2_in c0 = ct_size (cv_in m) /\ c2_out c0 = ct_size (cv_out m)).
  { unfold conv_export in E. repeat apply rbind_ok in E as (? & _ & E). destruct (match cv_mode m with MZeros => false | _ => _ end); [discriminate|]. injection E as <- _. auto. }
  destruct CI as [CI CO]. intros t x x' TE S. cbn [xlayer_in xlayer_out layer_in layer_out] in *. cbn [xlayer_forward layer_forward tlayer_forward fst snd]. rewrite CI, CO, (teqb_size _ _ TE), Nat.eqb_refl.
  assert (EQ : forall z : arr (B -> vec), conv_forward m st' t z = rbind (conv2d_forward c0 z) (fun y => Ok (y, cv_out m))).
  { intros z. rewrite <- (H B z (teqb_refl _)). unfold conv_forward. rewrite TE, teqb_refl. reflexivity. }
  rewrite EQ. apply (op_agree t (cv_out m)); [|reflexivity|exact S]. intros z z' y SZ F. rewrite (teqb_size _ _ TE) in SZ.
  assert (F' : conv_forward m st' t z = Ok (y, cv_out m)) by (rewrite EQ, F; reflexivity). destruct (conv_forward_same _ _ _ _ _ _ _ SZ F') as (_ & y' & G1 & G2). exists y'. split; [|exact G2].
  rewrite EQ in G1. apply rbind_ok in G1 as (u & G1 & G3). injection G3 as <-. exact G1.
Qed.
Lemma tconv_xstep version m w b ops c l' : tc_opad m = 0%nat -> xlayer_export version (MOther (LConvT m (tconv_history m (initial_state_t m w b) ops))) = Ok (c, l') -> xstep l' c.
Proof.
  intros OP E. cbn [xlayer_export] in E. apply rbind_ok in E as ([c0 st'] & E & E'). cbn [fst snd] in E'. injection E' as <- <-. destruct (C48_transposed_export_partial _ _ _ _ _ _ _ OP E) as [_ H].
  assert (CI : ct_in c0 = ct_size (tc_in m) /\ ct_out c0 = ct_size (tc_out m)).
  { unfold tconv_export in E. repeat apply rbind_ok in E as (? & _ & E). injection E as <- _. auto. }
  destruct CI as [CI CO]. intros t x x' TE S. cbn [xlayer_in xlayer_out layer_in layer_out] in *. cbn [xlayer_forward layer_forward tlayer_forward fst snd]. rewrite CI, CO, (teqb_size _ _ TE), Nat.eqb_refl.
  assert (EQ : forall z : arr (B -> vec), tconv_forward m st' t z = rbind (convt2d_forward c0 z) (fun y => Ok (y, tc_out m))).
  { intros z. rewrite <- (H B z (teqb_refl _)). unfold tconv_forward. rewrite TE, teqb_refl. reflexivity. }
  rewrite EQ. apply (op_agree t (tc_out m)); [|reflexivity|exact S]. intros z z' y SZ F. rewrite (teqb_size _ _ TE) in SZ.
  assert (F' : tconv_forward m st' t z = Ok (y, tc_out m)) by (rewrite EQ, F; reflexivity). destruct (tconv_forward_same _ _ _ _ _ _ _ SZ F') as (_ & y' & G1 & G2). exists y'. split; [|exact G2].
  rewrite EQ in G1. apply rbind_ok in G1 as (u & G1 & G3). injection G3 as <-. exact G1.
Qed.
(** modules that return a tensor of their input type, and act on images *)
Lemma grid_agree (t tin : ctype G) (op : arr (B -> vec) -> result (arr (B -> vec))) x x' : teqb t tin = true ->
  (forall x x' y, same_field (ct_size t) x x' -> op x = Ok y -> exists y', op x' = Ok y' /\ same_field (ct_size t) y y') -> same_field (ct_size t) x x' ->
  agree tin (rbind (op x) (fun y => Ok (y, tin))) (rbind (op x') (fun y => Ok (ct_size t, y))).
Proof. intros TE SF S. apply (op_agree t tin); auto. apply teqb_size; auto. Qed.
Lemma maxpool_xstep version t k s p d m c l' : maxpool_make t k s p d false = Ok m -> xlayer_export version (MOther (LMaxPool m)) = Ok (c, l') -> xstep l' c.
Proof.
  intros M E. cbn [xlayer_export] in E. apply rbind_ok in E as (c0 & E & E'). injection E' as <- <-. pose proof (C48_maxpool_export_partial _ _ _ _ _ _ _ _ M E) as H.
  assert (EI : mp_in m = t) by (unfold maxpool_make in M; apply assert_ok in M as [_ M]; injection M as <-; reflexivity).
  intros u x x' TE S. cbn [xlayer_in xlayer_out layer_in layer_out] in *. cbn [xlayer_forward layer_forward tlayer_forward fst snd]. rewrite EI in *.
  assert (EQ : forall z : arr (B -> vec), maxpool_forward space_eqb rep_eqb m u z = rbind (tmod_forward c0 z) (fun y => Ok (y, t))).
  { intros z. refine (eq_trans _ (H B z (teqb_refl _))). unfold maxpool_forward, ctype in *. rewrite EI, TE, teqb_refl. reflexivity. }
  rewrite EQ. apply grid_agree; auto. injection E as <-. cbn [tmod_forward]. intros z z' y. apply (go_same _ _ _ _ _ (max_pool_grid _ _ _ _ _ _)).
Qed.
Lemma amaxpool_xstep version t k s p d ceil sigma m c l' : amaxpool_make t k s p d ceil sigma = Ok m -> xlayer_export version (MOther (LMaxPoolA m)) = Ok (c, l') -> xstep l' c.
Proof.
  intros M E. cbn [xlayer_export] in E. apply rbind_ok in E as (c0 & E & E'). injection E' as <- <-. pose proof (C48_maxpool_antialiased_export _ _ _ _ _ _ _ _ _ _ M E) as H.
  assert (EI : mp_in (am_base m) = t) by (clear - M; unfold amaxpool_make in M; destruct d as [[|[|]]|]; try discriminate; apply rbind_ok in M as (m0 & M0 & M); assert (E0 : mp_in m0 = t) by (unfold maxpool_make in M0; same_in M0); rewrite <- E0; same_in M).
  intros u x x' TE S. cbn [xlayer_in xlayer_out layer_in layer_out] in *. cbn [xlayer_forward layer_forward tlayer_forward fst snd]. rewrite EI in *.
  assert (EQ : forall z : arr (B -> vec), amaxpool_forward space_eqb rep_eqb m u z = rbind (tmod_forward c0 z) (fun y => Ok (y, t))).
  { intros z. refine (eq_trans _ (H B z (teqb_refl _))). unfold amaxpool_forward, ctype in *. rewrite EI, TE, teqb_refl. reflexivity. }
  rewrite EQ. apply grid_agree; auto. injection E as <-. cbn [tmod_forward fold_left rbind]. intros z z' y SZ F. apply rbind_ok in F as (v & F1 & F2).
  destruct (go_same _ _ _ _ _ (max_pool_grid _ _ _ _ _ _) _ _ _ SZ F1) as (v' & F3 & S3). rewrite F3. cbn [rbind].
  apply (go_same _ _ _ _ _ (depthwise_grid _ _ _ _ _ (gauss_rows _ _) (fun a b _ _ => gauss_tr _ _ a b)) _ _ _ S3 F2).
Qed.
Lemma adaptive_xstep version mx t o m c l' : adpool_make mx t o = Ok m -> xlayer_export version (MOther (LAdaptive m)) = Ok (c, l') -> xstep l' c.
Proof.
  intros M E. cbn [xlayer_export] in E. apply rbind_ok in E as (c0 & E & E'). injection E' as <- <-. pose proof (C48_adaptive_export _ _ _ _ _ _ M E) as H.
  assert (EI : ad_in m = t) by (unfold adpool_make in M; same_in M).
  intros u x x' TE S. cbn [xlayer_in xlayer_out layer_in layer_out] in *. cbn [xlayer_forward layer_forward tlayer_forward fst snd]. rewrite EI in *.
  assert (EQ : forall z : arr (B -> vec), adpool_forward space_eqb rep_eqb m u z = rbind (tmod_forward c0 z) (fun y => Ok (y, t))).
  { intros z. refine (eq_trans _ (H B z (teqb_refl _))). unfold adpool_forward, ctype in *. rewrite EI, TE, teqb_refl. reflexivity. }
  rewrite EQ. apply grid_agree; auto. injection E as <-. cbn [tmod_forward]. intros z z' y. destruct (ad_max m); [apply (go_same _ _ _ _ _ (adaptive_max_grid _ _))|apply (go_same _ _ _ _ _ (adaptive_mean_grid _ _))].
Qed.
Lemma upsampling_xstep version t scale mode align m c l' : upsampling_make t scale None mode align = Ok m -> xlayer_export version (MOther (LUpsampling m)) = Ok (c, l') -> xstep l' c.
Proof.
  intros M E. cbn [xlayer_export] in E. apply rbind_ok in E as (c0 & E & E'). injection E' as <- <-. pose proof (C48_upsampling_export_partial _ _ _ _ _ _ _ M E) as H.
  assert (EI : up_in m = t) by (unfold upsampling_make in M; same_in M).
  intros u x x' TE S. cbn [xlayer_in xlayer_out layer_in layer_out] in *. cbn [xlayer_forward layer_forward tlayer_forward fst snd]. rewrite EI in *.
  assert (EQ : forall z : arr (B -> vec), upsampling_forward space_eqb rep_eqb m u z = rbind (tupsample_forward c0 z) (fun y => Ok (y, t))).
  { intros z. refine (eq_trans _ (H B z (teqb_refl _))). unfold upsampling_forward, ctype in *. rewrite EI, TE, teqb_refl. reflexivity. }
  rewrite EQ. apply grid_agree; auto. injection E as <-. unfold tupsample_forward. cbn [tu_size tu_scale tu_mode tu_align]. intros z z' y. apply (go_same _ _ _ _ _ (interp_grid _ _ _ _ _)).
Qed.

(** modules that act on every entry *)
Lemma pointwise_agree (m : pointwise (GS := space G) (G := G)) t x x' : teqb t (pw_in m) = true -> same_field (ct_size t) x x' ->
  agree (pw_in m) (on_channels (pointwise_forward space_eqb rep_eqb m) (x, t)) (Ok (ct_size t, MkArr (a_h x') (a_w x') (fun i j b c => pw_fun m (a_px x' i j b c)))).
Proof.
  intros TE S. unfold on_channels, pointwise_forward. cbn [fst snd gt_type gt_data]. rewrite TE. cbn [assert_]. unfold mk_gt. rewrite map_length, channels_len.
  change (ft_size rp_size (pw_in m)) with (ct_size (pw_in m)). rewrite (teqb_size _ _ TE), Z.eqb_refl. cbn [assert_ rbind gt_data gt_type]. split; [|intros y u H; injection H as _ <-; apply teqb_refl].
  cbn [same_outcome]. split; [reflexivity|]. rewrite <- (teqb_size _ _ TE). pose proof S as (S1 & S2 & S3). split; [exact S1|]. split; [exact S2|]. cbn [image a_h a_w a_px]. intros i j b c Hi Hj Hc. rewrite <- S3 by auto.
  rewrite <- (image_channels (ct_size t) x i j b c Hi Hj Hc).
  rewrite (nth_indep _ _ ((fun c0 p => pw_fun m (c0 p)) (fun _ => 0))) by (rewrite map_length, channels_len; auto). rewrite (map_nth (fun c0 p => pw_fun m (c0 p))). reflexivity.
Qed.
Lemma relu_xstep version t m c l' : relu_make t = Ok m -> xlayer_export version (MReLU m) = Ok (c, l') -> xstep l' c.
Proof.
  intros M E. injection E as <- <-. intros u x x' TE S. cbn [xlayer_in xlayer_out] in *. cbn [xlayer_forward layer_forward tlayer_forward fst snd].
  assert (F : pw_fun m = relu) by (unfold relu_make in M; apply assert_ok in M as [_ M]; injection M as <-; reflexivity). pose proof (pointwise_agree m u x x' TE S) as A. rewrite F in A. exact A.
Qed.
Lemma elu_xstep version t alpha m c l' : elu_make t alpha = Ok m -> xlayer_export version (MELU alpha m) = Ok (c, l') -> xstep l' c.
Proof.
  intros M E. injection E as <- <-. intros u x x' TE S. cbn [xlayer_in xlayer_out] in *. cbn [xlayer_forward layer_forward tlayer_forward fst snd].
  assert (F : pw_fun m = elu alpha) by (unfold elu_make in M; apply assert_ok in M as [_ M]; injection M as <-; reflexivity). pose proof (pointwise_agree m u x x' TE S) as A. rewrite F in A. exact A.
Qed.
Lemma pdrop_xstep version t p m c l' : pdrop_make t p = Ok m -> xlayer_export version (MOther (LPointwiseDropout m)) = Ok (c, l') -> xstep l' c.
Proof.
  intros M E. injection E as <- <-. intros u x x' TE S. cbn [xlayer_in xlayer_out layer_in layer_out] in *. cbn [xlayer_forward layer_forward tlayer_forward fst snd].
  unfold on_channels, pdrop_forward. cbn [fst snd gt_type gt_data negb]. rewrite TE. cbn [assert_]. unfold mk_gt. rewrite channels_len.
  change (ft_size rp_size (pd_in m)) with (ct_size (pd_in m)). rewrite (teqb_size _ _ TE), Z.eqb_refl. cbn [assert_ rbind gt_data gt_type]. split; [|intros y v H; injection H as _ <-; apply teqb_refl].
  cbn [same_outcome]. split; [reflexivity|]. rewrite <- (teqb_size _ _ TE). pose proof S as (S1 & S2 & S3). split; [exact S1|]. split; [exact S2|]. cbn [image a_h a_w a_px]. intros i j b c Hi Hj Hc. rewrite <- S3 by auto.
  apply image_channels; auto.
Qed.
Lemma identity_xstep version t c l' : xlayer_export version (MIdentity t) = Ok (c, l') -> xstep l' c.
Proof.
  intros E. injection E as <- <-. intros u x x' TE S. cbn [xlayer_in xlayer_out] in *. cbn [xlayer_forward tlayer_forward fst snd]. rewrite TE. cbn [assert_]. split; [|intros y v H; injection H as _ <-; exact TE].
  cbn [same_outcome]. auto.
Qed.
Lemma inner_xstep version training m c l' : inner_bn_reached (ib_in m) m -> sizes_positive (ib_in m) -> xlayer_export version (MOther (LInnerBatchNorm training m)) = Ok (c, l') -> xstep l' c.
Proof.
  intros (eps & mo & affine & track & m0 & jk & h & ys & MK & E0 & MO & H & R) SP E. cbn [xlayer_export] in E. apply rbind_ok in E as ([st pr] & E & E'). injection E' as <- <-.
  destruct (inner_wf (ib_in m) eps mo affine track m0 MK SP E0 MO) as (WF & I1 & I2 & _ & _ & I5 & _).
  destruct (inner_life space_eqb rep_eqb jk m0 h WF) as (zs & mm & RR & W & K1 & K2 & _).
  { apply Forall_forall. intros ev He'. rewrite Forall_forall in H. specialize (H ev He'). destruct ev as [tr' n' x'|w]; cbn [allowed] in *; unfold ib_sizes; rewrite I1; [|exact H]. destruct H as [TX N0]. split; [exact TX|].
    intros C s Hs. unfold ib_sizes in Hs. rewrite I1 in Hs. rewrite I5 in C. apply in_map_iff in Hs as (r & <- & Hr). apply N0; auto. }
  rewrite R in RR. injection RR as _ <-. clear R ys zs.
  intros u x x' TE S. cbn [xlayer_in xlayer_out layer_in layer_out fst snd] in *. cbn [xlayer_forward layer_forward tlayer_forward fst snd]. unfold on_entries. cbn [fst snd].
  destruct (inner_export_ok space_eqb rep_eqb (bt_n bt * (a_h x * a_w x))%nat junkn m (MkGT (flat_channels bt (ct_size u) x) u) st pr W E) as (y & F1 & F2).
  { split; [exact TE|]. cbn [gt_data]. rewrite flat_channels_len. apply teqb_size; auto. }
  rewrite F1. cbn [rbind fst snd]. cbn [gt_data] in F2. rewrite <- (flat_channels_same _ _ _ S), F2. cbn [rbind].
  assert (TY : gt_type y = ib_in m /\ length (gt_data y) = ct_size (ib_in m)).
  { unfold inner_forward in F1. apply assert_ok in F1 as [_ F1]. apply rbind_ok in F1 as ([d mm] & _ & F1). apply rbind_ok in F1 as (z & F1 & F3). apply mk_gt_ok in F1 as [F4 F5]. injection F3 as <- _. subst z. cbn [gt_type gt_data]. auto. }
  destruct TY as [TY1 TY2]. rewrite TY1. split; [|intros z v Hz; injection Hz as _ <-; apply teqb_refl]. cbn [same_outcome]. split; [apply teqb_size; auto|]. destruct S as (S1 & S2 & _). rewrite <- S1, <- S2.
  split; [reflexivity|]. split; [reflexivity|]. reflexivity.
Qed.

(** GroupPooling *)
Lemma cut_repeat {A} s k : forall (d : list A) f, (f < k)%nat -> nth_error (Spec_Fields.cut (repeat s k) d) f = Some (firstn s (skipn (f * s) d)).
Proof.
  induction k as [|k IH]; intros d f Hf; [lia|]. cbn [repeat Spec_Fields.cut]. destruct f as [|f]; [reflexivity|]. cbn [nth_error]. rewrite IH by lia. f_equal. f_equal. rewrite skipn_skipn. f_equal. cbn [Nat.mul]. lia.
Qed.
Lemma part_seq o s n : (o + s <= n)%nat -> firstn s (skipn o (seq 0 n)) = seq o s.
Proof.
  intros H. replace n with (o + (s + (n - o - s)))%nat by lia. rewrite !seq_app. rewrite skipn_app, seq_length, Nat.sub_diag. rewrite skipn_all2 by (rewrite seq_length; lia). cbn [app skipn Nat.add].
  rewrite firstn_app, seq_length, Nat.sub_diag. rewrite firstn_all2 by (rewrite seq_length; lia). cbn [firstn]. apply app_nil_r.
Qed.
Lemma vmax_list {X} (b : list (X -> R)) q : vmax b q = max_list (map (fun c => c q) b).
Proof. destruct b as [|c b]; [reflexivity|]. cbn [vmax map max_list]. generalize (c q). induction b as [|c' b IH]; intros v; [reflexivity|]. cbn [map fold_left]. apply IH. Qed.
Lemma nsum_repeat s k : nsum (repeat s k) = (k * s)%nat.
Proof. induction k; cbn; unfold nsum in *; cbn; lia. Qed.
Lemma map_seq_add o s : forall q, map (fun a => o + a)%nat (seq q s) = seq (o + q) s.
Proof. induction s as [|s IH]; intros q; [reflexivity|]. cbn [seq map]. f_equal. rewrite IH. f_equal. lia. Qed.
Lemma gpool_xstep version fits triv t m c l' : gpool_make fits triv t = Ok m -> rp_size (triv (ft_gs t)) = 1%nat -> sizes_positive t -> xlayer_export version (MOther (LGroupPool m)) = Ok (c, l') -> xstep l' c.
Proof.
  intros M T1 SP E. cbn [xlayer_export] in E. apply rbind_ok in E as (c0 & E & E'). injection E' as <- <-. unfold gpool_make in M. apply assert_ok in M as [_ M].
  assert (EI : po_in m = t /\ po_out m = MkFT (ft_gs t) (repeat (triv (ft_gs t)) (length (ft_reps t)))).
  { pose proof M as M'. unfold pool_make_with in M'. apply rbind_ok in M' as (out & MO & M'). apply rbind_ok in M' as (e & PI & M'). injection M' as <-. apply mk_ftype_ok in MO as [-> _]. auto. }
  destruct EI as [EI EO]. unfold gpool_export in E. rewrite EI in E.
  destruct (first_seen Nat.eqb (map rp_size (ft_reps t))) as [|s [|]] eqn:FS; try discriminate. injection E as <-.
  assert (SZ : forall r, In r (ft_reps t) -> rp_size r = s).
  { intros r Hr. assert (I : In (rp_size r) (first_seen Nat.eqb (map rp_size (ft_reps t)))) by (apply (first_seen_in _ Nat.eqb_spec), in_map; exact Hr). rewrite FS in I. destruct I as [I|[]]. auto. }
  assert (S0 : (0 < s)%nat).
  { assert (I : In s (map rp_size (ft_reps t))) by (apply (first_seen_in _ Nat.eqb_spec); rewrite FS; left; reflexivity). apply in_map_iff in I as (r & <- & Hr). apply SP; auto. }
  set (k := length (ft_reps t)) in *.
  assert (MS : map rp_size (ft_reps t) = repeat s k).
  { unfold k. clear - SZ. induction (ft_reps t) as [|r l IH]; [reflexivity|]. cbn [map length repeat]. rewrite (SZ r) by (left; reflexivity). f_equal. apply IH. intros r' Hr'. apply SZ. right. exact Hr'. }
  assert (CT : ct_size t = (k * s)%nat) by (unfold ct_size; rewrite MS; apply nsum_repeat).
  intros u x x' TE S. cbn [xlayer_in xlayer_out layer_in layer_out] in *. rewrite EI in TE. cbn [xlayer_forward layer_forward tlayer_forward fst snd]. unfold on_channels. cbn [fst snd].
  destruct (pool_fieldwise fits space_eqb rep_eqb triv t m vmax junk (MkGT (channels (ct_size u) x) u) T1 M SP) as (y & F & TY & FW).
  { split; [exact TE|]. cbn [gt_data]. rewrite channels_len. apply teqb_size; auto. }
  unfold gpool_forward. rewrite F. cbn [rbind]. rewrite (teqb_size _ _ TE), CT in *. unfold max_channels.
  destruct (Nat.eqb_spec s 0) as [Z0|_]; [lia|]. rewrite Nat.mod_mul, Nat.div_mul by lia. cbn [assert_ Nat.eqb].
  fold k in TY. rewrite EO, TY. split; [|intros z v Hz; injection Hz as _ <-; apply teqb_refl]. cbn [same_outcome].
  assert (RO : map rp_size (repeat (triv (ft_gs t)) k) = repeat 1%nat k) by (apply repeat_ones; exact T1).
  assert (CO : ct_size (MkFT (ft_gs t) (repeat (triv (ft_gs t)) k)) = k) by (unfold ct_size; cbn [ft_reps]; rewrite RO, nsum_repeat; lia).
  split; [symmetry; exact CO|]. destruct S as (S1 & S2 & S3). split; [exact S1|]. split; [exact S2|]. cbn [image a_h a_w a_px]. intros i j b c Hi Hj Hc.
  destruct FW as (_ & L' & FW). cbn [gt_data] in FW. unfold fields in FW. rewrite MS in FW. rewrite TY in FW, L'. cbn [ft_reps] in FW, L'. unfold ctype in RO, FW, L'. rewrite RO in FW, L'. rewrite nsum_repeat, Nat.mul_1_r in L'.
  destruct (FW c _ (cut_repeat s k _ c Hc)) as (b' & N' & (SL & SV)). rewrite cut_repeat in N' by exact Hc. injection N' as <-. rewrite Nat.mul_1_r in SL, SV.
  specialize (SV 0%nat (b, (i, j))). cbn [length] in SL. rewrite SL in SV. specialize (SV Nat.lt_0_1). unfold val in SV at 2. cbn [nth] in SV.
  assert (V : val (firstn 1 (skipn c (gt_data y))) 0%nat (b, (i, j)) = nth c (gt_data y) (fun _ => 0) (b, (i, j))).
  { unfold val. rewrite <- (firstn_skipn c (gt_data y)) at 2. rewrite app_nth2 by (rewrite firstn_length; lia). rewrite firstn_length. replace (c - Nat.min c (length (gt_data y)))%nat with 0%nat by lia.
    destruct (skipn c (gt_data y)); reflexivity. }
  rewrite <- V. etransitivity; [exact SV|]. rewrite vmax_list. f_equal. unfold channels. rewrite skipn_map, firstn_map.
  assert (CS : (c * s + s <= k * s)%nat) by (assert (Q := Nat.mul_le_mono_r (S c) k s ltac:(lia)); cbn [Nat.mul] in Q; lia).
  rewrite part_seq by exact CS. rewrite map_map. replace (seq (c * s) s) with (map (fun a => c * s + a)%nat (seq 0 s)).
  - rewrite map_map. apply map_ext_in. intros a Ha. apply in_seq in Ha. unfold in_image. cbn [fst snd]. rewrite (proj2 (Nat.ltb_lt _ _) Hi), (proj2 (Nat.ltb_lt _ _) Hj). cbn [andb]. apply S3; auto. lia.
  - rewrite map_seq_add. f_equal. lia.
Qed.

(** ** a network *)
Lemma exportable_xstep version l c l' : exportable l -> xlayer_export version l = Ok (c, l') -> xstep l' c /\ xlayer_in l' = xlayer_in l /\ xlayer_out l' = xlayer_out l.
Proof.
  intros H E. split.
  - destruct H; [eapply conv_xstep|eapply tconv_xstep|eapply maxpool_xstep|eapply amaxpool_xstep|eapply adaptive_xstep|eapply upsampling_xstep|eapply relu_xstep|eapply elu_xstep|eapply gpool_xstep|eapply inner_xstep|eapply pdrop_xstep|eapply identity_xstep]; eauto.
  - destruct H; cbn [xlayer_export] in E; try (apply rbind_ok in E as (? & _ & E)); injection E as _ <-; auto.
Qed.
Lemma run_agree version ls nets : forall ls', Forall exportable ls -> rmap (xlayer_export version) ls = Ok (combine nets ls') -> length nets = length ls' ->
  forall t x x', same_field (ct_size t) x x' ->
  match ls' with [] => True | l :: _ => teqb t (xlayer_in l) = true end ->
  chained (fun a b => teqb (em_in b) (em_out a) = true) (map (xlayer_module argmax junk junkn cob_id bt) ls') ->
  same_outcome (run_all (map (xlayer_module argmax junk junkn cob_id bt) ls') (x, t)) (tnet_forward bt nets (ct_size t, x')) /\
  forall y u, run_all (map (xlayer_module argmax junk junkn cob_id bt) ls') (x, t) = Ok (y, u) -> teqb u (match rev ls' with [] => t | l :: _ => xlayer_out l end) = true.
Proof.
  intros ls'. revert ls nets. induction ls' as [|l ls' IH]; intros ls nets EX EM LN t x x' S TI CH; destruct nets as [|n nets]; try discriminate.
  - cbn. split; [auto|]. intros y u H. injection H as _ <-. apply teqb_refl.
  - cbn [combine] in EM. destruct ls as [|l0 ls]; [discriminate|]. cbn [rmap] in EM. apply rbind_ok in EM as ([n1 l1] & E1 & EM). apply rbind_ok in EM as (rest & E2 & EM). injection EM as -> -> ->.
    inversion EX as [|? ? X1 X2]; subst. destruct (exportable_xstep version _ _ _ X1 E1) as (ST & _ & _). destruct (ST t x x' TI S) as [O1 T1].
    cbn [map run_all tnet_forward xlayer_module em_fwd] in *. apply chained_cons in CH as [CH1 CH2].
    unfold ctype in *. revert O1 T1. destruct (xlayer_forward argmax junk junkn cob_id bt l (x, t)) as [[z v]|er]; destruct (tlayer_forward bt n (ct_size t, x')) as [[k z']|er']; intros O1 T1; cbn [same_outcome] in O1; [|destruct O1|destruct O1|].
    + destruct O1 as [-> O1]. cbn [rbind]. specialize (T1 z v eq_refl).
      assert (TN : match ls' with [] => True | l :: _ => teqb v (xlayer_in l) = true end).
      { destruct ls' as [|l2 ls']; [exact I|]. apply (teqb_trans _ (xlayer_out l)); [exact T1|]. apply teqb_sym. exact CH1. }
      destruct (IH ls nets X2 E2 ltac:(cbn in LN; lia) v z z' O1 TN CH2) as [A1 A2]. split; [exact A1|]. intros y u H. specialize (A2 y u H).
      cbn [rev]. destruct (rev ls') as [|l3 r3] eqn:RV; cbn [app].
      * apply (teqb_trans _ v); auto.
      * exact A2.
    + cbn [rbind]. split; [exact I|]. intros y u H. discriminate.
Qed.
End Step.
