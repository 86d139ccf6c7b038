(** For C58: all layers that treat every pixel alone. *)
From Coq Require Import Reals ZArith String List Bool Lia Lra FunctionalExtensionality.
From Verif Require Import Base LinAlg Spec Spec_Fields Model_Groups Model_Rep Proofs_Rep Proofs_Restrict Model_FieldType Proofs_FieldType Model_GSpace Spec_GSpace Proofs_GSpace Model_Tensor Model_Utils Model_Modules Spec_Modules
  Prop_Modules Model_Conv Spec_Conv Proofs_Conv Proofs_Conv2 Proofs_Conv3 Proofs_Conv4 Proofs_Conv5 Proofs_Conv6 Proofs_Tensor Prop_Conv Model_ConvT Model_Diffops Model_Diffops2 Model_R2Diffop Prop_R2Diffop Model_Fieldwise Spec_Fieldwise
  Spec_Fieldwise2 Proofs_Utils Proofs_Modules Proofs_Fieldwise Proofs_Fieldwise2 Proofs_Fieldwise3 Proofs_Fieldwise5 Proofs_Fieldwise8 Proofs_Fieldwise10 Model_BatchNorm Spec_BatchNorm Proofs_BatchNorm Proofs_BatchNorm2 Proofs_BatchNorm3 Proofs_BatchNorm4 Proofs_BatchNorm5 Proofs_BatchNorm7 Proofs_BatchNorm8 Proofs_BatchNorm9 Model_Pool Spec_Pool Model_Upsample Model_NormMax Spec_NormMax Model_Mask Model_Disentangle Model_Dropout Model_Support Spec_Support Model_Expansion Prop_Pool Model_Net Spec_Net
  Proofs_Net Proofs_Net2 Proofs_Net3 Proofs_Net4 Proofs_Net5 Proofs_Net6 Proofs_Export Spec_Move Proofs_Move.
Import ListNotations.
Open Scope R_scope.

Lemma vmax_at {X Y} (b : list (X -> R)) (c : list (Y -> R)) p p' : map (fun u => u p) b = map (fun u => u p') c -> vmax b p = vmax c p'.
Proof.
  unfold vmax. destruct b as [|u b], c as [|v c]; cbn; try discriminate; auto. intros E. injection E as E1 E2. rewrite E1. clear E1 u. generalize (v p'). revert c E2.
  induction b as [|u b IH]; intros [|v' c] E; cbn in E; try discriminate; auto. injection E as E1 E2. intros a. cbn. rewrite E1. apply IH. exact E2.
Qed.
Lemma moved_mid {X} n (A : mat) (pi : X -> X) b b' : meq n n A mid -> moved n A pi b b' <-> length b = n /\ length b' = n /\ forall p a, (a < n)%nat -> val b' a p = val b a (pi p).
Proof.
  intros M. unfold moved. assert (E : forall (v : vec) a, (a < n)%nat -> rsum n (fun c => A a c * v c) = v a).
  { intros v a Ha. transitivity (mvec n mid v a); [|apply mvec_id; auto]. unfold mvec. apply rsum_ext. intros c Hc. rewrite (M a c Ha Hc). reflexivity. }
  split; intros (L & L' & V); (split; [exact L|]); (split; [exact L'|]); intros p a Ha; rewrite V by auto; [|symmetry]; apply (E (fun c => val b c (pi p)) a Ha).
Qed.

Section Vector.
Context {G B : Type} (g : G).
Notation X := (B * (nat * nat))%type.
Lemma vec_moved argmax N n (pi : X -> X) b b' : length b = n -> length b' = n -> (forall p a, (a < n)%nat -> val b' a p = val b a (pi p)) ->
  forall p a, (a < 2)%nat -> val (vec_pair argmax N b') a p = val (vec_pair argmax N b) a (pi p).
Proof.
  intros L L' V p a Ha.
  assert (E : map (fun c : X -> R => c p) b' = map (fun c => c (pi p)) b).
  { apply (nth_ext _ _ 0 0). { rewrite !map_length. lia. } intros i Hi. rewrite map_length in Hi.
    transitivity (val b' i p); [exact (map_nth (fun c : X -> R => c p) b' (fun _ => 0) i)|]. rewrite V by lia. symmetry. exact (map_nth (fun c : X -> R => c (pi p)) b (fun _ => 0) i). }
  pose proof (vmax_at b' b p (pi p) E) as E2. unfold vec_pair, val. destruct a as [|[|a]]; [| |lia]; cbn [nth]; rewrite E, E2; reflexivity.
Qed.
Lemma vfield_pix fits argmax order r1 t m : vfield_make fits order (Some r1) t = Ok m -> rp_size r1 = 2%nat -> ft_reps t <> [] -> ft_reps (vf_out m) <> [] ->
  @pix G B g (on_channels (vfield_forward space_eqb rep_eqb argmax m)) (on_channels (vfield_forward space_eqb rep_eqb argmax m)) t (vf_out m) (fun _ _ => True).
Proof.
  intros M R1 N1 N2 S1 S2. refine (channels_pix g _ _ t (vf_out m) (fun _ _ => True) N1 N2 _ _ S1 S2).
  - intros Y Z F T. unfold vfield_forward in F. gt_len. exact F.
  - intros pi Y Y' x y _ _ TY TY' AC.
    destruct (vfield_fieldwise fits space_eqb rep_eqb argmax order r1 t m Y M R1 TY) as (_ & EO & SZ & _ & Z & F & T & W). destruct (vfield_fieldwise fits space_eqb rep_eqb argmax order r1 t m Y' M R1 TY') as (_ & _ & _ & _ & Z' & F' & T' & W').
    exists Z, Z'. split; [exact F|]. split; [exact F'|]. split; [exact T|]. split; [exact T'|].
    refine (fieldwise_acts (ft_reps t) (ft_reps (vf_out m)) g pi _ _ (gt_data Y) (gt_data Y') (gt_data Z) (gt_data Z') N1 (proj2 TY) AC W W' _).
    intros f r r' b b' Hr Hr' Hb Hb' MV. apply moved_mid in MV as (L & L' & V); [|apply S1; eapply nth_error_In; eauto].
    assert (E : r' = r1). { rewrite EO in Hr'. cbn [ft_reps] in Hr'. apply nth_error_In, repeat_spec in Hr'. exact Hr'. }
    apply moved_mid; [apply S2; eapply nth_error_In; eauto|]. subst r'. rewrite R1. split; [reflexivity|]. split; [reflexivity|]. apply (vec_moved argmax order (rp_size r)); auto.
Qed.
End Vector.

Section Pixel.
Context {G B : Type} (sp : space G) (isrep : rep G -> Prop) (PS : planar_space G sp isrep) (g : G) (argmax : list R -> nat) (cob_id : rep G -> bool) (bt : batch B).
Context (fits : space G -> rep G -> bool).
Notation e := (fg_identity (sp_group (sp_obj sp))).
Hypothesis Hg : sp_prj sp e = Some g.
Hypothesis NB : numbered bt.
Context (junk junk' : nat -> B * (nat * nat) -> R) (junkn junkn' : nat -> nat -> R).
Notation tensor := (arr (B -> vec) * ctype G)%type.
Notation teqb := (ft_eqb space_eqb rep_eqb).
Notation fwd := (layer_forward argmax junk junkn cob_id bt).
Notation fwd' := (layer_forward argmax junk' junkn' cob_id bt).
Notation ok_type := (ok_type sp isrep g).
Notation pix := (@pix G B g).

Definition pstep (l : layer G) : Prop := forall tt x x' y t', fwd l (x, tt) = Ok (y, t') ->
  a_h y = a_h x /\ a_w y = a_w x /\ exists y', fwd' l (x', tt) = Ok (y', t') /\ a_h y' = a_h x' /\ a_w y' = a_w x' /\
    forall p p', in_image x p = true -> in_image x' p' = true -> alike (ct_size tt) x p x' p' -> alike (ct_size t') y p y' p'.
Lemma ok_still t : ok_type t -> still g t.
Proof. intros (_ & _ & O) r Hr. apply (identity_rep G sp isrep g r PS Hg). apply (O r Hr). Qed.
Lemma pix_step l ok : pix (fwd l) (fwd' l) (layer_in l) (layer_out l) ok -> (forall x y, ok x y) -> ok_type (layer_in l) -> ok_type (layer_out l) -> pstep l.
Proof.
  intros L OK O1 O2 tt x x' y t' F. pose proof (fwd_type argmax cob_id bt junk junkn _ _ _ _ F) as E. pose proof (teqb_size _ _ E) as SZ.
  destruct (L (ok_still _ O1) (ok_still _ O2) tt x x' y t' E SZ (OK x) (OK x') F) as (-> & H1 & H2 & y' & F' & H3 & H4 & V). split; [exact H1|]. split; [exact H2|]. exists y'. split; [exact F'|]. split; [exact H3|]. split; [exact H4|]. rewrite SZ. exact V.
Qed.
Ltac same_in H :=
  repeat match goal with M : assert_ _ _ = Ok _ |- _ => apply assert_ok in M as [_ M] | M : rbind _ _ = Ok _ |- _ => apply rbind_ok in M as (? & _ & M)
      | M : (if ?c then _ else _) = Ok _ |- _ => destruct c; try discriminate | M : match ?c with _ => _ end = Ok _ |- _ => destruct c; try discriminate | M : (let _ := _ in _) = Ok _ |- _ => cbv zeta in M end;
  injection H as <-; reflexivity.
Lemma pixel_step l : good_layer sp isrep e g cob_id fits l -> pixelwise l = true -> pstep l.
Proof.
  intros (M & O1 & O2) PW. pose proof O1 as (S1 & N1 & K1). pose proof O2 as (S2 & N2 & K2).
  assert (He : fg_is_element (sp_group (sp_obj sp)) e = true).
  { destruct (space_ok _ _ _ PS) as [code [el [inv SF]]]. apply (identity_form _ (sf_constructed _ _ _ _ _ SF)). }
  destruct M; cbn [layer_in layer_out pixelwise] in *; try discriminate.
  - assert (E : pw_in m = t) by (unfold pointwise_make in H; same_in H). rewrite E in N1, K1.
    destruct (pointwise_law (B := B) isrep g pix (channels_pix g) t m (or_introl (ex_intro _ fn H)) N1 K1) as [_ L]. refine (pix_step (LPointwise m) _ _ (fun x y => I) O1 O2). cbn [layer_in layer_out]. rewrite E. exact L.
  - assert (E : pw_in m = t) by (unfold relu_make in H; same_in H). rewrite E in N1, K1.
    destruct (pointwise_law (B := B) isrep g pix (channels_pix g) t m (or_intror (or_introl H)) N1 K1) as [_ L]. refine (pix_step (LPointwise m) _ _ (fun x y => I) O1 O2). cbn [layer_in layer_out]. rewrite E. exact L.
  - assert (E : pw_in m = t) by (unfold elu_make in H; same_in H). rewrite E in N1, K1.
    destruct (pointwise_law (B := B) isrep g pix (channels_pix g) t m (or_intror (or_intror (ex_intro _ alpha H))) N1 K1) as [_ L]. refine (pix_step (LPointwise m) _ _ (fun x y => I) O1 O2). cbn [layer_in layer_out]. rewrite E. exact L.
  - assert (E : nn_in m = t) by (unfold norm_make in H; clear - H; same_in H). assert (E' : nn_in (set_logb m lb) = t) by exact E. rewrite E' in N1, K1.
    destruct (norm_law (B := B) isrep g pix (channels_pix g) t fn bias m lb junk junk' H H0 N1 K1) as [_ L]. refine (pix_step (LNorm (set_logb m lb)) _ _ (fun x y => I) O1 O2). cbn [layer_in layer_out]. rewrite E'. exact L.
  - assert (E : in_in m = t) by (unfold inorm_make in H; clear - H; same_in H). assert (E' : in_in (set_ilogb m lb) = t) by exact E. rewrite E' in N1, K1.
    destruct (inorm_law (B := B) isrep g pix (channels_pix g) t fn bias m lb junk junk' H H0 H1 N1 K1) as [_ L]. refine (pix_step (LInducedNorm (set_ilogb m lb)) _ _ (fun x y => I) O1 O2). cbn [layer_in layer_out]. rewrite E'. exact L.
  - assert (E : g1_in m = t) by (unfold gated1_make in H; clear - H; same_in H). assert (E' : g1_in (set_bias1 m b) = t) by exact E. rewrite E' in N1, K1.
    destruct (gated_law (B := B) sp isrep PS e g He Hg pix (channels_pix g) fits t gates drop bias m b junk junk' H H0 N1 K1 N2) as [_ L]. refine (pix_step (LGated (set_bias1 m b)) _ _ (fun x y => I) O1 O2). cbn [layer_in layer_out]. rewrite E'. exact L.
  - assert (E : cc_in m = t) by (unfold conc_make in H1; clear - H1; same_in H1). rewrite E in N1, K1.
    destruct (conc_law (B := B) sp isrep PS e g He Hg pix (channels_pix g) fits elements build t fn m H H0 H1 N1 K1 N2) as [_ L]. refine (pix_step (LConcatenated m) _ _ (fun x y => I) O1 O2). cbn [layer_in layer_out]. rewrite E. exact L.
  - assert (E : vf_in m = t) by (unfold vfield_make in H; clear - H; same_in H). rewrite E in N1.
    pose proof (vfield_pix (B := B) g fits argmax order r1 t m H H0 N1 N2) as L. rewrite <- E in L. exact (pix_step (LVectorField m) _ L (fun x y => I) O1 O2).
  - assert (E : po_in m = t) by (unfold gpool_make, npool_make, pool_make_with in H; clear - H; same_in H). rewrite E in S1, N1, K1.
    destruct (gpool_law (B := B) sp isrep PS e g He Hg pix (channels_pix g) fits triv t m junk junk' S1 H H0 N1 K1 N2 K2) as [_ L]. refine (pix_step (LGroupPool m) _ _ (fun x y => I) O1 O2). cbn [layer_in layer_out]. rewrite E. exact L.
  - assert (E : po_in m = t) by (unfold npool_make, pool_make_with in H; clear - H; same_in H). rewrite E in S1, N1, K1.
    destruct (npool_law (B := B) sp isrep PS e g He Hg pix (channels_pix g) fits triv t m junk junk' S1 H H0 H1 N1 K1 N2 K2) as [_ L]. refine (pix_step (LNormPool m) _ _ (fun x y => I) O1 O2). cbn [layer_in layer_out]. rewrite E. exact L.
  - assert (E : ip_in m = t) by (unfold ipool_make in H; clear - H; same_in H). rewrite E in S1, N1, K1.
    destruct (ipool_law (B := B) sp isrep PS e g He Hg pix (channels_pix g) fits triv t m junk junk' S1 H H0 H1 N1 K1 N2 K2) as [_ L]. refine (pix_step (LInducedPool m) _ _ (fun x y => I) O1 O2). cbn [layer_in layer_out]. rewrite E. exact L.
  - destruct training; [discriminate|]. destruct H as (eps & mo & affine & m0 & h & ys & MK & E0 & MO & H & R).
    destruct (norm_bn_wf (nb_in m) eps mo affine m0 MK (good_size isrep g (nb_in m) K1) E0 MO) as (WF & I1 & I2 & _).
    destruct (nbn_life space_eqb rep_eqb Nat.eqb py_str (fun s => s) (fun s => s) Nat.eqb_spec py_str_inj m0 h WF) as (zs & mm & RR & W & K & _); [rewrite I1, I2; exact H|]. rewrite R in RR. injection RR as _ <-.
    exact (pix_step (LNormBatchNorm false m) _ (nbn_pix g bt NB Nat.eqb py_str (fun s => s) (fun s => s) Nat.eqb_spec py_str_inj m (fun _ _ => True) W) (fun x y => I) O1 O2).
  - destruct training; [discriminate|]. destruct H as (eps & mo & affine & m0 & ids & h & ys & MK & ID & E0 & MO & H & R).
    destruct (induced_bn_wf (nb_in m) eps mo affine m0 MK (good_size isrep g (nb_in m) K1) E0 MO) as (WF & I1 & I2 & _). rewrite ID in I2. injection I2 as I2.
    destruct (nbn_life space_eqb rep_eqb pair_eqb pair_str (fun i => fst i) (fun i => snd i) pair_eqbP pair_str_inj m0 h WF) as (zs & mm & RR & W & K & _); [rewrite I1, <- I2; exact H|].
    change (run (nbn_forward space_eqb rep_eqb pair_eqb pair_str fst snd) (nb_apply pair_eqb) m0 h = Ok (zs, mm)) in RR. rewrite R in RR. injection RR as _ <-.
    exact (pix_step (LInducedBatchNorm false m) _ (nbn_pix g bt NB pair_eqb pair_str fst snd pair_eqbP pair_str_inj m (fun _ _ => True) W) (fun x y => I) O1 O2).
  - destruct training; [discriminate|]. cbn [negb andb] in PW. destruct H as (eps & mo & affine & track & m0 & jk & h & ys & MK & E0 & MO & H & R).
    destruct (inner_wf (ib_in m) eps mo affine track m0 MK (good_size isrep g (ib_in m) K1) E0 MO) as (WF & I1 & _ & _ & _ & I5 & _).
    destruct (inner_life space_eqb rep_eqb jk m0 h WF) as (zs & mm & RR & W & K & _).
    { apply Forall_forall. intros ev He'. rewrite Forall_forall in H. specialize (H ev He'). destruct ev as [tr' n' x'|w]; cbn [allowed] in *; unfold ib_sizes; rewrite I1; [|exact H]. destruct H as [TX N0]. split; [exact TX|].
      intros C s Hs. unfold ib_sizes in Hs. rewrite I1 in Hs. rewrite I5 in C. apply in_map_iff in Hs as (r & <- & Hr). apply N0; auto. }
    rewrite R in RR. injection RR as _ <-.
    exact (pix_step (LInnerBatchNorm false m) _ (inner_pix g bt NB junkn junkn' m (fun _ _ => True) W PW) (fun x y => I) O1 O2).
  - destruct training; [discriminate|]. destruct H as (uniq & eps & mo & affine & m0 & jk & h & ys & MK & U & E0 & MO & H & R).
    destruct (space_ok _ _ _ PS) as [code [el [inv SF]]].
    assert (RO : forall r, In r (ft_reps (gb_in m)) -> irs_ok (rp_irreps r) /\ cob_ok cob_id r).
    { intros r Hr. split; [|split; [apply (sf_acc _ _ _ _ _ SF); apply (K1 r Hr)|auto]]. intros ir Hi. split; [apply (sf_pos _ _ _ _ _ SF r); auto; apply (K1 r Hr)|]. intros T. apply (sf_triv _ _ _ _ _ SF r ir (proj1 (K1 r Hr)) Hi T). }
    destruct (gnorm_wf cob_id (gb_in m) uniq eps mo affine m0 MK (good_size isrep g (gb_in m) K1) U E0 MO RO) as (WF & I1 & _).
    destruct (gnorm_life space_eqb rep_eqb cob_id jk m0 h WF) as (zs & mm & RR & W & K & _); [rewrite I1; exact H|]. rewrite R in RR. injection RR as _ <-.
    exact (pix_step (LGNormBatchNorm false m) _ (gnorm_pix g bt NB cob_id junkn junkn' m (fun _ _ => True) W) (fun x y => I) O1 O2).
  - assert (E : dm_in m = t) by (unfold dismod_make in H; clear - H; same_in H). rewrite E in N1, K1.
    destruct (disentangle_law (B := B) sp isrep PS g pix (channels_pix g) t uniq m junk junk' H H0 N1 K1 N2) as [_ L]. refine (pix_step (LDisentangle m) _ _ (fun x y => I) O1 O2). cbn [layer_in layer_out]. rewrite E. exact L.
  - intros tt x x' y t' F. pose proof (fwd_type argmax cob_id bt junk junkn _ _ _ _ F) as E. cbn [layer_in] in E. cbn [layer_forward] in F |- *. unfold on_channels in F |- *. cbn [fst snd] in F |- *.
    unfold fdrop_forward in F |- *. cbn [gt_type gt_data] in F |- *. rewrite E in F |- *. cbn [assert_ negb rbind fst gt_type gt_data] in F |- *. injection F as <- <-.
    split; [reflexivity|]. split; [reflexivity|]. eexists. split; [reflexivity|]. split; [reflexivity|]. split; [reflexivity|]. intros [i j] [i' j'] I1 I2 A b c Hc. cbn [image a_px fst snd].
    transitivity (val (channels (ct_size tt) x) c (b, (i, j))); [reflexivity|]. transitivity (val (channels (ct_size tt) x') c (b, (i', j'))); [|reflexivity].
    rewrite !channels_val by auto. cbn [fst snd]. rewrite I1, I2. apply (A b c Hc).
  - assert (E : pd_in m = t) by (unfold pdrop_make in H; clear - H; same_in H). rewrite E in N1, K1.
    destruct (pdrop_law (B := B) g pix (channels_pix g) t p m (fun _ _ => 0) H N1) as [_ L]. refine (pix_step (LPointwiseDropout m) _ _ (fun x y => I) O1 O2). cbn [layer_in layer_out]. rewrite E. exact L.
Qed.
End Pixel.
