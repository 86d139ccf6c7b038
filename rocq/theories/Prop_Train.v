(** C65: training on transformed images. *)
From Coq Require Import Reals ZArith String List Bool Lia Lra.
From Verif Require Import Base LinAlg Spec Spec_Fields Model_Groups Model_Rep Proofs_Rep Proofs_Restrict Model_FieldType Proofs_FieldType Model_GSpace Spec_GSpace Proofs_GSpace Model_Tensor Model_Utils Model_Modules Spec_Modules
  Prop_Modules Model_Conv Spec_Conv Proofs_Conv Proofs_Conv2 Proofs_Conv3 Proofs_Conv4 Proofs_Conv5 Proofs_Conv6 Proofs_Conv8 Proofs_Tensor Prop_Conv Model_ConvT Model_Fieldwise Spec_Fieldwise Spec_Fieldwise2 Prop_Fieldwise3 Model_BatchNorm Spec_BatchNorm
  Proofs_BatchNorm5 Model_Pool Spec_Pool Model_NormMax Spec_NormMax Model_Support Spec_Support Prop_Support Model_Expansion Prop_Pool Prop_Pool2 Model_Net Spec_Net Proofs_Net Proofs_Net2 Proofs_Net3 Proofs_Net4 Proofs_Net5 Proofs_Net6 Proofs_Irreps Proofs_Support Prop_Net
  Model_Train Spec_Train Proofs_Train Proofs_Train2.
Import ListNotations.
Open Scope R_scope.

(** A network is trained on a sequence of batches, and a copy of it on the transformed batches: each batch is transformed by an element of its
    own, and its loss follows the transformation of the output.  Then both trainings run to the end, and they end with the same network (the same
    parameters and the same running statistics) and the same state of the optimiser. *)
Theorem C65_training : forall G St (sp : space G) isrep argmax cob_id fits (interp : forall A : Type, R -> R -> arr A -> arr A)
    (opt : St -> list (layer G) -> list (layer G) -> (list (layer G) -> result R) -> St * list (layer G)) (s : St) (net : list (layer G)) (ps : list (iteration2 G)) (es : list gelt),
  planar_space G sp isrep -> argmax_ok argmax -> optimiser cob_id opt ->
  Forall2 (fun p e => numbered (i2_bt p) /\ usable sp isrep cob_id fits net (i2_type p) e /\ runs argmax cob_id net p /\
                      moved_batch interp e p /\ loss_moved argmax cob_id interp net e p) ps es ->
  exists s' net', train argmax cob_id opt s net (map first_of ps) = Ok (s', net') /\
                  train argmax cob_id opt s net (map second_of ps) = Ok (s', net') /\ variants cob_id net net'.
Proof.
  intros G St sp isrep argmax cob_id fits interp opt s net ps es PS AM OP H.
  destruct (fair_train sp isrep PS argmax cob_id fits opt interp AM OP net ps es H s net (variants_refl cob_id net)) as ([s' net'] & E1 & E2 & V). exists s', net'. auto.
Qed.
Print Assumptions C65_training.

(** A classifier and a loss of its output (cross entropy with the labels of the batch): the labels stay the same. *)
Theorem C65_classifier : forall G St (sp : space G) isrep argmax cob_id fits (interp : forall A : Type, R -> R -> arr A -> arr A)
    (opt : St -> list (layer G) -> list (layer G) -> (list (layer G) -> result R) -> St * list (layer G)) (s : St) (net : list (layer G)) (ps : list (iteration2 G)) (es : list gelt),
  planar_space G sp isrep -> argmax_ok argmax -> optimiser cob_id opt ->
  Forall2 (fun p e => numbered (i2_bt p) /\ usable sp isrep cob_id fits net (i2_type p) e /\ runs argmax cob_id net p /\
                      moved_batch interp e p /\ classifies argmax cob_id net p /\ same_loss p) ps es ->
  exists s' net', train argmax cob_id opt s net (map first_of ps) = Ok (s', net') /\
                  train argmax cob_id opt s net (map second_of ps) = Ok (s', net') /\ variants cob_id net net'.
Proof.
  intros G St sp isrep argmax cob_id fits interp opt s net ps es PS AM OP H. apply (C65_training G St sp isrep argmax cob_id fits interp opt s net ps es PS AM OP).
  induction H as [|p e ps es (A & B & C & D & E & F) _ IH]; constructor; [|exact IH]. exact (classifier_fair sp isrep PS argmax cob_id fits interp AM net p e A B C D E F).
Qed.
Print Assumptions C65_classifier.

(** ** The network of C56_ex with an InnerBatchNorm: the quarter turn, and an optimiser that subtracts the loss from the weights *)
Definition sub_loss (s : nat) (net net1 : list (layer Z)) (loss : list (layer Z) -> result R) : nat * list (layer Z) :=
  (S s, match net1 with
        | LConv m st :: rest => LConv m (MkCS true (map (fun w => w - match loss net with Ok v => v | Err _ => 0 end) (cs_w st)) (cs_b st) None None) :: rest
        | _ => net1 end).
Lemma sub_loss_ok cob_id : optimiser cob_id sub_loss.
Proof.
  intros s net net1 loss loss' V L. unfold sub_loss. rewrite <- (L net (variants_refl cob_id net)). split; [reflexivity|]. cbn [snd].
  destruct net1 as [|[] rest]; try exact V. inversion V as [|l ? ns ? V1 V2]; subst. constructor; [|exact V2]. eapply variant_trans; [exact V1|]. apply v_conv; cbn; [reflexivity|apply map_length|reflexivity].
Qed.
Definition one_number (y : arr (unit -> vec) * ctype Z) : R := if ((0 <? a_h (fst y)) && (0 <? a_w (fst y)) && (0 <? ct_size (snd y)))%nat%bool then a_px (fst y) 0%nat 0%nat tt 0%nat else 0.

Example C65_ex : exists m st p ib r a,
  let net := [LConv m st; LNormPool p; LInnerBatchNorm true ib; LPointwise r; LAdaptive a] in
  let bt := MkBatch 1 (fun _ : unit => 0%nat) (fun _ => tt) in
  let x := MkArr 3 4 (fun i j (_ : unit) c => INR (i + j + c)) in
  let fits := fun (_ : space Z) (_ : rep Z) => true in let cob_id := fun _ : rep Z => false in
  planar_space Z (space_CN 4) (cyc_rep 4) /\ optimiser cob_id sub_loss /\
  forall argmax interp junk junkn, exists x', let q := MkIt2 unit bt c4_type x x' one_number one_number junk junk junkn junkn in
    numbered (i2_bt q) /\ usable (space_CN 4) (cyc_rep 4) cob_id fits net (i2_type q) (EI 1) /\ runs argmax cob_id net q /\ moved_batch interp (EI 1) q /\
    classifies argmax cob_id net q /\ same_loss q /\
    (* both trainings run *)
    (argmax_ok argmax -> exists s' net', train argmax cob_id sub_loss 0%nat net [first_of q; first_of q] = Ok (s', net') /\ train argmax cob_id sub_loss 0%nat net [second_of q; second_of q] = Ok (s', net')).
Proof.
  destruct C28_ex as [m [CA M]]. exists m.
  destruct (C28_R2Conv _ _ _ _ _ _ _ _ _ _ _ _ _ _ _ _ _ _ CA (Nat.lt_0_succ 0) M) as [params [_ [D L]]]. destruct L as [first [_ [_ [_ [_ L]]]]].
  set (w := repeat 1 (be_dimension kid_eqb (cv_exp m))).
  exists (MkCS true w [2] None None).
  set (x := MkArr 3 4 (fun i j (_ : unit) c => INR (i + j + c))).
  assert (TE : ft_eqb space_eqb rep_eqb c4_type c4_type = true) by apply type_refl_CN.
  destruct (make_made _ _ _ _ 1 _ _ _ _ _ _ _ _ _ _ _ M eq_refl) as (ir & keep & rgs & sig & maxf & _ & MD & EM).
  assert (R : forall st, cs_training st = true -> length (cs_w st) = length w -> exists y, conv_forward m st c4_type x = Ok (y, c4_type) /\ a_h y = 3%nat /\ a_w y = 4%nat).
  { intros st T LW. destruct (L D (cs_w st)) as [f [Hf _]]; [rewrite LW; apply repeat_length|]. unfold conv_forward, used_params. rewrite T. unfold expand_parameters. rewrite Hf. cbn [rbind]. unfold run_conv.
    rewrite (md_pad MD), (md_in MD), (md_out MD), (md_k MD), (md_stride MD), (md_dil MD), (md_grp MD).
    cbn in EM. pose proof EM as EM'. injection EM' as <-. rewrite TE. cbn [assert_]. eexists. split; [reflexivity|]. split; reflexivity. }
  assert (NP : exists p, npool_make (fun _ _ => true) (fun _ => c4 0) c4_type = Ok p /\ po_in p = c4_type /\ po_out p = triv_type /\
     forall junk (z : arr (unit -> vec)), exists d, on_channels (npool_forward space_eqb rep_eqb junk p) (z, c4_type) = Ok (d, triv_type) /\ a_h d = a_h z /\ a_w d = a_w z).
  { eexists. split; [reflexivity|]. split; [reflexivity|]. split; [reflexivity|]. intros junk z. unfold on_channels, npool_forward, pool_forward. cbn [gt_type po_in snd]. rewrite TE.
    eexists. split; [reflexivity|]. split; reflexivity. }
  destruct NP as (p & P1 & P2 & P3 & P4).
  assert (TT : ft_eqb space_eqb rep_eqb triv_type triv_type = true) by apply type_refl_CN.
  assert (IB : exists ib, inner_make triv_type (1 / 100000) (Some (1 / 10)) true true = Ok ib) by (eexists; reflexivity). destruct IB as [ib IB].
  assert (RE : inner_bn_reached triv_type ib).
  { exists (1 / 100000), (Some (1 / 10)), true, true, ib, (fun _ _ => 0), [], []. split; [exact IB|]. split; [lra|]. split; [cbn; lra|]. split; [constructor|reflexivity]. }
  assert (EI0 : ib_in ib = triv_type) by (exact (proj1 (inner_bn_live (cyc_rep 4) 1%Z _ _ RE (proj2 (proj2 c4_triv_ok))))).
  eexists p, ib, (MkPW triv_type relu), (MkAD false triv_type (1, 1)%nat). cbv zeta.
  set (bt := MkBatch 1 (fun _ : unit => 0%nat) (fun _ => tt)).
  set (net := [LConv m (MkCS true w [2] None None); LNormPool p; LInnerBatchNorm true ib; LPointwise (MkPW triv_type relu); LAdaptive (MkAD false triv_type (1, 1)%nat)]).
  assert (PS : planar_space Z (space_CN 4) (cyc_rep 4)) by (apply PS_CN; lia).
  split; [exact PS|]. split; [apply sub_loss_ok|]. intros argmax interp junk junkn.
  assert (GE : grid_exact (sp_obj (space_CN 4)) (EI 1)) by apply exact_c4.
  destruct (space_ok _ _ _ PS) as [code [el [inv SF]]]. destruct (exact_angle _ _ (sf_constructed _ _ _ _ _ SF) (eq_refl : fg_is_element (sp_group (sp_obj (space_CN 4))) (EI 1) = true) GE) as (kk & Hk & Ek).
  destruct (rel_transform (space_CN 4) (cyc_rep 4) PS (EI 1) 1%Z kk eq_refl eq_refl Hk interp c4_type x eq_refl ltac:(discriminate)) as (x' & X1 & _).
  exists x'. cbn [i2_bt i2_type].
  assert (NBt : numbered bt) by (split; [intros []; split; [cbn; lia|reflexivity]|]; intros k Hk'; cbn in *; lia).
  assert (US : usable (space_CN 4) (cyc_rep 4) (fun _ => false) (fun _ _ => true) net c4_type (EI 1)).
  { exists 1%Z. split; [reflexivity|]. split; [reflexivity|]. split; [exact GE|]. split; [|exact c4_rep_ok]. constructor.
    { split; [eapply made_conv; [exact CA|exact M|reflexivity|reflexivity]|]. cbn [layer_in layer_out]. rewrite (md_in MD), (md_out MD). split; exact c4_rep_ok. }
    constructor.
    { split; [eapply made_norm_pool; [exact P1|exact c4_trivial|intros q [<-|[]]; exact c4_rep_orth]|]. cbn [layer_in layer_out]. rewrite P2, P3. split; [exact c4_rep_ok|exact c4_triv_ok]. }
    constructor. { split; [apply made_inner_bn; rewrite EI0; exact RE|]. cbn [layer_out layer_in]. rewrite EI0. split; exact c4_triv_ok. }
    constructor. { split; [apply (made_relu _ _ _ _ _ _ triv_type); reflexivity|]. split; exact c4_triv_ok. }
    constructor; [|constructor]. split; [apply (made_adaptive _ _ _ _ _ _ false triv_type (IPair 1 1)); [reflexivity|left; constructor; [reflexivity|constructor]]|]. split; exact c4_triv_ok. }
  assert (RUN : forall th, variants (fun _ => false) net th -> exists y, run_all (map (layer_module argmax junk junkn (fun _ => false) bt) th) (x, c4_type) = Ok (y, triv_type) /\ a_h y = 1%nat /\ a_w y = 1%nat /\
     suits_all argmax (fun _ => false) bt junk junkn th (x, c4_type)).
  { intros th V. inversion V as [|? l1 ? t1 V1 W1]; subst. inversion W1 as [|? l2 ? t2 V2 W2]; subst. inversion W2 as [|? l3 ? t3 V3 W3]; subst. inversion W3 as [|? l4 ? t4 V4 W4]; subst. inversion W4 as [|? l5 ? t5 V5 W5]; subst.
    inversion W5; subst. clear V W1 W2 W3 W4 W5.
    assert (E2 : l2 = LNormPool p) by (inversion V2; reflexivity). assert (E4 : l4 = LPointwise (MkPW triv_type relu)) by (inversion V4; reflexivity). assert (E5 : l5 = LAdaptive (MkAD false triv_type (1, 1)%nat)) by (inversion V5; reflexivity). subst l2 l4 l5.
    assert (E1 : exists st, l1 = LConv m st /\ cs_training st = true /\ length (cs_w st) = length w) by (inversion V1; subst; eexists; (split; [reflexivity|]); auto). destruct E1 as (st & -> & T1 & T2).
    assert (E3 : exists ib', l3 = LInnerBatchNorm true ib' /\ inner_bn_reached triv_type ib'). { inversion V3; subst; eexists; (split; [reflexivity|]); [exact RE|]. rewrite EI0 in *. assumption. }
    destruct E3 as (ib' & -> & RE'). clear V1 V2 V3 V4 V5.
    destruct (R st T1 T2) as (y0 & R1 & R2 & R3). destruct (P4 junk y0) as (y1 & Q1 & Q2 & Q3).
    destruct (inner_bn_live (cyc_rep 4) 1%Z _ _ RE' (proj2 (proj2 c4_triv_ok))) as (EI' & WF & _).
    assert (IN : exists y2, on_entries bt (fun n => inner_forward space_eqb rep_eqb true n junkn ib') (y1, triv_type) = Ok (y2, triv_type) /\ a_h y2 = 3%nat /\ a_w y2 = 4%nat).
    { destruct (inner_value space_eqb rep_eqb true (bt_n bt * (a_h y1 * a_w y1)) junkn ib' (MkGT (flat_channels bt (ct_size triv_type) y1) triv_type) WF) as (z & m1 & F & _ & Y1 & _).
      - rewrite EI'. split; [exact TT|]. cbn [gt_data]. rewrite flat_channels_len. reflexivity.
      - intros _ s Hs. rewrite Q2, Q3, R2, R3. unfold ib_sizes in Hs. rewrite EI' in Hs. destruct Hs as [<-|[]]. cbn. lia.
      - unfold on_entries. cbn [fst snd]. rewrite F. cbn [rbind fst]. rewrite Y1, EI'. eexists. split; [reflexivity|]. cbn [flat_image a_h a_w]. rewrite Q2, Q3, R2, R3. split; reflexivity. }
    destruct IN as (y2 & I1 & I2 & I3).
    assert (RL : exists y3, on_channels (B := unit) (pointwise_forward space_eqb rep_eqb (MkPW triv_type relu)) (y2, triv_type) = Ok (y3, triv_type) /\ a_h y3 = 3%nat /\ a_w y3 = 4%nat).
    { unfold on_channels, pointwise_forward. cbn [gt_type pw_in snd]. rewrite TT. eexists. split; [reflexivity|]. split; assumption. }
    destruct RL as (y3 & V1 & V2 & V3).
    assert (AD : exists y4, adpool_forward (B := unit) space_eqb rep_eqb (MkAD false triv_type (1, 1)%nat) triv_type y3 = Ok (y4, triv_type) /\ a_h y4 = 1%nat /\ a_w y4 = 1%nat).
    { unfold adpool_forward. cbn [ad_in ad_max ad_o]. rewrite TT. unfold adaptive_pool2d. rewrite V2, V3. eexists. split; [reflexivity|]. split; reflexivity. }
    destruct AD as (y4 & A1 & A2 & A3). exists y4. split.
    { cbn [map run_all layer_module em_fwd layer_forward fst snd]. refine (eq_trans (f_equal (fun r => rbind r _) R1) _). cbn [rbind]. refine (eq_trans (f_equal (fun r => rbind r _) Q1) _). cbn [rbind].
      refine (eq_trans (f_equal (fun r => rbind r _) I1) _). cbn [rbind]. refine (eq_trans (f_equal (fun r => rbind r _) V1) _). cbn [rbind]. refine (eq_trans (f_equal (fun r => rbind r _) A1) _). reflexivity. }
    split; [exact A2|]. split; [exact A3|]. cbn [suits_all layer_forward fst snd]. intros z0 Z0. change (conv_forward m st c4_type x = Ok z0) in Z0. rewrite R1 in Z0. injection Z0 as <-. split. { cbn [suits fst]. unfold strides. rewrite (md_k MD), (md_stride MD), (md_dil MD), (md_pad MD). split; reflexivity. }
    cbn [fst snd]. intros z1 Z1. assert (E1 : z1 = (y1, triv_type)) by (rewrite Q1 in Z1; injection Z1 as <-; reflexivity). subst z1. split; [exact I|].
    intros z2 Z2. split; [|intros z3 _; split; [exact I|intros z4 _; split; exact I]]. cbn [suits fst]. intros _ q Hq. unfold entries. rewrite Q2, Q3, R2, R3. rewrite EI' in Hq. destruct Hq as [<-|[]]. cbn. lia. }
  set (q := MkIt2 unit bt c4_type x x' one_number one_number junk junk junkn junkn).
  assert (RU : runs argmax (fun _ => false) net q) by (intros th V; destruct (RUN th V) as (y & F & _ & _ & S); split; [exists (y, triv_type); exact F|exact S]).
  assert (MB : moved_batch interp (EI 1) q) by (exists x'; split; [exact X1|apply same_field_refl]).
  assert (CL : classifies argmax (fun _ => false) net q).
  { intros th y t V F. destruct (RUN th V) as (y1 & F1 & H1 & W1 & _). assert (EQ : Ok (y1, triv_type) = Ok (y, t)) by exact (eq_trans (eq_sym F1) F). injection EQ as <- <-. split; [intros z [<-|[]]; exact c4_trivial|]. split; assumption. }
  assert (SL : same_loss q).
  { assert (H : forall (t : ctype Z) (y y' : arr (unit -> vec)), same_field (ct_size t) y y' -> one_number (y', t) = one_number (y, t)); [|exact H].
    intros t y y' (A1 & A2 & A3). unfold one_number. cbn [fst snd]. rewrite A1, A2.
    destruct (Nat.ltb_spec 0 (a_h y')), (Nat.ltb_spec 0 (a_w y')), (Nat.ltb_spec 0 (ct_size t)); try reflexivity. cbn [andb]. symmetry. apply A3; rewrite ?A1, ?A2; assumption. }
  split; [exact NBt|]. split; [exact US|]. split; [exact RU|]. split; [exact MB|]. split; [exact CL|]. split; [exact SL|]. intros AM.
  destruct (C65_classifier Z nat (space_CN 4) (cyc_rep 4) argmax (fun _ => false) (fun _ _ => true) interp sub_loss 0%nat net [q; q] [EI 1; EI 1] PS AM (sub_loss_ok _)) as (s' & net' & E1 & E2 & _).
  { constructor; [|constructor; [|constructor]]; auto 10. }
  exists s', net'. split; [exact E1|exact E2].
Qed.
