(** For C65: one layer, one call, one step of training. *)
From Coq Require Import Reals ZArith String List Bool Lia Lra FunctionalExtensionality.
From Verif Require Import Base LinAlg Spec Spec_Fields Model_Groups Model_Rep Proofs_Rep Proofs_Restrict Model_FieldType Proofs_FieldType Model_GSpace Spec_GSpace Proofs_GSpace Model_Tensor Model_Utils Model_Modules Spec_Modules
  Model_Conv Spec_Conv Proofs_Conv Proofs_Conv2 Proofs_Conv3 Proofs_Conv4 Proofs_Conv5 Proofs_Conv6 Proofs_Tensor Prop_Conv Model_ConvT Model_Fieldwise Spec_Fieldwise
  Spec_Fieldwise2 Model_BatchNorm Spec_BatchNorm Proofs_Utils Proofs_Modules Proofs_Fieldwise2 Proofs_Fieldwise3 Proofs_BatchNorm Proofs_BatchNorm2 Proofs_BatchNorm3 Proofs_BatchNorm4 Proofs_BatchNorm5 Proofs_BatchNorm7 Proofs_BatchNorm8 Model_Pool Spec_Pool Model_NormMax Spec_NormMax Model_Support Spec_Support Proofs_Fieldwise Proofs_Fieldwise5 Proofs_Fieldwise8 Model_Net Spec_Net
  Proofs_Net Proofs_Net2 Proofs_Net3 Proofs_Net4 Proofs_Net5 Proofs_Net6 Model_Train Spec_Train Proofs_Train Prop_Pool.
Import ListNotations.
Open Scope R_scope.

Section Variants.
Context {G : Type} (cob_id : rep G -> bool).
Notation variant := (@variant G cob_id).
Notation variants := (@variants G cob_id).
Lemma same_shape_trans a b c : same_shape a b -> same_shape b c -> same_shape a c.
Proof. destruct a, b, c; cbn; intros; try contradiction; auto; congruence. Qed.
Lemma variant_trans a b c : variant a b -> variant b c -> variant a c.
Proof.
  intros H K. destruct H; [exact K|inversion K; subst; clear K..].
  - apply v_conv; auto.
  - apply v_conv; congruence.
  - apply v_transposed; auto.
  - apply v_transposed; congruence.
  - apply v_norm; auto.
  - apply (v_norm cob_id m). eapply same_shape_trans; [exact H|]. assumption.
  - apply v_induced_norm; auto.
  - apply (v_induced_norm cob_id m). eapply same_shape_trans; [exact H|]. assumption.
  - apply v_gated; auto.
  - apply (v_gated cob_id m). cbn [set_bias1 g1_bias] in *. congruence.
  - apply v_norm_bn; auto.
  - apply v_norm_bn; [congruence|]. match goal with V : norm_bn_reached _ ?q |- norm_bn_reached _ ?q => rewrite H in V; exact V end.
  - apply v_induced_bn; auto.
  - apply v_induced_bn; [congruence|]. match goal with V : induced_bn_reached _ ?q |- induced_bn_reached _ ?q => rewrite H in V; exact V end.
  - apply v_inner_bn; auto.
  - apply v_inner_bn; [congruence|congruence|]. match goal with V : inner_bn_reached _ ?q |- inner_bn_reached _ ?q => rewrite H in V; exact V end.
  - apply v_gnorm_bn; auto.
  - apply v_gnorm_bn; [congruence|]. match goal with V : gnorm_bn_reached _ _ ?q |- gnorm_bn_reached _ _ ?q => rewrite H in V; exact V end.
Qed.
Lemma variants_refl l : variants l l.
Proof. induction l; constructor; auto. apply v_same. Qed.
Lemma variants_trans a : forall b c, variants a b -> variants b c -> variants a c.
Proof. induction a as [|x a IH]; intros b c H K; inversion H; subst; inversion K; subst; constructor; [eapply variant_trans; eauto|eapply IH; eauto]. Qed.
Lemma variant_types a b : variant a b -> layer_in b = layer_in a /\ layer_out b = layer_out a.
Proof. intros H. destruct H; auto; split; auto. Qed.
Lemma variant_good sp isrep e g fits a b : variant a b -> good_layer sp isrep e g cob_id fits a -> good_layer sp isrep e g cob_id fits b.
Proof.
  intros V (M & O1 & O2). destruct (variant_types a b V) as [T1 T2]. split; [|rewrite T1, T2; auto]. clear O1 O2 T1 T2.
  destruct V; [exact M|inversion M; subst; clear M..].
  - eapply made_conv; eauto. unfold used_params. rewrite H. reflexivity.
  - eapply made_diffop; eauto. unfold used_params. rewrite H. reflexivity.
  - eapply made_transposed; eauto. unfold used_params_t. rewrite H. reflexivity.
  - change (set_logb (set_logb m0 lb0) lb) with (set_logb m0 lb). eapply made_norm; eauto. eapply same_shape_trans; [eassumption|exact H].
  - change (set_ilogb (set_ilogb m0 lb0) lb) with (set_ilogb m0 lb). eapply made_induced_norm; eauto. eapply same_shape_trans; [eassumption|exact H].
  - change (set_bias1 (set_bias1 m0 b0) b) with (set_bias1 m0 b). eapply made_gated; eauto. cbn [set_bias1 g1_bias] in H. congruence.
  - apply made_norm_bn. rewrite H. exact H0.
  - apply made_induced_bn; rewrite H; assumption.
  - apply made_inner_bn. rewrite H. assumption.
  - apply made_gnorm_bn; rewrite H; assumption.
Qed.
Lemma variants_good sp isrep e g fits a b : variants a b -> Forall (good_layer sp isrep e g cob_id fits) a -> Forall (good_layer sp isrep e g cob_id fits) b.
Proof. induction 1 as [|x y a b V _ IH]; intros H; constructor; inversion H; subst; auto. eapply variant_good; eauto. Qed.
End Variants.

Section Step.
Context {G B : Type} (sp : space G) (isrep : rep G -> Prop) (PS : planar_space G sp isrep) (e : gelt) (g : G) (kk : Z) (argmax : list R -> nat) (cob_id : rep G -> bool) (bt : batch B).
Context (fits : space G -> rep G -> bool).
Hypothesis He : fg_is_element (sp_group (sp_obj sp)) e = true.
Hypothesis GE : grid_exact (sp_obj sp) e.
Hypothesis Hg : sp_prj sp e = Some g.
Hypothesis Hk : gangle (sp_obj sp) e = IZR kk * (PI / 2).
Hypothesis Hev : keeps_axes (sp_obj sp) e -> Z.even kk = true.
Hypothesis AM : argmax_ok argmax.
Hypothesis NB : numbered bt.
Context (junk junk' : nat -> B * (nat * nat) -> R) (junkn junkn' : nat -> nat -> R).
Notation tensor := (arr (B -> vec) * ctype G)%type.
Notation teqb := (ft_eqb space_eqb rep_eqb).
Notation rel := (@rel G B sp e g kk).
Notation fwd := (layer_forward argmax junk junkn cob_id bt).
Notation ok_type := (ok_type sp isrep g).
Notation suits := (@suits G B bt).
Notation is_typed := (typed space_eqb rep_eqb).

Lemma next_step l : good_layer sp isrep e g cob_id fits l -> forall tt x x' y t', ok_type tt -> rel tt x x' -> fwd l (x, tt) = Ok (y, t') -> suits l x y ->
  exists l1, layer_next cob_id junkn bt l (x, tt) = Ok l1 /\ layer_next cob_id junkn' bt l (x', tt) = Ok l1 /\ variant cob_id l l1.
Proof.
  intros (M & O1 & O2) tt x x' y t' O R F S. pose proof (fwd_type argmax cob_id bt junk junkn _ _ _ _ F) as E.
  destruct (rel_type sp isrep PS e g kk tt (layer_in l) x x' O O1 E R) as [SZ R'].
  pose proof O1 as (_ & NE & K1).
  destruct l; try (exists l; split; [reflexivity|split; [reflexivity|apply v_same]]); try (eexists; split; [reflexivity|split; [reflexivity|apply v_same]]);
    cbn [layer_next layer_forward layer_in Spec_Net.suits] in *; unfold state_of; cbn [fst snd]; clear F; rewrite (rel_area sp e g kk _ x x' R'); unfold entries in S;
    set (n := (bt_n bt * (a_h x * a_w x))%nat) in *; pose proof (rel_acts_each sp e g kk bt NB _ x x' NE R') as A; pose proof (entry_bij sp e g kk bt NB _ x x' R') as BJ; fold n in A, BJ; rewrite <- SZ in A.
  - inversion M; subst. match goal with Q : norm_bn_reached _ _ |- _ => rename Q into RE end. destruct (norm_bn_live isrep g _ m RE K1) as (_ & W & OR).
    assert (T : forall z : arr (B -> vec), is_typed (nb_in m) (MkGT (flat_channels bt (ct_size tt) z) tt)) by (intros z; split; [exact E|cbn [gt_data]; rewrite flat_channels_len; exact SZ]).
    destruct (nbn_sim space_eqb rep_eqb Nat.eqb py_str (fun s => s) (fun s => s) Nat.eqb_spec py_str_inj training n (fun _ => g) (entry sp e kk bt x x') m m (MkGT (flat_channels bt (ct_size tt) x) tt) (MkGT (flat_channels bt (ct_size tt) x') tt) W W) as (Y & Y' & m1 & m1' & F1 & F2 & (_ & _ & SM & _) & _); auto.
    { split; [reflexivity|]. auto 10. }
    assert (EQ : m1' = m1).
    { apply (nbn_state_eq space_eqb rep_eqb Nat.eqb py_str (fun s => s) (fun s => s) Nat.eqb_spec training n m _ _ Y Y' m1 m1' F1 F2). destruct SM as (_ & _ & _ & _ & _ & _ & _ & SM). intros k Hk'. apply SM.
      destruct (nbn_value space_eqb rep_eqb Nat.eqb py_str (fun s => s) (fun s => s) Nat.eqb_spec py_str_inj training n m _ W (T x) S) as (Z & m2 & F3 & _ & _ & _ & (_ & C2 & _) & _). rewrite F1 in F3. injection F3 as <- <-. rewrite C2. exact Hk'. }
    subst m1'. change (fun s : nat => py_str s) with py_str; rewrite F1, F2. cbn [rbind snd]. eexists. split; [reflexivity|]. split; [reflexivity|].
    destruct (nbn_value space_eqb rep_eqb Nat.eqb py_str (fun s => s) (fun s => s) Nat.eqb_spec py_str_inj training n m _ W (T x) S) as (Z & m2 & F3 & _ & _ & _ & (C1 & _) & _). rewrite F1 in F3. injection F3 as <- <-.
    apply v_norm_bn; [exact C1|]. exact (norm_bn_goes (nb_in m) m training n _ Y m1 RE (T x) S F1).
  - inversion M; subst. match goal with Q : induced_bn_reached _ _ |- _ => rename Q into RE end. destruct (induced_bn_live isrep g _ m RE K1) as (_ & W).
    assert (T : forall z : arr (B -> vec), is_typed (nb_in m) (MkGT (flat_channels bt (ct_size tt) z) tt)) by (intros z; split; [exact E|cbn [gt_data]; rewrite flat_channels_len; exact SZ]).
    destruct (nbn_sim space_eqb rep_eqb pair_eqb pair_str fst snd pair_eqbP pair_str_inj training n (fun _ => g) (entry sp e kk bt x x') m m (MkGT (flat_channels bt (ct_size tt) x) tt) (MkGT (flat_channels bt (ct_size tt) x') tt) W W) as (Y & Y' & m1 & m1' & F1 & F2 & (_ & _ & SM & _) & _); auto.
    { split; [reflexivity|]. auto 10. }
    assert (EQ : m1' = m1).
    { apply (nbn_state_eq space_eqb rep_eqb pair_eqb pair_str fst snd pair_eqbP training n m _ _ Y Y' m1 m1' F1 F2). destruct SM as (_ & _ & _ & _ & _ & _ & _ & SM). intros k Hk'. apply SM.
      destruct (nbn_value space_eqb rep_eqb pair_eqb pair_str fst snd pair_eqbP pair_str_inj training n m _ W (T x) S) as (Z & m2 & F3 & _ & _ & _ & (_ & C2 & _) & _). rewrite F1 in F3. injection F3 as <- <-. rewrite C2. exact Hk'. }
    subst m1'. rewrite F1, F2. cbn [rbind snd]. eexists. split; [reflexivity|]. split; [reflexivity|].
    destruct (nbn_value space_eqb rep_eqb pair_eqb pair_str fst snd pair_eqbP pair_str_inj training n m _ W (T x) S) as (Z & m2 & F3 & _ & _ & _ & (C1 & _) & _). rewrite F1 in F3. injection F3 as <- <-.
    apply v_induced_bn; [exact C1|]. exact (induced_bn_goes (nb_in m) m training n _ Y m1 RE (T x) S F1).
  - inversion M; subst. match goal with Q : inner_bn_reached _ _ |- _ => rename Q into RE end. destruct (inner_bn_live isrep g _ m RE K1) as (_ & W & PE).
    assert (T : forall z : arr (B -> vec), is_typed (ib_in m) (MkGT (flat_channels bt (ct_size tt) z) tt)) by (intros z; split; [exact E|cbn [gt_data]; rewrite flat_channels_len; exact SZ]).
    assert (IE : inner_enough training n m) by (intros C s Hs; unfold ib_sizes in Hs; apply in_map_iff in Hs as (r & <- & Hr); apply S; auto).
    destruct (inner_sim space_eqb rep_eqb training n junkn junkn' (fun _ => g) (entry sp e kk bt x x') m m (MkGT (flat_channels bt (ct_size tt) x) tt) (MkGT (flat_channels bt (ct_size tt) x') tt) W W) as (Y & Y' & m1 & m1' & F1 & F2 & (_ & _ & SM & EI & ET) & _); auto.
    { split; [reflexivity|]. auto 10. }
    assert (EQ : m1' = m1).
    { apply (inner_state_eq space_eqb rep_eqb training n junkn junkn' m _ _ Y Y' m1 m1' F1 F2). destruct SM as (_ & _ & _ & _ & _ & _ & SM). intros k Hk'. apply SM. unfold ib_sizes. rewrite EI. exact Hk'. }
    subst m1'. rewrite F1, F2. cbn [rbind snd]. eexists. split; [reflexivity|]. split; [reflexivity|].
    apply v_inner_bn; [exact EI|exact ET|]. exact (inner_bn_goes isrep g (ib_in m) m training n junkn _ Y m1 RE K1 (T x) S F1).
  - inversion M; subst. match goal with Q : gnorm_bn_reached _ _ _ |- _ => rename Q into RE end. match goal with Q : forall r, _ -> cob_id r = true -> _ |- _ => rename Q into CI end.
    match goal with Q : forall r ir, _ -> _ -> orthogonal _ _ |- _ => rename Q into OI end. destruct (gnorm_bn_live sp isrep PS e g He Hg cob_id _ m RE CI K1) as (_ & W & IT).
    assert (T : forall z : arr (B -> vec), is_typed (gb_in m) (MkGT (flat_channels bt (ct_size tt) z) tt)) by (intros z; split; [exact E|cbn [gt_data]; rewrite flat_channels_len; exact SZ]).
    destruct (gnorm_sim space_eqb rep_eqb cob_id training n junkn junkn' (fun _ => g) (entry sp e kk bt x x') m m (MkGT (flat_channels bt (ct_size tt) x) tt) (MkGT (flat_channels bt (ct_size tt) x') tt) W W) as (Y & Y' & m1 & m1' & F1 & F2 & (_ & _ & SM & EI) & _); auto.
    { split; [reflexivity|]. auto 10. }
    { intros p r ir _ Hr Hi. split; [apply (OI r); auto|]. apply (IT r ir Hr Hi). }
    assert (EQ : m1' = m1).
    { apply (gnorm_state_eq space_eqb rep_eqb cob_id training n junkn junkn' m _ _ Y Y' m1 m1' (proj1 (proj2 W)) F1 F2). destruct SM as (_ & _ & _ & _ & _ & _ & _ & SM). intros r Hr. apply SM. rewrite EI. exact Hr. }
    subst m1'. rewrite F1, F2. cbn [rbind snd]. eexists. split; [reflexivity|]. split; [reflexivity|].
    apply v_gnorm_bn; [exact EI|]. exact (gnorm_bn_goes sp isrep PS e g He Hg cob_id (gb_in m) m training n junkn _ Y m1 RE CI K1 (T x) S F1).
Qed.

Notation modules jk jkn ls := (map (layer_module argmax jk jkn cob_id bt) ls).
Lemma call_step ls : Forall (good_layer sp isrep e g cob_id fits) ls -> forall tt x x' y t', ok_type tt -> rel tt x x' -> run_all (modules junk junkn ls) (x, tt) = Ok (y, t') ->
  suits_all argmax cob_id bt junk junkn ls (x, tt) -> ok_type t' /\ exists y' ls1,
    call_all argmax cob_id junk junkn bt ls (x, tt) = Ok ((y, t'), ls1) /\ call_all argmax cob_id junk' junkn' bt ls (x', tt) = Ok ((y', t'), ls1) /\ rel t' y y' /\ variants cob_id ls ls1.
Proof.
  induction 1 as [|l ls GL _ IH]; intros tt x x' y t' O R F S; cbn [map run_all suits_all call_all] in *.
  - injection F as <- <-. split; [exact O|]. exists x', []. split; [reflexivity|]. split; [reflexivity|]. split; [exact R|constructor].
  - apply rbind_ok in F as ([z t1] & F1 & F2). cbn [layer_module em_fwd] in F1. destruct (S _ F1) as [S1 S2]. cbn [fst] in S1.
    destruct (good_step sp isrep PS e g kk argmax cob_id bt fits He GE Hg Hk Hev AM NB junk junk' junkn junkn' l GL tt x x' z t1 O R F1 S1) as (O' & z' & F1' & R').
    destruct (next_step l GL tt x x' z t1 O R F1 S1) as (l1 & N1 & N2 & V).
    destruct (IH t1 z z' y t' O' R' F2 S2) as (O'' & y' & ls1 & C1 & C2 & R'' & VS). split; [exact O''|]. exists y', (l1 :: ls1).
    rewrite F1, F1'. cbn [rbind]. rewrite N1, N2. cbn [rbind]. rewrite C1, C2. cbn [rbind fst snd]. split; [reflexivity|]. split; [reflexivity|]. split; [exact R''|]. constructor; assumption.
Qed.
End Step.

Section Train.
Context {G St : Type} (sp : space G) (isrep : rep G -> Prop) (PS : planar_space G sp isrep) (argmax : list R -> nat) (cob_id : rep G -> bool) (fits : space G -> rep G -> bool).
Context (opt : St -> list (layer G) -> list (layer G) -> (list (layer G) -> result R) -> St * list (layer G)) (interp : forall A : Type, R -> R -> arr A -> arr A).
Hypothesis AM : argmax_ok argmax.
Hypothesis OP : optimiser cob_id opt.
Notation variants := (variants cob_id).
Definition fair (net : list (layer G)) (p : iteration2 G) (e : gelt) : Prop :=
  numbered (i2_bt p) /\ usable sp isrep cob_id fits net (i2_type p) e /\ runs argmax cob_id net p /\ moved_batch interp e p /\ loss_moved argmax cob_id interp net e p.

Lemma fair_call net p e th : fair net p e -> variants net th -> exists y y' t th1,
  call_all argmax cob_id (i2_junk p) (i2_junkn p) (i2_bt p) th (i2_x p, i2_type p) = Ok ((y, t), th1) /\
  call_all argmax cob_id (i2_junk' p) (i2_junkn' p) (i2_bt p) th (i2_x' p, i2_type p) = Ok ((y', t), th1) /\
  i2_loss' p (y', t) = i2_loss p (y, t) /\ variants th th1.
Proof.
  intros (NB & (g & He & Hg & GE & GL & OT) & RU & (x1 & X1 & X2) & LM) V.
  destruct (space_ok _ _ _ PS) as [code [el [inv SF]]]. destruct (exact_angle _ _ (sf_constructed _ _ _ _ _ SF) He GE) as (kk & Hk & Ek).
  destruct (RU th V) as (([y t] & F) & SU). pose proof OT as (T1 & T2 & _).
  destruct (rel_transform sp isrep PS e g kk He Hg Hk interp (i2_type p) (i2_x p) T1 T2) as (x2 & X1' & X3). rewrite X1 in X1'. injection X1' as <-.
  assert (RX : rel sp e g kk (i2_type p) (i2_x p) (i2_x' p)) by (eapply rel_same; [exact X3|apply same_field_sym; exact X2]).
  destruct (call_step sp isrep PS e g kk argmax cob_id (i2_bt p) fits He GE Hg Hk Ek AM NB (i2_junk p) (i2_junk' p) (i2_junkn p) (i2_junkn' p) th (variants_good cob_id sp isrep e g fits net th V GL) (i2_type p) (i2_x p) (i2_x' p) y t OT RX F SU) as ((U1 & U2 & _) & y' & th1 & C1 & C2 & RY & V1).
  exists y, y', t, th1. split; [exact C1|]. split; [exact C2|]. split; [|exact V1].
  destruct (rel_transform sp isrep PS e g kk He Hg Hk interp t y U1 U2) as (y1 & Y1 & Y2). apply (LM th y t y1 y' V F Y1). eapply rel_unique; eauto.
Qed.
Lemma fair_step net p e s th : fair net p e -> variants net th -> exists r,
  train_step argmax cob_id opt s th (first_of p) = Ok r /\ train_step argmax cob_id opt s th (second_of p) = Ok r /\ variants net (snd r).
Proof.
  intros FA V. destruct (fair_call net p e th FA V) as (y & y' & t & th1 & C1 & C2 & _ & V1). unfold train_step. cbn [first_of second_of it_B it_junk it_junkn it_bt it_x]. rewrite C1, C2. cbn [rbind snd].
  destruct (OP s th th1 (batch_loss argmax cob_id (first_of p)) (batch_loss argmax cob_id (second_of p)) V1) as [E W].
  { intros th' V'. destruct (fair_call net p e th' FA (variants_trans cob_id _ _ _ V V')) as (z & z' & t' & th2 & D1 & D2 & L & _). unfold batch_loss. cbn [first_of second_of it_B it_junk it_junkn it_bt it_x it_loss]. rewrite D1, D2. cbn [rbind fst]. rewrite L. reflexivity. }
  eexists. split; [reflexivity|]. split; [rewrite E; reflexivity|]. eapply variants_trans; [exact V|exact W].
Qed.
Lemma fair_train net ps es : Forall2 (fair net) ps es -> forall s th, variants net th -> exists r,
  train argmax cob_id opt s th (map first_of ps) = Ok r /\ train argmax cob_id opt s th (map second_of ps) = Ok r /\ variants net (snd r).
Proof.
  induction 1 as [|p e ps es FA _ IH]; intros s th V; cbn [map train].
  - eexists. split; [reflexivity|]. split; [reflexivity|]. exact V.
  - destruct (fair_step net p e s th FA V) as (r & E1 & E2 & V'). rewrite E1, E2. cbn [rbind]. apply IH. exact V'.
Qed.

(** the outputs of a classifier do not change *)
Lemma scalar_same {B} e g kk (t : ctype G) (y y' : arr (B -> vec)) : fg_is_element (sp_group (sp_obj sp)) e = true -> sp_prj sp e = Some g -> ok_type sp isrep g t -> rel sp e g kk t y y' ->
  (forall r, In r (ft_reps t) -> is_trivial r = true) -> a_h y = 1%nat -> a_w y = 1%nat -> same_field (ct_size t) y y'.
Proof.
  intros He Hg (U1 & U2 & U3) (A1 & A2 & A3) TR H1 W1. cbn [amap a_h a_w a_px] in *. destruct (turn_h (gflip (sp_obj sp) e) kk y) as [T1 T2]. rewrite H1, W1 in T1, T2.
  assert (D : a_h (turn (gflip (sp_obj sp) e) kk (coords 1 1)) = 1%nat /\ a_w (turn (gflip (sp_obj sp) e) kk (coords 1 1)) = 1%nat).
  { unfold turn. rewrite !rot90_red. destruct (mod4 kk) as [Q|[Q|[Q|Q]]]; rewrite Q; destruct (gflip _ _); split; reflexivity. }
  destruct D as [D1 D2]. rewrite T1, D1 in A1. rewrite T2, D2 in A2. apply same_field_sym. split; [congruence|]. split; [congruence|]. intros i j b c Hi Hj Hc. rewrite (A3 i j b c Hi Hj Hc).
  rewrite A1 in Hi. rewrite A2 in Hj. rewrite turn_origin, H1, W1. cbv zeta.
  destruct (origin_in (gflip (sp_obj sp) e) kk 1 1 (i, j)) as [O1 O2]; [rewrite D1; exact Hi|rewrite D2; exact Hj|].
  replace (fst (origin (gflip (sp_obj sp) e) kk 1 1 (i, j))) with i by lia. replace (snd (origin (gflip (sp_obj sp) e) kk 1 1 (i, j))) with j by lia.
  rewrite (mvec_compat (ct_size t) (ct_size t) _ mid _ (a_px y i j b)); [apply mvec_id; exact Hc| |intros ? ?; reflexivity|exact Hc].
  assert (SZ : ct_size t = bsize (map (fun r => (rp_size r, rp_mat r g)) (ft_reps t))).
  { unfold ct_size, bsize. rewrite map_map. reflexivity. }
  rewrite SZ. apply bdiag_mid. apply Forall_map, Forall_forall. intros r Hr. cbn [fst snd]. destruct (trivial_facts sp isrep PS e g He Hg r (proj1 (U3 r Hr)) (TR r Hr)) as [S1 M1].
  rewrite S1. intros a b' Ha Hb. replace a with 0%nat by lia. replace b' with 0%nat by lia. exact M1.
Qed.
Lemma classifier_fair net p e : numbered (i2_bt p) -> usable sp isrep cob_id fits net (i2_type p) e -> runs argmax cob_id net p -> moved_batch interp e p ->
  classifies argmax cob_id net p -> same_loss p -> fair net p e.
Proof.
  intros NB US RU MB CL SL. split; [exact NB|]. split; [exact US|]. split; [exact RU|]. split; [exact MB|]. intros th y t y1 y' V F Y1 Y2.
  destruct US as (g & He & Hg & GE & GL & OT). destruct MB as (x1 & X1 & X2). pose proof OT as (T1 & T2 & _).
  destruct (space_ok _ _ _ PS) as [code [el [inv SF]]]. destruct (exact_angle _ _ (sf_constructed _ _ _ _ _ SF) He GE) as (kk & Hk & Ek).
  destruct (RU th V) as (_ & SU).
  destruct (rel_transform sp isrep PS e g kk He Hg Hk interp (i2_type p) (i2_x p) T1 T2) as (x2 & X1' & X3). rewrite X1 in X1'. injection X1' as <-.
  assert (RX : rel sp e g kk (i2_type p) (i2_x p) (i2_x' p)) by (eapply rel_same; [exact X3|apply same_field_sym; exact X2]).
  destruct (call_step sp isrep PS e g kk argmax cob_id (i2_bt p) fits He GE Hg Hk Ek AM NB (i2_junk p) (i2_junk' p) (i2_junkn p) (i2_junkn' p) th (variants_good cob_id sp isrep e g fits net th V GL) (i2_type p) (i2_x p) (i2_x' p) y t OT RX F SU) as (OU & _).
  pose proof OU as (U1 & U2 & _). destruct (rel_transform sp isrep PS e g kk He Hg Hk interp t y U1 U2) as (y2 & Y1' & Y3). rewrite Y1 in Y1'. injection Y1' as <-.
  destruct (CL th y t V F) as (TR & H1 & W1). apply SL. apply (same_field_trans _ _ y1); [|apply same_field_sym; exact Y2]. exact (scalar_same e g kk t y y1 He Hg OU Y3 TR H1 W1).
Qed.
End Train.
