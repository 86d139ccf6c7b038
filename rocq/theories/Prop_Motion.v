(** Theorems C63: sequences of rolls and turns. *)
From Coq Require Import Reals ZArith String List Bool Lia Lra.
From Verif Require Import Base LinAlg Spec Spec_Fields Model_Groups Model_Rep Proofs_Rep Proofs_Restrict Model_FieldType Proofs_FieldType Model_GSpace Spec_GSpace Proofs_GSpace Model_Tensor Model_Utils Model_Modules Spec_Modules
  Prop_Modules Model_Conv Spec_Conv Proofs_Conv Proofs_Conv2 Proofs_Conv3 Proofs_Conv4 Proofs_Conv5 Proofs_Conv6 Proofs_Conv8 Proofs_Tensor Prop_Conv Model_ConvT Model_Fieldwise Spec_Fieldwise Spec_Fieldwise2 Prop_Fieldwise3 Model_BatchNorm Spec_BatchNorm
  Model_Pool Spec_Pool Model_NormMax Model_Support Spec_Support Prop_Support Model_Expansion Prop_Pool Prop_Pool2 Model_Net Spec_Net Proofs_Net Proofs_Net2 Proofs_Net3 Proofs_Net4 Proofs_Net6 Proofs_Irreps Proofs_Support Prop_Net Spec_Move Proofs_Move4 Proofs_Move5 Prop_Move
  Model_Graph Spec_Graph Proofs_Graph Proofs_Graph2 Prop_Graph Spec_Motion.
Import ListNotations.
Open Scope R_scope.

(** Whatever sequence of turns, mirrorings and rolls the inputs of a forward method undergo, its variables undergo the same sequence, with the
    rolls divided by the strides. *)
Theorem C63_motions : forall G (sp : space G) isrep B (bt : batch B) argmax cob_id fits (ops : list (op G)) (interp : forall A : Type, R -> R -> arr A -> arr A) junk junkn w w' (st st' : list (arr (B -> vec) * ctype G)) s1,
  planar_space G sp isrep -> argmax_ok argmax -> numbered bt ->
  route interp sp isrep argmax cob_id bt fits junk junkn ops w w' st st' ->
  run_ops fits argmax junk junkn cob_id bt ops st = Ok s1 ->
  exists s1', run_ops fits argmax junk junkn cob_id bt ops st' = Ok s1' /\ journey interp w' s1 s1'.
Proof.
  intros G sp isrep B bt argmax cob_id fits ops interp junk junkn w w' st st' s1 PS AM NB R. revert s1. induction R as [st|e g w w' st st1 st2 He Hg GE GO OT SU MV R IH|g us vs w w' st st1 st2 Hg GO WR MV R IH]; intros s1 RN.
  - exists s1. split; [exact RN|constructor].
  - destruct (C61_program _ sp isrep B bt e g argmax cob_id fits ops interp junk junkn st s1 PS He Hg GE AM NB GO OT RN SU) as [_ K]. destruct (K junk junkn st1 MV) as (s2 & R2 & F2). destruct (IH s2 R2) as (s3 & R3 & J3). exists s3. split; [exact R3|]. econstructor; [exact F2|exact J3].
  - destruct (C61_rolls _ sp isrep B bt g argmax cob_id fits ops junk junkn st st1 s1 us vs PS Hg AM NB GO RN WR MV junk junkn) as (s2 & R2 & F2). destruct (IH s2 R2) as (s3 & R3 & J3). exists s3. split; [exact R3|]. econstructor; [exact F2|exact J3].
Qed.
Print Assumptions C63_motions.

Lemma transforms_scalar {G} (sp : space G) isrep {B} e g interp (x x' : arr (B -> vec) * ctype G) : planar_space G sp isrep -> fg_is_element (sp_group (sp_obj sp)) e = true -> sp_prj sp e = Some g -> grid_exact (sp_obj sp) e ->
  ft_gs (snd x) = sp -> ft_reps (snd x) <> [] -> (forall r, In r (ft_reps (snd x)) -> isrep r /\ is_trivial r = true) -> a_h (fst x) = 1%nat -> a_w (fst x) = 1%nat -> transforms e interp x x' -> snd x' = snd x /\ same_field (ct_size (snd x)) (fst x') (fst x).
Proof.
  intros PS He Hg GE T1 T2 TR H1 W1 (E & z & Z & S). split; [exact E|]. destruct x as [y tout]. cbn [fst snd] in *. eapply same_field_trans; [exact S|]. clear x' E S.
  destruct (space_ok _ _ _ PS) as [code [el [inv SF]]]. destruct (exact_angle _ _ (sf_constructed _ _ _ _ _ SF) He GE) as (kk & Hk & Ek).
  destruct (rel_transform sp isrep PS e g kk He Hg Hk interp tout y T1 T2) as (z' & Z' & E4). rewrite Z in Z'. injection Z' as <-. rename z into y'.
  destruct E4 as (A1 & A2 & A3). cbn [amap a_h a_w a_px] in *. destruct (turn_h (gflip (sp_obj sp) e) kk y) as [Q1 Q2]. rewrite H1, W1 in Q1, Q2.
  assert (D : a_h (turn (gflip (sp_obj sp) e) kk (coords 1 1)) = 1%nat /\ a_w (turn (gflip (sp_obj sp) e) kk (coords 1 1)) = 1%nat).
  { unfold turn. rewrite !rot90_red. destruct (mod4 kk) as [Q|[Q|[Q|Q]]]; rewrite Q; destruct (gflip _ _); split; reflexivity. }
  destruct D as [D1 D2]. rewrite Q1, D1 in A1. rewrite Q2, D2 in A2. split; [congruence|]. split; [congruence|]. intros i j b c Hi Hj Hc. rewrite (A3 i j b c Hi Hj Hc).
  rewrite A1 in Hi. rewrite A2 in Hj. rewrite turn_origin, H1, W1. cbv zeta.
  destruct (origin_in (gflip (sp_obj sp) e) kk 1 1 (i, j)) as [O1 O2]; [rewrite D1; exact Hi|rewrite D2; exact Hj|].
  replace (fst (origin (gflip (sp_obj sp) e) kk 1 1 (i, j))) with i by lia. replace (snd (origin (gflip (sp_obj sp) e) kk 1 1 (i, j))) with j by lia.
  rewrite (mvec_compat (ct_size tout) (ct_size tout) _ mid _ (a_px y i j b)); [apply mvec_id; exact Hc| |intros ? ?; reflexivity|exact Hc].
  assert (SZ : ct_size tout = bsize (map (fun r => (rp_size r, rp_mat r g)) (ft_reps tout))).
  { unfold ct_size, bsize. rewrite map_map. reflexivity. }
  rewrite SZ. apply bdiag_mid. apply Forall_map, Forall_forall. intros r Hr. cbn [fst snd]. destruct (trivial_facts sp isrep PS e g He Hg r (proj1 (TR r Hr)) (proj2 (TR r Hr))) as [S1 M1].
  rewrite S1. intros a b' Ha Hb. replace a with 0%nat by lia. replace b' with 0%nat by lia. exact M1.
Qed.
Lemma rolls_scalar {G B} u (x x' : arr (B -> vec) * ctype G) : a_h (fst x) = 1%nat -> a_w (fst x) = 1%nat -> rolls u x x' -> snd x' = snd x /\ same_field (ct_size (snd x)) (fst x') (fst x).
Proof.
  intros H W (E & _ & _ & R1 & R2 & R3). split; [exact E|]. split; [exact R1|]. split; [exact R2|]. intros i j b c Hi Hj Hc. rewrite R1, H in Hi. rewrite R2, W in Hj. rewrite R3 by (auto; lia). rewrite H, W, !Nat.mod_1_r. replace i with 0%nat by lia. replace j with 0%nat by lia. reflexivity.
Qed.
Lemma Forall2_at {A C} (P : A -> C -> Prop) l l' i a : Forall2 P l l' -> nth_error l i = Some a -> exists b, nth_error l' i = Some b /\ P a b.
Proof. intros F. revert i. induction F as [|x y l l' H F IH]; intros [|i] E; try discriminate; cbn in *; [injection E as <-; eauto|auto]. Qed.

(** The class scores of a classifier (a variable of scalar fields and one pixel) stay the same, whatever sequence of turns, mirrorings and rolls
    its input undergoes. *)
Theorem C63_invariant : forall G (sp : space G) isrep B (bt : batch B) argmax cob_id fits (ops : list (op G)) (interp : forall A : Type, R -> R -> arr A -> arr A) junk junkn w w' (st st' : list (arr (B -> vec) * ctype G)) s1 i y t,
  planar_space G sp isrep -> argmax_ok argmax -> numbered bt ->
  route interp sp isrep argmax cob_id bt fits junk junkn ops w w' st st' ->
  run_ops fits argmax junk junkn cob_id bt ops st = Ok s1 ->
  nth_error s1 i = Some (y, t) -> a_h y = 1%nat -> a_w y = 1%nat -> ft_gs t = sp -> ft_reps t <> [] -> (forall r, In r (ft_reps t) -> isrep r /\ is_trivial r = true) ->
  exists s1' y', run_ops fits argmax junk junkn cob_id bt ops st' = Ok s1' /\ nth_error s1' i = Some (y', t) /\ same_field (ct_size t) y' y.
Proof.
  intros G sp isrep B bt argmax cob_id fits ops interp junk junkn w w' st st' s1 i y t PS AM NB R RN Hi H1 W1 T1 T2 TR. revert s1 y RN Hi H1 W1. induction R as [st|e g w w' st st1 st2 He Hg GE GO OT SU MV R IH|g us vs w w' st st1 st2 Hg GO WR MV R IH]; intros s1 y RN Hi H1 W1.
  - exists s1, y. split; [exact RN|]. split; [exact Hi|apply same_field_refl].
  - destruct (C61_program _ sp isrep B bt e g argmax cob_id fits ops interp junk junkn st s1 PS He Hg GE AM NB GO OT RN SU) as [_ K]. destruct (K junk junkn st1 MV) as (s2 & R2 & F2).
    destruct (Forall2_at _ _ _ _ _ F2 Hi) as ([y2 t2] & Hi2 & T). destruct (transforms_scalar sp isrep e g interp (y, t) (y2, t2) PS He Hg GE T1 T2 TR H1 W1 T) as [E S]. cbn [fst snd] in E, S. subst t2.
    destruct S as (S1 & S2 & S3). destruct (IH s2 y2 R2 Hi2) as (s3 & y3 & R3 & Hi3 & S'); [congruence|congruence|]. exists s3, y3. split; [exact R3|]. split; [exact Hi3|]. eapply same_field_trans; [exact S'|]. split; auto.
  - destruct (C61_rolls _ sp isrep B bt g argmax cob_id fits ops junk junkn st st1 s1 us vs PS Hg AM NB GO RN WR MV junk junkn) as (s2 & R2 & L1 & L2 & F2).
    assert (LI : (i < length s1)%nat) by (apply nth_error_Some; congruence). destruct (nth_error vs i) as [u|] eqn:U; [|apply nth_error_None in U; lia]. destruct (nth_error s2 i) as [[y2 t2]|] eqn:Hi2; [|apply nth_error_None in Hi2; lia].
    destruct (rolls_scalar u (y, t) (y2, t2) H1 W1 (F2 i u _ _ U Hi Hi2)) as [E S]. cbn [fst snd] in E, S. subst t2.
    destruct S as (S1 & S2 & S3). destruct (IH s2 y2 R2 Hi2) as (s3 & y3 & R3 & Hi3 & S'); [congruence|congruence|]. exists s3, y3. split; [exact R3|]. split; [exact Hi3|]. eapply same_field_trans; [exact S'|]. split; auto.
Qed.
Print Assumptions C63_invariant.

(** a residual block with circular padding; a 3 x 4 image is rolled by two rows and one column and then turned by 90 degrees *)
Example C63_ex : exists m cs,
  let bt := MkBatch 1 (fun _ : unit => 0%nat) (fun _ => tt) in let x := MkArr 3 4 (fun i j (_ : unit) c => INR (i * j + c)) in let u := ((3, 2), (4, 1))%nat in
  forall interp argmax junk junkn, argmax_ok argmax -> exists st',
  route interp (space_CN 4) (cyc_rep 4) argmax (fun _ => false) bt (fun _ _ => true) junk junkn (block m cs) [MRoll [u]; MTurn (EI 1)] [MRoll [u; u; u; u; u; u]; MTurn (EI 1)] [(x, c4_type)] st' /\
  exists s1, run_ops (fun _ _ => true) argmax junk junkn (fun _ => false) bt (block m cs) [(x, c4_type)] = Ok s1 /\ length s1 = 6%nat.
Proof.
  destruct (block_runs "circular" MCircular eq_refl) as (m & cs & E1 & E2 & E3 & E4 & E5 & GO & RN). exists m, cs. cbv zeta. intros interp argmax junk junkn AM.
  set (x := MkArr 3 4 (fun i j (_ : unit) c => INR (i * j + c))). set (x' := MkArr 3 4 (fun i j (_ : unit) c => INR (((i + 2) mod 3) * ((j + 1) mod 4) + c))).
  set (bt := MkBatch 1 (fun _ : unit => 0%nat) (fun _ => tt)). assert (NB : numbered bt) by (split; [intros []; split; [cbn; lia|reflexivity]|]; intros k Hk; cbn in *; lia).
  assert (SU : suits_ops argmax (fun _ => false) bt (fun _ _ => true) junk junkn (block m cs) [(x', c4_type)]).
  { unfold block. cbn [suits_ops suits_op]. split; [|repeat (intros ? _; split; [exact I|]); intros ? _; exact I].
    intros z y X _. injection X as <-. cbn [suits fst]. unfold strides. rewrite E2, E3, E4, E5. split; reflexivity. }
  assert (OT : forall z : arr (unit -> vec) * ctype Z, In z [(x', c4_type)] -> ok_type (space_CN 4) (cyc_rep 4) 1%Z (snd z)) by (intros z [<-|[]]; exact c4_rep_ok).
  destruct (RN argmax junk junkn x') as (s2 & R2 & _); try reflexivity; try (cbn; lia).
  destruct (C61_program _ (space_CN 4) (cyc_rep 4) unit bt (EI 1) 1%Z argmax (fun _ => false) (fun _ _ => true) (block m cs) interp junk junkn [(x', c4_type)] s2 (PS_CN 4 ltac:(lia)) eq_refl eq_refl (proj1 (conj exact_c4 I)) AM NB (GO _ _ (or_intror (or_introl eq_refl))) OT R2 SU) as [[st' TR] _].
  exists st'. split; [|apply RN; cbn; try reflexivity; lia].
  apply (route_roll _ _ _ _ _ _ _ _ _ _ 0%Z _ _ _ _ _ [(x', c4_type)]).
  - reflexivity.
  - apply GO. left. reflexivity.
  - assert (X : forall u, expands u u u) by (intros u; left; auto). unfold block.
    eapply wos_cons; [eapply (wo_layer _ _ _ _ _ ((3, 2), (4, 1))%nat); [reflexivity|]; apply (wraps_conv _ m cs (3, 2)%nat (4, 1)%nat (3, 2)%nat (4, 1)%nat)|].
    + rewrite E1, E2, E3, E4, E5. unfold turns. cbn. split; [lia|]. split; [reflexivity|]. split; [reflexivity|]. right. auto.
    + rewrite E1, E2, E3, E4, E5. unfold turns. cbn. split; [lia|]. split; [reflexivity|]. split; [reflexivity|]. right. auto.
    + eapply wos_cons; [eapply (wo_add _ _ _ _ _ _ ((3, 2), (4, 1))%nat); [reflexivity|reflexivity|apply X|apply X]|]. eapply wos_cons; [eapply wo_mul; reflexivity|].
      eapply wos_cons; [eapply (wo_cat _ _ _ ((3, 2), (4, 1))%nat); repeat constructor|]. eapply wos_cons; [eapply wo_get; reflexivity|].
      eapply wos_cons; [eapply wo_isub; [reflexivity|reflexivity|apply X|apply X]|]. apply wos_nil.
  - split; [reflexivity|]. split; [reflexivity|]. intros [|[|i]] u y y' H1 H2 H3; try discriminate. injection H1 as <-. injection H2 as <-. injection H3 as <-.
    split; [reflexivity|]. split; [reflexivity|]. split; [reflexivity|]. split; [reflexivity|]. split; [reflexivity|]. intros i j b c Hi Hj Hc. reflexivity.
  - eapply (route_turn _ _ _ _ _ _ _ _ _ _ (EI 1) 1%Z); [reflexivity|reflexivity|apply exact_c4|apply GO; right; left; reflexivity|exact OT|exact SU|exact TR|apply route_end].
Qed.
