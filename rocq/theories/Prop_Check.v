(** C66: check_equivariance. *)
From Coq Require Import Reals ZArith String List Bool Lia Lra FunctionalExtensionality.
From Verif Require Import Base LinAlg Spec Spec_Fields Model_Groups Model_Rep Proofs_Rep Proofs_Restrict Model_FieldType Proofs_FieldType Model_GSpace Spec_GSpace Proofs_GSpace Model_Tensor Model_Utils Model_Modules Spec_Modules
  Prop_Modules Model_Conv Spec_Conv Proofs_Conv Proofs_Conv2 Proofs_Conv3 Proofs_Conv4 Proofs_Conv5 Proofs_Conv6 Proofs_Conv8 Proofs_Tensor Prop_Conv Model_ConvT Model_Fieldwise Spec_Fieldwise Spec_Fieldwise2 Prop_Fieldwise3 Model_BatchNorm Spec_BatchNorm
  Proofs_BatchNorm5 Model_Pool Spec_Pool Model_NormMax Spec_NormMax Model_Support Spec_Support Prop_Support Model_Expansion Prop_Pool Prop_Pool2 Model_Net Spec_Net Proofs_Net Proofs_Net2 Proofs_Net3 Proofs_Net4 Proofs_Net5 Proofs_Net6 Proofs_Irreps Proofs_Regular2 Proofs_Support Prop_Net
  Model_Train Spec_Train Proofs_Train Proofs_Train2 Model_Check Spec_Check Proofs_Check Proofs_Check2 Proofs_Check3.
Import ListNotations.
Open Scope R_scope.

(** A network whose layers are equivariant, in evaluation mode, over a space whose testing elements map the pixel grid to itself: the check (of
    SequentialModule and of the modules that inherit it) passes with any tolerances, returns each testing element with the error zero, and does not
    change the network. *)
Theorem C66_network : forall G (sp : space G) isrep B (bt : batch B) argmax cob_id fits (interp : forall A : Type, R -> R -> arr A -> arr A) junks junkns (net : list (layer G)) (t : ctype G) (x : arr (B -> vec)) atol rtol,
  planar_space G sp isrep -> argmax_ok argmax -> numbered bt -> ft_gs t = sp -> Forall in_eval net ->
  (forall e, In e (testing_elements (sp_group (sp_obj sp))) -> usable sp isrep cob_id fits net t e) ->
  (forall i, exists y, run_all (map (layer_module argmax (junks i) (junkns i) cob_id bt) net) (x, t) = Ok y /\ some_entry bt y /\ suits_all argmax cob_id bt (junks i) (junkns i) net (x, t)) ->
  0 <= atol -> 0 <= rtol ->
  check_network bt argmax cob_id junks junkns interp atol rtol net (x, t) = Ok (map (fun e => (e, 0)) (testing_elements (sp_group (sp_obj sp))), net).
Proof. intros G sp isrep B bt argmax cob_id fits interp junks junkns net t x atol rtol PS AM NB TS EV US RU A0 R0. exact (network_check sp isrep PS argmax cob_id fits bt interp AM NB junks junkns net t x atol rtol EV TS US RU A0 R0). Qed.
Print Assumptions C66_network.

(** The modules that are checked by transforming the fibres (non-linearities, GroupPooling, NormPool and InducedNormPool), for each group, also for
    the continuous ones: the check passes and returns each testing element with the error zero. *)
Theorem C66_module : forall G (sp : space G) isrep B (bt : batch B) argmax cob_id fits junks junkns (l : layer G) (x : arr (B -> vec)) atol rtol,
  planar_space G sp isrep -> argmax_ok argmax -> checks_fibers l -> ft_gs (layer_in l) = sp ->
  (forall e g, In e (testing_elements (sp_group (sp_obj sp))) -> sp_prj sp e = Some g -> good_layer sp isrep e g cob_id fits l) ->
  (forall i, exists y, layer_forward argmax (junks i) (junkns i) cob_id bt l (x, layer_in l) = Ok y /\ some_entry bt y /\ suits bt l x (fst y)) ->
  0 <= atol -> 0 <= rtol ->
  check_module bt argmax cob_id junks junkns atol rtol l (x, layer_in l) = Ok (map (fun e => (e, 0)) (testing_elements (sp_group (sp_obj sp)))).
Proof. intros G sp isrep B bt argmax cob_id fits junks junkns l x atol rtol PS AM CF TS GL RU A0 R0. exact (module_check sp isrep PS argmax cob_id fits bt AM junks junkns l x atol rtol CF TS GL RU A0 R0). Qed.
Print Assumptions C66_module.

(** The check of any module (a function of tensors) over a finite group passes if and only if, for each element of the group, transforming the output
    and calling the module with the transformed input agree up to the tolerances. *)
Theorem C66_finite : forall G B (bt : batch B) (f : arr (B -> vec) * ctype G -> result (arr (B -> vec) * ctype G)) move atol rtol (x : arr (B -> vec) * ctype G),
  finite_group (sp_group (sp_obj (ft_gs (snd x)))) ->
  (exists errs, check_function bt f move atol rtol x = Ok errs) <->
  forall e, fg_is_element (sp_group (sp_obj (ft_gs (snd x)))) e = true -> exists y out1 x' out2, f x = Ok y /\ move y e = Ok out1 /\ move x e = Ok x' /\ f x' = Ok out2 /\ agree bt atol rtol out1 out2.
Proof.
  intros G B bt f move atol rtol x FG. unfold check_function. split.
  - intros [errs E]. apply rbind_ok in E as (r & E & _). intros e He. apply (proj1 (function_loop bt f move atol rtol x _) (ex_intro _ r E)). apply testing_all; auto.
  - intros H. destruct (proj2 (function_loop bt f move atol rtol x (testing_elements (sp_group (sp_obj (ft_gs (snd x)))))) (fun e He => H e (testing_element _ _ He))) as [r E]. rewrite E. eexists. reflexivity.
Qed.
Print Assumptions C66_finite.

(** What the check of any module returns, for each group: the testing elements in their order, each with the mean of the absolute differences between
    the transformed output and the output for the transformed input. *)
Theorem C66_errors : forall G B (bt : batch B) (f : arr (B -> vec) * ctype G -> result (arr (B -> vec) * ctype G)) move atol rtol (x : arr (B -> vec) * ctype G) errs,
  check_function bt f move atol rtol x = Ok errs ->
  map fst errs = testing_elements (sp_group (sp_obj (ft_gs (snd x)))) /\
  forall e err, In (e, err) errs -> exists y out1 x' out2, f x = Ok y /\ move y e = Ok out1 /\ move x e = Ok x' /\ f x' = Ok out2 /\ agree bt atol rtol out1 out2 /\ err = mean_difference bt out1 out2.
Proof.
  intros G B bt f move atol rtol x errs E. unfold check_function in E. apply rbind_ok in E as (r & L & E). injection E as <-. destruct (loop_errors _ _ _ _ _ _ _ _ _ L) as [I1 I2]. split; [exact I1|].
  intros e err I. assert (Ie : In e (testing_elements (sp_group (sp_obj (ft_gs (snd x)))))) by (rewrite <- I1; exact (in_map fst _ _ I)).
  destruct (proj1 (function_loop bt f move atol rtol x _) (ex_intro _ r L) e Ie) as (y & out1 & x' & out2 & F1 & M1 & M2 & F2 & A). exists y, out1, x', out2. repeat (split; [assumption|]).
  destruct (I2 e err I) as (s0 & y0 & s1 & o1 & x0 & o2 & s2 & C1 & N1 & N2 & C2 & ->). rewrite F1 in C1. cbn [rbind] in C1. injection C1 as <- _. rewrite M1 in N1. injection N1 as <-. rewrite M2 in N2. injection N2 as <-.
  rewrite F2 in C2. cbn [rbind] in C2. injection C2 as <- _. reflexivity.
Qed.
Print Assumptions C66_errors.

(** ** continuous groups: the 52 angles *)
Definition freq52 : rep R := MkRep "mine" [MkIrrep 2 2 0 52 (fun e => psi e 52 0) ["norm"; "gated"]%string] mid mid ["pointwise"%string].
Definition type52 : ctype R := MkFT (space_SO2 52) [freq52].
Lemma freq52_mat e : meq 2 2 (rp_mat freq52 e) (psi e 52 0).
Proof.
  pose proof (irrep_rep_mat "mine" (MkIrrep 2 2 0 52 (fun e => psi e 52 0) ["norm"; "gated"]%string) e) as M. exact M.
Qed.
Lemma trep52 e : meq 2 2 (trep [freq52] e) (psi e 52 0).
Proof. intros i j Hi Hj. rewrite <- (freq52_mat e i j Hi Hj). unfold trep. cbn [map bdiag]. change (rp_size freq52) with 2%nat. destruct (Nat.ltb_spec i 2), (Nat.ltb_spec j 2); try lia. reflexivity. Qed.
Lemma testing52 e : In e (testing_elements (GSO2 52)) -> exists a, e = ER a /\ meq 2 2 (psi a 52 0) mid.
Proof.
  intros H. cbn [testing_elements] in H. apply in_map_iff in H as (i & <- & _). eexists. split; [reflexivity|]. unfold psi, testing_angle. cbv zeta.
  replace (52 * (INR i * 2 * PI / INR (4 * 13)) + 0) with (0 + 2 * INR i * PI) by (cbn -[INR PI]; replace (INR 52) with 52 by (rewrite INR_IZR_INZ; reflexivity); field).
  rewrite cos_period, sin_period, cos_0, sin_0. intros [|[|a]] [|[|b]] Ha Hb; try lia; cbn; unfold mid; cbn; ring.
Qed.
Lemma relu52 B argmax junk junkn cob_id (bt : batch B) x : exists y, layer_forward argmax junk junkn cob_id bt (LPointwise (MkPW type52 relu)) (x, type52) = Ok (y, type52) /\ a_h y = a_h x /\ a_w y = a_w x /\
  forall i j b c, (i < a_h x)%nat -> (j < a_w x)%nat -> (c < 2)%nat -> a_px y i j b c = relu (a_px x i j b c).
Proof.
  cbn [layer_forward]. unfold on_channels, pointwise_forward. cbn [gt_type pw_in snd fst gt_data]. rewrite (teqb_refl type52). cbn [assert_]. unfold mk_gt. rewrite map_length, channels_len. change (ct_size type52) with 2%nat.
  change (nsum (map rp_size (ft_reps type52))) with 2%nat. cbn [Nat.eqb assert_ rbind]. eexists. split; [reflexivity|]. split; [reflexivity|]. split; [reflexivity|]. intros i j b c Hi Hj Hc. cbn [image a_px gt_data].
  change (a_px x i j b c) with ((fun q : B * (nat * nat) => a_px x (fst (snd q)) (snd (snd q)) (fst q) c) (b, (i, j))).
  pose proof (channels_val 2 x c (b, (i, j)) Hc) as V. unfold in_image in V. cbn [fst snd] in V. rewrite (proj2 (Nat.ltb_lt _ _) Hi), (proj2 (Nat.ltb_lt _ _) Hj) in V. cbn [andb] in V. unfold val in V.
  rewrite (nth_indep _ _ ((fun c (p : B * (nat * nat)) => relu (c p)) (fun _ => 0))) by (rewrite map_length, channels_len; exact Hc). rewrite (map_nth (fun c (p : B * (nat * nat)) => relu (c p))). rewrite V. reflexivity.
Qed.
(** A representation of SO(2) of frequency 52, which the user declares to support point-wise non-linearities (Representation believes the user):
    check_equivariance of a ReLU passes with the error zero on every input.  But the ReLU is not equivariant: the 52 angles of the
    check all act as the identity. *)
Theorem C66_continuous_refuted : so2_rep freq52 /\ exists m, relu_make type52 = Ok m /\
  (forall B (bt : batch B) argmax cob_id junks junkns x atol rtol, some_entry bt (x, type52) -> 0 <= atol -> 0 <= rtol ->
     check_module bt argmax cob_id junks junkns atol rtol (LPointwise m) (x, type52) = Ok (map (fun e => (e, 0)) (testing_elements (GSO2 52)))) /\
  (forall B (bt : batch B) argmax cob_id junk junkn, exists x e y out1 x' out2, fg_is_element (GSO2 52) e = true /\
     layer_forward argmax junk junkn cob_id bt (LPointwise m) (x, type52) = Ok y /\ move_fibers y e = Ok out1 /\ move_fibers (x, type52) e = Ok x' /\ layer_forward argmax junk junkn cob_id bt (LPointwise m) x' = Ok out2 /\
     a_h (fst out1) = 1%nat /\ a_w (fst out1) = 1%nat /\ forall b, a_px (fst out1) 0 0 b 0%nat = -1 /\ a_px (fst out2) 0 0 b 0%nat = 0).
Proof.
  split. { split; [apply inverse_pair_mid|]. constructor; [|constructor]. exists 52%Z. reflexivity. }
  exists (MkPW type52 relu). split; [reflexivity|]. split.
  - intros B bt argmax cob_id junks junkns x atol rtol SE A0 R0. unfold check_module. cbn [snd type52 ft_gs space_SO2 sp_obj sp_group].
    destruct (loop_zero bt (net_call bt argmax cob_id junks junkns) move_fibers atol rtol (x, type52) (fun s => snd s = [LPointwise (MkPW type52 relu)]) (testing_elements (GSO2 52))) with (s := (0%nat, [LPointwise (MkPW type52 relu)])) as (s' & L & I); [|reflexivity|rewrite L; reflexivity].
    intros [k n] e I Ie. cbn [snd] in I. subst n. destruct (testing52 e Ie) as (a & -> & PI1).
    assert (MV : forall z : arr (B -> vec), exists z', move_fibers (z, type52) (ER a) = Ok (z', type52) /\ same_field 2 z' z).
    { intros z. destruct (fibers_move (B := B) a type52 (ER a) z eq_refl eq_refl ltac:(discriminate)) as (z' & Z1 & Z2). exists z'. split; [exact Z1|]. eapply same_field_trans; [exact Z2|]. change (ct_size type52) with 2%nat.
      split; [reflexivity|]. split; [reflexivity|]. intros i j b c Hi Hj Hc. cbn [amap a_px]. rewrite (mvec_compat 2 2 _ mid _ (a_px z i j b)); [apply mvec_id; exact Hc| |intros ? ?; reflexivity|exact Hc].
      intros u v Hu Hv. transitivity (psi a 52 0 u v); [exact (trep52 a u v Hu Hv)|apply PI1; auto]. }
    destruct (relu52 B argmax (junks k) (junkns k) cob_id bt x) as (y & F1 & H1 & W1 & V1). destruct (MV y) as (y1 & Y1 & Y2). destruct (MV x) as (x1 & X1 & X2).
    destruct (relu52 B argmax (junks (S k)) (junkns (S k)) cob_id bt x1) as (y' & F2 & H2 & W2 & V2).
    exists (y, type52), (S k, [LPointwise (MkPW type52 relu)]), (y1, type52), (x1, type52), (y', type52), (S (S k), [LPointwise (MkPW type52 relu)]). unfold net_call. cbn [fst snd call_all layer_next]. rewrite F1. cbn [rbind fst snd].
    split; [reflexivity|]. split; [exact Y1|]. split; [exact X1|]. rewrite F2. cbn [rbind fst snd]. split; [reflexivity|]. split; [|reflexivity].
    destruct Y2 as (D1 & D2 & D3). destruct X2 as (E1 & E2 & E3). apply same_compare; auto.
    + change (ct_size type52) with 2%nat. split; [congruence|]. split; [congruence|]. intros i j b c Hi Hj Hc. rewrite D3 by auto. rewrite V1, V2, E3 by (auto; congruence). reflexivity.
    + change (ct_size type52) with 2%nat. lia.
    + destruct SE as (P1 & P2 & P3). cbn [fst] in *. split; [exact P1|]. cbn [fst]. rewrite D1, D2, H1, W1. auto.
  - intros B bt argmax cob_id junk junkn. set (x := MkArr 1 1 (fun _ _ (_ : B) c => if (c =? 0)%nat then 1 else 0)).
    destruct (relu52 B argmax junk junkn cob_id bt x) as (y & F1 & H1 & W1 & V1).
    destruct (fibers_move (B := B) (PI / 52) type52 (ER (PI / 52)) y eq_refl eq_refl ltac:(discriminate)) as (y1 & Y1 & Y2). destruct (fibers_move (B := B) (PI / 52) type52 (ER (PI / 52)) x eq_refl eq_refl ltac:(discriminate)) as (x1 & X1 & X2).
    destruct (relu52 B argmax junk junkn cob_id bt x1) as (y' & F2 & H2 & W2 & V2). exists x, (ER (PI / 52)), (y, type52), (y1, type52), (x1, type52), (y', type52).
    split; [reflexivity|]. split; [exact F1|]. split; [exact Y1|]. split; [exact X1|]. split; [exact F2|]. cbn [fst]. destruct Y2 as (D1 & D2 & D3). destruct X2 as (E1 & E2 & E3). cbn [amap a_h a_w a_px] in *.
    split; [rewrite D1, H1; reflexivity|]. split; [rewrite D2, W1; reflexivity|]. intros b. change (ct_size type52) with 2%nat in *.
    assert (MV : forall v : vec, mvec 2 (trep [freq52] (PI / 52)) v 0%nat = - v 0%nat).
    { intros v. unfold mvec. cbn [rsum]. rewrite !(trep52 (PI / 52)) by lia. unfold psi. cbv zeta. replace (52 * (PI / 52) + 0) with PI by field. cbn. rewrite cos_PI, sin_PI. ring. }
    assert (R1 : relu 1 = 1) by (unfold relu, Rmax; destruct (Rle_dec _ _); lra). assert (R2 : relu (- (1)) = 0) by (unfold relu, Rmax; destruct (Rle_dec _ _); lra). split.
    + rewrite D3 by (rewrite ?D1, ?D2, ?H1, ?W1; cbn; lia). change (ft_reps type52) with [freq52]. rewrite MV, V1 by (cbn; lia). cbn [x a_px Nat.eqb]. rewrite R1. ring.
    + rewrite V2 by (rewrite ?E1, ?E2; cbn; lia). rewrite E3 by (rewrite ?E1, ?E2; cbn; lia). change (ft_reps type52) with [freq52]. rewrite MV. cbn [x a_px Nat.eqb]. exact R2.
Qed.
Print Assumptions C66_continuous_refuted.

(** ** training mode *)
Definition sign_type : ctype Z := MkFT (space_CN 4) [c4 2].
Definition sign_bn (f : nat -> list R) (n : nat) : nbn (GS := space Z) (G := Z) (K := nat) :=
  MkNB sign_type [1%nat] [("1"%string, CSlice 0 1)] (1 / 100000) (Some (1 / 10)) (Some (fun k => repeat 1 (nfields Nat.eqb [1%nat] k))) f n.
Lemma sign_step f n v (c : nat -> R) : f 1%nat = [v] -> c 0%nat = 20 -> 0 < v ->
  nbn_forward space_eqb rep_eqb Nat.eqb py_str (fun s => s) (fun s => s) true 1 (sign_bn f n) (MkGT [c] sign_type) =
  Ok (MkGT [fun p => c p * (1 / sqrt (ema (1/10) v 400 + 1 / 100000))] sign_type, sign_bn (set_at Nat.eqb f 1%nat [ema (1/10) v 400]) (S n)).
Proof.
  intros Hf Hc Hv. unfold nbn_forward. cbn [gt_type nb_in sign_bn gt_data]. replace (ft_eqb space_eqb rep_eqb sign_type sign_type) with true by (symmetry; apply teqb_refl). cbn [assert_].
  cbn [nb_order nb_keys nb_idx nb_momentum nb_batches factor nb_var sign_bn nb_eps nb_weight].
  assert (V : stat_loop Nat.eqb py_str [("1"%string, CSlice 0 1)] (fun (k : nat) (old : list R) (fm : list (nat -> R)) => upd_vars (1 / 10) 1 k k old fm) [c] [1%nat] f = Ok (set_at Nat.eqb f 1%nat [ema (1/10) v 400])).
  { cbn [stat_loop]. change (attr_of [("1"%string, CSlice 0 1)] (py_str 1)) with (Ok (CSlice 0 1)). cbn [rbind]. cbn [gather]. unfold upd_vars, group_vars. cbn [Nat.eqb]. rewrite Hf. cbn.
    replace (field_var 1 1 [[c]]) with 400; [reflexivity|]. unfold field_var, sq_norm, bessel. cbn. rewrite Hc. field. }
  cbn. cbn in V. rewrite V. cbn. destruct (Rle_dec _ 0) as [L|_]; [exfalso; unfold ema in L; lra|]. reflexivity.
Qed.
Lemma exact_c4_all k : (0 <= k < 4)%Z -> grid_exact (SpRot (GC 4)) (EI k).
Proof.
  intros H. assert (C : k = 0%Z \/ k = 1%Z \/ k = 2%Z \/ k = 3%Z) by lia. destruct C as [-> | [-> | [-> | ->]]].
  - right. cbn. replace (2 * PI * 0 / 4) with 0 by field. rewrite sin_0. ring.
  - apply exact_c4.
  - right. cbn. replace (2 * PI * 2 / 4) with PI by field. rewrite sin_PI. ring.
  - left. cbn. replace (2 * PI * 3 / 4) with (3 * (PI / 2)) by field. rewrite cos_3PI2. ring.
Qed.
Lemma c4_irrep_ok k q : (0 <= k <= 2)%Z -> (0 <= q < 4)%Z -> ok_type (space_CN 4) (cyc_rep 4) q (MkFT (space_CN 4) [c4 k]).
Proof.
  intros Hk Hq. split; [reflexivity|]. split; [discriminate|]. intros r [<-|[]]. assert (C : k = 0%Z \/ k = 1%Z \/ k = 2%Z) by lia.
  assert (BU : built (Cyc 4) (c4 k)). { destruct C as [-> | [-> | ->]]; (apply (built_irrep (Cyc 4)); [cbn; lia|]); [exists 0%Z|exists 1%Z|exists 2%Z]; reflexivity. }
  destruct (C53_declared _ _ BU) as (_ & RA & FI & CO). split; [split; [exact RA|exact FI]|]. split; [destruct C as [-> | [-> | ->]]; cbn; lia|]. apply CO. cbn. unfold cyc_is_element. apply andb_true_intro. split; [apply Z.leb_le|apply Z.ltb_lt]; lia.
Qed.
Lemma testing4 e : In e (testing_elements (GC 4)) -> exists k, (0 <= k < 4)%Z /\ e = EI k.
Proof. cbn. intros [<-|[<-|[<-|[<-|[]]]]]; eexists; (split; [|reflexivity]); lia. Qed.
Lemma sign_id (y y1 : arr (unit -> vec)) kk : rel (space_CN 4) (EI 0) 0%Z kk sign_type y y1 -> a_h y = 1%nat -> a_w y = 1%nat -> a_h y1 = 1%nat /\ a_w y1 = 1%nat /\ a_px y1 0%nat 0%nat tt 0%nat = a_px y 0%nat 0%nat tt 0%nat.
Proof.
  intros (A1 & A2 & A3) H1 W1. cbn [amap a_h a_w a_px] in *. destruct (turn_h (gflip (sp_obj (space_CN 4)) (EI 0)) kk y) as [T1 T2]. rewrite H1, W1 in T1, T2.
  assert (D : a_h (turn (gflip (sp_obj (space_CN 4)) (EI 0)) kk (coords 1 1)) = 1%nat /\ a_w (turn (gflip (sp_obj (space_CN 4)) (EI 0)) kk (coords 1 1)) = 1%nat).
  { unfold turn. rewrite !rot90_red. destruct (mod4 kk) as [Q|[Q|[Q|Q]]]; rewrite Q; destruct (gflip _ _); split; reflexivity. }
  destruct D as [D1 D2]. rewrite T1, D1 in A1. rewrite T2, D2 in A2. split; [exact A1|]. split; [exact A2|]. change (ct_size sign_type) with 1%nat in A3. rewrite (A3 0%nat 0%nat tt 0%nat) by lia.
  rewrite turn_origin, H1, W1. cbv zeta. destruct (origin_in (gflip (sp_obj (space_CN 4)) (EI 0)) kk 1 1 (0, 0)%nat) as [O1 O2]; [rewrite D1; cbn; lia|rewrite D2; cbn; lia|].
  replace (fst (origin (gflip (sp_obj (space_CN 4)) (EI 0)) kk 1 1 (0, 0)%nat)) with 0%nat by lia. replace (snd (origin (gflip (sp_obj (space_CN 4)) (EI 0)) kk 1 1 (0, 0)%nat)) with 0%nat by lia.
  unfold mvec. change (ct_size sign_type) with 1%nat. cbn [rsum]. assert (M : trep (ft_reps sign_type) 0%Z 0%nat 0%nat = 1).
  { change (ft_reps sign_type) with [c4 2]. unfold trep. cbn [map bdiag]. change (rp_size (c4 2)) with 1%nat. cbn [Nat.ltb Nat.leb andb]. rewrite (c4_mat 2 _ 0%Z eq_refl 0%nat 0%nat) by (cbn; lia). cbn. replace (2 * 0 * (2 * PI / 4)) with 0 by ring. apply cos_0. }
  rewrite M. ring.
Qed.
Lemma loop_fail {G B St} (bt : batch B) (call : St -> arr (B -> vec) * ctype G -> result (arr (B -> vec) * ctype G * St)) move atol rtol x e els s y s1 out1 x' out2 s2 m :
  call s x = Ok (y, s1) -> move y e = Ok out1 -> move x e = Ok x' -> call s1 x' = Ok (out2, s2) -> compare bt atol rtol out1 out2 = Err m -> check_loop bt call move atol rtol x (e :: els) s = Err m.
Proof. intros A B0 C D E. cbn [check_loop]. rewrite A. cbn [rbind fst snd]. rewrite B0. cbn [rbind]. rewrite C. cbn [rbind]. rewrite D. cbn [rbind fst snd]. rewrite E. reflexivity. Qed.
Lemma one_differs atol rtol (y z : arr (unit -> vec)) : a_h y = 1%nat -> a_w y = 1%nat -> a_h z = 1%nat -> a_w z = 1%nat -> close atol rtol (a_px y 0%nat 0%nat tt 0%nat) (a_px z 0%nat 0%nat tt 0%nat) = false ->
  compare (MkBatch 1 (fun _ : unit => 0%nat) (fun _ => tt)) atol rtol (y, sign_type) (z, sign_type) = Err "AssertionError"%string.
Proof.
  intros H1 W1 H2 W2 C. unfold compare. cbn [fst snd]. change (ct_size sign_type) with 1%nat. rewrite H1, W1, H2, W2. cbn [Nat.eqb andb negb]. unfold all_entries. rewrite H1, W1, H2, W2. cbn [bt_n seq flat_map map app combine bt_at forallb fst snd]. rewrite C. reflexivity.
Qed.
(** A NormBatchNorm in training mode meets all the other conditions of C66_network, but its check fails: the two calls of the check update the running
    variances, and the module normalises with these, so that it does something else in the second call. *)
Theorem C66_training_refuted : exists m, let net := [LNormBatchNorm true m] in let bt := MkBatch 1 (fun _ : unit => 0%nat) (fun _ => tt) in let x := MkArr 1 1 (fun _ _ (_ : unit) _ => 20) in
  let cob_id := fun _ : rep Z => false in let fits := fun (_ : space Z) (_ : rep Z) => true in
  norm_bn_make sign_type (1 / 100000) (Some (1 / 10)) true = Ok m /\ planar_space Z (space_CN 4) (cyc_rep 4) /\ numbered bt /\
  (forall e, In e (testing_elements (sp_group (sp_obj (space_CN 4)))) -> usable (space_CN 4) (cyc_rep 4) cob_id fits net sign_type e) /\
  forall argmax (interp : forall A : Type, R -> R -> arr A -> arr A) junks junkns,
    (forall i, exists y, run_all (map (layer_module argmax (junks i) (junkns i) cob_id bt) net) (x, sign_type) = Ok y /\ some_entry bt y /\ suits_all argmax cob_id bt (junks i) (junkns i) net (x, sign_type)) /\
    check_network bt argmax cob_id junks junkns interp (2 / 1000000) (1 / 100000) net (x, sign_type) = Err "AssertionError"%string.
Proof.
  set (f0 := fun k => repeat 1 (nfields Nat.eqb [1%nat] k)). exists (sign_bn f0 0). cbv zeta. set (bt := MkBatch 1 (fun _ : unit => 0%nat) (fun _ => tt)). set (x := MkArr 1 1 (fun _ _ (_ : unit) _ => 20)).
  assert (MK : norm_bn_make sign_type (1 / 100000) (Some (1 / 10)) true = Ok (sign_bn f0 0)) by reflexivity. split; [exact MK|].
  assert (PS : planar_space Z (space_CN 4) (cyc_rep 4)) by (apply PS_CN; lia). split; [exact PS|]. split. { split; [intros []; split; [cbn; lia|reflexivity]|]. intros k Hk. cbn in *. lia. }
  split. { intros e Ie. destruct (testing4 e Ie) as (k & Hk & ->). pose proof (c4_irrep_ok 2 k ltac:(lia) Hk) as OT. exists k. split; [apply (testing_element (GC 4)); exact Ie|]. split; [reflexivity|]. split; [apply exact_c4_all; exact Hk|].
    split; [|exact OT]. constructor; [|constructor]. split; [|split; exact OT]. apply made_norm_bn. exists (1 / 100000), (Some (1 / 10)), true, (sign_bn f0 0), [], []. split; [exact MK|]. split; [lra|]. split; [cbn; lra|]. split; [constructor|reflexivity]. }
  intros argmax interp junks junkns.
  assert (ST : forall (z : arr (unit -> vec)) f n v junk junkn, f 1%nat = [v] -> 0 < v -> a_h z = 1%nat -> a_w z = 1%nat -> a_px z 0%nat 0%nat tt 0%nat = 20 -> exists y, a_h y = 1%nat /\ a_w y = 1%nat /\ a_px y 0%nat 0%nat tt 0%nat = 20 * (1 / sqrt (ema (1/10) v 400 + 1 / 100000)) /\
     layer_forward argmax junk junkn (fun _ => false) bt (LNormBatchNorm true (sign_bn f n)) (z, sign_type) = Ok (y, sign_type) /\
     call_all argmax (fun _ => false) junk junkn bt [LNormBatchNorm true (sign_bn f n)] (z, sign_type) = Ok ((y, sign_type), [LNormBatchNorm true (sign_bn (set_at Nat.eqb f 1%nat [ema (1/10) v 400]) (S n))])).
  { intros z f n v junk junkn Hf Hv H1 W1 V1. assert (FC : exists c, flat_channels bt 1 z = [c] /\ c 0%nat = 20).
    { eexists. split; [reflexivity|]. cbn [bt_n bt]. rewrite H1, W1. cbn. exact V1. }
    destruct FC as (c & FC & Hc). pose proof (sign_step f n v c Hf Hc Hv) as SS.
    assert (F : layer_forward argmax junk junkn (fun _ => false) bt (LNormBatchNorm true (sign_bn f n)) (z, sign_type) = Ok (flat_image bt 1 1 [fun p => c p * (1 / sqrt (ema (1/10) v 400 + 1 / 100000))], sign_type)).
    { cbn [layer_forward]. unfold on_entries. cbn [fst snd]. change (ct_size sign_type) with 1%nat. rewrite H1, W1, FC. change (bt_n bt * (1 * 1))%nat with 1%nat. refine (eq_trans (f_equal (fun r => rbind r _) SS) _). reflexivity. }
    exists (flat_image bt 1 1 [fun p => c p * (1 / sqrt (ema (1/10) v 400 + 1 / 100000))]). split; [reflexivity|]. split; [reflexivity|]. split; [|split; [exact F|]].
    { cbn. rewrite Hc. reflexivity. }
    cbn [call_all]. rewrite F. cbn [rbind layer_next]. unfold state_of. cbn [fst snd]. change (ct_size sign_type) with 1%nat. rewrite H1, W1, FC. change (bt_n bt * (1 * 1))%nat with 1%nat.
    refine (eq_trans (f_equal (fun r => rbind (rbind (rbind r _) _) _) SS) _). reflexivity. }
  split.
  { intros i. destruct (ST x f0 0%nat 1 (junks i) (junkns i) eq_refl ltac:(lra) eq_refl eq_refl eq_refl) as (y & H1 & W1 & _ & F & _). exists (y, sign_type). split; [cbn [map run_all layer_module em_fwd]; exact (eq_trans (f_equal (fun r => rbind r _) F) eq_refl)|].
    split; [split; [cbn; lia|]; change (0 < a_h y /\ 0 < a_w y)%nat; rewrite H1, W1; lia|]. intros z Z0. split; [|exact I]. cbn [suits fst]. intros _. cbn. lia. }
  destruct (ST x f0 0%nat 1 (junks 0%nat) (junkns 0%nat) eq_refl ltac:(lra) eq_refl eq_refl eq_refl) as (y & H1 & W1 & V1 & _ & C1).
  pose proof (exact_c4_all 0 ltac:(lia)) as GE. destruct (space_ok _ _ _ PS) as [code [el [inv SF]]]. destruct (exact_angle _ _ (sf_constructed _ _ _ _ _ SF) (eq_refl : fg_is_element (sp_group (sp_obj (space_CN 4))) (EI 0) = true) GE) as (kk & Hk & Ek).
  destruct (rel_transform (space_CN 4) (cyc_rep 4) PS (EI 0) 0%Z kk eq_refl eq_refl Hk interp sign_type y eq_refl ltac:(discriminate)) as (y1 & Y1 & Y2). destruct (sign_id y y1 kk Y2 H1 W1) as (A1 & A2 & A3).
  destruct (rel_transform (space_CN 4) (cyc_rep 4) PS (EI 0) 0%Z kk eq_refl eq_refl Hk interp sign_type x eq_refl ltac:(discriminate)) as (x1 & X1 & X2). destruct (sign_id x x1 kk X2 eq_refl eq_refl) as (B1 & B2 & B3).
  destruct (ST x1 (set_at Nat.eqb f0 1%nat [ema (1/10) 1 400]) 1%nat (ema (1/10) 1 400) (junks 1%nat) (junkns 1%nat) eq_refl ltac:(unfold ema; lra) B1 B2 B3) as (y' & H2 & W2 & V2 & _ & C2).
  assert (CO : compare bt (2 / 1000000) (1 / 100000) (y1, sign_type) (y', sign_type) = Err "AssertionError"%string).
  2: { unfold check_network. refine (eq_trans (f_equal (fun r => rbind r _) (loop_fail bt (net_call bt argmax (fun _ => false) junks junkns) (move_full interp) (2 / 1000000) (1 / 100000) (x, sign_type) (EI 0) (tl (testing_elements (GC 4))) (0%nat, [LNormBatchNorm true (sign_bn f0 0)]) (y, sign_type) (1%nat, [LNormBatchNorm true (sign_bn (set_at Nat.eqb f0 1%nat [ema (1/10) 1 400]) 1)]) (y1, sign_type) (x1, sign_type) (y', sign_type) _ _ _ _ _ _ CO)) _); [| | | |reflexivity].
    - unfold net_call. exact (f_equal (fun r => rbind r _) C1).
    - unfold move_full. exact (f_equal (fun r => rbind r _) Y1).
    - unfold move_full. exact (f_equal (fun r => rbind r _) X1).
    - unfold net_call. exact (f_equal (fun r => rbind r _) C2). }
  refine (one_differs _ _ y1 y' A1 A2 H2 W2 _). change (close (2 / 1000000) (1 / 100000) (a_px y1 0%nat 0%nat tt 0%nat) (a_px y' 0%nat 0%nat tt 0%nat) = false).
  assert (CL : close (2 / 1000000) (1 / 100000) (20 * (1 / sqrt (ema (1 / 10) 1 400 + 1 / 100000))) (20 * (1 / sqrt (ema (1 / 10) (ema (1 / 10) 1 400) 400 + 1 / 100000))) = false); [|refine (eq_trans (f_equal2 (close _ _) (eq_trans A3 V1) V2) CL)].
  unfold close. destruct (Rle_dec _ _) as [L|]; [exfalso|reflexivity].
  set (s1 := sqrt (ema (1 / 10) 1 400 + 1 / 100000)) in *. set (s2 := sqrt (ema (1 / 10) (ema (1 / 10) 1 400) 400 + 1 / 100000)) in *.
  assert (P1 : 0 < s1) by (apply sqrt_lt_R0; unfold ema; lra). assert (Q1 : s1 < 64 / 10). { replace (64 / 10) with (sqrt (64 / 10 * (64 / 10))) by (apply sqrt_square; lra). apply sqrt_lt_1; unfold ema; lra. }
  assert (Q2 : 87 / 10 < s2). { replace (87 / 10) with (sqrt (87 / 10 * (87 / 10))) by (apply sqrt_square; lra). apply sqrt_lt_1; unfold ema; lra. }
  assert (I1 : / (64 / 10) < / s1) by (apply Rinv_lt_contravar; [apply Rmult_lt_0_compat; lra|lra]). assert (I2 : / s2 < / (87 / 10)) by (apply Rinv_lt_contravar; [apply Rmult_lt_0_compat; lra|lra]).
  assert (I3 : 0 < / s2) by (apply Rinv_0_lt_compat; lra). replace (/ (64 / 10)) with (10 / 64) in I1 by field. replace (/ (87 / 10)) with (10 / 87) in I2 by field.
  unfold Rdiv in L. rewrite !Rmult_1_l in L. rewrite (Rabs_right (20 * / s2)) in L by lra. rewrite Rabs_right in L by lra. lra.
Qed.
Print Assumptions C66_training_refuted.

(** ** examples *)
Lemma c4_rep_orth_at g : (0 <= g < 4)%Z -> orthogonal (rp_size c4_rep) (rp_mat c4_rep g).
Proof.
  intros Hg. apply orthogonal_mmul; [apply orthogonal_mmul; [apply mid_orthogonal|]|apply mid_orthogonal].
  assert (HO : forall k ir, cyc_irrep 4 k = Ok ir -> orthogonal (ir_size ir) (ir_mat ir g)) by (intros k ir E; apply (cyc_irrep_rep 4 k ir ltac:(lia) E); unfold cyc_is_element; apply andb_true_intro; split; [apply Z.leb_le|apply Z.ltb_lt]; lia).
  apply (bdiag_orth (Model_Rep.blocks (rp_irreps c4_rep) g)). constructor; [exact (HO 0%Z c4_i0 eq_refl)|]. constructor; [exact (HO 1%Z c4_i1 eq_refl)|constructor].
Qed.
Lemma c4_rep_ok_at g : ok_type (space_CN 4) (cyc_rep 4) g c4_type.
Proof. split; [reflexivity|]. split; [discriminate|]. intros r [<-|[]]. split; [apply c4_rep_is|]. split; [cbn; lia|]. constructor; intros []. Qed.
(** R2Conv, NormPool, InnerBatchNorm, ReLU and PointwiseAdaptiveAvgPool over C_4 in evaluation mode: the check passes *)
Example C66_network_ex : exists m st p ib r a,
  let net := [LConv m st; LNormPool p; LInnerBatchNorm false ib; LPointwise r; LAdaptive a] in
  let bt := MkBatch 1 (fun _ : unit => 0%nat) (fun _ => tt) in
  let x := MkArr 3 4 (fun i j (_ : unit) c => INR (i + j + c)) in
  let fits := fun (_ : space Z) (_ : rep Z) => true in let cob_id := fun _ : rep Z => false in
  planar_space Z (space_CN 4) (cyc_rep 4) /\ numbered bt /\ Forall in_eval net /\
  (forall e, In e (testing_elements (sp_group (sp_obj (space_CN 4)))) -> usable (space_CN 4) (cyc_rep 4) cob_id fits net c4_type e) /\
  forall argmax (interp : forall A : Type, R -> R -> arr A -> arr A) junks junkns,
    (forall i, exists y, run_all (map (layer_module argmax (junks i) (junkns i) cob_id bt) net) (x, c4_type) = Ok y /\ some_entry bt y /\ suits_all argmax cob_id bt (junks i) (junkns i) net (x, c4_type)) /\
    (argmax_ok argmax -> check_network bt argmax cob_id junks junkns interp (2 / 1000000) (1 / 100000) net (x, c4_type) = Ok ([(EI 0, 0); (EI 1, 0); (EI 2, 0); (EI 3, 0)], net)).
Proof.
  destruct C28_ex as [m [CA M]]. exists m.
  destruct (C28_R2Conv _ _ _ _ _ _ _ _ _ _ _ _ _ _ _ _ _ _ CA (Nat.lt_0_succ 0) M) as [params [_ [D L]]]. destruct L as [first [_ [_ [_ [_ L]]]]].
  set (w := repeat 1 (be_dimension kid_eqb (cv_exp m))). set (st := MkCS true w [2] None None).
  exists st.
  set (x := MkArr 3 4 (fun i j (_ : unit) c => INR (i + j + c))).
  assert (TE : ft_eqb space_eqb rep_eqb c4_type c4_type = true) by apply type_refl_CN.
  destruct (make_made _ _ _ _ 1 _ _ _ _ _ _ _ _ _ _ _ M eq_refl) as (ir & keep & rgs & sig & maxf & _ & MD & EM).
  assert (R : exists y, conv_forward m st c4_type x = Ok (y, c4_type) /\ a_h y = 3%nat /\ a_w y = 4%nat).
  { destruct (L D w) as [f [Hf _]]; [apply repeat_length|]. unfold conv_forward, used_params, st. cbn [cs_training cs_w cs_b]. unfold expand_parameters. rewrite Hf. cbn [rbind]. unfold run_conv.
    rewrite (md_pad MD), (md_in MD), (md_out MD), (md_k MD), (md_stride MD), (md_dil MD), (md_grp MD).
    cbn in EM. pose proof EM as EM'. injection EM' as <-. rewrite TE. cbn [assert_]. eexists. split; [reflexivity|]. split; reflexivity. }
  assert (NP : exists p, npool_make (fun _ _ => true) (fun _ => c4 0) c4_type = Ok p /\ po_in p = c4_type /\ po_out p = triv_type /\
     forall junk (z : arr (unit -> vec)), exists d, on_channels (npool_forward space_eqb rep_eqb junk p) (z, c4_type) = Ok (d, triv_type) /\ a_h d = a_h z /\ a_w d = a_w z).
  { eexists. split; [reflexivity|]. split; [reflexivity|]. split; [reflexivity|]. intros junk z. unfold on_channels, npool_forward, pool_forward. cbn [gt_type po_in snd]. rewrite TE.
    eexists. split; [reflexivity|]. split; reflexivity. }
  destruct NP as (p & P1 & P2 & P3 & P4).
  assert (TT : ft_eqb space_eqb rep_eqb triv_type triv_type = true) by apply type_refl_CN.
  assert (IB : exists ib, inner_make triv_type (1 / 100000) (Some (1 / 10)) true true = Ok ib) by (eexists; reflexivity). destruct IB as [ib IB].
  assert (RE : inner_bn_reached triv_type ib).
  { exists (1 / 100000), (Some (1 / 10)), true, true, ib, (fun _ _ => 0), [], []. split; [exact IB|]. split; [lra|]. split; [cbn; lra|]. split; [constructor|reflexivity]. }
  destruct (inner_bn_live (cyc_rep 4) 1%Z _ _ RE (proj2 (proj2 c4_triv_ok))) as (EI0 & WF & _).
  eexists p, ib, (MkPW triv_type relu), (MkAD false triv_type (1, 1)%nat). cbv zeta.
  set (bt := MkBatch 1 (fun _ : unit => 0%nat) (fun _ => tt)).
  set (net := [LConv m st; LNormPool p; LInnerBatchNorm false ib; LPointwise (MkPW triv_type relu); LAdaptive (MkAD false triv_type (1, 1)%nat)]).
  assert (PS : planar_space Z (space_CN 4) (cyc_rep 4)) by (apply PS_CN; lia). split; [exact PS|].
  assert (NBt : numbered bt) by (split; [intros []; split; [cbn; lia|reflexivity]|]; intros k Hk'; cbn in *; lia). split; [exact NBt|].
  assert (EV : Forall in_eval net) by (repeat constructor). split; [exact EV|].
  assert (US : forall e, In e (testing_elements (sp_group (sp_obj (space_CN 4)))) -> usable (space_CN 4) (cyc_rep 4) (fun _ => false) (fun _ _ => true) net c4_type e).
  { intros e Ie. destruct (testing4 e Ie) as (g & Hg & ->). assert (TO : ok_type (space_CN 4) (cyc_rep 4) g triv_type) by (exact (c4_irrep_ok 0 g ltac:(lia) Hg)). pose proof (c4_rep_ok_at g) as CO.
    exists g. split; [apply (testing_element (GC 4)); exact Ie|]. split; [reflexivity|]. split; [apply exact_c4_all; exact Hg|]. split; [|exact CO]. constructor.
    { split; [eapply made_conv; [exact CA|exact M|reflexivity|reflexivity]|]. cbn [layer_in layer_out]. rewrite (md_in MD), (md_out MD). split; exact CO. }
    constructor.
    { split; [eapply made_norm_pool; [exact P1|exact c4_trivial|intros q [<-|[]]; apply c4_rep_orth_at; exact Hg]|]. cbn [layer_in layer_out]. rewrite P2, P3. split; [exact CO|exact TO]. }
    constructor. { split; [apply made_inner_bn; rewrite EI0; exact RE|]. cbn [layer_out layer_in]. rewrite EI0. split; exact TO. }
    constructor. { split; [apply (made_relu _ _ _ _ _ _ triv_type); reflexivity|]. split; exact TO. }
    constructor; [|constructor]. split; [apply (made_adaptive _ _ _ _ _ _ false triv_type (IPair 1 1)); [reflexivity|left; constructor; [reflexivity|constructor]]|]. split; exact TO. }
  split; [exact US|]. intros argmax interp junks junkns.
  match goal with |- ?P /\ _ => assert (RUN : P) end.
  { intros i. destruct R as (y0 & R1 & R2 & R3). destruct (P4 (junks i) y0) as (y1 & Q1 & Q2 & Q3).
    assert (IN : exists y2, on_entries bt (fun n => inner_forward space_eqb rep_eqb false n (junkns i) ib) (y1, triv_type) = Ok (y2, triv_type) /\ a_h y2 = 3%nat /\ a_w y2 = 4%nat).
    { destruct (inner_value space_eqb rep_eqb false (bt_n bt * (a_h y1 * a_w y1)) (junkns i) ib (MkGT (flat_channels bt (ct_size triv_type) y1) triv_type) WF) as (z & m1 & F & _ & Y1 & _).
      - rewrite EI0. split; [exact TT|]. cbn [gt_data]. rewrite flat_channels_len. reflexivity.
      - intros _ s Hs. rewrite Q2, Q3, R2, R3. unfold ib_sizes in Hs. rewrite EI0 in Hs. destruct Hs as [<-|[]]. cbn. lia.
      - unfold on_entries. cbn [fst snd]. rewrite F. cbn [rbind fst]. rewrite Y1, EI0. eexists. split; [reflexivity|]. cbn [flat_image a_h a_w]. rewrite Q2, Q3, R2, R3. split; reflexivity. }
    destruct IN as (y2 & I1 & I2 & I3).
    assert (RL : exists y3, on_channels (B := unit) (pointwise_forward space_eqb rep_eqb (MkPW triv_type relu)) (y2, triv_type) = Ok (y3, triv_type) /\ a_h y3 = 3%nat /\ a_w y3 = 4%nat).
    { unfold on_channels, pointwise_forward. cbn [gt_type pw_in snd]. rewrite TT. eexists. split; [reflexivity|]. split; assumption. }
    destruct RL as (y3 & V1 & V2 & V3).
    assert (AD : exists y4, adpool_forward (B := unit) space_eqb rep_eqb (MkAD false triv_type (1, 1)%nat) triv_type y3 = Ok (y4, triv_type) /\ a_h y4 = 1%nat /\ a_w y4 = 1%nat).
    { unfold adpool_forward. cbn [ad_in ad_max ad_o]. rewrite TT. unfold adaptive_pool2d. rewrite V2, V3. eexists. split; [reflexivity|]. split; reflexivity. }
    destruct AD as (y4 & A1 & A2 & A3). exists (y4, triv_type). split.
    { cbn [net map run_all layer_module em_fwd layer_forward fst snd]. refine (eq_trans (f_equal (fun r => rbind r _) R1) _). cbn [rbind]. refine (eq_trans (f_equal (fun r => rbind r _) Q1) _). cbn [rbind].
      refine (eq_trans (f_equal (fun r => rbind r _) I1) _). cbn [rbind]. refine (eq_trans (f_equal (fun r => rbind r _) V1) _). cbn [rbind]. refine (eq_trans (f_equal (fun r => rbind r _) A1) _). reflexivity. }
    split; [split; [cbn; lia|]; cbn [fst]; lia|]. cbn [net suits_all layer_forward fst snd]. intros z0 Z0. change (conv_forward m st c4_type x = Ok z0) in Z0. rewrite R1 in Z0. injection Z0 as <-. split. { cbn [suits fst]. unfold strides. rewrite (md_k MD), (md_stride MD), (md_dil MD), (md_pad MD). split; reflexivity. }
    cbn [fst snd]. intros z1 Z1. assert (E1 : z1 = (y1, triv_type)) by (rewrite Q1 in Z1; injection Z1 as <-; reflexivity). subst z1. split; [exact I|].
    intros z2 Z2. split; [|intros z3 _; split; [exact I|intros z4 _; split; exact I]]. cbn [suits fst]. intros _ q Hq. unfold entries. rewrite Q2, Q3, R2, R3. rewrite EI0 in Hq. destruct Hq as [<-|[]]. cbn. lia. }
  split; [exact RUN|]. intros AM.
  exact (C66_network Z (space_CN 4) (cyc_rep 4) unit bt argmax (fun _ => false) (fun _ _ => true) interp junks junkns net c4_type x (2 / 1000000) (1 / 100000) PS AM NBt eq_refl EV US RUN ltac:(lra) ltac:(lra)).
Qed.

(** a ReLU on the regular representation of C_N, for each N: the check with the fibres passes on images of each size *)
Example C66_module_ex : forall N, (1 < N)%Z -> exists reg m, cyc_regular_representation N = Ok reg /\ relu_make (MkFT (space_CN N) [reg]) = Ok m /\
  let t := MkFT (space_CN N) [reg] in let l := LPointwise m in let bt := MkBatch 2 (fun b : bool => if b then 1%nat else 0%nat) (fun k => (k =? 1)%nat) in
  let fits := fun (_ : space Z) (_ : rep Z) => true in let cob_id := fun _ : rep Z => false in
  planar_space Z (space_CN N) (cyc_rep N) /\ checks_fibers l /\ layer_in l = t /\ length (testing_elements (sp_group (sp_obj (space_CN N)))) = Z.to_nat N /\
  (forall e g, In e (testing_elements (sp_group (sp_obj (space_CN N)))) -> sp_prj (space_CN N) e = Some g -> good_layer (space_CN N) (cyc_rep N) e g cob_id fits l) /\
  forall argmax junks junkns (x : arr (bool -> vec)), (0 < a_h x)%nat -> (0 < a_w x)%nat ->
    (forall i, exists y, layer_forward argmax (junks i) (junkns i) cob_id bt l (x, t) = Ok y /\ some_entry bt y /\ suits bt l x (fst y)) /\
  (argmax_ok argmax -> check_module bt argmax cob_id junks junkns (1 / 1000000) (1 / 100000) l (x, t) = Ok (map (fun e => (e, 0)) (testing_elements (GC N)))).
Proof.
  intros N HN. destruct (cyc_regular N ltac:(lia)) as (r & ER & SZ & _ & _ & _ & _ & NL & _). set (reg := MkRep (rp_name r) (rp_irreps r) (rp_cob r) (rp_inv r) ("vectorfield"%string :: rp_nonlin r)).
  assert (E : cyc_regular_representation N = Ok reg) by (unfold cyc_regular_representation; rewrite (cyc_fgroup_eq N) by lia; cbn [rbind]; rewrite ER; reflexivity).
  assert (BU : built (Cyc N) reg) by (apply built_regular_cyc; [lia|exact E]). set (t := MkFT (space_CN N) [reg]).
  assert (MK : relu_make t = Ok (MkPW t relu)). { unfold relu_make, all_support, t, supports. cbn [ft_reps forallb reg rp_nonlin]. rewrite NL. reflexivity. }
  assert (SR : rp_size reg = Z.to_nat N) by exact SZ.
  exists reg, (MkPW t relu). split; [exact E|]. split; [exact MK|]. cbv zeta. set (bt := MkBatch 2 (fun b : bool => if b then 1%nat else 0%nat) (fun k => (k =? 1)%nat)).
  assert (PS : planar_space Z (space_CN N) (cyc_rep N)) by (apply PS_CN; lia). split; [exact PS|]. split; [exact I|]. split; [reflexivity|].
  split; [cbn [space_CN sp_obj sp_group testing_elements]; unfold cyc_elements; rewrite ?map_length, ?seq_length; reflexivity|].
  assert (GL : forall e g, In e (testing_elements (sp_group (sp_obj (space_CN N)))) -> sp_prj (space_CN N) e = Some g -> good_layer (space_CN N) (cyc_rep N) e g (fun _ => false) (fun _ _ => true) (LPointwise (MkPW t relu))).
  { intros e g Ie P. assert (FE : fg_is_element (GC N) e = true) by (apply (testing_element (GC N)); exact Ie). cbn [space_CN sp_prj] in P.
    assert (Hg : cyc_is_element N g = true) by (destruct e; try discriminate; injection P as <-; exact FE).
    assert (OT : ok_type (space_CN N) (cyc_rep N) g t).
    { split; [reflexivity|]. split; [discriminate|]. intros q [<-|[]]. destruct (C53_declared _ _ BU) as (_ & RA & FI & CO). split; [split; [exact RA|exact FI]|]. split; [rewrite SR; lia|]. apply CO. exact Hg. }
    split; [apply (made_relu _ _ _ _ _ _ t); exact MK|]. split; exact OT. }
  split; [exact GL|]. intros argmax junks junkns x Hh Hw.
  match goal with |- ?P /\ _ => assert (RUN : P) end.
  { intros i. cbn [layer_forward]. unfold on_channels, pointwise_forward. cbn [gt_type pw_in snd fst gt_data]. fold t. replace (ft_eqb space_eqb rep_eqb t t) with true by (symmetry; apply teqb_refl). cbn [assert_].
    unfold mk_gt. rewrite map_length, channels_len. match goal with |- context [Z.eqb ?a ?b] => replace (Z.eqb a b) with true by (symmetry; apply Z.eqb_eq; reflexivity) end. cbn [assert_ rbind]. eexists. split; [reflexivity|]. split; [|exact I]. split; [cbn; lia|]. cbn [fst image a_h a_w]. lia. }
  split; [exact RUN|]. intros AM.
  exact (C66_module Z (space_CN N) (cyc_rep N) bool bt argmax (fun _ => false) (fun _ _ => true) junks junkns (LPointwise (MkPW t relu)) x (1 / 1000000) (1 / 100000) PS AM I eq_refl GL RUN ltac:(lra) ltac:(lra)).
Qed.
