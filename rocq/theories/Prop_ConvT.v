(** Theorem C55 (equivariance of R2ConvTransposed) and the parts of C28, C31, C32, C33 and C48 about R2ConvTransposed. *)
From Coq Require Import Reals ZArith String List Bool Lia Lra.
From Verif Require Import Base Spec Model_Groups Model_Rep Proofs_Rep Proofs_Restrict Model_FieldType Proofs_FieldType Model_Tensor Proofs_Tensor Model_GSpace Spec_GSpace Proofs_GSpace
  Model_Kernels Model_Utils Proofs_Utils Model_Expansion Proofs_Expansion Proofs_Expansion2 Spec_Expansion Proofs_Expansion3
  Model_Conv Spec_Conv Proofs_Conv Proofs_Conv2 Proofs_Conv3 Proofs_Conv4 Proofs_Conv5 Proofs_Conv6 Proofs_Conv7 Proofs_Conv8 Proofs_Conv9 Prop_Conv Prop_Conv2 Model_ConvT Proofs_ConvT Proofs_ConvT2 Proofs_ConvT3.
Import ListNotations.
Open Scope R_scope.

(** The hypotheses on the arguments are those of R2Conv ([conv_args], Prop_Conv.v).  Its argument [dil] only says that the default
    rings, which R2Conv multiplies by the dilation, are distinct; here they are not multiplied, and it is 1. *)
Lemma tca_nodup {G} sp isrep (tin tout : ctype G) k dil rings fco sigma bf keep rgs sig maxf : conv_args sp isrep tin tout 1 rings ->
  compute_basis_params_t k fco rings sigma dil bf = Ok (keep, rgs, sig, maxf) -> NoDup rgs.
Proof.
  intros H E. rewrite (rings_of_t _ _ _ _ _ _ _ _ _ _ E). assert (X := ca_rings _ _ _ _ _ _ H). destruct rings; auto. apply default_rings_nodup_t.
Qed.

(** ** C55: equivariance *)
(** For every element of the group that maps the pixel grid to itself, every weights, every image size, every stride, padding,
    dilation and number of groups, if there is no output padding and the layer has a weight. *)
Theorem C55_transposed_equivariant : forall G (sp : space G) isrep tin tout k p stride dil groups bias sigma fco rings mo bf m
    (interp : forall A : Type, R -> R -> arr A -> arr A) B (st : cstate) (e : gelt) (x y : arr (B -> vec)) t,
  conv_args sp isrep tin tout 1 rings ->
  tconv_make tin tout k p 0 stride dil groups bias sigma fco rings mo bf = Ok m -> (0 < be_dimension kid_eqb (tc_exp m))%nat ->
  used_params_t m st = expand_parameters_t m (cs_w st) (cs_b st) ->
  fg_is_element (sp_group (sp_obj sp)) e = true -> grid_exact (sp_obj sp) e ->
  tconv_forward m st tin x = Ok (y, t) ->
  exists x' y' y'', field_transform interp tin x e = Ok x' /\ tconv_forward m st tin x' = Ok (y', t) /\ field_transform interp tout y e = Ok y'' /\
    same_field (ct_size tout) y' y''.
Proof.
  intros G sp isrep tin tout k p stride dil groups bias sigma fco rings mo bf m interp B st e x y t CA H Hd Hu He Hx Hf.
  destruct (make_tmade _ _ _ _ _ _ _ _ _ _ _ _ _ _ _ H) as (out_reps & keep & rgs & sig & maxf & E & MD).
  destruct (space_ok _ _ _ (ca_space _ _ _ _ _ _ CA)) as [code [el [inv SF]]].
  assert (NR := tca_nodup _ _ _ _ _ _ _ _ _ _ _ _ _ _ CA E).
  destruct CA as [_ C1 C2 C3 C4 C5 C6 C7 C8 _].
  apply (grid_exact_iff _ _ (sf_constructed _ _ _ _ _ SF) He) in Hx as [kk Hk].
  unfold tconv_forward in Hf. apply assert_ok in Hf as [Ht Hf]. apply rbind_ok in Hf as [fb [Hfb Hf]]. apply rbind_ok in Hf as [y0 [Hy Hf]]. injection Hf as -> <-.
  assert (Hexp : expand_parameters_t m (cs_w st) (cs_b st) = Ok fb) by congruence.
  assert (Hw : length (cs_w st) = be_dimension kid_eqb (tc_exp m)).
  { unfold expand_parameters_t in Hexp. apply rbind_ok in Hexp as [f [Hexp _]]. unfold be_forward in Hexp. apply assert_ok in Hexp as [Hexp _]. apply Nat.eqb_eq; auto. }
  assert (GG := pair_block_good _ _ _ _ _ SF k dil keep rgs sig (Some maxf) mo NR). rewrite C1 in MD.
  assert (Hgr : (0 < groups)%nat).
  { clear -Hy MD. unfold run_tconv in Hy. rewrite (tm_grp MD) in Hy. unfold conv_transpose in Hy. cbv zeta in Hy.
    match type of Hy with (if ?c then _ else _) = _ => destruct c eqn:E; [|discriminate] end. rewrite !andb_true_iff in E. destruct groups; [|lia]. cbn in E. intuition discriminate. }
  destruct (run_equivariant_t sp isrep code el inv SF interp tin tout C1 C2 C3 C4 C5 C6 k p 0 stride dil groups _ m out_reps (fun _ => True) MD GG Hgr C7 C8 Hd
              (cs_w st) (cs_b st) fb e kk x y eq_refl Hw Hexp He I Hk Hy) as (x' & y' & y'' & R1 & R2 & R3 & R4).
  exists x', y', y''. split; [exact R1|]. split; [|split; [exact R3|exact R4]].
  unfold tconv_forward. rewrite Ht. cbn [assert_]. rewrite Hfb. cbn [rbind]. rewrite R2. cbn [rbind]. reflexivity.
Qed.
Print Assumptions C55_transposed_equivariant.

Lemma c4_tconv p op stride : exists m, conv_args (space_CN 4) (cyc_rep 4) c4_type c4_type 1 (Some [0; 1]) /\
  tconv_make c4_type c4_type 3 p op stride 1 1 true (SigList [1 / 2; 1 / 2]) (FcoFun (fun _ => 2)) (Some [0; 1]) None None = Ok m /\
  (0 < be_dimension kid_eqb (tc_exp m))%nat /\ m = MkTConv c4_type c4_type 3 p op stride 1 1 (Some (bias_cols 0 [c4_rep])) (tc_exp m) /\
  exists f, be_forward rp_name rp_size kid_eqb (tc_exp m) (repeat 1 (be_dimension kid_eqb (tc_exp m))) = Ok f.
Proof.
  destruct (c4_conv 0) as [m [keep [M [B _]]]]. destruct C28_ex as [_ [CA _]].
  assert (T := tconv_from_conv c4_type c4_type 3 p op 1 stride 1 _ _ _ _ _ _ _ m M ltac:(lia)). rewrite B in T.
  destruct (C28_R2Conv _ _ _ _ _ _ _ _ _ _ _ _ _ _ _ _ _ _ CA (Nat.lt_0_succ 0) M) as [params [_ [D L]]]. destruct L as [first [_ [_ [_ [_ L]]]]].
  destruct (L D (repeat 1 (be_dimension kid_eqb (cv_exp m)))) as [f [Hf _]]; [apply repeat_length|].
  eexists. split; [exact CA|]. split; [apply T|split; [exact D|split; [reflexivity|exists f; exact Hf]]].
  intros r [<-|[<-|[]]].
  - exists 0%nat. split; [lia|]. split; [lra|apply Rabs_pos].
  - exists 5%nat. split; [lia|]. split; [lra|]. unfold grid_point. cbn. rewrite Rabs_right; lra.
Qed.
Lemma c4_refl : ft_eqb space_eqb rep_eqb c4_type c4_type = true.
Proof. unfold ft_eqb. cbn. rewrite rep_eqb_refl. reflexivity. Qed.

(** all the hypotheses are met: stride 2, padding 1, a quarter turn of a 2 x 3 image *)
Example C55_ex : exists m st x y, conv_args (space_CN 4) (cyc_rep 4) c4_type c4_type 1 (Some [0; 1]) /\
  tconv_make c4_type c4_type 3 1 0 2 1 1 true (SigList [1 / 2; 1 / 2]) (FcoFun (fun _ => 2)) (Some [0; 1]) None None = Ok m /\ (0 < be_dimension kid_eqb (tc_exp m))%nat /\
  used_params_t m st = expand_parameters_t m (cs_w st) (cs_b st) /\ fg_is_element (GC 4) (EI 1) = true /\ grid_exact (SpRot (GC 4)) (EI 1) /\
  a_h x = 2%nat /\ a_w x = 3%nat /\ tconv_forward (B := unit) m st c4_type x = Ok (y, c4_type) /\ a_h y = 3%nat /\ a_w y = 5%nat.
Proof.
  destruct (c4_tconv 1 0 2) as [m [CA [M [D [Em [f Hf]]]]]]. exists m. set (w := repeat 1 (be_dimension kid_eqb (tc_exp m))) in *.
  set (x := MkArr 2 3 (fun i j (_ : unit) c => INR (i + j + c))).
  assert (R : exists y, tconv_forward m (MkCS true w [2] None None) c4_type x = Ok (y, c4_type) /\ a_h y = 3%nat /\ a_w y = 5%nat).
  { unfold tconv_forward, used_params_t. cbn [cs_training cs_w cs_b]. unfold expand_parameters_t. rewrite Hf. cbn [rbind]. rewrite Em.
    unfold run_tconv. cbn [tc_in tc_out tc_k tc_stride tc_dil tc_groups tc_pad tc_opad fst snd].
    rewrite c4_refl. cbn [assert_]. eexists. split; [reflexivity|]. split; reflexivity. }
  destruct R as [y [R1 [R2 R3]]]. exists (MkCS true w [2] None None), x, y.
  split; [exact CA|]. split; [exact M|]. split; [exact D|]. split; [reflexivity|]. split; [reflexivity|]. split; [|auto].
  left. cbn. replace (2 * PI * 1 / 4) with (PI / 2) by field. rewrite cos_PI2. ring.
Qed.

(** with an output padding, which adds rows at the bottom and columns at the right only, the layer is not equivariant: a 1 x 1
    filter, stride 2, output_padding 1, the mirror about the x axis *)
Theorem C55_output_padding_refuted : forall (interp : forall A : Type, R -> R -> arr A -> arr A), exists (m : tconv Z) (x : arr (unit -> vec)) y x' y' y'',
  tconv_make c2_type c2_type 1 0 1 2 1 1 false (SigList [1]) (FcoFun (fun _ => 0)) (Some [0]) None None = Ok m /\
  let st := MkCS true [1] [] None None in
  tconv_forward m st c2_type x = Ok (y, c2_type) /\ field_transform interp c2_type x (EI 1) = Ok x' /\ tconv_forward m st c2_type x' = Ok (y', c2_type) /\
  field_transform interp c2_type y (EI 1) = Ok y'' /\ ~ same_field (ct_size c2_type) y' y''.
Proof. exact output_padding_refuted. Qed.
Print Assumptions C55_output_padding_refuted.

(** ** C28: the weights *)
(** the fields of one output group *)
Definition one_out_group {G} (tout : ctype G) (groups : nat) : list (rep G) :=
  if (1 <? groups)%nat then firstn (length (ft_reps tout) / groups) (ft_reps tout) else ft_reps tout.
Theorem C28_R2ConvTransposed : forall G (sp : space G) isrep tin tout k p op stride dil groups bias sigma fco rings mo bf m,
  conv_args sp isrep tin tout 1 rings -> (0 < groups)%nat ->
  tconv_make tin tout k p op stride dil groups bias sigma fco rings mo bf = Ok m ->
  exists params, compute_basis_params_t k fco rings sigma dil bf = Ok params /\
    weight_layout rp_name rp_size (fun r => length (rp_irreps r)) ka_id ka_in ka_out kid_eqb (ft_reps tin) (one_out_group tout groups)
      (conv_gen sp k dil mo params) (tc_exp m).
Proof.
  intros G sp isrep tin tout k p op stride dil groups bias sigma fco rings mo bf m CA Hg H.
  destruct (make_tmade _ _ _ _ _ _ _ _ _ _ _ _ _ _ _ H) as (out_reps & keep & rgs & sig & maxf & E & MD).
  exists (keep, rgs, sig, maxf). split; [exact E|].
  destruct (space_ok _ _ _ (ca_space _ _ _ _ _ _ CA)) as [code [el [inv SF]]].
  assert (NR := tca_nodup _ _ _ _ _ _ _ _ _ _ _ _ _ _ CA E).
  destruct CA as [_ C1 C2 C3 C4 C5 C6 C7 C8 _].
  assert (EI : out_reps = one_out_group tout groups).
  { assert (X := tm_groups MD). unfold group_out in X. apply rbind_ok in X as [? [_ X]]. injection X as <-. reflexivity. }
  assert (SUB : forall r, In r out_reps -> In r (ft_reps tout)) by (intros r; apply (out_reps_sub _ _ C5 C6 _ _ _ _ _ _ _ _ _ MD Hg)).
  rewrite <- EI. rewrite <- C1. rewrite Forall_forall in C3, C4.
  eapply (layout rp_name rp_size _ rep_eqb ka_id ka_in ka_out kid_eqb).
  - apply kid_eqb_spec.
  - apply rep_eqb_refl.
  - apply rep_eqb_name.
  - exact (tm_exp MD).
  - intros x y Hx Hy. apply C5; auto.
  - intros x y Hx Hy. apply C6; auto.
  - exact C7.
  - intros r Hr. apply C8; auto.
  - intros i o sb Hi Ho Eg. assert (GG := pair_block_good _ _ _ _ _ SF k dil keep rgs sig (Some maxf) mo NR). rewrite <- C1 in GG.
    destruct (GG i o sb (C3 _ Hi) (C4 _ (SUB _ Ho)) Eg) as [G1 [G2 [G3 [G4 _]]]]. auto.
Qed.
Print Assumptions C28_R2ConvTransposed.

(** ** C31: the bias *)
Theorem C31_transposed_bias : forall G (sp : space G) isrep tin tout k p op stride dil groups bias sigma fco rings mo bf m e w b f v,
  conv_args sp isrep tin tout 1 rings -> ft_reps tout <> [] ->
  tconv_make tin tout k p op stride dil groups bias sigma fco rings mo bf = Ok m ->
  fg_is_element (sp_group (sp_obj sp)) e = true ->
  expand_parameters_t m w b = Ok (f, Some v) ->
  exists rho g, type_representation (ft_reps tout) = Ok rho /\ rp_size rho = ct_size tout /\ sp_prj sp e = Some g /\
    forall c, (c < ct_size tout)%nat -> rsum (ct_size tout) (fun c' => rp_mat rho g c c' * v c') = v c.
Proof.
  intros G sp isrep tin tout k p op stride dil groups bias sigma fco rings mo bf m e w b f v CA TO H He Hx.
  destruct (make_tmade _ _ _ _ _ _ _ _ _ _ _ _ _ _ _ H) as (out_reps & keep & rgs & sig & maxf & _ & MD).
  destruct (space_ok _ _ _ (ca_space _ _ _ _ _ _ CA)) as [code [el [inv SF]]]. destruct (sf_elt _ _ _ _ _ SF e He) as [g [Hg [_ Hp]]].
  assert (Hb : v = expand_bias (bias_cols 0 (ft_reps tout)) b).
  { unfold expand_parameters_t in Hx. apply rbind_ok in Hx as [f' [_ Hx]]. destruct (tm_bias MD) as [E|E]; rewrite E in *; [discriminate|].
    injection Hx as <- <-. reflexivity. }
  subst v. unfold type_representation. destruct (directsum (ft_reps tout) (Some "FiberRepresentation"%string)) as [rho|] eqn:E.
  2:{ unfold directsum in E. destruct (ft_reps tout); [congruence|discriminate]. }
  exists rho, g. split; [reflexivity|]. split; [apply (ds_size _ _ _ E)|]. split; [exact Hp|]. intros c Hc.
  assert (B := bias_fixed _ _ _ _ _ SF _ (ca_out_reps _ _ _ _ _ _ CA) 1%nat (Nat.lt_0_succ 0) (bias_cols 0 (ft_reps tout)) b g Hg (fun v H => H) c Hc).
  etransitivity; [|exact B]. unfold mvec. apply rsum_ext. intros c' Hc'. f_equal. apply (directsum_mat _ _ _ g E); auto.
Qed.
Print Assumptions C31_transposed_bias.
Example C31_transposed_ex : exists m f v, conv_args (space_CN 4) (cyc_rep 4) c4_type c4_type 1 (Some [0; 1]) /\ ft_reps c4_type <> [] /\
  tconv_make c4_type c4_type 3 1 0 2 1 1 true (SigList [1 / 2; 1 / 2]) (FcoFun (fun _ => 2)) (Some [0; 1]) None None = Ok m /\
  expand_parameters_t m (repeat 1 (be_dimension kid_eqb (tc_exp m))) [2] = Ok (f, Some v) /\ v 0%nat <> 0.
Proof.
  destruct (c4_tconv 1 0 2) as [m [CA [M [D [Em [f Hf]]]]]]. exists m, (fun c o s => f o c s), (expand_bias (bias_cols 0 [c4_rep]) [2]).
  split; [exact CA|]. split; [discriminate|]. split; [exact M|]. split.
  - unfold expand_parameters_t. rewrite Hf. cbn [rbind]. assert (B : tc_bias m = Some (bias_cols 0 [c4_rep])) by (rewrite Em; reflexivity). rewrite B. reflexivity.
  - cbn. unfold mid. cbn. lra.
Qed.

(** ** C32: the filter in use *)
Fixpoint stale_t {G} (m : tconv G) (st : cstate) (flag : bool) (ops : list conv_op) : bool :=
  match ops with
  | [] => flag
  | op :: ops' =>
    stale_t m (tconv_step m st op)
      (match op with OpTrain true => false | OpUpdate _ _ => (flag || negb (cs_training st))%bool | _ => flag end) ops'
  end.
Definition in_step_t {G} (m : tconv G) (st : cstate) : Prop :=
  cs_training st = true \/ exists fb, expand_parameters_t m (cs_w st) (cs_b st) = Ok fb /\ cs_filter st = Some (fst fb) /\ cs_bias st = Some (snd fb).
Lemma in_step_used_t {G} (m : tconv G) st : in_step_t m st -> used_params_t m st = expand_parameters_t m (cs_w st) (cs_b st).
Proof.
  unfold used_params_t. intros [->|[fb [-> [-> ->]]]]; [reflexivity|]. destruct (cs_training st); [reflexivity|]. cbn. destruct fb; reflexivity.
Qed.
Lemma train_params_t {G} (m : tconv G) mode st st' : tconv_train m mode st = Ok st' -> cs_w st' = cs_w st /\ cs_b st' = cs_b st.
Proof.
  unfold tconv_train. destruct mode; [intros E; injection E as <-; auto|]. destruct (cs_training st); [|intros E; injection E as <-; auto].
  intros E. apply rbind_ok in E as [fb [_ E]]. injection E as <-. auto.
Qed.
Lemma train_in_step_t {G} (m : tconv G) mode st st' : tconv_train m mode st = Ok st' -> in_step_t m st \/ mode = true -> in_step_t m st'.
Proof.
  unfold tconv_train. destruct mode; [intros E; injection E as <-; left; auto|]. intros E [H|]; [|discriminate]. destruct (cs_training st) eqn:T.
  - apply rbind_ok in E as [fb [E1 E]]. injection E as <-. right. exists fb. auto.
  - injection E as <-. auto.
Qed.
Lemma step_params_t {G} (m : tconv G) st op : (cs_w (tconv_step m st op), cs_b (tconv_step m st op)) = current (cs_w st, cs_b st) [op].
Proof.
  unfold current. destruct op as [mode|w b| |]; cbn [tconv_step fold_left]; try reflexivity.
  - destruct (tconv_train m mode st) eqn:E; [|reflexivity]. apply train_params_t in E as [-> ->]. reflexivity.
  - destruct (tconv_train m false st) eqn:E; [|reflexivity]. apply train_params_t in E as [-> ->]. reflexivity.
Qed.
Lemma history_params_t {G} (m : tconv G) ops : forall st, (cs_w (tconv_history m st ops), cs_b (tconv_history m st ops)) = current (cs_w st, cs_b st) ops.
Proof.
  induction ops as [|op ops IH]; intros st; [reflexivity|]. unfold tconv_history. cbn [fold_left]. change (fold_left (tconv_step m) ops (tconv_step m st op)) with (tconv_history m (tconv_step m st op) ops).
  rewrite IH, step_params_t. unfold current. reflexivity.
Qed.
Lemma history_in_step_t {G} (m : tconv G) ops : forall st flag, (flag = false -> in_step_t m st) -> stale_t m st flag ops = false -> in_step_t m (tconv_history m st ops).
Proof.
  induction ops as [|op ops IH]; intros st flag H; [exact H|]. cbn [stale_t]. unfold tconv_history. cbn [fold_left].
  change (fold_left (tconv_step m) ops (tconv_step m st op)) with (tconv_history m (tconv_step m st op) ops). apply IH.
  destruct op as [mode|w b| |]; cbn [tconv_step].
  - destruct mode.
    + intros _. cbn. left. reflexivity.
    + intros F. destruct (tconv_train m false st) eqn:E; [|auto]. apply (train_in_step_t m _ _ _ E). auto.
  - intros F. apply orb_false_iff in F as [F1 F2]. destruct (cs_training st) eqn:T; [|discriminate]. left. reflexivity.
  - exact H.
  - intros F. destruct (tconv_train m false st) eqn:E; [|auto]. apply (train_in_step_t m _ _ _ E). auto.
Qed.

(** In every history of train(), eval(), parameter updates, forward and export calls in which no parameter has been updated in
    evaluation mode since the last train(True), a forward pass uses the filter and the bias expanded from the parameters
    assigned last, and so does export.  Missing for the full property: updates in evaluation mode (next theorem). *)
Theorem C32_transposed_partial : forall G (m : tconv G) w b ops,
  let st := tconv_history m (initial_state_t m w b) ops in
  stale_t m (initial_state_t m w b) false ops = false ->
  (forall B t (x : arr (B -> vec)), ft_eqb space_eqb rep_eqb t (tc_in m) = true ->
     tconv_forward m st t x =
     rbind (expand_parameters_t m (fst (current (w, b) ops)) (snd (current (w, b) ops))) (fun fb => rbind (run_tconv m fb x) (fun y => Ok (y, tc_out m)))) /\
  (forall c st', tconv_export m st = Ok (c, st') ->
     expand_parameters_t m (fst (current (w, b) ops)) (snd (current (w, b) ops)) = Ok (ct_weight c, ct_bias c)).
Proof.
  intros G m w b ops st H. assert (I : in_step_t m st).
  { apply (history_in_step_t m ops _ false); auto. intros _. left. reflexivity. }
  assert (P := history_params_t m ops (initial_state_t m w b)). cbn [initial_state_t cs_w cs_b] in P. fold st in P. rewrite <- P. cbn [fst snd]. split.
  - intros B t x Ht. unfold tconv_forward. rewrite Ht. cbn [assert_]. rewrite (in_step_used_t m st I). reflexivity.
  - intros c st' E. unfold tconv_export in E. apply rbind_ok in E as [s1 [E1 E]]. assert (I1 := train_in_step_t m _ _ _ E1 (or_introl I)).
    destruct (train_params_t m _ _ _ E1) as [W1 W2].
    assert (T : cs_training s1 = false). { unfold tconv_train in E1. destruct (cs_training st) eqn:T; [apply rbind_ok in E1 as [fb [_ E1]]|]; injection E1 as <-; auto. }
    destruct I1 as [I1|[fb [X1 [X2 X3]]]]; [congruence|]. rewrite X2, X3 in E. cbn [attribute rbind] in E.
    injection E as <- _. cbn [ct_weight ct_bias]. rewrite <- W1, <- W2, X1. unfold expand_parameters_t in X1. apply rbind_ok in X1 as [f [_ X1]]. injection X1 as <-. cbn.
    destruct (tc_bias m); reflexivity.
Qed.
Print Assumptions C32_transposed_partial.
Example C32_transposed_ex : forall G (m : tconv G) w b w1 b1 w2 b2 w3 b3,
  stale_t m (initial_state_t m w b) false [OpUpdate w1 b1; OpForward; OpUpdate w2 b2; OpTrain false; OpForward; OpTrain true; OpUpdate w3 b3; OpExport; OpForward] = false /\
  current (w, b) [OpUpdate w1 b1; OpForward; OpUpdate w2 b2; OpTrain false; OpForward; OpTrain true; OpUpdate w3 b3; OpExport; OpForward] = (w3, b3).
Proof. intros. split; reflexivity. Qed.

(** an update in evaluation mode is ignored by forward *)
Theorem C32_transposed_eval_refuted : exists (m : tconv Z) w b b' x y y',
  tconv_make c4_type c4_type 3 1 0 2 1 1 true (SigList [1 / 2; 1 / 2]) (FcoFun (fun _ => 2)) (Some [0; 1]) None None = Ok m /\
  tconv_forward (B := unit) m (tconv_history m (initial_state_t m w b) [OpTrain false; OpUpdate w b']) c4_type x = Ok (y, c4_type) /\
  tconv_forward (B := unit) m (initial_state_t m w b') c4_type x = Ok (y', c4_type) /\
  a_px y 0%nat 0%nat tt 0%nat <> a_px y' 0%nat 0%nat tt 0%nat.
Proof.
  destruct (c4_tconv 1 0 2) as [m [CA [M [D [Em [f Hf]]]]]]. set (w := repeat 1 (be_dimension kid_eqb (tc_exp m))) in *.
  set (x := MkArr 2 3 (fun i j (_ : unit) c => INR (i + j + c))).
  assert (U : forall b, expand_parameters_t m w b = Ok (fun c o s => f o c s, Some (expand_bias (bias_cols 0 [c4_rep]) b))).
  { intros b. unfold expand_parameters_t. rewrite Hf. cbn [rbind]. assert (B : tc_bias m = Some (bias_cols 0 [c4_rep])) by (rewrite Em; reflexivity). rewrite B. reflexivity. }
  assert (IN : tc_in m = c4_type) by (rewrite Em; reflexivity). assert (OUT : tc_out m = c4_type) by (rewrite Em; reflexivity).
  assert (R : exists r, forall b, exists y, run_tconv m (fun c o s => f o c s, Some (expand_bias (bias_cols 0 [c4_rep]) b)) x = Ok y /\ a_px y 0%nat 0%nat tt 0%nat = expand_bias (bias_cols 0 [c4_rep]) b 0%nat + r).
  { eexists. intros b. rewrite Em. unfold run_tconv. cbn [tc_in tc_out tc_k tc_stride tc_dil tc_groups tc_pad tc_opad fst snd]. eexists. split; [reflexivity|]. cbn [a_px]. reflexivity. }
  destruct R as [r R]. destruct (R [2]) as [y [R1 R2]]. destruct (R [3]) as [y' [R3 R4]].
  exists m, w, [2], [3], x, y, y'. split; [exact M|]. unfold tconv_forward. rewrite IN, c4_refl. cbn [assert_]. split; [|split].
  - cbn [tconv_history fold_left tconv_step initial_state_t tconv_train cs_training cs_w cs_b]. rewrite (U [2]). cbn [rbind]. unfold used_params_t. cbn [cs_training cs_filter cs_bias attribute rbind fst snd].
    etransitivity; [exact (f_equal (fun r => rbind r (fun y0 => Ok (y0, tc_out m))) R1)|]. cbn [rbind]. rewrite OUT. reflexivity.
  - unfold used_params_t. cbn [initial_state_t cs_training cs_w cs_b]. rewrite (U [3]). cbn [rbind]. etransitivity; [exact (f_equal (fun r => rbind r (fun y0 => Ok (y0, tc_out m))) R3)|]. cbn [rbind]. rewrite OUT. reflexivity.
  - rewrite R2, R4. cbn. unfold mid. cbn. lra.
Qed.
Print Assumptions C32_transposed_eval_refuted.

(** ** C33: the announced shape *)
(** evaluate_output_shape uses the formula of a convolution.  It is right for stride 1, no output padding and "same" padding, where
    the size does not change.  Missing for the full property: every other case (next theorems). *)
Theorem C33_transposed_shape_partial : forall G (tin tout : ctype G) k p dil groups bias sigma fco rings mo bf m B st t (x y : arr (B -> vec)) t' batch,
  tconv_make tin tout k p 0 1 dil groups bias sigma fco rings mo bf = Ok m -> (2 * p = dil * (k - 1))%nat ->
  tconv_forward m st t x = Ok (y, t') ->
  tconv_output_shape m (batch, Z.of_nat (ct_size tin), Z.of_nat (a_h x), Z.of_nat (a_w x)) = Ok (batch, Z.of_nat (ct_size t'), Z.of_nat (a_h y), Z.of_nat (a_w y)).
Proof.
  intros G tin tout k p dil groups bias sigma fco rings mo bf m B st t x y t' batch M P F.
  destruct (make_tmade _ _ _ _ _ _ _ _ _ _ _ _ _ _ _ M) as (or & keep & rgs & sig & maxf & _ & MD).
  unfold tconv_forward in F. apply assert_ok in F as [_ F]. apply rbind_ok in F as [fb [_ F]]. apply rbind_ok in F as [y0 [F1 F]]. injection F as -> <-.
  unfold tconv_output_shape. rewrite (tm_in MD), Z.eqb_refl, (tm_stride MD), (tm_pad MD), (tm_dil MD), (tm_k MD). cbn [assert_ Nat.eqb].
  unfold run_tconv in F1. rewrite (tm_pad MD), (tm_opad MD), (tm_k MD), (tm_stride MD), (tm_dil MD) in F1. unfold conv_transpose in F1. cbv zeta in F1.
  match type of F1 with (if ?c then _ else _) = _ => destruct c eqn:C; [|discriminate] end. injection F1 as <-. cbn [a_h a_w].
  rewrite !andb_true_iff, !Nat.ltb_lt in C. destruct C as [[[[[[[[[[C1 C2] C3] C4] C5] C6] C7] C8] C9] C10] C11].
  assert (E : forall h, (0 < h)%nat -> ((Z.of_nat h + 2 * Z.of_nat p - Z.of_nat dil * (Z.of_nat k - 1) - 1) / Z.of_nat 1 + 1)%Z = Z.of_nat ((h - 1) * 1 + dil * (k - 1) + 1 + 0 - 2 * p)).
  { intros h Hh. change (Z.of_nat 1) with 1%Z. rewrite Z.div_1_r.
    assert (Q : (Z.of_nat dil * (Z.of_nat k - 1) = 2 * Z.of_nat p)%Z). { replace (Z.of_nat k - 1)%Z with (Z.of_nat (k - 1)) by lia. rewrite <- Nat2Z.inj_mul, <- P. lia. }
    rewrite Q, <- P. lia. }
  rewrite (E _ C7), (E _ C8). reflexivity.
Qed.
Print Assumptions C33_transposed_shape_partial.
Example C33_transposed_ex : exists m st (x : arr (unit -> vec)) y,
  tconv_make c4_type c4_type 3 1 0 1 1 1 true (SigList [1 / 2; 1 / 2]) (FcoFun (fun _ => 2)) (Some [0; 1]) None None = Ok m /\ (2 * 1 = 1 * (3 - 1))%nat /\
  tconv_forward m st c4_type x = Ok (y, c4_type) /\ a_h y = 2%nat /\ a_w y = 3%nat.
Proof.
  destruct (c4_tconv 1 0 1) as [m [CA [M [D [Em [f Hf]]]]]]. set (w := repeat 1 (be_dimension kid_eqb (tc_exp m))) in *.
  exists m, (MkCS true w [2] None None), (MkArr 2 3 (fun i j (_ : unit) c => INR (i + j + c))).
  assert (R : exists y, tconv_forward m (MkCS true w [2] None None) c4_type (MkArr 2 3 (fun i j (_ : unit) c => INR (i + j + c))) = Ok (y, c4_type) /\ a_h y = 2%nat /\ a_w y = 3%nat).
  { unfold tconv_forward, used_params_t. cbn [cs_training cs_w cs_b]. unfold expand_parameters_t. rewrite Hf. cbn [rbind]. rewrite Em.
    unfold run_tconv. cbn [tc_in tc_out tc_k tc_stride tc_dil tc_groups tc_pad tc_opad fst snd].
    rewrite c4_refl. cbn [assert_]. eexists. split; [reflexivity|]. split; reflexivity. }
  destruct R as [y R]. exists y. auto.
Qed.
(** a 3 x 3 filter of stride 2, padding 1: a 5 x 5 image gives a 9 x 9 one, 3 x 3 is announced *)
Theorem C33_transposed_refuted : exists (m : tconv Z) st (x : arr (unit -> vec)) y,
  tconv_make c4_type c4_type 3 1 0 2 1 1 true (SigList [1 / 2; 1 / 2]) (FcoFun (fun _ => 2)) (Some [0; 1]) None None = Ok m /\
  tconv_forward m st c4_type x = Ok (y, c4_type) /\ a_h x = 5%nat /\ a_w x = 5%nat /\ a_h y = 9%nat /\ a_w y = 9%nat /\
  tconv_output_shape m (1, 3, 5, 5)%Z = Ok (1, 3, 3, 3)%Z.
Proof.
  destruct (c4_tconv 1 0 2) as [m [CA [M [D [Em [f Hf]]]]]]. set (w := repeat 1 (be_dimension kid_eqb (tc_exp m))) in *.
  exists m, (MkCS true w [2] None None), (MkArr 5 5 (fun i j (_ : unit) c => INR (i + j + c))).
  assert (R : exists y, tconv_forward m (MkCS true w [2] None None) c4_type (MkArr 5 5 (fun i j (_ : unit) c => INR (i + j + c))) = Ok (y, c4_type) /\ a_h y = 9%nat /\ a_w y = 9%nat).
  { unfold tconv_forward, used_params_t. cbn [cs_training cs_w cs_b]. unfold expand_parameters_t. rewrite Hf. cbn [rbind]. rewrite Em.
    unfold run_tconv. cbn [tc_in tc_out tc_k tc_stride tc_dil tc_groups tc_pad tc_opad fst snd].
    rewrite c4_refl. cbn [assert_]. eexists. split; [reflexivity|]. split; reflexivity. }
  destruct R as [y [R1 [R2 R3]]]. exists y. split; [exact M|]. split; [exact R1|]. do 2 (split; [reflexivity|]). split; [exact R2|]. split; [exact R3|]. rewrite Em. reflexivity.
Qed.
Print Assumptions C33_transposed_refuted.

(** ** C48: export *)
(** Without output padding, after any history, the exported torch.nn.ConvTranspose2d computes what the module (now in evaluation
    mode) computes, on every image.  Missing for the full property: an output padding (next theorem). *)
Theorem C48_transposed_export_partial : forall G (m : tconv G) w b ops c st',
  tc_opad m = 0%nat -> tconv_export m (tconv_history m (initial_state_t m w b) ops) = Ok (c, st') ->
  cs_training st' = false /\
  forall B (x : arr (B -> vec)), ft_eqb space_eqb rep_eqb (tc_in m) (tc_in m) = true ->
    tconv_forward m st' (tc_in m) x = rbind (convt2d_forward c x) (fun y => Ok (y, tc_out m)).
Proof.
  intros G m w b ops c st' OP E.
  set (P := fun st : cstate => tc_bias m = None -> match cs_bias st with Some (Some _) => False | _ => True end).
  assert (TR : forall mode st st', tconv_train m mode st = Ok st' -> P st -> P st').
  { intros mode st st2 T HP. unfold tconv_train in T. destruct mode; [injection T as <-; intros _; exact I|]. destruct (cs_training st); [|injection T as <-; exact HP].
    apply rbind_ok in T as [fb [T1 T]]. injection T as <-. intros N. cbn [cs_bias]. unfold expand_parameters_t in T1. apply rbind_ok in T1 as [f [_ T1]]. rewrite N in T1. injection T1 as <-. exact I. }
  assert (PH : P (tconv_history m (initial_state_t m w b) ops)).
  { clear E. unfold tconv_history. assert (P0 : P (initial_state_t m w b)) by (intros N; cbn; rewrite N; exact I). revert P0. generalize (initial_state_t m w b). induction ops as [|op ops IH]; intros st HP; [exact HP|].
    cbn [fold_left]. apply IH. destruct op as [mode|w' b'| |]; cbn [tconv_step]; auto.
    - destruct (tconv_train m mode st) eqn:T; auto. apply (TR _ _ _ T HP).
    - destruct (tconv_train m false st) eqn:T; auto. apply (TR _ _ _ T HP). }
  set (st := tconv_history m (initial_state_t m w b) ops) in *. unfold tconv_export in E. apply rbind_ok in E as [s1 [E1 E]]. assert (P1 := TR _ _ _ E1 PH).
  assert (T : cs_training s1 = false). { unfold tconv_train in E1. destruct (cs_training st) eqn:T; [apply rbind_ok in E1 as [fb [_ E1]]|]; injection E1 as <-; auto. }
  apply rbind_ok in E as [f [Ef E]]. apply rbind_ok in E as [bi [Eb E]]. injection E as <- <-.
  split; [exact T|]. intros B x TE. unfold tconv_forward. rewrite TE. cbn [assert_]. unfold used_params_t. rewrite T, Ef. cbn [rbind]. rewrite Eb. cbn [rbind].
  unfold run_tconv, convt2d_forward. cbn [ct_in ct_out ct_k ct_weight ct_bias ct_stride ct_dil ct_groups ct_pad ct_opad fst snd]. rewrite OP.
  assert (HB : match tc_bias m with Some _ => bi | None => None end = bi).
  { unfold P in P1. destruct (tc_bias m) eqn:EB; [reflexivity|]. specialize (P1 eq_refl). destruct (cs_bias s1) as [[v|]|]; cbn in Eb; [contradiction|congruence|discriminate]. }
  rewrite HB. reflexivity.
Qed.
Print Assumptions C48_transposed_export_partial.
Example C48_transposed_ex : exists m w c st',
  tconv_make c4_type c4_type 3 1 0 2 1 1 true (SigList [1 / 2; 1 / 2]) (FcoFun (fun _ => 2)) (Some [0; 1]) None None = Ok m /\
  tconv_export m (tconv_history m (initial_state_t m w [2]) [OpTrain false; OpForward]) = Ok (c, st').
Proof.
  destruct (c4_tconv 1 0 2) as [m [CA [M [D [Em [f Hf]]]]]]. set (w := repeat 1 (be_dimension kid_eqb (tc_exp m))) in *.
  exists m, w. unfold tconv_export, tconv_history. cbn [fold_left tconv_step]. cbn [tconv_train initial_state_t cs_training cs_w cs_b]. unfold expand_parameters_t. rewrite Hf. cbn [rbind].
  unfold tconv_train. cbn [cs_training rbind cs_filter cs_bias attribute fst snd]. eexists _, _. split; [exact M|reflexivity].
Qed.
(** export drops output_padding: with stride 2, padding 1, output_padding 1 a 2 x 3 image gives a 4 x 6 one, the exported module
    gives a 3 x 5 one *)
Theorem C48_transposed_refuted : exists (m : tconv Z) w b c st' (x : arr (unit -> vec)) y z,
  tconv_make c4_type c4_type 3 1 1 2 1 1 true (SigList [1 / 2; 1 / 2]) (FcoFun (fun _ => 2)) (Some [0; 1]) None None = Ok m /\
  tconv_export m (initial_state_t m w b) = Ok (c, st') /\ a_h x = 2%nat /\ a_w x = 3%nat /\
  tconv_forward m st' c4_type x = Ok (y, c4_type) /\ a_h y = 4%nat /\ a_w y = 6%nat /\
  convt2d_forward c x = Ok z /\ a_h z = 3%nat /\ a_w z = 5%nat.
Proof.
  destruct (c4_tconv 1 1 2) as [m [CA [M [D [Em [f Hf]]]]]]. set (w := repeat 1 (be_dimension kid_eqb (tc_exp m))) in *.
  exists m, w, [2]. unfold tconv_export. cbn [tconv_train initial_state_t cs_training cs_w cs_b]. unfold expand_parameters_t. rewrite Hf. cbn [rbind cs_filter cs_bias attribute fst snd].
  eexists _, _, (MkArr 2 3 (fun i j (_ : unit) c => INR (i + j + c))).
  assert (R : exists y, tconv_forward m (MkCS false w [2] (Some (fun c o s => f o c s)) (Some (match tc_bias m with Some cols => Some (expand_bias cols [2]) | None => None end))) c4_type (MkArr 2 3 (fun i j (_ : unit) c => INR (i + j + c))) = Ok (y, c4_type) /\ a_h y = 4%nat /\ a_w y = 6%nat).
  { unfold tconv_forward, used_params_t. cbn [cs_training cs_filter cs_bias attribute rbind]. rewrite Em.
    unfold run_tconv. cbn [tc_in tc_out tc_k tc_stride tc_dil tc_groups tc_pad tc_opad fst snd].
    rewrite c4_refl. cbn [assert_]. eexists. split; [reflexivity|]. split; reflexivity. }
  destruct R as [y [R1 [R2 R3]]]. exists y. eexists. split; [exact M|]. split; [reflexivity|]. do 2 (split; [reflexivity|]). split; [exact R1|]. split; [exact R2|]. split; [exact R3|].
  unfold convt2d_forward. rewrite Em. cbn [ct_in ct_out ct_k ct_weight ct_bias ct_stride ct_dil ct_groups ct_pad ct_opad tc_in tc_out tc_k tc_pad tc_stride tc_dil tc_groups]. split; [reflexivity|]. split; reflexivity.
Qed.
Print Assumptions C48_transposed_refuted.
