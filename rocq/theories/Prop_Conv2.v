(** Theorems C29 (refutation), C30-C33 and C48 (R2Conv part). *)
From Coq Require Import Reals ZArith String List Bool Lia Lra.
From Verif Require Import Base Spec Model_Groups Model_Rep Proofs_Rep Proofs_Restrict Model_FieldType Proofs_FieldType Model_Tensor Proofs_Tensor Model_GSpace Spec_GSpace Proofs_GSpace
  Model_Kernels Model_Utils Model_Expansion Model_Conv Spec_Conv Proofs_Conv Proofs_Conv2 Proofs_Conv3 Proofs_Conv4 Proofs_Conv5 Proofs_Conv6 Proofs_Conv7 Proofs_Conv8 Proofs_Conv9 Prop_Conv.
Import ListNotations.
Open Scope R_scope.

(** ** C29: mirrors about different axes *)
(** gspace equality ignores the axis (C20), so R2Conv accepts an input type over the mirror about the x axis and an output
    type over the mirror about the y axis; the module is then not equivariant *)
Theorem C29_different_axes_refuted : forall (interp : forall A : Type, R -> R -> arr A -> arr A), exists (m : r2conv Z) (x : arr (unit -> vec)) y x' y' y'',
  let tin := MkFT (space_flip 0) [c2_rep] in let tout := MkFT (space_flip (PI / 2)) [c2_rep] in
  r2conv_make tin tout 1 (PadInt 0) 1 1 "zeros" 1 false (SigList [1]) (FcoFun (fun _ => 0)) (Some [0]) None None = Ok m /\
  let st := MkCS true [1] [] None None in
  conv_forward m st tin x = Ok (y, tout) /\ field_transform interp tin x (EI 1) = Ok x' /\ conv_forward m st tin x' = Ok (y', tout) /\
  field_transform interp tout y (EI 1) = Ok y'' /\ ~ same_field (ct_size tout) y' y''.
Proof. exact different_axes. Qed.
Print Assumptions C29_different_axes_refuted.

(** ** C30: the sampling grid *)
(** the k x k array of the points at which kernels are sampled, in the layout of the filter *)
Definition grid_array (k dil : nat) : arr (R * R) :=
  MkArr k k (fun i j => nth (i * k + j) (grid_coords k dil) (0, 0)).

Lemma grid_array_px k dil i j : (i < k)%nat -> (j < k)%nat -> a_px (grid_array k dil) i j = grid_point k dil (i * k + j).
Proof.
  intros Hi Hj. cbn [grid_array a_px]. unfold grid_coords. rewrite (nth_indep _ (0, 0) (grid_point k dil 0)).
  - rewrite map_nth. rewrite seq_nth; [reflexivity|]. nia.
  - rewrite map_length, seq_length. nia.
Qed.

(** moving the array as an image by an element of the group that maps the pixel grid to itself moves every point by the
    element: the entry of the new array at any index is the preimage of the grid point of that index *)
Theorem C30_sampling_grid : forall (interp : forall A : Type, R -> R -> arr A -> arr A) s e k dil,
  constructed s -> fg_is_element (sp_group s) e = true -> grid_exact s e ->
  exists Q, basespace_action interp s (grid_array k dil) e = Ok Q /\ a_h Q = k /\ a_w Q = k /\
    forall i j, (i < k)%nat -> (j < k)%nat -> a_px (grid_array k dil) i j = plane_action s e (a_px Q i j).
Proof.
  intros interp s e k dil Hc He Hx. destruct (action_moves interp s (grid_array k dil) e Hc He Hx) as [Q [HQ [_ M]]].
  assert (D : a_h Q = k /\ a_w Q = k).
  { apply (grid_exact_iff _ _ Hc He) in Hx as [kk Hk]. rewrite (action_exact interp s _ e kk Hc He Hk) in HQ. injection HQ as <-.
    destruct (turn_dims (gflip s e) kk (grid_array k dil)) as [[E1 E2]|[E1 E2]]; unfold turn in E1, E2; rewrite E1, E2; split; reflexivity. }
  destruct D as [D1 D2]. exists Q. split; [exact HQ|]. split; [exact D1|]. split; [exact D2|]. intros i j Hi Hj.
  destruct (M i j) as (i0 & j0 & Hi0 & Hj0 & E & ->); [lia|lia|]. cbn [grid_array a_h a_w] in Hi0, Hj0, E. rewrite D1, D2 in E.
  rewrite !grid_array_px, !grid_centre by auto. rewrite E. rewrite <- plane_scale by auto. reflexivity.
Qed.
Print Assumptions C30_sampling_grid.

(** a quarter turn of the 3 x 3 grid with dilation 2: the point sampled at the top left is (-2, 2) *)
Example C30_ex : constructed (SpRot (GC 4)) /\ fg_is_element (GC 4) (EI 1) = true /\ grid_exact (SpRot (GC 4)) (EI 1) /\
  a_px (grid_array 3 2) 0 0 = (-2, 2) /\ a_px (grid_array 3 2) 2 1 = (0, -2).
Proof.
  split; [split; [cbn; lia|reflexivity]|]. split; [reflexivity|]. split; [left; cbn; replace (2 * PI * 1 / 4) with (PI / 2) by field; rewrite cos_PI2; ring|].
  rewrite !grid_array_px by lia. unfold grid_point. cbn. split; f_equal; lra.
Qed.

(** ** C31: the bias *)
Theorem C31_bias_invariant : forall G (sp : space G) isrep tin tout k padding stride dil mode groups bias sigma fco rings mo bf m e w b f v,
  conv_args sp isrep tin tout dil rings ->
  r2conv_make tin tout k padding stride dil mode groups bias sigma fco rings mo bf = Ok m ->
  fg_is_element (sp_group (sp_obj sp)) e = true ->
  expand_parameters m w b = Ok (f, Some v) ->
  exists rho g, type_representation (ft_reps tout) = Ok rho /\ rp_size rho = ct_size tout /\ sp_prj sp e = Some g /\
    forall c, (c < ct_size tout)%nat -> rsum (ct_size tout) (fun c' => rp_mat rho g c c' * v c') = v c.
Proof.
  intros G sp isrep tin tout k padding stride dil mode groups bias sigma fco rings mo bf m e w b f v CA H He Hx.
  destruct (pad_irrelevant _ _ _ _ _ _ _ _ _ _ _ _ _ _ _ H) as [m' [H' [_ EB]]].
  destruct (make_made _ _ _ _ 0%nat _ _ _ _ _ _ _ _ _ _ _ H' eq_refl) as (in_reps & keep & rgs & sig & maxf & _ & MD & _).
  destruct (space_ok _ _ _ (ca_space _ _ _ _ _ _ CA)) as [code [el [inv SF]]]. destruct (sf_elt _ _ _ _ _ SF e He) as [g [Hg [_ Hp]]].
  assert (Hb : exists cols, cv_bias m = Some cols /\ v = expand_bias cols b /\ cols = bias_cols 0 (ft_reps tout)).
  { unfold expand_parameters in Hx. apply rbind_ok in Hx as [f' [_ Hx]]. rewrite <- EB in *. destruct (md_bias MD) as [E|E]; rewrite E in *; [discriminate|].
    injection Hx as <- <-. eauto. }
  destruct Hb as [cols [_ [-> ->]]].
  assert (TO : ft_reps tout <> []).
  { exact (proj2 (dim_nonempty _ _ _ _ kid_eqb _ _ _ _ _ (md_exp MD) (md_dim MD))). }
  unfold type_representation. destruct (directsum (ft_reps tout) (Some "FiberRepresentation"%string)) as [rho|] eqn:E.
  2:{ unfold directsum in E. destruct (ft_reps tout); [congruence|discriminate]. }
  exists rho, g. split; [reflexivity|]. split; [apply (ds_size _ _ _ E)|]. split; [exact Hp|]. intros c Hc.
  assert (B := bias_fixed _ _ _ _ _ SF _ (ca_out_reps _ _ _ _ _ _ CA) 1%nat (Nat.lt_0_succ 0) (bias_cols 0 (ft_reps tout)) b g Hg (fun v H => H) c Hc).
  etransitivity; [|exact B]. unfold mvec. apply rsum_ext. intros c' Hc'. f_equal. apply (directsum_mat _ _ _ g E); auto.
Qed.
Print Assumptions C31_bias_invariant.

(** a module with a bias: the theorem applies to every weights and biases of the module of C28_ex *)
Example C31_ex : exists m f v, conv_args (space_CN 4) (cyc_rep 4) c4_type c4_type 1 (Some [0; 1]) /\
  r2conv_make c4_type c4_type 3 (PadInt 1) 1 1 "zeros" 1 true (SigList [1 / 2; 1 / 2]) (FcoFun (fun _ => 2)) (Some [0; 1]) None None = Ok m /\
  expand_parameters m (repeat 1 (be_dimension kid_eqb (cv_exp m))) [2] = Ok (f, Some v) /\ v 0%nat <> 0.
Proof.
  destruct C28_ex as [m [CA M]]. exists m. destruct (c4_conv 1) as [m' [keep [M' [B _]]]]. rewrite M in M'. injection M' as <-.
  destruct (C28_R2Conv _ _ _ _ _ _ _ _ _ _ _ _ _ _ _ _ _ _ CA (Nat.lt_0_succ 0) M) as [params [_ [D L]]]. destruct L as [first [_ [_ [_ [_ L]]]]].
  destruct (L D (repeat 1 (be_dimension kid_eqb (cv_exp m)))) as [f [Hf _]]; [apply repeat_length|].
  exists f. unfold expand_parameters. rewrite Hf. cbn [rbind]. rewrite B. eexists. split; [exact CA|]. split; [exact M|]. split; [reflexivity|].
  cbn. unfold mid. cbn. lra.
Qed.

(** ** C32: the filter in use *)
(** What the caller did: the last parameters assigned, and whether parameters were assigned in evaluation mode since the last
    train(True). *)
Definition current (wb : list R * list R) (ops : list conv_op) : list R * list R :=
  fold_left (fun wb op => match op with OpUpdate w b => (w, b) | _ => wb end) ops wb.
Fixpoint stale {G} (m : r2conv G) (st : cstate) (flag : bool) (ops : list conv_op) : bool :=
  match ops with
  | [] => flag
  | op :: ops' =>
    stale m (conv_step m st op)
      (match op with OpTrain true => false | OpUpdate _ _ => (flag || negb (cs_training st))%bool | _ => flag end) ops'
  end.

Definition in_step {G} (m : r2conv G) (st : cstate) : Prop :=
  cs_training st = true \/ exists fb, expand_parameters m (cs_w st) (cs_b st) = Ok fb /\ cs_filter st = Some (fst fb) /\ cs_bias st = Some (snd fb).
Lemma in_step_used {G} (m : r2conv G) st : in_step m st -> used_params m st = expand_parameters m (cs_w st) (cs_b st).
Proof.
  unfold used_params. intros [->|[fb [-> [-> ->]]]]; [reflexivity|]. destruct (cs_training st); [reflexivity|]. cbn. destruct fb; reflexivity.
Qed.
Lemma train_params {G} (m : r2conv G) mode st st' : conv_train m mode st = Ok st' -> cs_w st' = cs_w st /\ cs_b st' = cs_b st.
Proof.
  unfold conv_train. destruct mode; [intros E; injection E as <-; auto|]. destruct (cs_training st); [|intros E; injection E as <-; auto].
  intros E. apply rbind_ok in E as [fb [_ E]]. injection E as <-. auto.
Qed.
Lemma train_in_step {G} (m : r2conv G) mode st st' : conv_train m mode st = Ok st' -> in_step m st \/ mode = true -> in_step m st'.
Proof.
  unfold conv_train. destruct mode; [intros E; injection E as <-; left; auto|]. intros E [H|]; [|discriminate]. destruct (cs_training st) eqn:T.
  - apply rbind_ok in E as [fb [E1 E]]. injection E as <-. right. exists fb. auto.
  - injection E as <-. auto.
Qed.
Lemma step_params {G} (m : r2conv G) st op : (cs_w (conv_step m st op), cs_b (conv_step m st op)) = current (cs_w st, cs_b st) [op].
Proof.
  unfold current. destruct op as [mode|w b| |]; cbn [conv_step fold_left]; try reflexivity.
  - destruct (conv_train m mode st) eqn:E; [|reflexivity]. apply train_params in E as [-> ->]. reflexivity.
  - destruct (conv_train m false st) eqn:E; [|reflexivity]. apply train_params in E as [-> ->]. reflexivity.
Qed.
Lemma history_params {G} (m : r2conv G) ops : forall st, (cs_w (conv_history m st ops), cs_b (conv_history m st ops)) = current (cs_w st, cs_b st) ops.
Proof.
  induction ops as [|op ops IH]; intros st; [reflexivity|]. unfold conv_history. cbn [fold_left]. change (fold_left (conv_step m) ops (conv_step m st op)) with (conv_history m (conv_step m st op) ops).
  rewrite IH, step_params. unfold current. reflexivity.
Qed.
Lemma history_in_step {G} (m : r2conv G) ops : forall st flag, (flag = false -> in_step m st) -> stale m st flag ops = false -> in_step m (conv_history m st ops).
Proof.
  induction ops as [|op ops IH]; intros st flag H; [exact H|]. cbn [stale]. unfold conv_history. cbn [fold_left].
  change (fold_left (conv_step m) ops (conv_step m st op)) with (conv_history m (conv_step m st op) ops). apply IH.
  destruct op as [mode|w b| |]; cbn [conv_step].
  - destruct mode.
    + intros _. cbn. left. reflexivity.
    + intros F. destruct (conv_train m false st) eqn:E; [|auto]. apply (train_in_step m _ _ _ E). auto.
  - intros F. apply orb_false_iff in F as [F1 F2]. destruct (cs_training st) eqn:T; [|discriminate]. left. reflexivity.
  - exact H.
  - intros F. destruct (conv_train m false st) eqn:E; [|auto]. apply (train_in_step m _ _ _ E). auto.
Qed.

(** In every history of train(), eval(), parameter updates, forward and export calls in which no parameter has been updated in
    evaluation mode since the last train(True), a forward pass uses the filter and the bias expanded from the parameters
    assigned last, and so does export.
    Missing for the full property: updates in evaluation mode, for which it is false (next theorem). *)
Theorem C32_current_filter_partial : forall G (m : r2conv G) w b ops,
  let st := conv_history m (initial_state m w b) ops in
  stale m (initial_state m w b) false ops = false ->
  (forall B t (x : arr (B -> vec)), ft_eqb space_eqb rep_eqb t (cv_in m) = true ->
     conv_forward m st t x =
     rbind (expand_parameters m (fst (current (w, b) ops)) (snd (current (w, b) ops))) (fun fb => rbind (run_conv m fb x) (fun y => Ok (y, cv_out m)))) /\
  (forall version c st', conv_export version m st = Ok (c, st') ->
     expand_parameters m (fst (current (w, b) ops)) (snd (current (w, b) ops)) = Ok (c2_weight c, c2_bias c)).
Proof.
  intros G m w b ops st H. assert (I : in_step m st).
  { apply (history_in_step m ops _ false); auto. intros _. left. reflexivity. }
  assert (P := history_params m ops (initial_state m w b)). cbn [initial_state cs_w cs_b] in P. fold st in P. rewrite <- P. cbn [fst snd]. split.
  - intros B t x Ht. unfold conv_forward. rewrite Ht. cbn [assert_]. rewrite (in_step_used m st I). reflexivity.
  - intros version c st' E. unfold conv_export in E. apply rbind_ok in E as [s1 [E1 E]]. assert (I1 := train_in_step m _ _ _ E1 (or_introl I)).
    destruct (train_params m _ _ _ E1) as [W1 W2].
    assert (T : cs_training s1 = false). { unfold conv_train in E1. destruct (cs_training st) eqn:T; [apply rbind_ok in E1 as [fb [_ E1]]|]; injection E1 as <-; auto. }
    destruct I1 as [I1|[fb [X1 [X2 X3]]]]; [congruence|]. rewrite X2, X3 in E. cbn [attribute rbind] in E. destruct (match cv_mode m with MZeros => false | _ => _ end); [discriminate|].
    injection E as <- _. cbn [c2_weight c2_bias]. rewrite <- W1, <- W2, X1. unfold expand_parameters in X1. apply rbind_ok in X1 as [f [_ X1]]. injection X1 as <-. cbn.
    destruct (cv_bias m); reflexivity.
Qed.
Print Assumptions C32_current_filter_partial.

(** whatever happened before, train(True) makes the current parameters be used *)
Theorem C32_train_refreshes : forall G (m : r2conv G) st, exists st', conv_train m true st = Ok st' /\
  used_params m st' = expand_parameters m (cs_w st) (cs_b st).
Proof. intros. eexists. split; reflexivity. Qed.

Print Assumptions C32_train_refreshes.

(** non-vacuous: training, two updates, eval, forward, train again, update, export is such a history *)
Example C32_ex : forall G (m : r2conv G) w b w1 b1 w2 b2 w3 b3,
  stale m (initial_state m w b) false [OpUpdate w1 b1; OpForward; OpUpdate w2 b2; OpTrain false; OpForward; OpTrain true; OpUpdate w3 b3; OpExport; OpForward] = false /\
  current (w, b) [OpUpdate w1 b1; OpForward; OpUpdate w2 b2; OpTrain false; OpForward; OpTrain true; OpUpdate w3 b3; OpExport; OpForward] = (w3, b3).
Proof.
  intros. split; reflexivity.
Qed.

(** an update in evaluation mode (an optimiser step or load_state_dict after eval()) is ignored by forward: the output is
    that of the old parameters *)
Theorem C32_update_in_eval_refuted : exists (m : r2conv Z) w b b' x y y',
  r2conv_make c4_type c4_type 3 (PadInt 1) 1 1 "zeros" 1 true (SigList [1 / 2; 1 / 2]) (FcoFun (fun _ => 2)) (Some [0; 1]) None None = Ok m /\
  conv_forward (B := unit) m (conv_history m (initial_state m w b) [OpTrain false; OpUpdate w b']) c4_type x = Ok (y, c4_type) /\
  conv_forward (B := unit) m (initial_state m w b') c4_type x = Ok (y', c4_type) /\
  a_px y 0%nat 0%nat tt 0%nat <> a_px y' 0%nat 0%nat tt 0%nat.
Proof.
  destruct C28_ex as [m [CA M]]. exists m. destruct (c4_conv 1) as [m' [keep [M' [B _]]]]. rewrite M in M'. injection M' as <-.
  destruct (C28_R2Conv _ _ _ _ _ _ _ _ _ _ _ _ _ _ _ _ _ _ CA (Nat.lt_0_succ 0) M) as [params [_ [D L]]]. destruct L as [first [_ [_ [_ [_ L]]]]].
  set (w := repeat 1 (be_dimension kid_eqb (cv_exp m))). destruct (L D w) as [f [Hf _]]; [apply repeat_length|].
  set (x := MkArr 3 4 (fun i j (_ : unit) c => INR (i + j + c)) : arr (unit -> vec)).
  assert (U : forall b, expand_parameters m w b = Ok (f, Some (expand_bias (bias_cols 0 [c4_rep]) b))).
  { intros b. unfold expand_parameters. rewrite Hf. cbn [rbind]. rewrite B. reflexivity. }
  assert (TE : ft_eqb space_eqb rep_eqb c4_type c4_type = true). { unfold ft_eqb. cbn. rewrite rep_eqb_refl. reflexivity. }
  destruct (make_made _ _ _ _ 1%nat _ _ _ _ _ _ _ _ _ _ _ M eq_refl) as (ir & keep' & rgs & sig & maxf & _ & MD & EM).
  assert (IN := md_in MD). assert (OUT := md_out MD).
  assert (R : exists r, forall b, exists y, run_conv m (f, Some (expand_bias (bias_cols 0 [c4_rep]) b)) x = Ok y /\ a_px y 0%nat 0%nat tt 0%nat = expand_bias (bias_cols 0 [c4_rep]) b 0%nat + r).
  { eexists. intros b. unfold run_conv. cbn [fst snd].
    rewrite (md_pad MD), IN, OUT, (md_k MD),
      (md_stride MD), (md_dil MD), (md_grp MD).
    cbn in EM. injection EM as <-. eexists. split; [reflexivity|]. cbn [a_px snd]. reflexivity. }
  destruct R as [r R]. destruct (R [2]) as [y [R1 R2]]. destruct (R [3]) as [y' [R3 R4]].
  exists w, [2], [3], x, y, y'. split; [exact M|]. unfold conv_forward. rewrite IN, TE. cbn [assert_]. split; [|split].
  - cbn [conv_history fold_left conv_step initial_state conv_train cs_training cs_w cs_b]. rewrite (U [2]). cbn [rbind]. unfold used_params. cbn [cs_training cs_filter cs_bias attribute rbind fst snd].
    etransitivity; [exact (f_equal (fun r => rbind r (fun y0 => Ok (y0, cv_out m))) R1)|]. cbn [rbind]. rewrite OUT. reflexivity.
  - unfold used_params. cbn [initial_state cs_training cs_w cs_b]. rewrite (U [3]). cbn [rbind]. etransitivity; [exact (f_equal (fun r => rbind r (fun y0 => Ok (y0, cv_out m))) R3)|]. cbn [rbind]. rewrite OUT. reflexivity.
  - rewrite R2, R4. cbn. unfold mid. cbn. lra.
Qed.
Print Assumptions C32_update_in_eval_refuted.

(** ** C33, R2Conv: the announced shape *)
Lemma made_shape {G} (tin tout : ctype G) k p stride dil groups gen m in_reps B st t (x y : arr (B -> vec)) t' batch :
  made tin tout k p stride dil groups gen m in_reps -> cv_padding m = PadInt p -> conv_forward m st t x = Ok (y, t') ->
  conv_output_shape m (batch, Z.of_nat (ct_size tin), Z.of_nat (a_h x), Z.of_nat (a_w x)) = Ok (batch, Z.of_nat (ct_size t'), Z.of_nat (a_h y), Z.of_nat (a_w y)).
Proof.
  intros MD CP F. unfold conv_forward in F. apply assert_ok in F as [_ F]. apply rbind_ok in F as [fb [_ F]]. apply rbind_ok in F as [y0 [F1 F]]. injection F as -> <-.
  unfold conv_output_shape. rewrite (md_in MD), Z.eqb_refl. cbn [assert_]. rewrite CP.
  unfold run_conv in F1. rewrite (md_pad MD), (md_k MD),
      (md_stride MD), (md_dil MD) in *. cbn [fst snd] in F1.
  apply rbind_ok in F1 as [z [F1 F2]]. unfold pad2d in F1. destruct (_ && _)%bool in F1; [|discriminate]. injection F1 as <-.
  unfold conv_valid in F2. cbn [a_h a_w] in F2. destruct (_ && _)%bool eqn:C in F2; [|discriminate]. injection F2 as <-. cbn [a_h a_w].
  rewrite !andb_true_iff in C. destruct C as [[[[[[[C1 C2] C3] C4] C5] C6] C7] C8]. apply Nat.ltb_lt in C1, C2, C3. apply Nat.leb_le in C7, C8.
  destruct (Nat.eqb_spec stride 0); [lia|].
  assert (E : forall h, (dil * (k - 1) + 1 <= h + 2 * p)%nat ->
    ((Z.of_nat h + 2 * Z.of_nat p - Z.of_nat dil * (Z.of_nat k - 1) - 1) / Z.of_nat stride + 1)%Z = Z.of_nat ((h + 2 * p - (dil * (k - 1) + 1)) / stride + 1)).
  { intros h Hh. rewrite Nat2Z.inj_add, Nat2Z.inj_div, Nat2Z.inj_sub by exact Hh. rewrite !Nat2Z.inj_add, !Nat2Z.inj_mul, Nat2Z.inj_sub by lia. f_equal. f_equal. cbn. ring. }
  rewrite (E _ C7), (E _ C8). reflexivity.
Qed.
(** for a padding given as an int.  Missing for the full property: a padding given as a tuple (refuted below) *)
Theorem C33_R2Conv_shape_partial : forall G (tin tout : ctype G) k p stride dil mode groups bias sigma fco rings mo bf m B st t (x y : arr (B -> vec)) t' batch,
  r2conv_make tin tout k (PadInt p) stride dil mode groups bias sigma fco rings mo bf = Ok m ->
  conv_forward m st t x = Ok (y, t') ->
  conv_output_shape m (batch, Z.of_nat (ct_size tin), Z.of_nat (a_h x), Z.of_nat (a_w x)) = Ok (batch, Z.of_nat (ct_size t'), Z.of_nat (a_h y), Z.of_nat (a_w y)).
Proof.
  intros G tin tout k p stride dil mode groups bias sigma fco rings mo bf m B st t x y t' batch M F.
  destruct (make_made _ _ _ _ p _ _ _ _ _ _ _ _ _ _ _ M eq_refl) as (ir & keep' & rgs & sig & maxf & _ & MD & EM).
  assert (CP : cv_padding m = PadInt p).
  { clear -M. unfold r2conv_make in M. apply assert_ok in M as [_ M]. cbn [parse_padding rbind] in M. apply rbind_ok in M as [md [_ M]]. apply rbind_ok in M as [i [_ M]]. cbv zeta in M.
    apply rbind_ok in M as [[[[a b] c] d] [_ M]]. apply rbind_ok in M as [e [_ M]]. destruct (_ =? 0)%nat; [discriminate|]. injection M as <-. reflexivity. }
  eapply made_shape; eauto.
Qed.
Print Assumptions C33_R2Conv_shape_partial.

Lemma tuple_padding {G} (tin tout : ctype G) k p stride dil mode groups bias sigma fco rings mo bf m :
  r2conv_make tin tout k (PadInt p) stride dil mode groups bias sigma fco rings mo bf = Ok m ->
  r2conv_make tin tout k (PadTuple [p; p]) stride dil mode groups bias sigma fco rings mo bf =
    Ok (MkConv (cv_in m) (cv_out m) (cv_k m) (PadTuple [p; p]) (cv_pad m) (cv_mode m) (cv_stride m) (cv_dil m) (cv_groups m) (cv_bias m) (cv_exp m)).
Proof.
  unfold r2conv_make. intros H. apply assert_ok in H as [H1 H]. rewrite H1. cbn [assert_ rbind parse_padding] in *.
  apply rbind_ok in H as [md [-> H]]. apply rbind_ok in H as [ir [-> H]]. cbv zeta in H. apply rbind_ok in H as [[[[keep rgs] sig] maxf] [Hc H]]. rewrite Hc. cbn [rbind].
  apply rbind_ok in H as [e [-> H]]. cbn [rbind]. destruct (be_dimension kid_eqb e =? 0)%nat; [discriminate|]. injection H as <-. reflexivity.
Qed.

(** with padding = (1, 1) the constructor and forward work, evaluate_output_shape raises TypeError *)
Theorem C33_R2Conv_tuple_refuted : exists (m : r2conv Z) st x y,
  r2conv_make c4_type c4_type 3 (PadTuple [1; 1]%nat) 1 1 "zeros" 1 true (SigList [1 / 2; 1 / 2]) (FcoFun (fun _ => 2)) (Some [0; 1]) None None = Ok m /\
  conv_forward (B := unit) m st c4_type x = Ok (y, c4_type) /\
  conv_output_shape m (1%Z, Z.of_nat (ct_size c4_type), Z.of_nat (a_h x), Z.of_nat (a_w x)) = Err "TypeError".
Proof.
  destruct C29_ex as [m [st [x [y (CA & M & _ & _ & _ & _ & _ & F & _)]]]]. eexists _, st, x, y. split; [apply (tuple_padding _ _ _ _ _ _ _ _ _ _ _ _ _ _ _ M)|].
  split; [exact F|]. unfold conv_output_shape. cbn [cv_in cv_padding]. destruct (make_made _ _ _ _ 1%nat _ _ _ _ _ _ _ _ _ _ _ M eq_refl) as (ir & keep' & rgs & sig & maxf & _ & MD & EM).
  rewrite (md_in MD), Z.eqb_refl. reflexivity.
Qed.
Print Assumptions C33_R2Conv_tuple_refuted.

(** ** C48, R2Conv: export *)
(** after any history, the exported torch.nn.Conv2d computes what the module (now in evaluation mode) computes, on every image *)
Theorem C48_R2Conv_export : forall G (m : r2conv G) w b ops version c st',
  conv_export version m (conv_history m (initial_state m w b) ops) = Ok (c, st') ->
  cs_training st' = false /\
  forall B (x : arr (B -> vec)), ft_eqb space_eqb rep_eqb (cv_in m) (cv_in m) = true ->
    conv_forward m st' (cv_in m) x = rbind (conv2d_forward c x) (fun y => Ok (y, cv_out m)).
Proof.
  intros G m w b ops version c st' E.
  set (P := fun st : cstate => cv_bias m = None -> match cs_bias st with Some (Some _) => False | _ => True end).
  assert (TR : forall mode st st', conv_train m mode st = Ok st' -> P st -> P st').
  { intros mode st st2 T HP. unfold conv_train in T. destruct mode; [injection T as <-; intros _; exact I|]. destruct (cs_training st); [|injection T as <-; exact HP].
    apply rbind_ok in T as [fb [T1 T]]. injection T as <-. intros N. cbn [cs_bias]. unfold expand_parameters in T1. apply rbind_ok in T1 as [f [_ T1]]. rewrite N in T1. injection T1 as <-. exact I. }
  assert (PH : P (conv_history m (initial_state m w b) ops)).
  { clear E. unfold conv_history. assert (P0 : P (initial_state m w b)) by (intros N; cbn; rewrite N; exact I). revert P0. generalize (initial_state m w b). induction ops as [|op ops IH]; intros st HP; [exact HP|].
    cbn [fold_left]. apply IH. destruct op as [mode|w' b'| |]; cbn [conv_step]; auto.
    - destruct (conv_train m mode st) eqn:T; auto. apply (TR _ _ _ T HP).
    - destruct (conv_train m false st) eqn:T; auto. apply (TR _ _ _ T HP). }
  set (st := conv_history m (initial_state m w b) ops) in *. unfold conv_export in E. apply rbind_ok in E as [s1 [E1 E]]. assert (P1 := TR _ _ _ E1 PH).
  assert (T : cs_training s1 = false). { unfold conv_train in E1. destruct (cs_training st) eqn:T; [apply rbind_ok in E1 as [fb [_ E1]]|]; injection E1 as <-; auto. }
  apply rbind_ok in E as [f [Ef E]]. apply rbind_ok in E as [bi [Eb E]]. destruct (match cv_mode m with MZeros => false | _ => _ end); [discriminate|]. injection E as <- <-.
  split; [exact T|]. intros B x TE. unfold conv_forward. rewrite TE. cbn [assert_]. unfold used_params. rewrite T, Ef. cbn [rbind]. rewrite Eb. cbn [rbind].
  unfold run_conv, conv2d_forward. cbn.
  assert (HB : match cv_bias m with Some _ => bi | None => None end = bi).
  { unfold P in P1. destruct (cv_bias m) eqn:EB; [reflexivity|]. specialize (P1 eq_refl). destruct (cs_bias s1) as [[v|]|]; cbn in Eb; [contradiction|congruence|discriminate]. }
  rewrite HB. reflexivity.
Qed.
Print Assumptions C48_R2Conv_export.

(** the exported module exists whenever the module can evaluate its filter and pads with zeros, or torch is at least 1.5 and
    its minor version is at least 5 *)
Theorem C48_R2Conv_export_exists : forall G (m : r2conv G) w b version fb,
  expand_parameters m w b = Ok fb -> (cv_mode m = MZeros \/ (1 <= fst version /\ 5 <= snd version)%Z) ->
  exists c st', conv_export version m (initial_state m w b) = Ok (c, st').
Proof.
  intros G m w b version fb E H. unfold conv_export, conv_train. cbn [initial_state cs_training cs_w cs_b]. rewrite E. cbn [rbind cs_filter cs_bias attribute].
  destruct H as [->|[H1 H2]]; [eauto|]. apply Z.ltb_ge in H1, H2. rewrite H1, H2. destruct (cv_mode m); cbn [orb]; eauto.
Qed.
(** torch 2.0 with a padding mode other than zeros: the test on the version compares the minor number alone, and export fails *)
Theorem C48_R2Conv_version_refuted : forall G (m : r2conv G) w b fb, expand_parameters m w b = Ok fb -> cv_mode m <> MZeros ->
  conv_export (2, 0)%Z m (initial_state m w b) = Err "ImportError".
Proof.
  intros G m w b fb E H. unfold conv_export, conv_train. cbn [initial_state cs_training cs_w cs_b]. rewrite E. cbn [rbind cs_filter cs_bias attribute].
  destruct (cv_mode m); [congruence| | |]; reflexivity.
Qed.
Print Assumptions C48_R2Conv_version_refuted.
