(** C48 for whole networks: a SequentialModule and the torch.nn.Sequential that [export] makes of it. *)
From Coq Require Import Reals ZArith String List Bool Lia Lra.
From Verif Require Import Base LinAlg Spec Spec_Fields Model_Groups Model_Rep Model_FieldType Proofs_FieldType Model_GSpace Spec_GSpace Proofs_GSpace Model_Tensor Model_Utils Model_Modules Spec_Modules Proofs_Modules Prop_Modules
  Model_Conv Spec_Conv Proofs_Conv5 Proofs_Conv6 Proofs_Conv8 Prop_Conv Prop_Conv2 Model_ConvT Model_Fieldwise Spec_Fieldwise Spec_Fieldwise2 Model_BatchNorm Model_Pool Model_Upsample Model_NormMax Model_Dropout Model_Expansion Model_Regular
  Proofs_Regular Proofs_Regular2 Prop_Fieldwise3 Prop_Pool2 Model_Net Spec_Net Proofs_Net6 Prop_Net Model_Export Spec_Export Proofs_Export.
Import ListNotations.
Open Scope R_scope.

Lemma chained_dec {A} (f : A -> A -> bool) (l : list A) : {chained (fun a b => f a b = true) l} + {~ chained (fun a b => f a b = true) l}.
Proof.
  induction l as [|a l [IH|IH]]; [left; apply chained_nil| |right; intros C; apply chained_cons in C; tauto].
  destruct l as [|b l]; [left; apply chained_cons; auto|]. destruct (f a b) eqn:E; [left; apply chained_cons; auto|right; intros C; apply chained_cons in C as [C _]; congruence].
Qed.
Lemma final_agree {G B} (r : result (arr (B -> vec) * ctype G)) r' out : same_outcome r r' -> (forall y u, r = Ok (y, u) -> ft_eqb space_eqb rep_eqb u out = true) ->
  same_outcome (rbind r (fun y => assert_ (ft_eqb space_eqb rep_eqb (snd y) out) (Ok y))) r'.
Proof. intros H1 H2. destruct r as [[y u]|er]; [|exact H1]. cbn [rbind snd]. rewrite (H2 y u eq_refl). exact H1. Qed.
(** For every sequence of modules that can be exported, with any parameters and after any history: if export succeeds, then on every
    tensor of the input type the network (in the evaluation mode that export leaves it in) and the exported network both raise, or
    return the same numbers; the modules keep their types.  Partial: the modules are those of [exportable] (Spec_Export), which leaves
    out the arguments for which export is wrong.  Nested SequentialModules: Prop_Nested.C48_nested_partial. *)
Theorem C48_network_partial : forall G B (bt : batch B) argmax junk junkn cob_id attr version (ls ls' : list (xlayer G)) nets s,
  numbered bt -> (forall n, attr (py_str n) = false) ->
  Forall exportable ls -> net_export version ls = Ok (nets, ls') ->
  seq_make (ft_eqb space_eqb rep_eqb) attr (map (xlayer_module argmax junk junkn cob_id bt) ls') = Ok s ->
  map (fun l => (xlayer_in l, xlayer_out l)) ls' = map (fun l => (xlayer_in l, xlayer_out l)) ls /\
  forall tin t (x : arr (B -> vec)), sq_in s = Some tin -> ft_eqb space_eqb rep_eqb t tin = true ->
    same_outcome (seq_forward (ft_eqb space_eqb rep_eqb) snd s (x, t)) (tnet_forward bt nets (ct_size t, x)).
Proof.
  intros G B bt argmax junk junkn cob_id attr version ls ls' nets s NB AT EX NE MK. unfold net_export in NE. apply rbind_ok in NE as (l & RM & NE). injection NE as <- <-. split.
  { clear MK s. revert l RM EX. induction ls as [|a ls IH]; intros l RM EX; cbn [rmap] in RM; [injection RM as <-; reflexivity|].
    apply rbind_ok in RM as ([c a'] & E1 & RM). apply rbind_ok in RM as (l2 & E2 & RM). injection RM as <-. inversion EX as [|? ? X1 X2]; subst. cbn [map snd].
    destruct (exportable_xstep argmax junk junkn cob_id bt NB version _ _ _ X1 E1) as (_ & -> & ->). f_equal. apply (IH l2 E2 X2). }
  intros tin t x SI TE.
  assert (RC : rmap (xlayer_export version) ls = Ok (combine (map fst l) (map snd l))).
  { rewrite RM. f_equal. clear. induction l as [|[a b] l IH]; cbn; congruence. }
  destruct (C39_construction _ _ (ft_eqb space_eqb rep_eqb) attr (map (xlayer_module argmax junk junkn cob_id bt) (map snd l)) AT) as [K1 K2].
  assert (CH : chained (fun a b => ft_eqb space_eqb rep_eqb (em_in b) (em_out a) = true) (map (xlayer_module argmax junk junkn cob_id bt) (map snd l))) by (destruct (chained_dec (fun a b : emodule (ftype (space G) (rep G)) (arr (B -> vec) * ctype G) => ft_eqb space_eqb rep_eqb (em_in b) (em_out a)) (map (xlayer_module argmax junk junkn cob_id bt) (map snd l))) as [C|C]; [exact C|]; specialize (K2 C); unfold ctype in *; rewrite MK in K2; discriminate).
  destruct (K1 CH) as (s' & S1 & S2 & S3 & S4 & _). unfold ctype in *. rewrite MK in S1. injection S1 as <-.
  assert (LN : length (map fst l) = length (map snd l)) by (rewrite !map_length; reflexivity).
  assert (SR : same_field (ct_size t) x x) by (apply same_field_refl).
  destruct (map snd l) as [|l0 ls0] eqn:ML; [rewrite S3 in SI; discriminate|].
  rewrite S3 in SI. cbn [map xlayer_module em_in] in SI. injection SI as <-.
  destruct (run_agree argmax junk junkn cob_id bt NB version ls (map fst l) (l0 :: ls0) EX RC LN t x x SR TE CH) as [A1 A2].
  unfold seq_forward. rewrite S2, S3, S4. cbn [snd opt_eqb]. change (em_in (xlayer_module argmax junk junkn cob_id bt l0)) with (xlayer_in l0). unfold ctype in *. 
  match goal with |- same_outcome (assert_ ?c _) _ => replace c with true by (symmetry; exact TE) end. cbn [assert_].
  rewrite <- map_rev. destruct (rev (l0 :: ls0)) as [|lz rz] eqn:RV.
  { apply (f_equal (@length _)) in RV. rewrite rev_length in RV. discriminate. }
  exact (final_agree _ _ _ A1 A2).
Qed.
Print Assumptions C48_network_partial.

Lemma outcome_ok {G B} (r : result (arr (B -> vec) * ctype G)) r' n z : same_outcome r r' -> r' = Ok (n, z) -> exists y u, r = Ok (y, u).
Proof. intros H ->. destruct r as [[y u]|er]; [eauto|destruct H]. Qed.
Lemma outcome_size {G B} (r : result (arr (B -> vec) * ctype G)) r' n z y u : same_outcome r r' -> r = Ok (y, u) -> r' = Ok (n, z) -> ct_size u = n.
Proof. intros H -> ->. destruct H. auto. Qed.
(** A network on the fields of C28_ex: a convolution, an identity, an upsampling; it is exported, and both run. *)
Example C48_network_ex : exists m w b (a : upsampling (GS := space Z) (G := Z)) nets ls' s y n z,
  let ls := [MOther (LConv m (conv_history m (initial_state m w b) [])); MIdentity c4_type; MOther (LUpsampling a)] in
  let bt := MkBatch 1 (fun _ : unit => 0%nat) (fun _ => tt) in
  let x := MkArr 3 4 (fun i j (_ : unit) c => INR (i + j + c)) in
  numbered bt /\ Forall exportable ls /\ net_export (1, 7)%Z ls = Ok (nets, ls') /\
  seq_make (ft_eqb space_eqb rep_eqb) (fun _ => false) (map (xlayer_module (fun _ => 0%nat) (fun _ _ => 0) (fun _ _ => 0) (fun _ => false) bt) ls') = Ok s /\
  sq_in s = Some c4_type /\ seq_forward (ft_eqb space_eqb rep_eqb) snd s (x, c4_type) = Ok (y, c4_type) /\ tnet_forward bt nets (ct_size c4_type, x) = Ok (n, z) /\ a_h z = 6%nat.
Proof.
  destruct C28_ex as [m [CA M]]. exists m.
  destruct (C28_R2Conv _ _ _ _ _ _ _ _ _ _ _ _ _ _ _ _ _ _ CA (Nat.lt_0_succ 0) M) as [params [_ [D L]]]. destruct L as [first [_ [_ [_ [_ L]]]]].
  set (w := repeat 1 (be_dimension kid_eqb (cv_exp m))). destruct (L D w) as [f [Hf _]]; [apply repeat_length|].
  destruct (make_made _ _ _ _ 1 _ _ _ _ _ _ _ _ _ _ _ M eq_refl) as (ir & keep & rgs & sig & maxf & _ & MD & EM).
  assert (TE : ft_eqb space_eqb rep_eqb c4_type c4_type = true) by apply type_refl_CN.
  set (x := MkArr 3 4 (fun i j (_ : unit) c => INR (i + j + c))).
  destruct (C48_R2Conv_export_exists _ m w [2] (1, 7)%Z (f, match cv_bias m with Some cols => Some (expand_bias cols [2]) | None => None end)) as (c & st' & EX).
  { unfold expand_parameters. rewrite Hf. cbn [rbind]. destruct (cv_bias m); reflexivity. }
  { right. cbn. lia. }
  set (bt := MkBatch 1 (fun _ : unit => 0%nat) (fun _ => tt)). set (ad := MkUp c4_type None (Some 2%nat) "nearest" None : upsampling (GS := space Z) (G := Z)).
  set (ls := [MOther (LConv m (conv_history m (initial_state m w [2]) [])); MIdentity c4_type; MOther (LUpsampling ad)]).
  assert (NB : numbered bt). { split; [intros []; split; [cbn; lia|reflexivity]|]. intros k Hk. cbn in *. lia. }
  assert (FE : Forall exportable ls).
  { constructor; [apply ex_conv|]. constructor; [apply ex_identity|]. constructor; [|constructor]. apply (ex_upsampling c4_type (Some 2%nat) "nearest" false). reflexivity. }
  set (nets := [XConv c; XIdentity; XUpsample (MkTUp None (Some 2%nat) "nearest" None)]).
  assert (NE : net_export (1, 7)%Z ls = Ok (nets, [MOther (LConv m st'); MIdentity c4_type; MOther (LUpsampling ad)])).
  { unfold net_export, ls. cbn [rmap xlayer_export conv_history fold_left]. rewrite EX. reflexivity. }
  assert (AT : forall n : nat, (fun _ : string => false) (py_str n) = false) by reflexivity.
  set (mods := map (xlayer_module (fun _ => 0%nat) (fun _ _ => 0) (fun _ _ => 0) (fun _ => false) bt) [MOther (LConv m st'); MIdentity c4_type; MOther (LUpsampling ad)]).
  destruct (C39_construction _ _ (ft_eqb space_eqb rep_eqb) (fun _ => false) mods AT) as [K _].
  destruct K as (s & S1 & S2 & S3 & S4 & _).
  { intros i p q Hp Hq. destruct i as [|[|[|i]]]; cbn in Hp, Hq; try discriminate; injection Hp as <-; injection Hq as <-; cbn [em_in em_out xlayer_module xlayer_in xlayer_out layer_in layer_out up_in]; try exact TE.
    rewrite (md_out MD). exact TE. }
  assert (SI : sq_in s = Some c4_type). { rewrite S3. unfold mods. cbn [map xlayer_module em_in xlayer_in layer_in]. rewrite (md_in MD). reflexivity. }
  assert (TF : exists z, tnet_forward bt nets (ct_size c4_type, x) = Ok (ct_size c4_type, z) /\ a_h z = 6%nat).
  { unfold conv_export in EX. apply rbind_ok in EX as (s1 & X1 & EX). apply rbind_ok in EX as (f1 & X2 & EX). apply rbind_ok in EX as (b1 & X3 & EX).
    destruct (match cv_mode m with MZeros => false | _ => _ end); [discriminate|]. injection EX as <- <-.
    unfold nets. cbn [tnet_forward tlayer_forward fst snd c2_in c2_out]. rewrite (md_in MD), (md_out MD). rewrite Nat.eqb_refl.
    unfold conv2d_forward. cbn [c2_in c2_out c2_k c2_pad c2_mode c2_stride c2_dil c2_groups c2_weight c2_bias].
    rewrite (md_pad MD), (md_k MD), (md_stride MD), (md_dil MD), (md_grp MD). cbn in EM. injection EM as EM. rewrite <- EM. eexists. split; reflexivity. }
  destruct TF as (z & TF & HZ).
  destruct (C48_network_partial _ _ bt _ _ _ _ _ (1, 7)%Z _ _ _ s NB AT FE NE S1) as [_ T]. specialize (T c4_type c4_type x SI TE).
  destruct (outcome_ok _ _ _ _ T TF) as (y & u & SF).
  exists w, [2], ad, nets. eexists. exists s, y, (ct_size c4_type), z. cbv zeta. split; [exact NB|]. split; [exact FE|]. split; [exact NE|]. split; [exact S1|]. split; [exact SI|].
  split; [|split; [exact TF|exact HZ]].
  assert (U : u = c4_type).
  { unfold seq_forward in SF. unfold ctype in *. rewrite S2 in SF. apply assert_ok in SF as [_ SF]. apply rbind_ok in SF as ([y1 u1] & SF & SF'). apply assert_ok in SF' as [_ SF']. injection SF' as <- <-.
    unfold mods in SF. cbn [map run_all xlayer_module em_fwd] in SF. apply rbind_ok in SF as (? & _ & SF). apply rbind_ok in SF as (? & _ & SF). apply rbind_ok in SF as ([y2 u2] & SF & SF2). injection SF2 as <- <-.
    cbn [xlayer_forward layer_forward] in SF. unfold upsampling_forward in SF. apply assert_ok in SF as [_ SF]. apply rbind_ok in SF as (? & _ & SF). injection SF as _ <-. reflexivity. }
  rewrite <- U at 2. exact SF.
Qed.

(** Two regular fields of C_4: ReLU, GroupPooling, ELU, dropout *)
Example C48_pooling_ex : exists (r : rep Z) relu_m pool_m elu_m drop_m s y n z,
  let t := MkFT (space_CN 4) [r; r] in
  let ls := [MReLU relu_m; MOther (LGroupPool pool_m); MELU 1 elu_m; MOther (LPointwiseDropout drop_m)] in
  let bt := MkBatch 1 (fun _ : unit => 0%nat) (fun _ => tt) in
  let x := MkArr 3 4 (fun i j (_ : unit) c => INR (i + j + c)) in
  regular_representation (cyc_fg 4) = Ok r /\ numbered bt /\ Forall exportable ls /\
  net_export (1, 7)%Z ls = Ok ([XReLU; XMaxPoolChannels 4; XELU 1; XDropout (1 / 2)], ls) /\
  seq_make (ft_eqb space_eqb rep_eqb) (fun _ => false) (map (xlayer_module (fun _ => 0%nat) (fun _ _ => 0) (fun _ _ => 0) (fun _ => false) bt) ls) = Ok s /\
  sq_in s = Some t /\ seq_forward (ft_eqb space_eqb rep_eqb) snd s (x, t) = Ok y /\ ct_size t = 8%nat /\ ct_size (snd y) = 2%nat /\
  tnet_forward bt [XReLU; XMaxPoolChannels 4; XELU 1; XDropout (1 / 2)] (ct_size t, x) = Ok (n, z) /\ a_h z = 3%nat.
Proof.
  destruct (cyc_regular 4 ltac:(lia)) as (r & E & SZ & _). destruct (regular_name _ _ E) as [NA NL]. change (Z.to_nat 4) with 4%nat in SZ.
  set (t := MkFT (space_CN 4) [r; r]). set (t1 := MkFT (space_CN 4) [c4 0; c4 0]).
  assert (GP : exists p, gpool_make (fun _ _ => true) (fun _ => c4 0) t = Ok p /\ po_in p = t /\ po_out p = t1).
  { unfold gpool_make, all_support, t. cbn [ft_reps forallb]. unfold supports. rewrite NL. cbn [existsb orb String.eqb Ascii.eqb Bool.eqb andb assert_].
    unfold pool_make_with, pool_index, by_size. cbn [ft_reps ft_gs length repeat map]. rewrite SZ. eexists. split; [reflexivity|]. split; reflexivity. }
  destruct GP as (p & P1 & P2 & P3).
  assert (S1 : supports "pointwise" r = true) by (unfold supports; rewrite NL; reflexivity).
  set (bt := MkBatch 1 (fun _ : unit => 0%nat) (fun _ => tt)). set (x := MkArr 3 4 (fun i j (_ : unit) c => INR (i + j + c))).
  set (ls := [MReLU (MkPW t relu); MOther (LGroupPool p); MELU 1 (MkPW t1 (elu 1)); MOther (LPointwiseDropout (MkPD t1 (1 / 2)))]).
  set (nets := [XReLU; XMaxPoolChannels 4; XELU 1; XDropout (1 / 2)]).
  assert (NB : numbered bt). { split; [intros []; split; [cbn; lia|reflexivity]|]. intros k Hk. cbn in *. lia. }
  assert (FE : Forall exportable ls).
  { constructor; [apply (ex_relu t); unfold relu_make, all_support; cbn [ft_reps t forallb]; rewrite S1; reflexivity|].
    constructor; [eapply ex_group_pool; [exact P1|reflexivity|intros q [<-|[<-|[]]]; rewrite SZ; lia]|].
    constructor; [apply (ex_elu t1); reflexivity|]. constructor; [|constructor]. apply (ex_dropout t1 (1 / 2)). unfold pdrop_make.
    destruct (Rlt_dec (1 / 2) 0); [lra|]. destruct (Rlt_dec 1 (1 / 2)); [lra|]. reflexivity. }
  assert (NE : net_export (1, 7)%Z ls = Ok (nets, ls)).
  { unfold net_export, ls. cbn [rmap xlayer_export]. unfold gpool_export. rewrite P2. cbn [t ft_reps map]. rewrite SZ. reflexivity. }
  assert (AT : forall n : nat, (fun _ : string => false) (py_str n) = false) by reflexivity.
  set (mods := map (xlayer_module (fun _ => 0%nat) (fun _ _ => 0) (fun _ _ => 0) (fun _ => false) bt) ls).
  destruct (C39_construction _ _ (ft_eqb space_eqb rep_eqb) (fun _ => false) mods AT) as [K _].
  destruct K as (s & M1 & M2 & M3 & M4 & _).
  { intros i a b Ha Hb. destruct i as [|[|[|[|i]]]]; cbn in Ha, Hb; try discriminate; injection Ha as <-; injection Hb as <-; cbn [em_in em_out xlayer_module xlayer_in xlayer_out layer_in layer_out pw_in pd_in]; rewrite ?P2, ?P3; apply teqb_refl. }
  assert (SI : sq_in s = Some t) by (rewrite M3; reflexivity).
  assert (CT : ct_size t = 8%nat) by (unfold ct_size, t; cbn [ft_reps map]; rewrite SZ; reflexivity).
  assert (TF : exists z, tnet_forward bt nets (ct_size t, x) = Ok (2%nat, z) /\ a_h z = 3%nat).
  { rewrite CT. eexists. split; reflexivity. }
  destruct TF as (z & TF & HZ).
  destruct (C48_network_partial _ _ bt _ _ _ _ _ (1, 7)%Z _ _ _ s NB AT FE NE M1) as [_ T]. specialize (T t t x SI (teqb_refl t)).
  destruct (outcome_ok _ _ _ _ T TF) as (y & u & SF).
  exists r. do 4 eexists. exists s, (y, u), 2%nat, z. cbv zeta. split; [exact E|]. split; [exact NB|]. split; [exact FE|]. split; [exact NE|]. split; [exact M1|]. split; [exact SI|]. split; [exact SF|]. split; [exact CT|]. split; [|split; [exact TF|exact HZ]].
  exact (outcome_size _ _ _ _ _ _ T SF TF).
Qed.
