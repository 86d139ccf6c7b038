(** C61: forward methods that combine layers with the arithmetic of tensors. *)
From Coq Require Import Reals ZArith String List Bool Lia Lra.
From Verif Require Import Base LinAlg Spec Spec_Fields Model_Groups Model_Rep Proofs_Rep Proofs_Restrict Model_FieldType Proofs_FieldType Model_GSpace Spec_GSpace Proofs_GSpace Model_Tensor Model_Utils Model_Modules Spec_Modules
  Prop_Modules Model_Conv Spec_Conv Proofs_Conv Proofs_Conv2 Proofs_Conv3 Proofs_Conv4 Proofs_Conv5 Proofs_Conv6 Proofs_Conv8 Proofs_Tensor Prop_Conv Model_ConvT Model_Fieldwise Spec_Fieldwise Spec_Fieldwise2 Prop_Fieldwise3 Model_BatchNorm Spec_BatchNorm
  Model_Pool Spec_Pool Model_NormMax Model_Support Spec_Support Prop_Support Model_Expansion Prop_Pool Prop_Pool2 Model_Net Spec_Net Proofs_Net Proofs_Net2 Proofs_Net3 Proofs_Net4 Proofs_Net6 Proofs_Irreps Proofs_Support Prop_Net Spec_Move Proofs_Move4 Proofs_Move5 Prop_Move
  Model_Graph Spec_Graph Proofs_Graph Proofs_Graph2.
Import ListNotations.
Open Scope R_scope.

(** Run on transformed tensors, a forward method made of equivariant layers, sums, differences, multiples, direct sums, slices of fields
    and their in-place forms returns the transformed tensors, at every variable; the transformed tensors exist. *)
Theorem C61_program : forall G (sp : space G) isrep B (bt : batch B) e g argmax cob_id fits (ops : list (op G)) (interp : forall A : Type, R -> R -> arr A -> arr A) junk junkn (st : list (arr (B -> vec) * ctype G)) s1,
  planar_space G sp isrep -> fg_is_element (sp_group (sp_obj sp)) e = true -> sp_prj sp e = Some g -> grid_exact (sp_obj sp) e ->
  argmax_ok argmax -> numbered bt -> Forall (good_op sp isrep e g cob_id fits) ops -> (forall x, In x st -> ok_type sp isrep g (snd x)) ->
  run_ops fits argmax junk junkn cob_id bt ops st = Ok s1 -> suits_ops argmax cob_id bt fits junk junkn ops st ->
  (exists st', Forall2 (transforms e interp) st st') /\
  forall junk' junkn' st', Forall2 (transforms e interp) st st' ->
    exists s1', run_ops fits argmax junk' junkn' cob_id bt ops st' = Ok s1' /\ Forall2 (transforms e interp) s1 s1'.
Proof.
  intros G sp isrep B bt e g argmax cob_id fits ops interp junk junkn st s1 PS He Hg GE AM NB GO OT RN SU.
  destruct (space_ok _ _ _ PS) as [code [el [inv SF]]]. destruct (exact_angle _ _ (sf_constructed _ _ _ _ _ SF) He GE) as (kk & Hk & Ek).
  assert (TR : forall t x, ft_gs t = sp -> ft_reps t <> [] -> exists x', field_transform (B := B) interp t x e = Ok x' /\ rel sp e g kk t x x') by (intros t x; apply (rel_transform sp isrep PS e g kk He Hg Hk interp t x)).
  split.
  - clear - TR OT. induction st as [|x st IH]; [exists []; constructor|]. destruct IH as [st' IH]; [intros y Hy; apply OT; right; exact Hy|]. destruct (OT x (or_introl eq_refl)) as (T1 & T2 & _).
    destruct (TR (snd x) (fst x) T1 T2) as (y & Y & _). exists ((y, snd x) :: st'). constructor; [|exact IH]. split; [reflexivity|]. exists y. split; [exact Y|]. apply same_field_refl.
  - intros junk' junkn' st' F.
    assert (FC : Forall2 (corr sp isrep e g kk) st st').
    { clear - TR OT F. induction F as [|x x' st st' (E & y & Y & S) F IH]; constructor.
      - pose proof (OT x (or_introl eq_refl)) as O. split; [exact O|]. split; [exact E|]. destruct O as (T1 & T2 & _). destruct (TR (snd x) (fst x) T1 T2) as (y' & Y' & RY). rewrite Y in Y'. injection Y' as <-.
        eapply rel_same; [exact RY|]. apply same_field_sym. exact S.
      - apply IH. intros z Hz. apply OT. right. exact Hz. }
    destruct (run_corr sp isrep PS e g kk argmax cob_id bt fits He GE Hg Hk Ek AM NB junk junk' junkn junkn' ops GO st st' s1 FC RN SU) as (s1' & R1 & R2). exists s1'. split; [exact R1|].
    clear - TR R2. induction R2 as [|x x' st st' (O & E & S) F IH]; constructor; [|exact IH]. split; [exact E|]. destruct O as (T1 & T2 & _). destruct (TR (snd x) (fst x) T1 T2) as (y & Y & RY). exists y. split; [exact Y|].
    exact (rel_unique sp e g kk _ _ _ _ S RY).
Qed.
Print Assumptions C61_program.

(** Run on rolled tensors, a forward method whose layers wrap around returns the rolled tensors, at every variable. *)
Theorem C61_rolls : forall G (sp : space G) isrep B (bt : batch B) g argmax cob_id fits (ops : list (op G)) junk junkn (st st' : list (arr (B -> vec) * ctype G)) s1 us vs,
  planar_space G sp isrep -> sp_prj sp (fg_identity (sp_group (sp_obj sp))) = Some g -> argmax_ok argmax -> numbered bt ->
  Forall (good_op sp isrep (fg_identity (sp_group (sp_obj sp))) g cob_id fits) ops ->
  run_ops fits argmax junk junkn cob_id bt ops st = Ok s1 -> wraps_ops (bt_n bt) ops us vs -> all_rolled us st st' ->
  forall junk' junkn', exists s1', run_ops fits argmax junk' junkn' cob_id bt ops st' = Ok s1' /\ all_rolled vs s1 s1'.
Proof.
  intros G sp isrep B bt g argmax cob_id fits ops junk junkn st st' s1 us vs PS Hg AM NB GO RN W AR junk' junkn'.
  assert (S : states us st st').
  { destruct AR as (L1 & L2 & A). clear - L1 L2 A. revert st st' L1 L2 A. induction us as [|u us IH]; intros [|x st] [|x' st'] L1 L2 A; try discriminate; constructor.
    - apply (A 0%nat u x x'); reflexivity.
    - apply IH; [injection L1; auto|injection L2; auto|]. intros i v y y' H1 H2 H3. apply (A (Datatypes.S i) v y y'); auto. }
  destruct (run_rolls sp isrep PS g argmax cob_id bt fits Hg AM NB junk junk' junkn junkn' ops us vs GO W st st' s1 S RN) as (s1' & R1 & R2). exists s1'. split; [exact R1|].
  clear - R2. induction R2 as [|u us x st x' st' R S (L1 & L2 & A)]; [split; [reflexivity|split; [reflexivity|intros [|i] u x x' H; discriminate H]]|].
  split; [cbn; f_equal; exact L1|]. split; [cbn; f_equal; exact L2|]. intros [|i] v y y' H1 H2 H3; cbn in H1, H2, H3; [|apply (A i v y y'); auto]. injection H1 as <-. injection H2 as <-. injection H3 as <-. exact R.
Qed.
Print Assumptions C61_rolls.

(** ** a residual block of C_4: y = conv(x); z = (x + y) * 1/2; c = directsum([x, z]); d = c[:, 1]; d -= x *)
Definition block m st : list (op Z) := [OLayer (LConv m st) 0; OAdd 0 1; OMul 2 (SFloat (/ 2)); OCat [0; 3]%nat; OGet 4 (Model_FieldType.IInt 1); OISub 5 0].
Lemma block_runs mode md : parse_mode mode = Ok md -> exists m st,
  cv_mode m = md /\ cv_k m = 3%nat /\ cv_stride m = 1%nat /\ cv_dil m = 1%nat /\ cv_pad m = (1, 1)%nat /\
  (forall e g, In (e, g) [(EI 0, 0%Z); (EI 1, 1%Z)] -> Forall (good_op (space_CN 4) (cyc_rep 4) e g (fun _ => false) (fun _ _ => true)) (block m st)) /\
  forall argmax junk junkn (x : arr (unit -> vec)), pad_legal md (a_h x) 1 = true -> pad_legal md (a_w x) 1 = true -> (0 < a_h x)%nat -> (0 < a_w x)%nat -> exists s1,
    run_ops (fun _ _ => true) argmax junk junkn (fun _ => false) (MkBatch 1 (fun _ : unit => 0%nat) (fun _ => tt)) (block m st) [(x, c4_type)] = Ok s1 /\ length s1 = 6%nat.
Proof.
  assert (CAT : forall x y : arr (unit -> vec), a_h y = a_h x -> a_w y = a_w x -> exists z, t_cat (fun _ _ => true) [(x, c4_type); (y, c4_type)] = Ok (z, MkFT (space_CN 4) [c4_rep; c4_rep]) /\ a_h z = a_h x /\ a_w z = a_w x).
  { intros x y E1 E2. unfold t_cat. cbn [forallb fst]. rewrite E1, E2, !Nat.eqb_refl. cbn [andb assert_]. eexists. split; [reflexivity|]. split; reflexivity. }
  assert (GET : forall z : arr (unit -> vec), exists v, t_get (fun _ _ => true) (z, MkFT (space_CN 4) [c4_rep; c4_rep]) (Model_FieldType.IInt 1) = Ok (v, c4_type) /\ a_h v = a_h z /\ a_w v = a_w z).
  { intros z. eexists. split; [reflexivity|]. split; reflexivity. }
  intros PM. destruct C28_ex as [m0 [CA M0]]. destruct (other_mode _ _ _ _ _ _ _ _ _ _ _ _ _ _ _ _ _ M0 PM) as [m M]. exists m.
  destruct (C28_R2Conv _ _ _ _ _ _ _ _ _ _ _ _ _ _ _ _ _ _ CA (Nat.lt_0_succ 0) M) as [params [_ [D L]]]. destruct L as [first [_ [_ [_ [_ L]]]]].
  set (w := repeat 1 (be_dimension kid_eqb (cv_exp m))). destruct (L D w) as [f [Hf _]]; [apply repeat_length|].
  exists (MkCS true w [2] None None).
  assert (TE : ft_eqb space_eqb rep_eqb c4_type c4_type = true) by apply type_refl_CN.
  destruct (make_made _ _ _ _ 1 _ _ _ _ _ _ _ _ _ _ _ M eq_refl) as (ir & keep & rgs & sig & maxf & _ & MD & EM). rewrite PM in EM. injection EM as EM.
  assert (R : forall x : arr (unit -> vec), pad_legal md (a_h x) 1 = true -> pad_legal md (a_w x) 1 = true -> (0 < a_h x)%nat -> (0 < a_w x)%nat -> exists y, conv_forward m (MkCS true w [2] None None) c4_type x = Ok (y, c4_type) /\ a_h y = a_h x /\ a_w y = a_w x).
  { intros x P1 P2 H1 H2. unfold conv_forward, used_params. cbn [cs_training cs_w cs_b]. unfold expand_parameters. rewrite Hf. cbn [rbind]. unfold run_conv.
    rewrite (md_pad MD), (md_in MD), (md_out MD), (md_k MD), (md_stride MD), (md_dil MD), (md_grp MD), <- EM, TE. cbn [assert_ fst snd]. unfold pad2d. rewrite P1, P2. cbn [andb rbind]. unfold conv_valid.
    match goal with |- context [if ?c then _ else _] => assert (C : c = true) end.
    { rewrite !andb_true_iff. repeat split; try reflexivity; try (apply Nat.leb_le; cbn; lia); apply Nat.eqb_eq; reflexivity. }
    rewrite C. cbn [rbind]. eexists. split; [reflexivity|]. cbn [a_h a_w]. split; cbn [fst snd a_h a_w]; rewrite Nat.div_1_r; lia. }
  split; [symmetry; exact EM|]. split; [exact (md_k MD)|]. split; [exact (md_stride MD)|]. split; [exact (md_dil MD)|]. split; [exact (md_pad MD)|]. split.
  - intros e g Hg. constructor; [|repeat constructor]. split; [eapply made_conv; [exact CA|exact M|reflexivity|reflexivity]|]. cbn [layer_in layer_out]. rewrite (md_in MD), (md_out MD).
    destruct Hg as [E|[E|[]]]; injection E as <- <-; split; (exact c4_rep_ok0 || exact c4_rep_ok).
  - intros argmax junk junkn x L1 L2 H1 H2. destruct (R x L1 L2 H1 H2) as (y & R1 & R2 & R3). destruct x as [h w0 px], y as [h' w' py]. cbn [a_h a_w] in *. subst h' w'.
    unfold block. cbn [run_ops]. unfold exec at 1. cbn [var nth_error rbind]. cbn [layer_forward fst snd]. rewrite R1. cbn [rbind app].
    unfold exec at 1. cbn [var nth_error rbind]. unfold t_binary. cbn [fst snd]. rewrite TE. cbn [assert_]. unfold elementwise. cbn [a_h a_w]. unfold bdim. rewrite !Nat.eqb_refl. cbn [rbind app].
    unfold exec at 1. cbn [var nth_error rbind t_mul fst snd app a_h a_w].
    unfold exec at 1. cbn [rmap var nth_error rbind].
    destruct (CAT (MkArr h w0 px) (MkArr h w0 (fun i j b k => (bpx (MkArr h w0 px) i j b k + bpx (MkArr h w0 py) i j b k) * / 2)) eq_refl eq_refl) as (z & Z1 & Z2 & Z3). destruct (GET z) as (v & V1 & V2 & V3). refine (ex_intro _ _ (conj (eq_trans (f_equal (fun r => rbind (rbind r _) _) Z1) _) _)).
    { cbn [rbind app]. unfold exec at 1. cbn [var nth_error rbind]. refine (eq_trans (f_equal (fun r => rbind (rbind r _) _) V1) _). cbn [rbind app].
      unfold exec at 1. cbn [var nth_error rbind]. unfold t_inplace, t_binary. cbn [fst snd]. rewrite TE. cbn [assert_]. unfold elementwise. rewrite V2, V3, Z2, Z3. cbn [a_h a_w]. unfold bdim. rewrite !Nat.eqb_refl. cbn [rbind fst a_h a_w].
      rewrite ?Nat.eqb_refl. cbn [andb rbind assign firstn skipn app]. reflexivity. }
    reflexivity.
Qed.
(** a 3 x 4 image, turned by 90 degrees *)
Example C61_program_ex : exists m st,
  let bt := MkBatch 1 (fun _ : unit => 0%nat) (fun _ => tt) in let x := MkArr 3 4 (fun i j (_ : unit) c => INR (i + j + c)) in
  planar_space Z (space_CN 4) (cyc_rep 4) /\ fg_is_element (sp_group (sp_obj (space_CN 4))) (EI 1) = true /\ sp_prj (space_CN 4) (EI 1) = Some 1%Z /\ grid_exact (sp_obj (space_CN 4)) (EI 1) /\
  numbered bt /\ Forall (good_op (space_CN 4) (cyc_rep 4) (EI 1) 1%Z (fun _ => false) (fun _ _ => true)) (block m st) /\ ok_type (space_CN 4) (cyc_rep 4) 1%Z c4_type /\
  forall argmax junk junkn, exists s1, run_ops (fun _ _ => true) argmax junk junkn (fun _ => false) bt (block m st) [(x, c4_type)] = Ok s1 /\ length s1 = 6%nat /\
    suits_ops argmax (fun _ => false) bt (fun _ _ => true) junk junkn (block m st) [(x, c4_type)].
Proof.
  destruct (block_runs "zeros" MZeros eq_refl) as (m & st & E1 & E2 & E3 & E4 & E5 & GO & RN). exists m, st. cbv zeta.
  split; [apply PS_CN; lia|]. split; [reflexivity|]. split; [reflexivity|]. split; [apply exact_c4|]. split. { split; [intros []; split; [cbn; lia|reflexivity]|]. intros k Hk. cbn in *. lia. }
  split; [apply GO; right; left; reflexivity|]. split; [exact c4_rep_ok|]. intros argmax junk junkn.
  destruct (RN argmax junk junkn (MkArr 3 4 (fun i j (_ : unit) c => INR (i + j + c)))) as (s1 & R1 & R2); try reflexivity; try (cbn; lia). exists s1. split; [exact R1|]. split; [exact R2|].
  unfold block. cbn [suits_ops suits_op]. split; [|repeat (intros ? _; split; [exact I|]); intros ? _; exact I].
  intros x y X _. injection X as <-. cbn [suits fst]. unfold strides. rewrite E2, E3, E4, E5. split; reflexivity.
Qed.
(** circular padding: a 3 x 4 image, rolled by two rows and one column *)
Example C61_rolls_ex : exists m st,
  let bt := MkBatch 1 (fun _ : unit => 0%nat) (fun _ => tt) in let e := fg_identity (sp_group (sp_obj (space_CN 4))) in
  let x := MkArr 3 4 (fun i j (_ : unit) c => INR (i * j + c)) in let x' := MkArr 3 4 (fun i j (_ : unit) c => INR (((i + 2) mod 3) * ((j + 1) mod 4) + c)) in
  let u := ((3, 2), (4, 1))%nat in
  planar_space Z (space_CN 4) (cyc_rep 4) /\ sp_prj (space_CN 4) e = Some 0%Z /\ numbered bt /\ Forall (good_op (space_CN 4) (cyc_rep 4) e 0%Z (fun _ => false) (fun _ _ => true)) (block m st) /\
  (forall argmax junk junkn, exists s1, run_ops (fun _ _ => true) argmax junk junkn (fun _ => false) bt (block m st) [(x, c4_type)] = Ok s1 /\ length s1 = 6%nat) /\
  wraps_ops (bt_n bt) (block m st) [u] [u; u; u; u; u; u] /\ all_rolled [u] [(x, c4_type)] [(x', c4_type)].
Proof.
  destruct (block_runs "circular" MCircular eq_refl) as (m & st & E1 & E2 & E3 & E4 & E5 & GO & RN). exists m, st. cbv zeta.
  split; [apply PS_CN; lia|]. split; [reflexivity|]. split. { split; [intros []; split; [cbn; lia|reflexivity]|]. intros k Hk. cbn in *. lia. }
  split; [apply GO; left; reflexivity|]. split; [intros argmax junk junkn; apply RN; cbn; try reflexivity; lia|]. split.
  - assert (X : forall u, expands u u u) by (intros u; left; auto). unfold block.
    eapply wos_cons; [eapply (wo_layer _ _ _ _ _ ((3, 2), (4, 1))%nat); [reflexivity|]; apply (wraps_conv _ m st (3, 2)%nat (4, 1)%nat (3, 2)%nat (4, 1)%nat)|].
    + rewrite E1, E2, E3, E4, E5. unfold turns. cbn. split; [lia|]. split; [reflexivity|]. split; [reflexivity|]. right. auto.
    + rewrite E1, E2, E3, E4, E5. unfold turns. cbn. split; [lia|]. split; [reflexivity|]. split; [reflexivity|]. right. auto.
    + eapply wos_cons; [eapply (wo_add _ _ _ _ _ _ ((3, 2), (4, 1))%nat); [reflexivity|reflexivity|apply X|apply X]|]. eapply wos_cons; [eapply wo_mul; reflexivity|].
      eapply wos_cons; [eapply (wo_cat _ _ _ ((3, 2), (4, 1))%nat); repeat constructor|]. eapply wos_cons; [eapply wo_get; reflexivity|].
      eapply wos_cons; [eapply wo_isub; [reflexivity|reflexivity|apply X|apply X]|]. apply wos_nil.
  - split; [reflexivity|]. split; [reflexivity|]. intros [|[|i]] u y y' H1 H2 H3; try discriminate. injection H1 as <-. injection H2 as <-. injection H3 as <-.
    split; [reflexivity|]. split; [reflexivity|]. split; [reflexivity|]. split; [reflexivity|]. split; [reflexivity|]. intros i j b c Hi Hj Hc. reflexivity.
Qed.
