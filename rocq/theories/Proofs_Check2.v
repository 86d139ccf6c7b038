(** For C66: modules that work on every pixel commute with the transformation of the fibres. *)
From Coq Require Import Reals ZArith String List Bool Lia Lra FunctionalExtensionality.
From Verif Require Import Base LinAlg Spec Spec_Fields Model_Groups Model_Rep Proofs_Rep Proofs_Restrict Model_FieldType Proofs_FieldType Model_GSpace Spec_GSpace Proofs_GSpace Model_Tensor Model_Utils Model_Modules Model_Conv Spec_Conv
  Proofs_Conv Proofs_Conv2 Proofs_Conv3 Proofs_Conv4 Proofs_Conv5 Proofs_Conv6 Proofs_Tensor Model_Fieldwise Spec_Fieldwise Spec_Fieldwise2 Model_NormMax Model_BatchNorm Spec_BatchNorm
  Model_Support Spec_Support Model_Net Spec_Net Proofs_Net Proofs_Net2 Proofs_Net3 Proofs_Net4 Proofs_Net5 Proofs_Net6 Model_Train Model_Check Spec_Check Proofs_Check.
Import ListNotations.
Open Scope R_scope.

Ltac same_in H :=
  repeat match goal with M : assert_ _ _ = Ok _ |- _ => apply assert_ok in M as [_ M] | M : rbind _ _ = Ok _ |- _ => apply rbind_ok in M as (? & _ & M)
      | M : (if ?c then _ else _) = Ok _ |- _ => destruct c; try discriminate | M : match ?c with _ => _ end = Ok _ |- _ => destruct c; try discriminate | M : (let _ := _ in _) = Ok _ |- _ => cbv zeta in M end;
  injection H as <-; reflexivity.

Section Fibers.
Context {G B : Type} (g : G).
Notation tensor := (arr (B -> vec) * ctype G)%type.
Notation teqb := (ft_eqb space_eqb rep_eqb).
(** x' is x with transformed fibres *)
Definition frel (t : ctype G) (x x' : arr (B -> vec)) : Prop :=
  same_field (ct_size t) x' (amap (fun v b => mvec (ct_size t) (trep (ft_reps t) g) (v b)) x).
Definition flaw (fwd fwd' : tensor -> result tensor) (tin tout : ctype G) (ok : arr (B -> vec) -> arr (B -> vec) -> Prop) : Prop :=
  forall x x' y t', teqb tin tin = true -> frel tin x x' -> fwd (x, tin) = Ok (y, t') -> ok x y -> t' = tout /\ exists y', fwd' (x', tin) = Ok (y', tout) /\ frel tout y y'.
Lemma channel_flaw : channels_give g flaw.
Proof.
  intros fwd fwd' tin tout ok N1 N2 LEN H x x' y t' E R F OK. unfold on_channels in *. cbn [fst snd] in *. destruct R as (R1 & R2 & R3). cbn [amap a_h a_w] in R1, R2.
  assert (II : forall p, in_image x' p = in_image x p) by (intros p; unfold in_image; rewrite R1, R2; reflexivity).
  destruct (H (fun q => q) (MkGT (channels (ct_size tin) x) tin) (MkGT (channels (ct_size tin) x') tin) x y eq_refl OK) as (Y & Y' & F1 & F2 & T1 & T2 & A).
  - split; [exact E|apply channels_len].
  - split; [exact E|apply channels_len].
  - cbn [gt_data]. apply acts_iff; [exact N1|apply channels_len|]. rewrite !channels_len. split; [reflexivity|]. intros p i Hi. rewrite channels_val by auto. rewrite II. destruct (in_image x (snd p)) eqn:I.
    + destruct p as [b [u v]]. pose proof I as I'. unfold in_image in I'. cbn [fst snd] in *. apply andb_true_iff in I' as [I1 I2]. apply Nat.ltb_lt in I1, I2. rewrite R3 by (rewrite ?R1, ?R2; auto). cbn [amap a_px].
      unfold mvec. apply rsum_ext. intros a Ha. f_equal. rewrite channels_val by auto. cbn [fst snd]. rewrite I. reflexivity.
    + unfold mvec. symmetry. apply rsum_0. intros a Ha. rewrite channels_val by auto. rewrite I. ring.
  - rewrite F1 in F. cbn [rbind] in F. injection F as <- <-. split; [exact T1|]. rewrite F2. cbn [rbind]. rewrite T2. eexists. split; [reflexivity|].
    pose proof (LEN _ _ F1 T1) as L. apply acts_iff in A as [L' V]; auto. split; [cbn; exact R1|]. split; [cbn; exact R2|]. cbn [image amap a_h a_w a_px]. intros i j b c Hi Hj Hc.
    change (nth c (gt_data Y') (fun _ => 0) (b, (i, j))) with (val (gt_data Y') c (b, (i, j))). rewrite V by (rewrite L; auto). rewrite L. reflexivity.
Qed.
Lemma fibers_move (t : ctype G) e (x : arr (B -> vec)) : fg_is_element (sp_group (sp_obj (ft_gs t))) e = true -> sp_prj (ft_gs t) e = Some g -> ft_reps t <> [] -> exists x', move_fibers (x, t) e = Ok (x', t) /\ frel t x x'.
Proof.
  intros He Hg N. unfold move_fibers. cbn [fst snd]. rewrite He, Hg. cbn [assert_]. unfold transform_fibers, type_representation.
  assert (D : exists rho, directsum (ft_reps t) (Some "FiberRepresentation"%string) = Ok rho) by (destruct (ft_reps t); [tauto|]; eexists; reflexivity). destruct D as [rho D]. rewrite D. cbn [rbind].
  pose proof (ds_size _ _ _ D) as S. pose proof (directsum_mat _ _ _ g D) as M. eexists. split; [reflexivity|]. split; [reflexivity|]. split; [reflexivity|]. cbn [amap a_h a_w a_px fst snd]. intros i j b c Hi Hj Hc.
  rewrite S. unfold mvec. apply rsum_ext. intros a Ha. f_equal. exact (M c a Hc Ha).
Qed.
End Fibers.

Section Module.
Context {G B : Type} (sp : space G) (isrep : rep G -> Prop) (PS : planar_space G sp isrep) (argmax : list R -> nat) (cob_id : rep G -> bool) (fits : space G -> rep G -> bool) (bt : batch B).
Hypothesis AM : argmax_ok argmax.
Notation tensor := (arr (B -> vec) * ctype G)%type.
Notation fwd junk junkn := (layer_forward argmax junk junkn cob_id bt).

Lemma fiber_law e g l junk junk' junkn junkn' : fg_is_element (sp_group (sp_obj sp)) e = true -> sp_prj sp e = Some g -> good_layer sp isrep e g cob_id fits l -> checks_fibers l ->
  flaw (B := B) g (fwd junk junkn l) (fwd junk' junkn' l) (layer_in l) (layer_out l) (suits bt l).
Proof.
  intros He Hg (M & O1 & O2) CF. pose proof O1 as (S1 & N1 & K1). pose proof O2 as (S2 & N2 & K2).
  assert (W : forall (f f' : tensor -> result tensor) ti to (ok1 ok2 : arr (B -> vec) -> arr (B -> vec) -> Prop), flaw g f f' ti to ok1 -> (forall x y, ok2 x y -> ok1 x y) -> flaw g f f' ti to ok2).
  { intros f f' ti to ok1 ok2 L I x x' y t' E R F OK. exact (L x x' y t' E R F (I x y OK)). }
  destruct M; cbn [checks_fibers] in CF; try contradiction; cbn [layer_in layer_out layer_forward] in *.
  - assert (E : pw_in m = t) by (unfold pointwise_make in H; same_in H). rewrite E in N1, K1 |- *.
    destruct (pointwise_law (B := B) isrep g (flaw g) (channel_flaw g) t m (or_introl (ex_intro _ fn H)) N1 K1) as [_ L]. eapply W; [exact L|]. auto.
  - assert (E : pw_in m = t) by (unfold relu_make in H; same_in H). rewrite E in N1, K1 |- *.
    destruct (pointwise_law (B := B) isrep g (flaw g) (channel_flaw g) t m (or_intror (or_introl H)) N1 K1) as [_ L]. eapply W; [exact L|]. auto.
  - assert (E : pw_in m = t) by (unfold elu_make in H; same_in H). rewrite E in N1, K1 |- *.
    destruct (pointwise_law (B := B) isrep g (flaw g) (channel_flaw g) t m (or_intror (or_intror (ex_intro _ alpha H))) N1 K1) as [_ L]. eapply W; [exact L|]. auto.
  - assert (E : nn_in m = t) by (unfold norm_make in H; clear - H; same_in H). assert (E' : nn_in (set_logb m lb) = t) by exact E. rewrite E' in N1, K1 |- *.
    destruct (norm_law (B := B) isrep g (flaw g) (channel_flaw g) t fn bias m lb junk junk' H H0 N1 K1) as [_ L]. eapply W; [exact L|]. auto.
  - assert (E : in_in m = t) by (unfold inorm_make in H; clear - H; same_in H). assert (E' : in_in (set_ilogb m lb) = t) by exact E. rewrite E' in N1, K1 |- *.
    destruct (inorm_law (B := B) isrep g (flaw g) (channel_flaw g) t fn bias m lb junk junk' H H0 H1 N1 K1) as [_ L]. eapply W; [exact L|]. auto.
  - assert (E : g1_in m = t) by (unfold gated1_make in H; clear - H; same_in H). assert (E' : g1_in (set_bias1 m b) = t) by exact E. rewrite E' in N1, K1 |- *.
    destruct (gated_law (B := B) sp isrep PS e g He Hg (flaw g) (channel_flaw g) fits t gates drop bias m b junk junk' H H0 N1 K1 N2) as [_ L]. eapply W; [exact L|]. auto.
  - assert (E : cc_in m = t) by (unfold conc_make in H1; clear - H1; same_in H1). rewrite E in N1, K1 |- *.
    destruct (conc_law (B := B) sp isrep PS e g He Hg (flaw g) (channel_flaw g) fits elements build t fn m H H0 H1 N1 K1 N2) as [_ L]. eapply W; [exact L|]. auto.
  - assert (E : vf_in m = t) by (unfold vfield_make in H; clear - H; same_in H). rewrite E in N1, K1.
    destruct (vfield_law (B := B) isrep g (flaw g) (channel_flaw g) fits argmax order r1 k t m AM H H0 H1 H2 H3 N1 K1 N2) as [_ L]. rewrite <- E in L. eapply W; [exact L|]. auto.
  - assert (E : po_in m = t) by (unfold gpool_make, npool_make, pool_make_with in H; clear - H; same_in H). rewrite E in S1, N1, K1 |- *.
    destruct (gpool_law (B := B) sp isrep PS e g He Hg (flaw g) (channel_flaw g) fits triv t m junk junk' S1 H H0 N1 K1 N2 K2) as [_ L]. eapply W; [exact L|]. auto.
  - assert (E : po_in m = t) by (unfold npool_make, pool_make_with in H; clear - H; same_in H). rewrite E in S1, N1, K1 |- *.
    destruct (npool_law (B := B) sp isrep PS e g He Hg (flaw g) (channel_flaw g) fits triv t m junk junk' S1 H H0 H1 N1 K1 N2 K2) as [_ L]. eapply W; [exact L|]. auto.
  - assert (E : ip_in m = t) by (unfold ipool_make in H; clear - H; same_in H). rewrite E in S1, N1, K1 |- *.
    destruct (ipool_law (B := B) sp isrep PS e g He Hg (flaw g) (channel_flaw g) fits triv t m junk junk' S1 H H0 H1 N1 K1 N2 K2) as [_ L]. eapply W; [exact L|]. auto.
Qed.

Lemma module_check junks junkns l x atol rtol : checks_fibers l -> ft_gs (layer_in l) = sp ->
  (forall e g, In e (testing_elements (sp_group (sp_obj sp))) -> sp_prj sp e = Some g -> good_layer sp isrep e g cob_id fits l) ->
  (forall i, exists y, fwd (junks i) (junkns i) l (x, layer_in l) = Ok y /\ some_entry bt y /\ suits bt l x (fst y)) ->
  0 <= atol -> 0 <= rtol -> check_module bt argmax cob_id junks junkns atol rtol l (x, layer_in l) = Ok (map (fun e => (e, 0)) (testing_elements (sp_group (sp_obj sp)))).
Proof.
  intros CF TS GL RU A0 R0. unfold check_module. cbn [snd]. rewrite TS.
  assert (NX : forall (x : tensor) jn, layer_next cob_id jn bt l x = Ok l) by (intros z jn; destruct l; try contradiction; reflexivity).
  destruct (loop_zero bt (net_call bt argmax cob_id junks junkns) move_fibers atol rtol (x, layer_in l) (fun s => snd s = [l]) (testing_elements (sp_group (sp_obj sp)))) with (s := (0%nat, [l])) as (s' & L & I).
  - intros [k n] e I Ie. cbn [snd] in I. subst n. pose proof (testing_element _ _ Ie) as He. destruct (space_ok _ _ _ PS) as [code [el [inv SF]]]. destruct (sf_elt _ _ _ _ _ SF e He) as (g & _ & _ & Hg).
    pose proof (GL e g Ie Hg) as GO. pose proof GO as (_ & (S1 & N1 & K1) & O2). pose proof O2 as (S2 & N2 & K2).
    destruct (RU k) as ([y t'] & F & SE & SU). cbn [fst] in SU.
    destruct (fibers_move (B := B) g (layer_in l) e x) as (x1 & X1 & X2); [rewrite S1; exact He|rewrite S1; exact Hg|exact N1|].
    destruct (fiber_law e g l (junks k) (junks (S k)) (junkns k) (junkns (S k)) He Hg GO CF x x1 y t' (teqb_refl _) X2 F SU) as (-> & y' & F' & RY).
    destruct (fibers_move (B := B) g (layer_out l) e y) as (y1 & Y1 & Y2); [rewrite S2; exact He|rewrite S2; exact Hg|exact N2|].
    exists (y, layer_out l), (S k, [l]), (y1, layer_out l), (x1, layer_in l), (y', layer_out l), (S (S k), [l]). unfold net_call. cbn [fst snd call_all]. rewrite F, NX. cbn [rbind fst snd].
    split; [reflexivity|]. split; [exact Y1|]. split; [exact X1|]. rewrite F', NX. cbn [rbind fst snd]. split; [reflexivity|]. split; [|reflexivity].
    apply same_compare; auto.
    + eapply same_field_trans; [exact Y2|apply same_field_sym; exact RY].
    + exact (ok_size sp isrep g _ O2).
    + destruct SE as (P1 & P2 & P3). destruct Y2 as (D1 & D2 & _). cbn [amap a_h a_w fst] in *. split; [exact P1|]. cbn [fst]. rewrite D1, D2. auto.
  - reflexivity.
  - rewrite L. reflexivity.
Qed.
End Module.
