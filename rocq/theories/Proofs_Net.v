(** For C56: equal types, and the layers that act on images. *)
From Coq Require Import Reals ZArith String List Bool Lia Lra FunctionalExtensionality.
From Verif Require Import Base LinAlg Spec Model_Groups Model_Rep Proofs_Rep Proofs_Restrict Model_FieldType Proofs_FieldType Model_GSpace Spec_GSpace Proofs_GSpace Model_Conv Spec_Conv
  Proofs_Conv Proofs_Conv2 Proofs_Conv3 Proofs_Conv4 Proofs_Conv5 Proofs_Conv6 Model_ConvT Proofs_ConvT Proofs_Tensor.
Import ListNotations.
Open Scope R_scope.

(** ** equal representations *)
Lemma cyc_same N j k a b : cyc_irrep N j = Ok a -> cyc_irrep N k = Ok b -> irrep_same a b = true -> a = b.
Proof.
  intros Ha Hb H. unfold irrep_same in H. rewrite !andb_true_iff, !Z.eqb_eq in H. destruct H as [[_ H] _].
  assert (F : forall k a, cyc_irrep N k = Ok a -> ir_freq a = k).
  { intros k0 a0 E. unfold cyc_irrep in E. apply assert_ok in E as [_ E]. cbv zeta in E. destruct (Z.eqb k0 0); [injection E as <-; reflexivity|].
    destruct (_ && _)%bool; injection E as <-; reflexivity. }
  rewrite (F _ _ Ha), (F _ _ Hb) in H. subst. congruence.
Qed.
Lemma so2_same j k a b : so2_irrep j = Ok a -> so2_irrep k = Ok b -> irrep_same a b = true -> a = b.
Proof.
  intros Ha Hb H. unfold irrep_same in H. rewrite !andb_true_iff, !Z.eqb_eq in H. destruct H as [[_ H] _].
  assert (F : forall k a, so2_irrep k = Ok a -> ir_freq a = k).
  { intros k0 a0 E. unfold so2_irrep in E. apply assert_ok in E as [_ E]. destruct (Z.eqb_spec k0 0); injection E as <-; auto. }
  rewrite (F _ _ Ha), (F _ _ Hb) in H. subst. congruence.
Qed.
Lemma dih_same N j k j' k' a b : dih_irrep N j k = Ok a -> dih_irrep N j' k' = Ok b -> irrep_same a b = true -> a = b.
Proof.
  intros Ha Hb H. unfold irrep_same in H. rewrite !andb_true_iff, !Z.eqb_eq in H. destruct H as [[H1 H2] _].
  assert (F : forall j k a, dih_irrep N j k = Ok a -> ir_flip a = j /\ ir_freq a = k).
  { intros j0 k0 a0 E. unfold dih_irrep in E. apply assert_ok in E as [_ E]. apply assert_ok in E as [_ E]. cbv zeta in E.
    repeat match type of E with (if ?c then _ else _) = _ => destruct c end; try discriminate E; injection E as <-; auto. }
  destruct (F _ _ _ Ha) as [A1 A2], (F _ _ _ Hb) as [B1 B2]. rewrite A1, B1 in H1. rewrite A2, B2 in H2. subst j' k'. congruence.
Qed.
Lemma o2_same j k j' k' a b : o2_irrep j k = Ok a -> o2_irrep j' k' = Ok b -> irrep_same a b = true -> a = b.
Proof.
  intros Ha Hb H. unfold irrep_same in H. rewrite !andb_true_iff, !Z.eqb_eq in H. destruct H as [[H1 H2] _].
  assert (F : forall j k a, o2_irrep j k = Ok a -> ir_flip a = j /\ ir_freq a = k).
  { intros j0 k0 a0 E. unfold o2_irrep in E. apply assert_ok in E as [_ E]. apply assert_ok in E as [_ E]. cbv zeta in E.
    repeat match type of E with (if ?c then _ else _) = _ => destruct c end; try discriminate E; injection E as <-; auto. }
  destruct (F _ _ _ Ha) as [A1 A2], (F _ _ _ Hb) as [B1 B2]. rewrite A1, B1 in H1. rewrite A2, B2 in H2. subst j' k'. congruence.
Qed.
Lemma same_irreps {G} (sp : space G) isrep : planar_space G sp isrep -> exists P : irrep G -> Prop,
  (forall r, isrep r -> rep_accepted r /\ Forall P (rp_irreps r)) /\ forall a b, P a -> P b -> irrep_same a b = true -> a = b.
Proof.
  intros PS. destruct PS.
  - exists (fun ir => exists k, cyc_irrep N k = Ok ir). split; [intros r Hr; exact Hr|]. intros a b [k Ha] [k' Hb]. eapply cyc_same; eauto.
  - exists (fun ir => exists k, so2_irrep k = Ok ir). split; [intros r Hr; exact Hr|]. intros a b [k Ha] [k' Hb]. eapply so2_same; eauto.
  - exists (fun ir => exists j k, dih_irrep N j k = Ok ir). split; [intros r Hr; exact Hr|]. intros a b (j & k & Ha) (j' & k' & Hb). eapply dih_same; eauto.
  - exists (fun ir => exists j k, o2_irrep j k = Ok ir). split; [intros r Hr; exact Hr|]. intros a b (j & k & Ha) (j' & k' & Hb). eapply o2_same; eauto.
  - exists (fun ir => exists k, cyc_irrep 2 k = Ok ir). split; [intros r Hr; exact Hr|]. intros a b [k Ha] [k' Hb]. eapply cyc_same; eauto.
  - exists (fun ir => exists k, cyc_irrep 1 k = Ok ir). split; [intros r Hr; exact Hr|]. intros a b [k Ha] [k' Hb]. eapply cyc_same; eauto.
Qed.
Lemma list_eqb_eq {A} (eqb : A -> A -> bool) (P : A -> Prop) l l' : (forall a b, P a -> P b -> eqb a b = true -> a = b) -> Forall P l -> Forall P l' ->
  list_eqb eqb l l' = true -> l = l'.
Proof.
  intros H F F'. revert l' F'. induction F as [|a l Pa F IH]; intros l' F' E; destruct F' as [|b l' Pb F']; cbn in E; try discriminate; auto.
  apply andb_true_iff in E as [E1 E2]. f_equal; auto.
Qed.
Lemma rep_eqb_mat {G} (sp : space G) isrep (a b : rep G) : planar_space G sp isrep -> isrep a -> isrep b -> rep_eqb a b = true ->
  rp_size a = rp_size b /\ forall g, meq (rp_size a) (rp_size a) (rp_mat a g) (rp_mat b g).
Proof.
  intros PS Ia Ib E. destruct (same_irreps _ _ PS) as (P & H1 & H2). destruct (H1 _ Ia) as [A1 A2]. destruct (H1 _ Ib) as [B1 B2].
  unfold rep_eqb in E. rewrite !andb_true_iff in E. destruct E as [[[_ E1] E2] _]. pose proof (list_eqb_eq _ P _ _ H2 A2 B2 E1) as EI.
  assert (ES : rp_size a = rp_size b) by (unfold rp_size; rewrite EI; reflexivity). split; [exact ES|]. intros g.
  set (n := rp_size a) in *.
  assert (EC : meq n n (rp_cob a) (rp_cob b)).
  { intros i j Hi Hj. rewrite forallb_forall in E2. specialize (E2 i ltac:(apply in_seq; lia)). rewrite forallb_forall in E2. specialize (E2 j ltac:(apply in_seq; lia)).
    destruct (Reqb_spec (rp_cob a i j) (rp_cob b i j)); [auto|discriminate]. }
  unfold rep_accepted in A1, B1. rewrite <- ES in B1. fold n in A1.
  assert (EV : meq n n (rp_inv a) (rp_inv b)).
  { destruct A1 as [_ A1]. destruct B1 as [B1 _]. etransitivity; [symmetry; apply mmul_id_r|]. etransitivity; [apply mmul_compat; [reflexivity|symmetry; exact B1]|].
    etransitivity; [symmetry; apply mmul_assoc_eq|]. etransitivity; [|apply mmul_id_l]. apply mmul_compat; [|reflexivity].
    etransitivity; [|exact A1]. apply mmul_compat; [reflexivity|symmetry; exact EC]. }
  unfold rp_mat. rewrite <- ES. fold n. rewrite EI. apply mmul_compat; [|exact EV]. apply mmul_compat; [exact EC|reflexivity].
Qed.
Lemma reps_eqb_mat {G} (sp : space G) isrep (l l' : list (rep G)) : planar_space G sp isrep -> Forall isrep l -> Forall isrep l' -> list_eqb rep_eqb l l' = true ->
  nsum (map rp_size l) = nsum (map rp_size l') /\ forall g, meq (nsum (map rp_size l)) (nsum (map rp_size l)) (trep l g) (trep l' g).
Proof.
  intros PS F F' E.
  assert (F2 : Forall2 (fun a b => rp_size a = rp_size b /\ forall g, meq (rp_size a) (rp_size a) (rp_mat a g) (rp_mat b g)) l l').
  { revert l' F' E. induction F as [|a l Ia F IH]; intros l' F' E; destruct F' as [|b l' Ib F']; cbn in E; try discriminate; constructor.
    - apply andb_true_iff in E as [E _]. eapply rep_eqb_mat; eauto.
    - apply andb_true_iff in E as [_ E]. auto. }
  split.
  - clear -F2. induction F2 as [|a b l l' [H _] _ IH]; cbn; [reflexivity|]. unfold nsum in *. cbn [fold_right]. congruence.
  - intros g. rewrite <- (bsize_map_rep l g). unfold trep. apply bdiag_ext. clear -F2. induction F2 as [|a b l l' [H1 H2] _ IH]; cbn [map]; constructor; [split; cbn [fst snd]; [exact H1|apply H2]|exact IH].
Qed.

(** ** convolutions depend on the channels of the input type only *)
Lemma conv_valid_same {B} cin cout k f bias stride dil groups (x x' y : arr (B -> vec)) : same_field cin x x' ->
  conv_valid cin cout k f bias stride dil groups x = Ok y -> exists y', conv_valid cin cout k f bias stride dil groups x' = Ok y' /\ same_field cout y y'.
Proof.
  intros (H1 & H2 & H3) H. destruct (conv_valid_ok _ _ _ _ _ _ _ _ _ x' _ H) as [y' H']; [left; auto|]. exists y'. split; [exact H'|].
  assert (E := H). unfold conv_valid in E. match type of E with (if ?c then _ else _) = _ => destruct c eqn:C; [|discriminate] end. clear E.
  rewrite !andb_true_iff, !Nat.ltb_lt, !Nat.eqb_eq in C. destruct C as [[[[[[[C1 C2] C3] C4] C5] C6] C7] C8].
  assert (Ecin : cin = (groups * (cin / groups))%nat) by (rewrite (Nat.div_mod cin groups) at 1 by lia; lia).
  assert (Ecout : cout = (groups * (cout / groups))%nat) by (rewrite (Nat.div_mod cout groups) at 1 by lia; lia).
  destruct (conv_valid_spec _ _ _ _ _ _ _ _ _ _ _ _ H Ecin Ecout) as (F1 & F2 & _ & A1 & A2 & A3).
  destruct (conv_valid_spec _ _ _ _ _ _ _ _ _ _ _ _ H' Ecin Ecout) as (_ & _ & _ & A1' & A2' & A3'). cbv zeta in *.
  set (F := MkArr k k _) in *.
  destruct (cvo_same cin cout stride dil F x x' F1 F2) as (S1 & S2 & S3); [split; auto|].
  split; [congruence|]. split; [congruence|]. intros i j b o Hi Hj Ho. rewrite A3, A3' by auto. f_equal. apply S3; auto; [rewrite <- A1|rewrite <- A2]; auto.
Qed.
Lemma conv_forward_same {G B} (m : r2conv G) st t (x x' y : arr (B -> vec)) t' : same_field (ct_size (cv_in m)) x x' -> conv_forward m st t x = Ok (y, t') ->
  t' = cv_out m /\ exists y', conv_forward m st t x' = Ok (y', t') /\ same_field (ct_size (cv_out m)) y y'.
Proof.
  intros S H. unfold conv_forward in *. apply assert_ok in H as [Ht H]. rewrite Ht. cbn [assert_]. apply rbind_ok in H as [fb [Hfb H]]. rewrite Hfb. cbn [rbind].
  apply rbind_ok in H as [y0 [Hy H]]. injection H as -> <-. split; [reflexivity|]. unfold run_conv in *. rewrite pad2d_eq in Hy.
  match type of Hy with rbind (if ?c then _ else _) _ = _ => destruct c eqn:L; [|discriminate] end. cbn [rbind] in Hy. pose proof L as L0. apply andb_true_iff in L0 as [L1 L2].
  destruct (conv_valid_same _ _ _ _ _ _ _ _ _ _ _ (pads_same _ _ _ _ _ _ L1 L2 S) Hy) as (y' & Hy' & Sy). destruct S as (S1 & S2 & S3).
  exists y'. rewrite pad2d_eq, <- S1, <- S2, L. cbn [rbind]. rewrite Hy'. cbn [rbind]. auto.
Qed.
Lemma group_channel cin cout groups o c : (0 < groups)%nat -> (cin mod groups = 0)%nat -> (cout mod groups = 0)%nat -> (o < cout)%nat -> (c < cin / groups)%nat ->
  (o / (cout / groups) * (cin / groups) + c < cin)%nat.
Proof.
  intros G1 G2 G3 Ho Hc.
  assert (Ecin : cin = (groups * (cin / groups))%nat) by (rewrite (Nat.div_mod cin groups) at 1 by lia; lia).
  assert (Ecout : cout = (groups * (cout / groups))%nat) by (rewrite (Nat.div_mod cout groups) at 1 by lia; lia).
  set (a := (cin / groups)%nat) in *. set (d := (cout / groups)%nat) in *.
  assert (Q : (o / d < groups)%nat) by (apply Nat.div_lt_upper_bound; nia).
  rewrite Ecin. pose proof (Nat.mul_le_mono_r (S (o / d)) groups a ltac:(lia)) as L. lia.
Qed.
Lemma conv_transpose_same {B} cin cout k f bias stride dil groups p op (x x' y : arr (B -> vec)) : same_field cin x x' ->
  conv_transpose cin cout k f bias stride dil groups p op x = Ok y -> exists y', conv_transpose cin cout k f bias stride dil groups p op x' = Ok y' /\ same_field cout y y'.
Proof.
  intros (H1 & H2 & H3) H. unfold conv_transpose in *. cbv zeta in *. rewrite <- H1, <- H2.
  match type of H with (if ?c then _ else _) = _ => destruct c eqn:C; [|discriminate] end. eexists. split; [reflexivity|]. injection H as <-.
  rewrite !andb_true_iff, !Nat.ltb_lt, !Nat.eqb_eq in C. split; [reflexivity|]. split; [reflexivity|]. cbn [a_h a_w a_px]. intros u v b o _ _ Ho. f_equal.
  apply rsum_ext. intros i Hi. apply rsum_ext. intros j Hj. apply rsum_ext. intros ky Hky. apply rsum_ext. intros kx Hkx. destruct (_ && _)%bool; [|reflexivity].
  apply rsum_ext. intros c Hc. f_equal. apply H3; auto. apply group_channel; tauto.
Qed.
Lemma tconv_forward_same {G B} (m : tconv G) st t (x x' y : arr (B -> vec)) t' : same_field (ct_size (tc_in m)) x x' -> tconv_forward m st t x = Ok (y, t') ->
  t' = tc_out m /\ exists y', tconv_forward m st t x' = Ok (y', t') /\ same_field (ct_size (tc_out m)) y y'.
Proof.
  intros S H. unfold tconv_forward in *. apply assert_ok in H as [Ht H]. rewrite Ht. cbn [assert_]. apply rbind_ok in H as [fb [Hfb H]]. rewrite Hfb. cbn [rbind].
  apply rbind_ok in H as [y0 [Hy H]]. injection H as -> <-. split; [reflexivity|]. unfold run_tconv in *.
  destruct (conv_transpose_same _ _ _ _ _ _ _ _ _ _ _ _ _ S Hy) as (y' & Hy' & Sy). exists y'. rewrite Hy'. cbn [rbind]. auto.
Qed.
