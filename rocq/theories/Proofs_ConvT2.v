(** The filter, the bias and the forward pass of an R2ConvTransposed. *)
From Coq Require Import Reals ZArith String List Bool Lia Lra FunctionalExtensionality.
From Verif Require Import Base Spec Model_Groups Model_Rep Proofs_Rep Proofs_Restrict Model_FieldType Proofs_FieldType Model_Tensor Proofs_Tensor Model_GSpace Spec_GSpace Proofs_GSpace
  Model_Kernels Model_Utils Proofs_Utils Model_Expansion Proofs_Expansion Proofs_Expansion2 Model_Conv Spec_Conv Proofs_Conv Proofs_Conv2 Proofs_Conv3 Proofs_Conv4 Proofs_Conv5 Proofs_Conv6 Model_ConvT Proofs_ConvT.
Import ListNotations.
Open Scope R_scope.

(** ** inversion of the constructor *)
Record tmade {G} (tin tout : ctype G) (k p op stride dil groups : nat) (gen : rep G -> rep G -> result (sblock kattr)) (m : tconv G)
    (out_reps : list (rep G)) : Prop := {
  tm_space : space_eqb (ft_gs tin) (ft_gs tout) = true;
  tm_groups : group_out tin tout groups = Ok out_reps;
  tm_exp : be_make rp_name rp_size rep_eqb ka_id (ft_reps tin) out_reps (k * k) gen = Ok (tc_exp m);
  tm_in : tc_in m = tin; tm_out : tc_out m = tout; tm_k : tc_k m = k; tm_pad : tc_pad m = p; tm_opad : tc_opad m = op;
  tm_stride : tc_stride m = stride; tm_dil : tc_dil m = dil; tm_grp : tc_groups m = groups;
  tm_bias : tc_bias m = None \/ tc_bias m = Some (bias_cols 0 (ft_reps tout)) }.
Arguments tm_space {G tin tout k p op stride dil groups gen m out_reps}.
Arguments tm_groups {G tin tout k p op stride dil groups gen m out_reps}.
Arguments tm_exp {G tin tout k p op stride dil groups gen m out_reps}.
Arguments tm_in {G tin tout k p op stride dil groups gen m out_reps}.
Arguments tm_out {G tin tout k p op stride dil groups gen m out_reps}.
Arguments tm_k {G tin tout k p op stride dil groups gen m out_reps}.
Arguments tm_pad {G tin tout k p op stride dil groups gen m out_reps}.
Arguments tm_opad {G tin tout k p op stride dil groups gen m out_reps}.
Arguments tm_stride {G tin tout k p op stride dil groups gen m out_reps}.
Arguments tm_dil {G tin tout k p op stride dil groups gen m out_reps}.
Arguments tm_grp {G tin tout k p op stride dil groups gen m out_reps}.
Arguments tm_bias {G tin tout k p op stride dil groups gen m out_reps}.

Lemma make_tmade {G} (tin tout : ctype G) k p op stride dil groups bias sigma fco rings mo bf m :
  tconv_make tin tout k p op stride dil groups bias sigma fco rings mo bf = Ok m ->
  exists out_reps keep rgs sig maxf, compute_basis_params_t k fco rings sigma dil bf = Ok (keep, rgs, sig, maxf) /\
    tmade tin tout k p op stride dil groups (pair_block (fun rin rout => sp_build (ft_gs tin) rin rout rgs sig (Some maxf) mo) k dil keep) m out_reps.
Proof.
  intros H. unfold tconv_make in H. apply assert_ok in H as [H1 H]. apply rbind_ok in H as [or [Hg H]]. cbv zeta in H.
  apply rbind_ok in H as [[[[keep rgs] sig] maxf] [Hc H]]. apply rbind_ok in H as [e [He H]]. injection H as <-.
  exists or, keep, rgs, sig, maxf. split; [auto|]. constructor; cbn; auto. destruct (_ && _)%bool; auto.
Qed.
Lemma group_out_facts {G} (tin tout : ctype G) groups L : group_out tin tout groups = Ok L -> (0 < groups)%nat ->
  names_distinct (ft_reps tin) -> names_distinct (ft_reps tout) -> exists ni no,
    (length (ft_reps tin) = groups * ni /\ length (ft_reps tout) = groups * no)%nat /\ periodic (ft_reps tin) ni /\ periodic (ft_reps tout) no /\ L = firstn no (ft_reps tout).
Proof.
  intros H HG Ni No. unfold group_out in H. apply rbind_ok in H as [li [Hi H]]. injection H as <-.
  destruct (group_facts _ _ _ _ Hi HG Ni No) as [ni [no [[L1 L2] [P1 [P2 _]]]]]. exists ni, no. do 3 (split; [auto|]).
  destruct (Nat.ltb_spec 1 groups).
  - f_equal. rewrite L2, Nat.mul_comm. apply Nat.div_mul. lia.
  - assert (groups = 1%nat) as -> by lia. rewrite firstn_all2; [reflexivity|lia].
Qed.

Section ConvT.
Context {G : Type} (sp : space G) (isrep : rep G -> Prop) (code : G -> gelt) (el : G -> Prop) (inv : G -> G).
Hypothesis SF : space_facts sp isrep code el inv.
Variable interp : forall A : Type, R -> R -> arr A -> arr A.
Context {B : Type}.
Variables (tin tout : ctype G).
Hypothesis Hsin : ft_gs tin = sp.
Hypothesis Hsout : ft_gs tout = sp.
Hypothesis Hin : Forall isrep (ft_reps tin).
Hypothesis Hout : Forall isrep (ft_reps tout).
Hypothesis Nin : names_distinct (ft_reps tin).
Hypothesis Nout : names_distinct (ft_reps tout).
Variables (k p op stride dil groups : nat) (gen : rep G -> rep G -> result (sblock kattr)) (m : tconv G) (out_reps : list (rep G)) (ok : gelt -> Prop).
Hypothesis MD : tmade tin tout k p op stride dil groups gen m out_reps.
Hypothesis GEN : gen_good sp isrep code el inv ok k gen.
Hypothesis Hgr : (0 < groups)%nat.
Hypothesis Pin : forall r, In r (ft_reps tin) -> (0 < rp_size r)%nat.
Hypothesis Pout : forall r, In r (ft_reps tout) -> (0 < rp_size r)%nat.
Hypothesis Hdim : (0 < be_dimension kid_eqb (tc_exp m))%nat.

Lemma out_reps_sub r : In r out_reps -> In r (ft_reps tout).
Proof.
  destruct (group_out_facts _ _ _ _ (tm_groups MD) Hgr Nin Nout) as [ni [no [_ [_ [_ ->]]]]].
  intros H. rewrite <- (firstn_skipn no). apply in_or_app. auto.
Qed.

(** an R2Conv with the same expansion, to all input fields from one output group *)
Let tout1 : ctype G := MkFT (ft_gs tout) out_reps.
Let m1 : r2conv G := MkConv tin tout1 k (PadInt p) (p, p) MZeros stride dil 1 None (tc_exp m).
Lemma made1 : made tin tout1 k p stride dil 1 gen m1 (ft_reps tin).
Proof.
  constructor; cbn; auto.
  - exact (tm_space MD).
  - exact (tm_exp MD).
Qed.

Lemma exp_forward_t w : length w = be_dimension kid_eqb (tc_exp m) -> exists f, be_forward rp_name rp_size kid_eqb (tc_exp m) w = Ok f /\
  forall g o i ro ri, el g -> fg_is_element (sp_group (sp_obj sp)) (code g) = true -> ok (code g) -> nth_error out_reps o = Some ro -> nth_error (ft_reps tin) i = Some ri ->
    steer (sp_obj sp) (code g) (rp_size ro) (rp_size ri) k (rp_mat ro g) (rp_mat ri (inv g))
      (fun x r c => f (field_offset out_reps o + r)%nat (field_offset (ft_reps tin) i + c)%nat x).
Proof.
  intros Hw.
  assert (H1 : Forall isrep (ft_reps tout1)). { apply Forall_forall. intros r Hr. rewrite Forall_forall in Hout. apply Hout, out_reps_sub, Hr. }
  assert (H2 : names_distinct (ft_reps tout1)) by (intros a b Ha Hb; apply Nout; apply out_reps_sub; auto).
  assert (H3 : forall r, In r (ft_reps tout1) -> (0 < rp_size r)%nat) by (intros r Hr; apply Pout, out_reps_sub, Hr).
  exact (exp_forward sp isrep code el inv tin tout1 Hin H1 Nin H2 k p stride dil 1 gen m1 (ft_reps tin) ok made1 GEN (Nat.lt_0_succ 0) Pin H3 w Hw).
Qed.

Lemma sizes_t : (csum (ft_reps tin) = groups * cgs tin groups)%nat /\ (csum (ft_reps tout) = groups * ogs tout groups)%nat.
Proof.
  destruct (group_out_facts _ _ _ _ (tm_groups MD) Hgr Nin Nout) as [ni [no [[L1 L2] [P1 [P2 _]]]]].
  assert (X : forall (L : list (rep G)) n, length L = (groups * n)%nat -> periodic L n -> csum L = (groups * (csum L / groups))%nat).
  { intros L n HL P. unfold csum at 1 2. rewrite <- (foffset_all L (groups * n)) by lia.
    replace (groups * n)%nat with (groups * n + 0)%nat by lia. rewrite (foffset_periodic L n P groups 0) by lia. assert (Z : field_offset L 0 = 0%nat) by reflexivity. rewrite Z, Nat.add_0_r.
    rewrite (Nat.mul_comm groups (field_offset L n)) at 2. rewrite Nat.div_mul by lia. reflexivity. }
  split; [apply (X _ ni)|apply (X _ no)]; auto.
Qed.

Lemma full_steer_t f g : el g -> fg_is_element (sp_group (sp_obj sp)) (code g) = true ->
  (forall o i ro ri, nth_error out_reps o = Some ro -> nth_error (ft_reps tin) i = Some ri ->
    steer (sp_obj sp) (code g) (rp_size ro) (rp_size ri) k (rp_mat ro g) (rp_mat ri (inv g))
      (fun x r c => f (field_offset out_reps o + r)%nat (field_offset (ft_reps tin) i + c)%nat x)) ->
  steer (sp_obj sp) (code g) (csum (ft_reps tout)) (csum (ft_reps tin)) k (trep (ft_reps tout) g) (trep (ft_reps tin) (inv g)) (fullt (cgs tin groups) (ogs tout groups) f).
Proof.
  intros Hg He H. apply steer_assemble. intros o i ro ri Ho Hi.
  destruct (group_out_facts _ _ _ _ (tm_groups MD) Hgr Nin Nout) as [ni [no [[L1 L2] [P1 [P2 EL]]]]].
  assert (Li : (i < groups * ni)%nat) by (rewrite <- L1; apply nth_error_Some; congruence).
  assert (Lo : (o < groups * no)%nat) by (rewrite <- L2; apply nth_error_Some; congruence).
  assert (Nni : ni <> 0%nat) by (intros ->; lia). assert (Nno : no <> 0%nat) by (intros ->; lia).
  assert (Di := Nat.div_mod i ni Nni). assert (Do := Nat.div_mod o no Nno). assert (Mi := Nat.mod_upper_bound i ni Nni). assert (Mo := Nat.mod_upper_bound o no Nno).
  assert (Ei := P1 i ltac:(rewrite L1; auto)). rewrite Hi in Ei. symmetry in Ei.
  assert (Eo := P2 o ltac:(rewrite L2; auto)). rewrite Ho in Eo. symmetry in Eo.
  assert (Oi : field_offset (ft_reps tin) i = ((i / ni) * field_offset (ft_reps tin) ni + field_offset (ft_reps tin) (i mod ni))%nat).
  { rewrite Di at 1. rewrite (Nat.mul_comm ni). apply foffset_periodic; auto; [lia|]. rewrite L1. lia. }
  assert (Oo : field_offset (ft_reps tout) o = ((o / no) * field_offset (ft_reps tout) no + field_offset (ft_reps tout) (o mod no))%nat).
  { rewrite Do at 1. rewrite (Nat.mul_comm no). apply foffset_periodic; auto; [lia|]. rewrite L2. lia. }
  assert (Ci : cgs tin groups = field_offset (ft_reps tin) ni).
  { unfold cgs, csum. rewrite <- (foffset_all (ft_reps tin) (groups * ni)) by lia. replace (groups * ni)%nat with (groups * ni + 0)%nat by lia.
    rewrite (foffset_periodic (ft_reps tin) ni P1 groups 0) by lia. assert (Z : field_offset (ft_reps tin) 0 = 0%nat) by reflexivity. rewrite Z, Nat.add_0_r, Nat.mul_comm. apply Nat.div_mul; lia. }
  assert (Co : ogs tout groups = field_offset (ft_reps tout) no).
  { unfold ogs, csum. rewrite <- (foffset_all (ft_reps tout) (groups * no)) by lia. replace (groups * no)%nat with (groups * no + 0)%nat by lia.
    rewrite (foffset_periodic (ft_reps tout) no P2 groups 0) by lia. assert (Z : field_offset (ft_reps tout) 0 = 0%nat) by reflexivity. rewrite Z, Nat.add_0_r, Nat.mul_comm. apply Nat.div_mul; lia. }
  assert (Val : forall x r c, (r < rp_size ro)%nat -> (c < rp_size ri)%nat ->
     fullt (cgs tin groups) (ogs tout groups) f x (field_offset (ft_reps tout) o + r)%nat (field_offset (ft_reps tin) i + c)%nat =
     if (i / ni =? o / no)%nat then f (field_offset out_reps (o mod no) + r)%nat (field_offset (ft_reps tin) i + c)%nat x else 0).
  { intros x r c Hr Hc. assert (B1 := field_lt 1%nat ltac:(lia) _ _ _ c ni Ei Hc Mi). assert (B2 := field_lt 1%nat ltac:(lia) _ _ _ r no Eo Hr Mo). rewrite <- Ci in B1. rewrite <- Co in B2.
    unfold fullt. rewrite EL, foffset_firstn by lia.
    assert (Nc : cgs tin groups <> 0%nat) by lia. assert (Ng : ogs tout groups <> 0%nat) by lia.
    assert (E1 : ((field_offset (ft_reps tin) i + c) / cgs tin groups = i / ni)%nat).
    { rewrite Oi, <- Ci, <- Nat.add_assoc, Nat.div_add_l by auto. rewrite (Nat.div_small (field_offset _ _ + _)) by auto. lia. }
    assert (E2 : ((field_offset (ft_reps tout) o + r) / ogs tout groups = o / no)%nat).
    { rewrite Oo, <- Co, <- Nat.add_assoc, Nat.div_add_l by auto. rewrite (Nat.div_small (field_offset _ _ + _)) by auto. lia. }
    assert (E3 : ((field_offset (ft_reps tout) o + r) mod ogs tout groups = field_offset (ft_reps tout) (o mod no) + r)%nat).
    { rewrite Oo, <- Co, <- Nat.add_assoc, (Nat.add_comm (o / no * _)), Nat.mod_add by auto. apply Nat.mod_small. auto. }
    rewrite E1, E2, E3. reflexivity. }
  destruct (Nat.eqb_spec (i / ni) (o / no)) as [Eq|Ne].
  - apply steer_ext with (F := fun x r c => f (field_offset out_reps (o mod no) + r)%nat (field_offset (ft_reps tin) i + c)%nat x).
    + apply H; auto. rewrite EL, nth_firstn by auto. auto.
    + intros x r c Hr Hc. symmetry. apply Val; auto.
  - apply steer_ext with (F := fun _ => mzero); [apply steer_zero|]. intros x r c Hr Hc. rewrite Val by auto. reflexivity.
Qed.

Lemma types_nonempty_t : ft_reps tin <> [] /\ ft_reps tout <> [].
Proof.
  destruct (dim_nonempty _ _ _ _ kid_eqb _ _ _ _ _ (tm_exp MD) Hdim) as [H1 H2].
  split; [exact H1|]. intros E2.
  assert (X : exists r, In r out_reps) by (revert H2; clear; destruct out_reps as [|r l]; [congruence|intros _; exists r; left; auto]).
  destruct X as [r X]. apply out_reps_sub in X. rewrite E2 in X. exact X.
Qed.

Theorem run_equivariant_t w bs fb e kk (x y : arr (B -> vec)) : op = 0%nat -> length w = be_dimension kid_eqb (tc_exp m) -> expand_parameters_t m w bs = Ok fb ->
  fg_is_element (sp_group (sp_obj sp)) e = true -> ok e -> gangle (sp_obj sp) e = IZR kk * (PI / 2) ->
  run_tconv m fb x = Ok y ->
  exists x' y' y'', field_transform interp tin x e = Ok x' /\ run_tconv m fb x' = Ok y' /\ field_transform interp tout y e = Ok y'' /\
    same_field (ct_size tout) y' y''.
Proof.
  intros Hop Hw Hfb He Hok Ha Hy. destruct types_nonempty_t as [Ne1 Ne2].
  destruct (sf_elt _ _ _ _ _ SF e He) as [g [Hg [Hc Hp]]].
  destruct (transform_exact sp isrep code el inv SF interp tin e g kk x Hsin Ne1 He Hp Ha) as [x' [Hx' Sx]].
  destruct (transform_exact sp isrep code el inv SF interp tout e g kk y Hsout Ne2 He Hp Ha) as [y'' [Hy'' Sy]].
  set (fl := gflip (sp_obj sp) e) in *. exists x'.
  unfold run_tconv in *. rewrite (tm_pad MD), (tm_opad MD), (tm_in MD), (tm_out MD), (tm_k MD), (tm_stride MD), (tm_dil MD), (tm_grp MD), Hop in Hy |- *.
  destruct Sx as (Sx1 & Sx2 & Sx3). assert (Sx : same_field (ct_size tin) x' (amap (fun v b => mvec (ct_size tin) (trep (ft_reps tin) g) (v b)) (turn fl kk x))) by (split; auto).
  cbn [amap a_h a_w] in Sx1, Sx2.
  destruct (conv_transpose_ok _ _ _ _ _ _ _ _ _ _ x x' _ Hy) as [y' Hy'].
  { rewrite Sx1, Sx2. apply turn_dims. }
  exists y', y''. split; [exact Hx'|]. split; [exact Hy'|]. split; [exact Hy''|].
  destruct sizes_t as [SZ1 SZ2].
  change (csum (ft_reps tin)) with (ct_size tin) in SZ1. change (csum (ft_reps tout)) with (ct_size tout) in SZ2.
  unfold expand_parameters_t in Hfb. destruct (exp_forward_t w Hw) as [f [Hf Hst]].
  rewrite Hf in Hfb. cbn [rbind] in Hfb. injection Hfb as <-. cbn [fst snd] in *.
  destruct (conv_transpose_spec _ _ _ _ _ _ _ _ _ _ _ _ _ Hy SZ1 SZ2) as (Y1 & Y2 & Y3).
  destruct (conv_transpose_spec _ _ _ _ _ _ _ _ _ _ _ _ _ Hy' SZ1 SZ2) as (Y1' & Y2' & Y3').
  set (F := MkArr k k (fun i j => fullt (cgs tin groups) (ogs tout groups) f (i * k + j))) in *.
  set (n := ct_size tin) in *. set (q := ct_size tout) in *. set (M := trep (ft_reps tout) g) in *. set (N := trep (ft_reps tin) g) in *.
  assert (He' : fg_is_element (sp_group (sp_obj sp)) (code g) = true) by (rewrite Hc; auto).
  assert (Hok' : ok (code g)) by (rewrite Hc; auto).
  assert (FS := full_steer_t f g Hg He' (fun o i ro ri A1 A2 => Hst g o i ro ri Hg He' Hok' A1 A2)).
  rewrite Hc in FS. change (csum (ft_reps tin)) with n in FS. change (csum (ft_reps tout)) with q in FS. fold M in FS.
  set (bv := match match tc_bias m with Some cols => Some (expand_bias cols bs) | None => None end with Some v => v | None => fun _ : nat => 0 end).
  assert (BF : veq q (mvec q M bv) bv).
  { assert (Zb : veq q (mvec q M (fun _ => 0)) (fun _ => 0)) by (intros c Hcc; unfold mvec; rewrite rsum_0; auto; intros; ring).
    unfold bv. destruct (tm_bias MD) as [E|E]; rewrite E; [exact Zb|].
    apply (bias_fixed _ _ _ _ _ SF _ Hout groups Hgr); auto. }
  assert (BV : forall o, match match tc_bias m with Some cols => Some (expand_bias cols bs) | None => None end with Some v => v o | None => 0 end = bv o).
  { intros o. unfold bv. destruct (match tc_bias m with Some cols => Some (expand_bias cols bs) | None => None end); reflexivity. }
  assert (HF : forall i j, (i < a_h F)%nat -> (j < a_w F)%nat -> meq q n (a_px F i j) (mmul n (mmul q M (a_px (turn fl kk F) i j)) (trep (ft_reps tin) (inv g)))).
  { intros i j Hi Hj.
    assert (GE : grid_exact (sp_obj sp) e) by (apply (grid_exact_iff _ _ (sf_constructed _ _ _ _ _ SF) He); eauto).
    destruct (action_moves interp (sp_obj sp) F e (sf_constructed _ _ _ _ _ SF) He GE) as [t [Ht [_ Mv]]].
    rewrite (action_exact interp (sp_obj sp) F e kk (sf_constructed _ _ _ _ _ SF) He Ha) in Ht. injection Ht as <-.
    change (rot90 (if gflip (sp_obj sp) e then flip_rows F else F) kk) with (turn fl kk F) in Mv.
    assert (DF : a_h (turn fl kk F) = k /\ a_w (turn fl kk F) = k) by (destruct (turn_dims fl kk F) as [[-> ->]|[-> ->]]; auto). destruct DF as [DF1 DF2].
    cbn [F a_h a_w] in Hi, Hj. destruct (Mv i j) as (i0 & j0 & Hi0 & Hj0 & Hcc & ->); [rewrite DF1; auto|rewrite DF2; auto|].
    rewrite DF1, DF2 in Hcc. cbn [F a_h a_w] in Hi0, Hj0, Hcc. exact (FS i j i0 j0 Hi Hj Hi0 Hj0 Hcc). }
  assert (EQ := cvt_equivariant (B := B) n q M N (trep (ft_reps tin) (inv g)) fl kk (trep_inv sp isrep code el inv SF (ft_reps tin) g Hin Hg) F eq_refl HF stride dil p x).
  assert (S2 : same_field q (cvt n stride dil p F x') (amap (fun v b => mvec q M (v b)) (turn fl kk (cvt n stride dil p F x)))).
  { eapply same_field_trans; [apply (cvt_same n q stride dil p F _ _ Sx)|exact EQ]. }
  set (C := cvt n stride dil p F x) in *.
  assert (SY : same_field q y (amap (fun v b c => bv c + v b c) C)).
  { split; [exact Y1|]. split; [exact Y2|]. intros i j b c Hi Hj Hcc. cbn [amap a_px]. rewrite (Y3 i j b c Hcc), BV. reflexivity. }
  assert (S3 : same_field q y'' (amap (fun v b => mvec q M (v b)) (amap (fun v b c => bv c + v b c) (turn fl kk C)))).
  { eapply same_field_trans; [exact Sy|]. apply same_field_lin; [intros ? ? _ _; reflexivity|]. rewrite <- turn_amap. apply same_field_turn. exact SY. }
  destruct S2 as (U1 & U2 & U3). destruct S3 as (V1 & V2 & V3). cbn [amap a_h a_w] in U1, U2, V1, V2.
  split; [exact (eq_trans Y1' (eq_trans U1 (eq_sym V1)))|]. split; [exact (eq_trans Y2' (eq_trans U2 (eq_sym V2)))|]. intros i j b c Hi Hj Hcc.
  rewrite Y1' in Hi. rewrite Y2' in Hj.
  rewrite (Y3' i j b c Hcc), BV. rewrite (U3 i j b c Hi Hj Hcc). assert (Hi2 : (i < a_h y'')%nat) by (refine (eq_ind _ (fun z => (i < z)%nat) Hi _ (eq_trans U1 (eq_sym V1)))). assert (Hj2 : (j < a_w y'')%nat) by (refine (eq_ind _ (fun z => (j < z)%nat) Hj _ (eq_trans U2 (eq_sym V2)))). rewrite (V3 i j b c Hi2 Hj2 Hcc). cbn [amap a_px].
  transitivity (mvec q M bv c + mvec q M (a_px (turn fl kk C) i j b) c); [rewrite (BF c Hcc); reflexivity|].
  unfold mvec. rewrite <- rsum_plus. apply rsum_ext. intros. symmetry. apply Rmult_plus_distr_l.
Qed.
End ConvT.
