(** C52: spatial pooling of feature fields is equivariant.  C33 and C48 for the pooling modules. *)
From Coq Require Import Reals ZArith String List Bool Lia Lra.
From Verif Require Import Base LinAlg Spec Model_Groups Model_Rep Proofs_Rep Model_FieldType Proofs_FieldType Model_GSpace Spec_GSpace Proofs_GSpace Model_Conv Spec_Conv Proofs_Conv
  Proofs_Conv2 Proofs_Conv3 Proofs_Conv4 Proofs_Conv6 Model_Fieldwise Spec_Fieldwise Model_Regular Proofs_Restrict Proofs_Regular2 Prop_Fieldwise3 Model_Pool Spec_Pool Proofs_Pool Proofs_Pool2.
Import ListNotations.
Open Scope R_scope.

Lemma exact_angle s g : constructed s -> fg_is_element (sp_group s) g = true -> grid_exact s g ->
  exists k : Z, gangle s g = IZR k * (PI / 2) /\ (keeps_axes s g -> Z.even k = true).
Proof.
  intros Hc Hel He. assert (F : plane_action s g (1, 0) = (cos (gangle s g), sin (gangle s g))).
  { rewrite plane_action_form by auto. destruct (gflip s g); unfold rotate_pt; cbn [fst snd]; f_equal; lra. }
  destruct (Req_dec (sin (gangle s g)) 0) as [Z|NZ].
  - apply sin_eq_0_0 in Z as [k Hk]. exists (2 * k)%Z. split; [rewrite Hk, mult_IZR; field|]. intros _. rewrite Z.even_mul. reflexivity.
  - apply grid_exact_iff in He as [k Hk]; auto. exists k. split; [exact Hk|]. unfold keeps_axes. rewrite F. cbn. contradiction.
Qed.

Section Eq.
Context {G : Type} (sp : space G) (isrep : rep G -> Prop) (interp : forall A : Type, R -> R -> arr A -> arr A) {B : Type}.
Hypothesis PS : planar_space G sp isrep.
Variable t : ctype G.
Hypothesis Ht : ft_gs t = sp.
Hypothesis Hne : ft_reps t <> [].
Variable e : gelt.
Hypothesis He : fg_is_element (sp_group (sp_obj sp)) e = true.
Hypothesis Hx : grid_exact (sp_obj sp) e.
Lemma module_equivariant D (Cls : mat -> Prop) sq (op : op_t B) x y : grid_op (ct_size t) D Cls sq op -> sq \/ keeps_axes (sp_obj sp) e ->
  D (a_h x) (a_w x) -> (forall g, sp_prj sp e = Some g -> Cls (trep (ft_reps t) g)) -> op x = Ok y ->
  exists x' y' y'', field_transform interp t x e = Ok x' /\ op x' = Ok y' /\ field_transform interp t y e = Ok y'' /\ same_field (ct_size t) y' y''.
Proof.
  intros GO Q HD HC H. destruct (space_ok _ _ _ PS) as [code [el [inv SF]]]. destruct (sf_elt _ _ _ _ _ SF e He) as (g & _ & _ & Hg).
  destruct (exact_angle _ _ (sf_constructed _ _ _ _ _ SF) He Hx) as (k & Hk & Ek).
  apply (op_equivariant sp isrep code el inv SF interp t D Cls sq op e g k x y GO Ht Hne He Hg Hk); auto. destruct Q; auto.
Qed.
End Eq.

(** ** C52 *)
(** PointwiseMaxPool: the representations are permutations (what 'pointwise' stands for: C53).  The windows tile the padded image
    exactly (dropped: refuted below), and for elements that swap the two axes the arguments are the same for both axes. *)
Theorem C52_maxpool : forall G (sp : space G) isrep (t : ctype G) k1 k2 s1 s2 p1 p2 d1 d2 ceil m (interp : forall A : Type, R -> R -> arr A -> arr A) B
    (e : gelt) g (x y : arr (B -> vec)) t',
  planar_space G sp isrep -> ft_gs t = sp -> ft_reps t <> [] ->
  maxpool_make t (IPair k1 k2) (Some (IPair s1 s2)) (IPair p1 p2) (IPair d1 d2) ceil = Ok m ->
  fg_is_element (sp_group (sp_obj sp)) e = true -> sp_prj sp e = Some g -> grid_exact (sp_obj sp) e ->
  (forall r, In r (ft_reps t) -> is_perm (rp_size r) (rp_mat r g)) ->
  (k1 = k2 /\ s1 = s2 /\ p1 = p2 /\ d1 = d2) \/ keeps_axes (sp_obj sp) e ->
  tiled p1 k1 d1 s1 (a_h x) -> tiled p2 k2 d2 s2 (a_w x) ->
  maxpool_forward space_eqb rep_eqb m t x = Ok (y, t') ->
  exists x' y' y'', field_transform interp t x e = Ok x' /\ maxpool_forward space_eqb rep_eqb m t x' = Ok (y', t') /\ field_transform interp t' y e = Ok y'' /\
    same_field (ct_size t) y' y''.
Proof.
  intros G sp isrep t k1 k2 s1 s2 p1 p2 d1 d2 ceil m interp B e g x y t' PS Ht Hne M He Hg Hx HP Q T1 T2 F.
  unfold maxpool_make in M. apply assert_ok in M as [_ M]. injection M as <-. unfold maxpool_forward in *. cbn [mp_in mp_k mp_s mp_p mp_d mp_ceil pair_of] in *.
  apply assert_ok in F as [TE F]. apply rbind_ok in F as (y0 & F & E). injection E as -> <-.
  destruct (module_equivariant sp isrep interp PS t Ht Hne e He Hx _ _ _ _ x y (max_pool_grid (ct_size t) (k1, k2) (s1, s2) (p1, p2) (d1, d2) ceil)) as (x' & y' & y'' & A1 & A2 & A3 & A4).
  - destruct Q as [(-> & -> & -> & ->)|Q]; [left; repeat split; reflexivity|right; exact Q].
  - split; auto.
  - intros g' Hg'. rewrite Hg in Hg'. injection Hg' as <-. apply trep_selects; auto.
  - exact F.
  - exists x', y', y''. rewrite TE. cbn [assert_]. rewrite A2. auto.
Qed.
Print Assumptions C52_maxpool.

(** with int arguments and the default stride (the size of the window), padding 0 and dilation 1: the window divides the image *)
Corollary C52_maxpool_default : forall G (sp : space G) isrep (t : ctype G) k ceil m (interp : forall A : Type, R -> R -> arr A -> arr A) B
    (e : gelt) g (x y : arr (B -> vec)) t',
  planar_space G sp isrep -> ft_gs t = sp -> ft_reps t <> [] ->
  maxpool_make t (IInt k) None (IInt 0) (IInt 1) ceil = Ok m ->
  fg_is_element (sp_group (sp_obj sp)) e = true -> sp_prj sp e = Some g -> grid_exact (sp_obj sp) e ->
  (forall r, In r (ft_reps t) -> is_perm (rp_size r) (rp_mat r g)) ->
  (exists q, a_h x = q * k)%nat -> (exists q, a_w x = q * k)%nat ->
  maxpool_forward space_eqb rep_eqb m t x = Ok (y, t') ->
  exists x' y' y'', field_transform interp t x e = Ok x' /\ maxpool_forward space_eqb rep_eqb m t x' = Ok (y', t') /\ field_transform interp t' y e = Ok y'' /\
    same_field (ct_size t) y' y''.
Proof.
  intros G sp isrep t k ceil m interp B e g x y t' PS Ht Hne M He Hg Hx HP [q1 Q1] [q2 Q2] F.
  assert (L : (0 < a_h x /\ 0 < a_w x)%nat).
  { pose proof F as F'. unfold maxpool_make in M. apply assert_ok in M as [_ M]. injection M as <-. unfold maxpool_forward in F'. apply assert_ok in F' as [_ F']. apply rbind_ok in F' as (y0 & F' & _).
    apply max_pool_inv in F' as (L1 & L2 & _). unfold pool_legal in L1, L2. rewrite !andb_true_iff in L1, L2. split; apply Nat.ltb_lt; tauto. }
  apply (C52_maxpool G sp isrep t k k k k 0 0 1 1 ceil m interp B e g x y t' PS Ht Hne M He Hg Hx HP); auto.
  - exists (q1 - 1)%nat. rewrite Q1. destruct q1 as [|q1]; [lia|]. destruct k as [|k]; [lia|]. replace (S q1 - 1)%nat with q1 by lia. replace (S k - 1)%nat with k by lia. lia.
  - exists (q2 - 1)%nat. rewrite Q2. destruct q2 as [|q2]; [lia|]. destruct k as [|k]; [lia|]. replace (S q2 - 1)%nat with q2 by lia. replace (S k - 1)%nat with k by lia. lia.
Qed.
Print Assumptions C52_maxpool_default.

(** PointwiseAvgPool: every representation *)
Theorem C52_avgpool : forall G (sp : space G) isrep (t : ctype G) k1 k2 s1 s2 p1 p2 ceil m (interp : forall A : Type, R -> R -> arr A -> arr A) B
    (e : gelt) (x y : arr (B -> vec)) t',
  planar_space G sp isrep -> ft_gs t = sp -> ft_reps t <> [] ->
  avgpool_make t (IPair k1 k2) (Some (IPair s1 s2)) (IPair p1 p2) ceil = Ok m ->
  fg_is_element (sp_group (sp_obj sp)) e = true -> grid_exact (sp_obj sp) e ->
  (k1 = k2 /\ s1 = s2 /\ p1 = p2) \/ keeps_axes (sp_obj sp) e ->
  tiled p1 k1 1 s1 (a_h x) -> tiled p2 k2 1 s2 (a_w x) ->
  avgpool_forward space_eqb rep_eqb m t x = Ok (y, t') ->
  exists x' y' y'', field_transform interp t x e = Ok x' /\ avgpool_forward space_eqb rep_eqb m t x' = Ok (y', t') /\ field_transform interp t' y e = Ok y'' /\
    same_field (ct_size t) y' y''.
Proof.
  intros G sp isrep t k1 k2 s1 s2 p1 p2 ceil m interp B e x y t' PS Ht Hne M He Hx Q T1 T2 F.
  injection M as <-. unfold avgpool_forward in *. cbn [ap_in ap_k ap_s ap_p ap_ceil pair_of] in *.
  apply assert_ok in F as [TE F]. apply rbind_ok in F as (y0 & F & E). injection E as -> <-.
  destruct (module_equivariant sp isrep interp PS t Ht Hne e He Hx _ _ _ _ x y (avg_pool_grid (ct_size t) (k1, k2) (s1, s2) (p1, p2) ceil)) as (x' & y' & y'' & A1 & A2 & A3 & A4); auto.
  - destruct Q as [(-> & -> & ->)|Q]; [left; repeat split; reflexivity|right; exact Q].
  - split; auto.
  - exists x', y', y''. rewrite TE. cbn [assert_]. rewrite A2. auto.
Qed.
Print Assumptions C52_avgpool.

(** PointwiseAvgPoolAntialiased: every representation; the filter has odd size [aa_fs m] *)
Theorem C52_avgpool_antialiased : forall G (sp : space G) isrep (t : ctype G) sigma s1 s2 p1 p2 m (interp : forall A : Type, R -> R -> arr A -> arr A) B
    (e : gelt) (x y : arr (B -> vec)) t',
  planar_space G sp isrep -> ft_gs t = sp -> ft_reps t <> [] ->
  aavgpool_make t sigma (Some (IPair s1 s2)) (Some (IPair p1 p2)) = Ok m ->
  fg_is_element (sp_group (sp_obj sp)) e = true -> grid_exact (sp_obj sp) e ->
  (s1 = s2 /\ p1 = p2) \/ keeps_axes (sp_obj sp) e ->
  (exists q, a_h x + 2 * p1 = q * s1 + aa_fs m)%nat -> (exists q, a_w x + 2 * p2 = q * s2 + aa_fs m)%nat ->
  aavgpool_forward space_eqb rep_eqb m t x = Ok (y, t') ->
  exists x' y' y'', field_transform interp t x e = Ok x' /\ aavgpool_forward space_eqb rep_eqb m t x' = Ok (y', t') /\ field_transform interp t' y e = Ok y'' /\
    same_field (ct_size t) y' y''.
Proof.
  intros G sp isrep t sigma s1 s2 p1 p2 m interp B e x y t' PS Ht Hne M He Hx Q T1 T2 F.
  unfold aavgpool_make in M. apply assert_ok in M as [_ M]. cbv zeta in M. injection M as <-. unfold aavgpool_forward in *. cbn [aa_in aa_fs aa_sigma aa_s aa_p pair_of] in *.
  set (fs := Z.to_nat _) in *.
  apply assert_ok in F as [TE F]. apply rbind_ok in F as (y0 & F & E). injection E as -> <-.
  destruct (module_equivariant sp isrep interp PS t Ht Hne e He Hx _ _ _ _ x y
    (depthwise_grid (ct_size t) fs (gauss_filter fs sigma) (s1, s2) (p1, p2) (gauss_rows fs sigma) (fun a b _ _ => gauss_tr fs sigma a b))) as (x' & y' & y'' & A1 & A2 & A3 & A4); auto.
  - split; auto.
  - exists x', y', y''. rewrite TE. cbn [assert_]. rewrite A2. auto.
Qed.
Print Assumptions C52_avgpool_antialiased.

(** PointwiseMaxPoolAntialiased *)
Lemma odd_size z : (Z.to_nat (2 * z + 1) = 0 \/ exists h, Z.to_nat (2 * z + 1) = 2 * h + 1)%nat.
Proof. destruct (Z.le_gt_cases 0 z); [right; exists (Z.to_nat z); lia|left; lia]. Qed.
Lemma round_nonneg x : 0 <= x -> (0 <= py_round x)%Z.
Proof.
  intros H. assert (I : (0 <= Int_part x)%Z).
  { destruct (base_Int_part x) as [_ H2]. assert (L : IZR (-1) < IZR (Int_part x)) by lra. apply lt_IZR in L. lia. }
  unfold py_round. cbv zeta. destruct (Rlt_dec _ _); auto. destruct (Rlt_dec _ _); [lia|]. destruct (Z.even _); lia.
Qed.
Theorem C52_maxpool_antialiased : forall G (sp : space G) isrep (t : ctype G) k1 k2 s1 s2 p1 p2 ceil sigma m (interp : forall A : Type, R -> R -> arr A -> arr A) B
    (e : gelt) g (x y : arr (B -> vec)) t',
  planar_space G sp isrep -> ft_gs t = sp -> ft_reps t <> [] ->
  amaxpool_make t (IPair k1 k2) (Some (IPair s1 s2)) (IPair p1 p2) (IInt 1) ceil sigma = Ok m ->
  fg_is_element (sp_group (sp_obj sp)) e = true -> sp_prj sp e = Some g -> grid_exact (sp_obj sp) e ->
  (forall r, In r (ft_reps t) -> is_perm (rp_size r) (rp_mat r g)) ->
  (k1 = k2 /\ s1 = s2 /\ p1 = p2) \/ keeps_axes (sp_obj sp) e ->
  (exists q, a_h x + 4 * p1 = q * s1 + k1)%nat -> (exists q, a_w x + 4 * p2 = q * s2 + k2)%nat ->
  amaxpool_forward space_eqb rep_eqb m t x = Ok (y, t') ->
  exists x' y' y'', field_transform interp t x e = Ok x' /\ amaxpool_forward space_eqb rep_eqb m t x' = Ok (y', t') /\ field_transform interp t' y e = Ok y'' /\
    same_field (ct_size t) y' y''.
Proof.
  intros G sp isrep t k1 k2 s1 s2 p1 p2 ceil sigma m interp B e g x y t' PS Ht Hne M He Hg Hx HP Q [q1 Q1] [q2 Q2] F.
  unfold amaxpool_make in M. apply rbind_ok in M as (m0 & M0 & M). unfold maxpool_make in M0. apply assert_ok in M0 as [_ M0]. injection M0 as <-.
  apply assert_ok in M as [SG M]. destruct (Rlt_dec 0 sigma) as [SP|]; [|discriminate]. injection M as <-.
  unfold amaxpool_forward, am_pad in *. cbn [am_base am_fs am_sigma mp_in mp_k mp_s mp_p mp_d mp_ceil pair_of fst snd] in *.
  set (fs := Z.to_nat _) in *.
  assert (FS : exists h, (fs = 2 * h + 1)%nat).
  { assert (R0 := round_nonneg (4 * sigma) ltac:(lra)). exists (Z.to_nat (py_round (4 * sigma))). change fs with (Z.to_nat (2 * py_round (4 * sigma) + 1)). lia. }
  destruct FS as [hf FS].
  apply assert_ok in F as [TE F]. apply rbind_ok in F as (z & F1 & F). apply rbind_ok in F as (y0 & F2 & E). injection E as -> <-.
  assert (HF : ((fs - 1) / 2 = hf)%nat). { rewrite FS. replace (2 * hf + 1 - 1)%nat with (hf * 2)%nat by lia. apply Nat.div_mul. lia. }
  set (op := fun x : arr (B -> vec) => rbind (max_pool2d (k1, k2) (1, 1)%nat (p1, p2) (1, 1)%nat ceil x) (fun z =>
     depthwise fs (gauss_filter fs sigma) (s1, s2) ((p1 + (fs - 1) / 2)%nat, (p2 + (fs - 1) / 2)%nat) z)).
  set (D := fun h w : nat => tiled2 (p1, p2) (k1, k2) (1, 1)%nat (1, 1)%nat h w /\ (exists q, h + 4 * p1 = q * s1 + k1)%nat /\ (exists q, w + 4 * p2 = q * s2 + k2)%nat).
  assert (GO : grid_op (ct_size t) D (selects (ct_size t)) (k1 = k2 /\ s1 = s2 /\ p1 = p2) op).
  { apply (grid_comp (ct_size t) (tiled2 (p1, p2) (k1, k2) (1, 1)%nat (1, 1)%nat) (dtiled2 fs (s1, s2) ((p1 + (fs - 1) / 2)%nat, (p2 + (fs - 1) / 2)%nat))).
    - destruct (max_pool_grid (B := B) (ct_size t) (k1, k2) (1, 1)%nat (p1, p2) (1, 1)%nat ceil) as [? ? X3 X4 ? ?]. constructor; auto.
      + intros x0 y1 (-> & -> & ->). apply X3. repeat split; reflexivity.
      + intros h w (-> & -> & ->). apply X4. repeat split; reflexivity.
    - destruct (depthwise_grid (B := B) (ct_size t) fs (gauss_filter fs sigma) (s1, s2) ((p1 + (fs - 1) / 2)%nat, (p2 + (fs - 1) / 2)%nat) (gauss_rows fs sigma) (fun a b _ _ => gauss_tr fs sigma a b)) as [? ? X3 X4 ? X6].
      constructor; auto.
      + intros x0 y1 (_ & -> & ->). apply X3. split; reflexivity.
      + intros h w (_ & -> & ->). apply X4. split; reflexivity.
    - intros h w H. apply H.
    - intros x0 y1 ([[u1 U1] [u2 U2]] & [v1 V1] & [v2 V2]) F0. cbn [fst snd] in U1, U2. apply max_pool_inv in F0 as (L1 & L2 & ->). cbn [fst snd] in L1, L2.
      pose proof (legal_k _ _ _ _ _ _ L1) as K1. pose proof (legal_k _ _ _ _ _ _ L2) as K2. cbn [wpool a_h a_w fst snd].
      rewrite (pool_out_tiled _ _ _ _ _ _ L1 u1 U1), (pool_out_tiled _ _ _ _ _ _ L2 u2 U2), !Nat2Z.id. split; [exists v1|exists v2]; cbn [fst snd]; rewrite HF; lia.
    - intros h w (-> & -> & ->) ([T1 T2] & V1 & V2). repeat split; auto. }
  assert (TL : tiled2 (p1, p2) (k1, k2) (1, 1)%nat (1, 1)%nat (a_h x) (a_w x)).
  { apply max_pool_inv in F1 as (L1 & L2 & _). cbn [fst snd] in L1, L2.
    assert (W : forall h p k, pool_legal h k p 1 1 ceil = true -> tiled p k 1 1 h).
    { intros h p k L. unfold pool_legal in L. rewrite !andb_true_iff in L. destruct L as [[[[[L1' L2'] L3] L4] L5] L6]. apply Nat.ltb_lt in L1', L2'. apply Z.leb_le in L6.
      unfold pool_out in L6. cbv zeta in L6. change (Z.of_nat 1) with 1%Z in L6. replace (if ceil then (1 - 1)%Z else 0%Z) with 0%Z in L6 by (destruct ceil; reflexivity).
      rewrite Z.div_1_r in L6. exists (h + 2 * p - k)%nat. destruct (_ && _)%bool in L6; lia. }
    split; apply W; auto. }
  destruct (module_equivariant sp isrep interp PS t Ht Hne e He Hx D _ _ op x y GO) as (x' & y' & y'' & A1 & A2 & A3 & A4); auto.
  - split; [exact TL|]. split; [exists q1|exists q2]; auto.
  - intros g' Hg'. rewrite Hg in Hg'. injection Hg' as <-. apply trep_selects; auto.
  - unfold op. rewrite F1. exact F2.
  - exists x', y', y''. rewrite TE. cbn [assert_]. unfold op in A2. apply rbind_ok in A2 as (z' & A2 & A2'). rewrite A2. cbn [rbind]. rewrite A2'. auto.
Qed.
Print Assumptions C52_maxpool_antialiased.

(** PointwiseAdaptiveMaxPool and PointwiseAdaptiveAvgPool: no condition on the size of the image *)
Theorem C52_adaptive : forall G (sp : space G) isrep (t : ctype G) mx o1 o2 m (interp : forall A : Type, R -> R -> arr A -> arr A) B
    (e : gelt) g (x y : arr (B -> vec)) t',
  planar_space G sp isrep -> ft_gs t = sp -> ft_reps t <> [] ->
  adpool_make mx t (IPair o1 o2) = Ok m ->
  fg_is_element (sp_group (sp_obj sp)) e = true -> sp_prj sp e = Some g -> grid_exact (sp_obj sp) e ->
  (forall r, In r (ft_reps t) -> is_perm (rp_size r) (rp_mat r g)) ->
  o1 = o2 \/ keeps_axes (sp_obj sp) e ->
  adpool_forward space_eqb rep_eqb m t x = Ok (y, t') ->
  exists x' y' y'', field_transform interp t x e = Ok x' /\ adpool_forward space_eqb rep_eqb m t x' = Ok (y', t') /\ field_transform interp t' y e = Ok y'' /\
    same_field (ct_size t) y' y''.
Proof.
  intros G sp isrep t mx o1 o2 m interp B e g x y t' PS Ht Hne M He Hg Hx HP Q F.
  unfold adpool_make in M. apply assert_ok in M as [_ M]. injection M as <-. unfold adpool_forward in *. cbn [ad_in ad_max ad_o pair_of] in *.
  apply assert_ok in F as [TE F]. apply rbind_ok in F as (y0 & F & E). injection E as -> <-.
  assert (GO : grid_op (ct_size t) (fun _ _ => True) (selects (ct_size t)) (o1 = o2) (@adaptive_pool2d B (if mx then max_list else mean_list) (o1, o2))).
  { destruct mx; [exact (adaptive_max_grid _ (o1, o2))|]. apply (grid_weaken _ _ (fun _ => True)); [auto|exact (adaptive_mean_grid _ (o1, o2))]. }
  destruct (module_equivariant sp isrep interp PS t Ht Hne e He Hx _ _ _ _ x y GO) as (x' & y' & y'' & A1 & A2 & A3 & A4); auto.
  - intros g' Hg'. rewrite Hg in Hg'. injection Hg' as <-. apply trep_selects; auto.
  - exists x', y', y''. rewrite TE. cbn [assert_]. rewrite A2. auto.
Qed.
Print Assumptions C52_adaptive.
