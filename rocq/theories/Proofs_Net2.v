(** For C56: the law that every layer obeys, and the layers that act on images. *)
From Coq Require Import Reals ZArith String List Bool Lia Lra FunctionalExtensionality.
From Verif Require Import Base LinAlg Spec Model_Groups Model_Rep Proofs_Rep Proofs_Restrict Model_FieldType Proofs_FieldType Model_GSpace Spec_GSpace Proofs_GSpace Model_Conv Spec_Conv
  Proofs_Conv Proofs_Conv2 Proofs_Conv3 Proofs_Conv4 Proofs_Conv5 Proofs_Conv6 Model_ConvT Proofs_ConvT Proofs_Tensor Model_Expansion Prop_Conv Prop_ConvT Model_R2Diffop Prop_R2Diffop
  Model_Diffops Model_Diffops2 Model_Fieldwise Spec_Fieldwise Spec_Fieldwise2 Model_Pool Spec_Pool Proofs_Pool Proofs_Pool2 Prop_Pool Model_Upsample Proofs_Upsample Model_NormMax Spec_NormMax Proofs_NormMax
  Proofs_NormMax2 Model_Mask Prop_Mask Model_Support Spec_Support Model_Net Spec_Net Proofs_Net.
Import ListNotations.
Open Scope R_scope.

Section Law.
Context {G B : Type} (sp : space G) (isrep : rep G -> Prop) (PS : planar_space G sp isrep) (e : gelt) (g : G) (kk : Z).
Hypothesis He : fg_is_element (sp_group (sp_obj sp)) e = true.
Hypothesis GE : grid_exact (sp_obj sp) e.
Hypothesis Hg : sp_prj sp e = Some g.
Hypothesis Hk : gangle (sp_obj sp) e = IZR kk * (PI / 2).
Hypothesis Hev : keeps_axes (sp_obj sp) e -> Z.even kk = true.
Notation tensor := (arr (B -> vec) * ctype G)%type.
Notation teqb := (ft_eqb space_eqb rep_eqb).

(** x' is x transformed *)
Definition rel (t : ctype G) (x x' : arr (B -> vec)) : Prop :=
  same_field (ct_size t) x' (amap (fun v b => mvec (ct_size t) (trep (ft_reps t) g) (v b)) (turn (gflip (sp_obj sp) e) kk x)).
(** two modules (the same one, but for what it finds in uninitialised memory) take x and x' to y and y' *)
Definition law (fwd fwd' : tensor -> result tensor) (tin tout : ctype G) (ok : arr (B -> vec) -> arr (B -> vec) -> Prop) : Prop :=
  forall tt x x' y t', teqb tt tin = true -> teqb tin tin = true -> ct_size tt = ct_size tin -> rel tin x x' -> fwd (x, tt) = Ok (y, t') -> ok x y ->
    t' = tout /\ exists y', fwd' (x', tt) = Ok (y', tout) /\ rel tout y y'.

Lemma rel_same t x x' x'' : rel t x x' -> same_field (ct_size t) x' x'' -> rel t x x''.
Proof. intros R S. eapply same_field_trans; [apply same_field_sym; exact S|exact R]. Qed.
Lemma rel_transform interp t x : ft_gs t = sp -> ft_reps t <> [] -> exists x', field_transform interp t x e = Ok x' /\ rel t x x'.
Proof. intros Ht Hne. destruct (space_ok _ _ _ PS) as [code [el [inv SF]]]. exact (transform_exact sp isrep code el inv SF interp t e g kk x Ht Hne He Hg Hk). Qed.
Lemma rel_unique t x x' x'' : rel t x x' -> rel t x x'' -> same_field (ct_size t) x' x''.
Proof. intros R R'. eapply same_field_trans; [exact R|apply same_field_sym; exact R']. Qed.

(** ** from the theorems about single layers *)
Lemma exact_law (fwd : tensor -> result tensor) tin tout (ok : arr (B -> vec) -> arr (B -> vec) -> Prop) :
  ft_gs tin = sp -> ft_reps tin <> [] -> ft_gs tout = sp -> ft_reps tout <> [] ->
  (forall tt x, teqb tt tin = true -> teqb tin tin = true -> fwd (x, tt) = fwd (x, tin)) ->
  (forall x x' y t', same_field (ct_size tin) x x' -> fwd (x, tin) = Ok (y, t') -> t' = tout /\ exists y', fwd (x', tin) = Ok (y', t') /\ same_field (ct_size tout) y y') ->
  (forall x y t', fwd (x, tin) = Ok (y, t') -> ok x y -> exists x' y' y'', field_transform (fun _ _ _ z => z) tin x e = Ok x' /\ fwd (x', tin) = Ok (y', t') /\
     field_transform (fun _ _ _ z => z) tout y e = Ok y'' /\ same_field (ct_size tout) y' y'') ->
  law fwd fwd tin tout ok.
Proof.
  intros T1 T2 T3 T4 FT FS FE tt x x' y t' E E0 _ R F OK. rewrite (FT tt x E E0) in F.
  destruct (FS _ _ _ _ (same_field_refl _ x) F) as [-> _]. split; [reflexivity|].
  destruct (FE x y tout F OK) as (x0 & y0 & y1 & A1 & A2 & A3 & A4).
  destruct (rel_transform (fun _ _ _ z => z) tin x T1 T2) as (x1 & B1 & B2). rewrite A1 in B1. injection B1 as <-.
  destruct (rel_transform (fun _ _ _ z => z) tout y T3 T4) as (y2 & C1 & C2). rewrite A3 in C1. injection C1 as <-.
  destruct (FS x0 x' y0 tout (rel_unique _ _ _ _ B2 R) A2) as (_ & y' & D1 & D2). exists y'. rewrite (FT tt x' E E0). split; [exact D1|].
  eapply rel_same; [exact C2|]. eapply same_field_trans; [apply same_field_sym; exact A4|exact D2].
Qed.
Lemma conv_type (m : r2conv G) st tt (x : arr (B -> vec)) : teqb tt (cv_in m) = true -> teqb (cv_in m) (cv_in m) = true -> conv_forward m st tt x = conv_forward m st (cv_in m) x.
Proof. intros E E'. unfold conv_forward. rewrite E, E'. reflexivity. Qed.

Lemma conv_law tin tout k padding p stride dil mode groups bias sigma fco rings mo bf m st :
  conv_args sp isrep tin tout dil rings -> r2conv_make tin tout k padding stride dil mode groups bias sigma fco rings mo bf = Ok m -> parse_padding padding = Ok (p, p) ->
  used_params m st = expand_parameters m (cs_w st) (cs_b st) -> ft_reps tin <> [] -> ft_reps tout <> [] ->
  law (fun x => conv_forward m st (snd x) (fst x)) (fun x => conv_forward m st (snd x) (fst x)) (cv_in m) (cv_out m)
    (fun x _ => strides x (cv_k m) (cv_stride m) (cv_dil m) (fst (cv_pad m))).
Proof.
  intros CA M P U N1 N2.
  assert (EM : cv_in m = tin /\ cv_out m = tout /\ cv_k m = k /\ cv_stride m = stride /\ cv_dil m = dil /\ cv_pad m = (p, p)).
  { unfold r2conv_make in M. apply assert_ok in M as [_ M]. rewrite P in M. cbn [rbind] in M. apply rbind_ok in M as [md [_ M]]. apply rbind_ok in M as [ir [_ M]]. cbv zeta in M.
    apply rbind_ok in M as [[[[keep rgs] sig] maxf] [_ M]]. apply rbind_ok in M as [ex [_ M]]. destruct (be_dimension kid_eqb ex =? 0)%nat; [discriminate|]. injection M as <-. auto 10. }
  destruct EM as (E1 & E2 & E3 & E4 & E5 & E6). rewrite E3, E4, E5, E6. cbn [fst]. apply exact_law; cbn [fst snd].
  - rewrite E1. apply (ca_in _ _ _ _ _ _ CA).
  - rewrite E1. exact N1.
  - rewrite E2. apply (ca_out _ _ _ _ _ _ CA).
  - rewrite E2. exact N2.
  - intros tt x. apply conv_type.
  - intros x x' y t'. apply conv_forward_same.
  - rewrite E1, E2. intros x y t' F [D1 D2]. exact (C29_R2Conv_equivariant _ _ _ _ _ _ _ _ _ _ _ _ _ _ _ _ _ _ m (fun _ _ _ z => z) B st e x y t' CA M P U He GE F D1 D2).
Qed.
Lemma diffop_law tin tout ks mo acc padding p stride dil mode groups bias bf moff mpow smo aoff m st :
  conv_args sp isrep tin tout dil None -> r2diffop_make tin tout ks mo acc padding stride dil mode groups bias bf moff mpow smo aoff = Ok m -> parse_padding padding = Ok (p, p) ->
  used_params m st = expand_parameters m (cs_w st) (cs_b st) ->
  (rotates (sp_obj sp) e \/ (aoff = None /\ (smo <> None \/ exists f, bf = Some f /\ forall a, f a = true -> Nat.even (ta_order a) = true))) ->
  ft_reps tin <> [] -> ft_reps tout <> [] ->
  law (fun x => conv_forward m st (snd x) (fst x)) (fun x => conv_forward m st (snd x) (fst x)) (cv_in m) (cv_out m)
    (fun x _ => strides x (cv_k m) (cv_stride m) (cv_dil m) (fst (cv_pad m))).
Proof.
  intros CA M P U O N1 N2.
  assert (EM : cv_in m = tin /\ cv_out m = tout /\ cv_stride m = stride /\ cv_dil m = dil /\ cv_pad m = (p, p)).
  { pose proof M as H. unfold r2diffop_make in H. apply assert_ok in H as [_ H]. apply rbind_ok in H as [[k order] [_ H]]. rewrite P in H. cbn [rbind] in H.
    apply rbind_ok in H as [md [_ H]]. apply rbind_ok in H as [ir [_ H]]. cbv zeta in H. apply rbind_ok in H as [[[[keep power] maxf] ds] [_ H]]. apply rbind_ok in H as [ex [_ H]].
    destruct (be_dimension kid_eqb ex =? 0)%nat; [discriminate|]. injection H as <-. auto 10. }
  destruct EM as (E1 & E2 & E4 & E5 & E6). rewrite E4, E5, E6. cbn [fst]. apply exact_law; cbn [fst snd].
  - rewrite E1. apply (ca_in _ _ _ _ _ _ CA).
  - rewrite E1. exact N1.
  - rewrite E2. apply (ca_out _ _ _ _ _ _ CA).
  - rewrite E2. exact N2.
  - intros tt x. apply conv_type.
  - intros x x' y t'. apply conv_forward_same.
  - rewrite E1, E2. intros x y t' F [D1 D2].
    exact (C37_R2Diffop_equivariant_partial _ _ _ _ _ _ _ _ _ _ _ _ _ _ _ _ _ _ _ _ m (fun _ _ _ z => z) B st e x y t' CA M P U He GE O F D1 D2).
Qed.
Lemma tconv_law tin tout k p stride dil groups bias sigma fco rings mo bf m st :
  conv_args sp isrep tin tout 1 rings -> tconv_make tin tout k p 0 stride dil groups bias sigma fco rings mo bf = Ok m -> (0 < be_dimension kid_eqb (tc_exp m))%nat ->
  used_params_t m st = expand_parameters_t m (cs_w st) (cs_b st) -> ft_reps tin <> [] -> ft_reps tout <> [] ->
  law (fun x => tconv_forward m st (snd x) (fst x)) (fun x => tconv_forward m st (snd x) (fst x)) (tc_in m) (tc_out m) (fun _ _ => True).
Proof.
  intros CA M D U N1 N2.
  assert (EM : tc_in m = tin /\ tc_out m = tout).
  { unfold tconv_make in M. apply assert_ok in M as [_ M]. apply rbind_ok in M as [ir [_ M]]. cbv zeta in M.
    apply rbind_ok in M as [[[[keep rgs] sig] maxf] [_ M]]. apply rbind_ok in M as [ex [_ M]]. injection M as <-. auto. }
  destruct EM as (E1 & E2). apply exact_law; cbn [fst snd].
  - rewrite E1. apply (ca_in _ _ _ _ _ _ CA).
  - rewrite E1. exact N1.
  - rewrite E2. apply (ca_out _ _ _ _ _ _ CA).
  - rewrite E2. exact N2.
  - intros tt x E E'. unfold tconv_forward. rewrite E, E'. reflexivity.
  - intros x x' y t'. apply tconv_forward_same.
  - rewrite E1, E2. intros x y t' F _. exact (C55_transposed_equivariant _ _ _ _ _ _ _ _ _ _ _ _ _ _ _ _ m (fun _ _ _ z => z) B st e x y t' CA M D U He GE F).
Qed.

(** ** operations on images *)
Lemma grid_rel t D (Cls : mat -> Prop) sq (op : op_t B) x x' y : grid_op (ct_size t) D Cls sq op -> sq \/ keeps_axes (sp_obj sp) e -> D (a_h x) (a_w x) -> Cls (trep (ft_reps t) g) ->
  rel t x x' -> op x = Ok y -> exists y', op x' = Ok y' /\ rel t y y'.
Proof.
  intros GO Q HD HC R H. assert (Q' : sq \/ Z.even kk = true) by (destruct Q; auto).
  destruct (go_turn _ _ _ _ _ GO (gflip (sp_obj sp) e) kk x y Q' HD H) as (y1 & E1 & F1).
  destruct (go_lin _ _ _ _ _ GO _ _ _ HC E1) as (y2 & E2 & F2).
  destruct (go_same _ _ _ _ _ GO _ _ _ (same_field_sym _ _ _ R) E2) as (y3 & E3 & F3).
  exists y3. split; [exact E3|]. unfold rel. eapply same_field_trans; [apply same_field_sym; exact F3|]. eapply same_field_trans; [exact F2|].
  apply same_field_lin; [intros ? ? _ _; reflexivity|exact F1].
Qed.
Lemma grid_law t D (Cls : mat -> Prop) sq (op : op_t B) (ok : arr (B -> vec) -> arr (B -> vec) -> Prop) (fwd : tensor -> result tensor) :
  (forall x tt, fwd (x, tt) = assert_ (teqb tt t) (rbind (op x) (fun y => Ok (y, t)))) ->
  grid_op (ct_size t) D Cls sq op -> sq \/ keeps_axes (sp_obj sp) e -> (forall x y, op x = Ok y -> ok x y -> D (a_h x) (a_w x)) -> Cls (trep (ft_reps t) g) ->
  law fwd fwd t t ok.
Proof.
  intros FW GO Q HD HC tt x x' y t' E _ _ R F OK. rewrite FW in *. apply assert_ok in F as [TE F]. apply rbind_ok in F as (y0 & F & Y). injection Y as -> <-. split; [reflexivity|].
  destruct (grid_rel t D Cls sq op x x' y GO Q (HD _ _ F OK) HC R F) as (y' & F' & R'). exists y'. rewrite TE. cbn [assert_]. rewrite F'. auto.
Qed.
Lemma sq2 (a b : nat * nat) : is_square sp e [a; b] -> (fst a = snd a /\ fst b = snd b) \/ keeps_axes (sp_obj sp) e.
Proof. intros [H|H]; [left|auto]. inversion H as [|? ? H1 H2]; subst. inversion H2; subst. auto. Qed.
Lemma sq_all l : is_square sp e l -> (forall a, In a l -> fst a = snd a) \/ keeps_axes (sp_obj sp) e.
Proof. intros [H|H]; [left|auto]. rewrite Forall_forall in H. exact H. Qed.

Lemma perms (t : ctype G) : (forall r, In r (ft_reps t) -> isrep r /\ (0 < rp_size r)%nat /\ compatible (rp_nonlin r) (rp_size r) (rp_mat r g)) -> all_support "pointwise" t = true ->
  forall r, In r (ft_reps t) -> is_perm (rp_size r) (rp_mat r g).
Proof.
  intros OK A r Hr. destruct (OK r Hr) as (_ & _ & C). apply (co_pointwise _ _ _ C). unfold all_support in A. rewrite forallb_forall in A. specialize (A r Hr).
  unfold supports in A. apply existsb_exists in A as (s & Hs & E). apply String.eqb_eq in E. subst s. exact Hs.
Qed.
Lemma orths (t : ctype G) : (forall r, In r (ft_reps t) -> isrep r /\ (0 < rp_size r)%nat /\ compatible (rp_nonlin r) (rp_size r) (rp_mat r g)) -> all_support "norm" t = true ->
  forall r, In r (ft_reps t) -> orthogonal (rp_size r) (rp_mat r g).
Proof.
  intros OK A r Hr. destruct (OK r Hr) as (_ & _ & C). apply (co_norm _ _ _ C). unfold all_support in A. rewrite forallb_forall in A. specialize (A r Hr).
  unfold supports in A. apply existsb_exists in A as (s & Hs & E). apply String.eqb_eq in E. subst s. exact Hs.
Qed.

Lemma maxpool_law t k s p d ceil m : maxpool_make t k s p d ceil = Ok m -> is_square sp e [mp_k m; mp_s m; mp_p m; mp_d m] ->
  (forall r, In r (ft_reps t) -> isrep r /\ (0 < rp_size r)%nat /\ compatible (rp_nonlin r) (rp_size r) (rp_mat r g)) ->
  law (fun x => maxpool_forward space_eqb rep_eqb m (snd x) (fst x)) (fun x => maxpool_forward space_eqb rep_eqb m (snd x) (fst x)) (mp_in m) (mp_in m)
    (fun x _ => covers x (mp_k m) (mp_s m) (mp_p m) (mp_d m)).
Proof.
  intros M Q OK. assert (A : all_support "pointwise" t = true /\ mp_in m = t) by (unfold maxpool_make in M; apply assert_ok in M as [A M]; injection M as <-; auto). destruct A as [A <-].
  apply (grid_law (mp_in m) _ _ _ _ _ _ (fun x tt => eq_refl) (max_pool_grid (ct_size (mp_in m)) (mp_k m) (mp_s m) (mp_p m) (mp_d m) (mp_ceil m))).
  - apply sq_all in Q as [Q|Q]; [left|auto]. unfold square. repeat split; apply Q; cbn; auto.
  - intros x y _ H. exact H.
  - apply trep_selects. apply perms; auto.
Qed.
Lemma avgpool_law t k s p ceil m : avgpool_make t k s p ceil = Ok m -> is_square sp e [ap_k m; ap_s m; ap_p m] ->
  law (fun x => avgpool_forward space_eqb rep_eqb m (snd x) (fst x)) (fun x => avgpool_forward space_eqb rep_eqb m (snd x) (fst x)) (ap_in m) (ap_in m)
    (fun x _ => covers x (ap_k m) (ap_s m) (ap_p m) (1, 1)%nat).
Proof.
  intros M Q. apply (grid_law (ap_in m) _ _ _ _ _ _ (fun x tt => eq_refl) (avg_pool_grid (ct_size (ap_in m)) (ap_k m) (ap_s m) (ap_p m) (ap_ceil m))).
  - apply sq_all in Q as [Q|Q]; [left|auto]. unfold square. repeat split; apply Q; cbn; auto.
  - intros x y _ H. exact H.
  - exact I.
Qed.
Lemma aavgpool_law (m : aavgpool (GS := space G) (G := G)) : is_square sp e [aa_s m; aa_p m] ->
  law (fun x => aavgpool_forward space_eqb rep_eqb m (snd x) (fst x)) (fun x => aavgpool_forward space_eqb rep_eqb m (snd x) (fst x)) (aa_in m) (aa_in m)
    (fun x _ => (exists q, a_h x + 2 * fst (aa_p m) = q * fst (aa_s m) + aa_fs m)%nat /\ (exists q, a_w x + 2 * snd (aa_p m) = q * snd (aa_s m) + aa_fs m)%nat).
Proof.
  intros Q. apply (grid_law (aa_in m) _ _ _ _ _ _ (fun x tt => eq_refl)
    (depthwise_grid (ct_size (aa_in m)) (aa_fs m) (gauss_filter (aa_fs m) (aa_sigma m)) (aa_s m) (aa_p m) (gauss_rows (aa_fs m) (aa_sigma m)) (fun a b _ _ => gauss_tr (aa_fs m) (aa_sigma m) a b))).
  - apply sq2 in Q as [Q|Q]; [left|auto]. exact Q.
  - intros x y _ H. exact H.
  - exact I.
Qed.
Lemma adpool_law mx t o m : adpool_make mx t o = Ok m -> is_square sp e [ad_o m] ->
  (forall r, In r (ft_reps t) -> isrep r /\ (0 < rp_size r)%nat /\ compatible (rp_nonlin r) (rp_size r) (rp_mat r g)) ->
  law (fun x => adpool_forward space_eqb rep_eqb m (snd x) (fst x)) (fun x => adpool_forward space_eqb rep_eqb m (snd x) (fst x)) (ad_in m) (ad_in m) (fun _ _ => True).
Proof.
  intros M Q OK. assert (A : all_support "pointwise" t = true /\ ad_in m = t) by (unfold adpool_make in M; apply assert_ok in M as [A M]; injection M as <-; auto). destruct A as [A E]. rewrite E.
  assert (GO : grid_op (ct_size t) (fun _ _ => True) (selects (ct_size t)) (fst (ad_o m) = snd (ad_o m)) (@adaptive_pool2d B (if ad_max m then max_list else mean_list) (ad_o m))).
  { destruct (ad_max m); [exact (adaptive_max_grid _ (ad_o m))|]. apply (grid_weaken _ _ (fun _ => True)); [auto|exact (adaptive_mean_grid _ (ad_o m))]. }
  refine (grid_law t _ _ _ _ _ _ _ GO _ _ _).
  - intros x tt. unfold adpool_forward. cbn [fst snd]. rewrite E. reflexivity.
  - apply sq_all in Q as [Q|Q]; [left|auto]. apply Q. cbn. auto.
  - auto.
  - apply trep_selects. apply perms; auto.
Qed.
Lemma amaxpool_law t k s p d ceil sigma m : amaxpool_make t k s p d ceil sigma = Ok m -> is_square sp e [mp_k (am_base m); mp_s (am_base m); mp_p (am_base m)] ->
  (forall r, In r (ft_reps t) -> isrep r /\ (0 < rp_size r)%nat /\ compatible (rp_nonlin r) (rp_size r) (rp_mat r g)) ->
  law (fun x => amaxpool_forward space_eqb rep_eqb m (snd x) (fst x)) (fun x => amaxpool_forward space_eqb rep_eqb m (snd x) (fst x)) (mp_in (am_base m)) (mp_in (am_base m))
    (fun x _ => (exists q, a_h x + 4 * fst (mp_p (am_base m)) = q * fst (mp_s (am_base m)) + fst (mp_k (am_base m)))%nat /\
                (exists q, a_w x + 4 * snd (mp_p (am_base m)) = q * snd (mp_s (am_base m)) + snd (mp_k (am_base m)))%nat).
Proof.
  intros M Q OK. unfold amaxpool_make in M. destruct d as [[|[|]]|]; try discriminate. apply rbind_ok in M as (m0 & M0 & M).
  unfold maxpool_make in M0. apply assert_ok in M0 as [A M0]. injection M0 as <-.
  apply assert_ok in M as [SG M]. destruct (Rlt_dec 0 sigma) as [SP|]; [|discriminate]. injection M as <-.
  set (k2 := pair_of k) in *. set (s2 := match s with Some s0 => pair_of s0 | None => _ end) in *. set (p2 := pair_of p) in *.
  cbn [am_base mp_in mp_k mp_s mp_p mp_d mp_ceil pair_of] in *. destruct k2 as [k1 k2]. destruct s2 as [s1 s2]. destruct p2 as [p1 p2]. cbn [fst snd].
  set (fs := Z.to_nat (2 * py_round (4 * sigma) + 1)) in *.
  assert (FS : exists h, (fs = 2 * h + 1)%nat).
  { assert (R0 := round_nonneg (4 * sigma) ltac:(lra)). exists (Z.to_nat (py_round (4 * sigma))). change fs with (Z.to_nat (2 * py_round (4 * sigma) + 1)). lia. }
  destruct FS as [hf FS].
  assert (HF : ((fs - 1) / 2 = hf)%nat). { rewrite FS. replace (2 * hf + 1 - 1)%nat with (hf * 2)%nat by lia. apply Nat.div_mul. lia. }
  set (op := fun x : arr (B -> vec) => rbind (max_pool2d (k1, k2) (1, 1)%nat (p1, p2) (1, 1)%nat ceil x) (fun z =>
     depthwise fs (gauss_filter fs sigma) (s1, s2) ((p1 + (fs - 1) / 2)%nat, (p2 + (fs - 1) / 2)%nat) z)).
  set (D := fun h w : nat => tiled2 (p1, p2) (k1, k2) (1, 1)%nat (1, 1)%nat h w /\ (exists q, h + 4 * p1 = q * s1 + k1)%nat /\ (exists q, w + 4 * p2 = q * s2 + k2)%nat).
  assert (GO : grid_op (ct_size t) D (selects (ct_size t)) (k1 = k2 /\ s1 = s2 /\ p1 = p2) op).
  { apply (grid_comp (ct_size t) (tiled2 (p1, p2) (k1, k2) (1, 1)%nat (1, 1)%nat) (dtiled2 fs (s1, s2) ((p1 + (fs - 1) / 2)%nat, (p2 + (fs - 1) / 2)%nat))).
    - destruct (max_pool_grid (B := B) (ct_size t) (k1, k2) (1, 1)%nat (p1, p2) (1, 1)%nat ceil) as [? ? X3 X4 ? ?]. constructor; auto.
      + intros x0 y1 (-> & -> & ->). apply X3. repeat split; reflexivity.
      + intros h w (-> & -> & ->). apply X4. repeat split; reflexivity.
    - destruct (depthwise_grid (B := B) (ct_size t) fs (gauss_filter fs sigma) (s1, s2) ((p1 + (fs - 1) / 2)%nat, (p2 + (fs - 1) / 2)%nat) (gauss_rows fs sigma) (fun a b _ _ => gauss_tr fs sigma a b)) as [? ? X3 X4 ? X6].
      constructor; auto.
      + intros x0 y1 (_ & -> & ->). apply X3. split; reflexivity.
      + intros h w (_ & -> & ->). apply X4. split; reflexivity.
    - intros h w H. apply H.
    - intros x0 y1 ([[u1 U1] [u2 U2]] & [v1 V1] & [v2 V2]) F0. cbn [fst snd] in U1, U2. apply max_pool_inv in F0 as (L1 & L2 & ->). cbn [fst snd] in L1, L2.
      pose proof (legal_k _ _ _ _ _ _ L1) as K1. pose proof (legal_k _ _ _ _ _ _ L2) as K2. cbn [wpool a_h a_w fst snd].
      rewrite (pool_out_tiled _ _ _ _ _ _ L1 u1 U1), (pool_out_tiled _ _ _ _ _ _ L2 u2 U2), !Nat2Z.id. split; [exists v1|exists v2]; cbn [fst snd]; rewrite HF; lia.
    - intros h w (-> & -> & ->) ([T1 T2] & V1 & V2). repeat split; auto. }
  refine (grid_law t D _ _ op _ _ _ GO _ _ _).
  - intros x tt. unfold amaxpool_forward, am_pad, op. cbn [fst snd am_base am_fs am_sigma mp_in mp_k mp_s mp_p mp_d mp_ceil]. fold fs. destruct (teqb tt t); [|reflexivity]. cbn [assert_].
    destruct (max_pool2d (k1, k2) (1, 1)%nat (p1, p2) (1, 1)%nat ceil x); reflexivity.
  - apply sq_all in Q as [Q|Q]; [left|auto]. split; [|split].
    + apply (Q (k1, k2)). cbn. auto.
    + apply (Q (s1, s2)). cbn. auto.
    + apply (Q (p1, p2)). cbn. auto.
  - intros x y F [Q1 Q2]. split; [|split; auto]. unfold op in F. apply rbind_ok in F as (z & F1 & _). apply max_pool_inv in F1 as (L1 & L2 & _). cbn [fst snd] in L1, L2.
    assert (W : forall h p k, pool_legal h k p 1 1 ceil = true -> tiled p k 1 1 h).
    { intros h p0 k0 L. unfold pool_legal in L. rewrite !andb_true_iff in L. destruct L as [[[[[L1' L2'] L3] L4] L5] L6]. apply Nat.ltb_lt in L1', L2'. apply Z.leb_le in L6.
      unfold pool_out in L6. cbv zeta in L6. change (Z.of_nat 1) with 1%Z in L6. replace (if ceil then (1 - 1)%Z else 0%Z) with 0%Z in L6 by (destruct ceil; reflexivity).
      rewrite Z.div_1_r in L6. exists (h + 2 * p0 - k0)%nat. destruct (_ && _)%bool in L6; lia. }
    split; apply W; auto.
  - apply trep_selects. apply perms; auto.
Qed.
Lemma upsampling_law t scale size mode align m : upsampling_make t scale size mode align = Ok m -> is_square sp e (match up_size m with Some o => [o] | None => [] end) ->
  law (fun x => upsampling_forward space_eqb rep_eqb m (snd x) (fst x)) (fun x => upsampling_forward space_eqb rep_eqb m (snd x) (fst x)) (up_in m) (up_in m)
    (fun x y => (up_mode m = "nearest"%string -> (exists q, a_h y = q * a_h x)%nat /\ (exists q, a_w y = q * a_w x)%nat) /\
                (up_align m = Some true -> (a_h x = 1 \/ 1 < a_h y)%nat /\ (a_w x = 1 \/ 1 < a_w y)%nat)).
Proof.
  intros M Q. apply (grid_law (up_in m) _ _ _ _ _ _ (fun x tt => eq_refl) (interp_grid (up_size m) (up_scale m) (up_mode m) (up_align m) (ct_size (up_in m)))).
  - apply sq_all in Q as [Q|Q]; [left|auto]. unfold up_square. destruct (up_size m) as [o|]; [|exact I]. apply Q. cbn. auto.
  - intros x y F [A1 A2]. apply interp_inv in F as (H1 & H2 & H3 & H4 & -> & _). cbn [up_val a_h a_w] in A1, A2.
    split; split; [intros N; apply A1, N|intros N D; apply (A2 D)|intros N; apply A1, N|intros N D; apply (A2 D)].
  - exact I.
Qed.

(** MaskModule *)
Lemma mask_grid n s margin : grid_op n (fun _ _ => True) (fun _ => True) True (@mask_forward B s margin).
Proof.
  assert (INV : forall x y : arr (B -> vec), mask_forward s margin x = Ok y -> a_h x = s /\ a_w x = s /\ y = MkArr s s (fun i j b c => a_px x i j b c * a_px (build_mask s margin) i j)).
  { intros x y H. unfold mask_forward in H. apply assert_ok in H as [H E]. apply andb_true_iff in H as [H1 H2]. apply Nat.eqb_eq in H1, H2. rewrite H1, H2 in E. injection E as <-. auto. }
  assert (MK : forall x : arr (B -> vec), a_h x = s -> a_w x = s -> mask_forward s margin x = Ok (MkArr s s (fun i j b c => a_px x i j b c * a_px (build_mask s margin) i j))).
  { intros x H1 H2. unfold mask_forward. rewrite H1, H2, Nat.eqb_refl. reflexivity. }
  constructor.
  - intros x y _ H. apply INV in H as (H1 & H2 & ->). rewrite MK by auto. eexists. split; [reflexivity|]. split; [reflexivity|]. split; [reflexivity|]. cbn [flip_rows a_h a_w a_px]. intros i j b c Hi Hj Hc. rewrite H1.
    destruct (mask_flip_rows s margin) as (_ & _ & P). specialize (P i j Hi Hj). cbn [flip_rows a_px] in P. change (a_h (build_mask s margin)) with s in P. rewrite P. reflexivity.
  - intros x y _ H. apply INV in H as (H1 & H2 & ->). rewrite MK by auto. eexists. split; [reflexivity|]. split; [reflexivity|]. split; [reflexivity|]. cbn [flip_cols a_h a_w a_px]. intros i j b c Hi Hj Hc. rewrite H2.
    destruct (mask_flip_cols s margin) as (_ & _ & P). specialize (P i j Hi Hj). cbn [flip_cols a_px] in P. change (a_w (build_mask s margin)) with s in P. rewrite P. reflexivity.
  - intros x y _ _ H. apply INV in H as (H1 & H2 & ->). rewrite MK by auto. eexists. split; [reflexivity|]. split; [reflexivity|]. split; [reflexivity|]. cbn [transpose a_h a_w a_px]. intros i j b c Hi Hj Hc.
    destruct (mask_transpose s margin) as (_ & _ & P). specialize (P i j Hi Hj). cbn [transpose a_px] in P. rewrite P. reflexivity.
  - auto.
  - intros x x' y (S1 & S2 & S3) H. apply INV in H as (H1 & H2 & ->). rewrite MK by congruence. eexists. split; [reflexivity|]. split; [reflexivity|]. split; [reflexivity|]. cbn [a_h a_w a_px]. intros i j b c Hi Hj Hc.
    rewrite S3 by (auto; lia). reflexivity.
  - intros A x y _ H. apply INV in H as (H1 & H2 & ->). rewrite MK by auto. eexists. split; [reflexivity|]. split; [reflexivity|]. split; [reflexivity|]. cbn [amap a_h a_w a_px]. intros i j b c Hi Hj Hc.
    unfold mvec. symmetry. apply rsum_mul_r. intros; ring.
Qed.
Lemma mask_law t s margin : law (fun x => assert_ (teqb (snd x) t) (rbind (mask_forward s margin (fst x)) (fun y => Ok (y, t))))
  (fun x => assert_ (teqb (snd x) t) (rbind (mask_forward s margin (fst x)) (fun y => Ok (y, t)))) t t (fun _ _ => True).
Proof. apply (grid_law t _ _ _ _ _ _ (fun x tt => eq_refl) (mask_grid (ct_size t) s margin)); auto. Qed.

(** NormMaxPool *)
Lemma norm_max_law argmax junk junk' t k0 s0 p0 d0 ceil m : argmax_ok argmax -> nmaxpool_make t k0 s0 p0 d0 ceil = Ok m -> ft_reps t <> [] ->
  (forall r, In r (ft_reps t) -> isrep r /\ (0 < rp_size r)%nat /\ compatible (rp_nonlin r) (rp_size r) (rp_mat r g)) ->
  (forall r, In r (ft_reps t) -> orthogonal (rp_size r) (rp_mat r g)) -> is_square sp e [np_k m; np_s m; np_p m; np_d m] ->
  law (fun x => nmaxpool_forward space_eqb rep_eqb argmax junk m (snd x) (fst x)) (fun x => nmaxpool_forward space_eqb rep_eqb argmax junk' m (snd x) (fst x)) (np_in m) (np_in m)
    (fun x y => covers x (np_k m) (np_s m) (np_p m) (np_d m) /\ single_winner (ft_reps (np_in m)) (np_k m) (np_s m) (np_p m) (np_d m) x (a_h y) (a_w y)).
Proof.
  intros AM M Hne OK HO Q. assert (EI : np_in m = t) by (unfold nmaxpool_make in M; apply rbind_ok in M as (idx & _ & M); injection M as <-; reflexivity). rewrite EI.
  assert (SP : size_pos t) by (intros r Hr; apply (OK r Hr)).
  intros tt x x' y t' E E0 _ R F [[T1 T2] SW]. cbn [fst snd] in F |- *.
  assert (FT : forall jk z, nmaxpool_forward space_eqb rep_eqb argmax jk m tt z = nmaxpool_forward space_eqb rep_eqb argmax jk m t (z : arr (B -> vec))).
  { intros jk z. unfold nmaxpool_forward. rewrite EI, E, E0. reflexivity. }
  rewrite FT in F. rewrite FT. clear FT.
  destruct (forward_inv space_eqb rep_eqb argmax t _ _ _ _ _ m junk x y t' M Hne F) as (TE & -> & S & N1 & N2 & H1 & H2 & L). split; [reflexivity|].
  destruct (forward_ok space_eqb rep_eqb argmax AM t _ _ _ _ _ m junk x (a_h y) (a_w y) M SP TE S H1 H2 L) as (yy & FF & _ & _ & P & _). rewrite F in FF. injection FF as <-.
  set (reps := ft_reps t) in *. set (k := np_k m) in *. set (s := np_s m) in *. set (p := np_p m) in *. set (d := np_d m) in *.
  assert (LL := L). unfold nm_legal in LL. rewrite !andb_true_iff, !Nat.eqb_eq in LL. destruct LL as [[[[[L1 L2] _] _] L5] L6].
  destruct T1 as [q1 T1]. destruct T2 as [q2 T2].
  assert (TI : tiles k s p d x y).
  { exists q1, q2. split; [exact T1|]. split; [exact T2|].
    rewrite (pool_out_tiled _ _ _ _ _ _ L1 q1 T1), Nat2Z.id in L5. rewrite (pool_out_tiled _ _ _ _ _ _ L2 q2 T2), Nat2Z.id in L6. auto. }
  assert (U : unique reps k s p d x y).
  { intros i j b f r u v Hi Hj Hr W a Ha. destruct (P i j b f r Hi Hj Hr) as (u' & v' & W' & V'). rewrite V' by auto. apply (SW i j b f r u' v' u v); auto. }
  assert (Q' : square p k d s \/ Z.even kk = true).
  { apply sq_all in Q as [Q|Q]; [left|right; auto]. unfold square. repeat split; apply Q; cbn; auto. }
  set (y'' := amap (fun v b => mvec (ct_size t) (trep reps g) (v b)) (turn (gflip (sp_obj sp) e) kk y)).
  assert (U' : unique reps k s p d x' y'').
  { eapply unique_same; [apply same_field_sym; exact R|apply same_field_refl|]. apply unique_lin; [exact HO|]. apply unique_turn; auto. }
  assert (DX : a_h x' = a_h (turn (gflip (sp_obj sp) e) kk x) /\ a_w x' = a_w (turn (gflip (sp_obj sp) e) kk x)) by (destruct R as (A & A' & _); auto).
  assert (DY : a_h y'' = a_h (turn (gflip (sp_obj sp) e) kk y) /\ a_w y'' = a_w (turn (gflip (sp_obj sp) e) kk y)) by (split; reflexivity).
  assert (DD : (a_h x' = a_h x /\ a_w x' = a_w x /\ a_h y'' = a_h y /\ a_w y'' = a_w y) \/
               (square p k d s /\ a_h x' = a_w x /\ a_w x' = a_h x /\ a_h y'' = a_w y /\ a_w y'' = a_h y)).
  { destruct DX as [-> ->]. destruct DY as [-> ->]. unfold turn. rewrite !rot90_red.
    assert (EV : forall j, (kk mod 4 = j -> Z.even kk = Z.even j)%Z).
    { intros j <-. rewrite (Z.div_mod kk 4) at 1 by lia. rewrite Z.even_add, Z.even_mul. cbn [Z.even orb]. destruct (Z.even (kk mod 4)); reflexivity. }
    destruct (mod4 kk) as [W|[W|[W|W]]]; rewrite W; [left|right|left|right]; try (destruct (gflip (sp_obj sp) e); cbn; auto; fail);
      (split; [destruct Q' as [Q'|Q']; [exact Q'|rewrite (EV _ W) in Q'; discriminate]|destruct (gflip (sp_obj sp) e); cbn; auto]). }
  destruct (forward_ok space_eqb rep_eqb argmax AM t _ _ _ _ _ m junk' x' (a_h y'') (a_w y'') M SP TE) as (y' & F' & D1 & D2 & P' & _); fold k s p d.
  - exact S.
  - destruct DD as [(-> & _ & -> & _)|((E1 & E2 & E3 & E4) & -> & _ & -> & _)]; [exact H1|]. rewrite E1, E2, E3, E4. exact H2.
  - destruct DD as [(_ & -> & _ & ->)|((E1 & E2 & E3 & E4) & _ & -> & _ & ->)]; [exact H2|]. rewrite <- E1, <- E2, <- E3, <- E4. exact H1.
  - destruct DD as [(-> & -> & -> & ->)|((E1 & E2 & E3 & E4) & -> & -> & -> & ->)]; [exact L|].
    unfold nm_legal in L |- *. rewrite E1, E2, E3, E4 in *. rewrite !andb_true_iff in *. tauto.
  - exists y'. split; [exact F'|]. fold k s p d in P'. apply (unique_pooled reps k s p d x'); auto.
Qed.
End Law.
