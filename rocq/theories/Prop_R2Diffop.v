(** Theorems C37: the discretised differential operators and R2Diffop. *)
From Coq Require Import Reals ZArith String List Bool Arith Lia Lra.
From Verif Require Import Base Spec Model_Groups Model_Rep Proofs_Rep Proofs_Restrict Model_FieldType Proofs_FieldType Proofs_FieldType2 Model_Tensor Proofs_Tensor Model_GSpace Spec_GSpace Proofs_GSpace Model_Kernels Spec_Kernels Proofs_Kernels5
  Model_Diffops Model_Diffops2 Spec_Diffops Proofs_Diffops Proofs_Fd Proofs_Diffops2 Prop_Diffops2 Model_Utils Model_Expansion Spec_Expansion Proofs_Expansion3 Model_Conv Spec_Conv Proofs_Conv Proofs_Conv2 Proofs_Conv3 Proofs_Conv4 Proofs_Conv5 Proofs_Conv6 Proofs_Conv7 Proofs_Conv8 Proofs_Conv9
  Prop_Diffops Prop_Conv Prop_Conv2 Model_R2Diffop Proofs_Stencil Proofs_R2Diffop.
Import ListNotations.
Open Scope R_scope.

(** ** the derivatives of the Gaussian *)
Lemma gauss2_snd eps n x : snd (gauss2 eps (S n) x) = fst (gauss2 eps n x).
Proof. cbn [gauss2]. destruct (gauss2 eps n x). reflexivity. Qed.
Lemma gauss2_fst eps n x : fst (gauss2 eps (S n) x) = - 2 * eps ^ 2 * (x * fst (gauss2 eps n x) + INR n * snd (gauss2 eps n x)).
Proof. cbn [gauss2]. destruct (gauss2 eps n x). reflexivity. Qed.
Lemma derivable_gauss0 eps x : derivable_pt_lim (fun x => exp (- (eps * x) ^ 2)) x (- 2 * eps ^ 2 * (x * exp (- (eps * x) ^ 2))).
Proof.
  replace (- 2 * eps ^ 2 * (x * exp (- (eps * x) ^ 2))) with (exp (- (eps * x) ^ 2) * (- eps ^ 2 * (INR 2 * x ^ (pred 2)))) by (cbn; ring).
  apply (derivable_pt_lim_comp (fun x => - (eps * x) ^ 2) exp).
  - replace (fun x0 : R => - (eps * x0) ^ 2) with (mult_real_fct (- eps ^ 2) (fun y => y ^ 2)).
    + apply derivable_pt_lim_scal. apply derivable_pt_lim_pow.
    + unfold mult_real_fct. apply FunctionalExtensionality.functional_extensionality. intros y. ring.
  - apply derivable_pt_lim_exp.
Qed.
(** [gauss1 eps n] is the n-th derivative of exp(-(eps x)^2) *)
Theorem gauss1_derivative : forall eps, (forall x, gauss1 eps 0 x = exp (- (eps * x) ^ 2)) /\
  forall n x, derivable_pt_lim (gauss1 eps n) x (gauss1 eps (S n) x).
Proof.
  intros eps. split; [reflexivity|].
  assert (H : forall n, (forall x, derivable_pt_lim (gauss1 eps n) x (gauss1 eps (S n) x)) /\ (forall x, derivable_pt_lim (gauss1 eps (S n)) x (gauss1 eps (S (S n)) x))).
  { induction n as [|n [IH1 IH2]].
    - assert (D0 : forall x, derivable_pt_lim (gauss1 eps 0) x (gauss1 eps 1 x)).
      { intros x. unfold gauss1. rewrite gauss2_fst. cbn [gauss2 fst snd INR]. replace (x * exp (- (eps * x) ^ 2) + 0 * 0) with (x * exp (- (eps * x) ^ 2)) by ring. apply derivable_gauss0. }
      split; [exact D0|]. intros x.
      replace (gauss1 eps 1) with (mult_real_fct (- 2 * eps ^ 2) (mult_fct id (gauss1 eps 0))).
      + replace (gauss1 eps 2 x) with (- 2 * eps ^ 2 * (1 * gauss1 eps 0 x + id x * gauss1 eps 1 x)).
        * apply derivable_pt_lim_scal. apply derivable_pt_lim_mult; [apply derivable_pt_lim_id|apply D0].
        * unfold gauss1. rewrite (gauss2_fst eps 1), gauss2_snd. unfold id. cbn [INR]. ring.
      + apply FunctionalExtensionality.functional_extensionality. intros y. unfold gauss1. rewrite gauss2_fst. unfold mult_real_fct, mult_fct, id. cbn [gauss2 fst snd INR]. ring.
    - split; [exact IH2|]. intros x.
      replace (gauss1 eps (S (S n))) with (mult_real_fct (- 2 * eps ^ 2) (plus_fct (mult_fct id (gauss1 eps (S n))) (mult_real_fct (INR (S n)) (gauss1 eps n)))).
      + replace (gauss1 eps (S (S (S n))) x) with (- 2 * eps ^ 2 * ((1 * gauss1 eps (S n) x + id x * gauss1 eps (S (S n)) x) + INR (S n) * gauss1 eps (S n) x)).
        * apply derivable_pt_lim_scal. apply derivable_pt_lim_plus; [|apply derivable_pt_lim_scal, IH1].
          apply derivable_pt_lim_mult; [apply derivable_pt_lim_id|apply IH2].
        * unfold gauss1. rewrite (gauss2_fst eps (S (S n))), gauss2_snd. unfold id. rewrite (S_INR (S n)). ring.
      + apply FunctionalExtensionality.functional_extensionality. intros y. unfold gauss1. rewrite (gauss2_fst eps (S n) y), gauss2_snd. unfold mult_real_fct, plus_fct, mult_fct, id. ring. }
  intros n. apply H.
Qed.
Print Assumptions gauss1_derivative.

(** ** C37: stencils *)
(** the element e acts on the plane as a rotation *)
Definition rotates (s : gspace) (e : gelt) : Prop := exists t, forall p, plane_action s e p = rotate_pt t p.
Lemma rotates_noflip s e : constructed s -> fg_is_element (sp_group s) e = true -> rotates s e -> gflip s e = false.
Proof.
  intros Hc He [t H]. destruct (gflip s e) eqn:F; [|reflexivity]. exfalso.
  assert (H1 := H (1, 0)). assert (H2 := H (0, 1)). rewrite plane_action_form, F in H1, H2 by auto. unfold rotate_pt in H1, H2. cbn [fst snd] in H1, H2.
  injection H1 as A1 A2. injection H2 as A3 A4. assert (S2 := sin2_cos2 (gangle s e)). unfold Rsqr in S2. nra.
Qed.

(** An operator is a no x ni array of homogeneous polynomials of degree n; it satisfies the constraint with the matrices A, B for
    the element e; [V i j] is its discretisation on the k x k grid.  Under a rotation that maps the grid to itself the
    stencil satisfies the same constraint, with finite differences as with derivatives of Gaussians; under a mirror too, if the
    degree is even or with derivatives of Gaussians.  The remaining case, the odd degrees and mirrors with finite differences, is false:
    [C37_mirror_refuted]. *)
Theorem C37_stencil_partial : forall (s : gspace) (e : gelt) (no ni n k dil : nat) (A B : mat) (P V : nat -> nat -> list R) (m : dmethod),
  constructed s -> fg_is_element (sp_group s) e = true -> grid_exact s e -> (0 < dil)%nat ->
  (rotates s e \/ Nat.even n = true \/ m <> DFd) ->
  (forall i j, length (P i j) = S n) ->
  (forall p, meq no ni (fun i j => hom_value (P i j) (fst (plane_action s e p)) (snd (plane_action s e p)))
                       (mmul ni (mmul no A (fun i j => hom_value (P i j) (fst p) (snd p))) B)) ->
  (forall i j, (i < no)%nat -> (j < ni)%nat -> discretize m (grid_coords k dil) (P i j) = Ok (V i j)) ->
  forall r c r0 c0, (r < k)%nat -> (c < k)%nat -> (r0 < k)%nat -> (c0 < k)%nat ->
    centre k k r c = plane_action s e (centre k k r0 c0) ->
    meq no ni (fun i j => nth (r * k + c) (V i j) 0) (mmul ni (mmul no A (fun i j => nth (r0 * k + c0) (V i j) 0)) B).
Proof.
  intros s e no ni n k dil A B P V m Hc He Hx Hd OK L H HV r c r0 c0 Hr Hcc Hr0 Hc0 E.
  set (d := MkDop n P). assert (Ld : even_len d) by exact L.
  assert (OKd : disc_ok s (MkDisc m None) (dp_order d) e).
  { destruct OK as [R|[Ev|Nm]]; [left; apply rotates_noflip; auto| |]; right; (split; [reflexivity|]); cbn; [auto|intros X; congruence]. }
  assert (ST := poly_dop_steer s e (MkDisc m None) no ni A B k dil d Hc He Hx Hd Ld OKd H r c r0 c0 Hr Hcc Hr0 Hc0 E). cbn [ds_method ds_offset offset_poly d dp_coef] in ST.
  assert (VE : forall x y, (x < k)%nat -> (y < k)%nat -> meq no ni (fun i j => nth (x * k + y) (V i j) 0) (fun i j => poly_w (weight m k dil) (P i j) (frame m (grid_point k dil (x * k + y))))).
  { intros x y Hx' Hy' i j Hi Hj. apply (discretize_poly m k dil (P i j) (V i j) Hd); [eapply nonempty, L|apply HV; auto|nia]. }
  intros i j Hi Hj. rewrite (VE r c Hr Hcc i j Hi Hj). rewrite (ST i j Hi Hj). apply mmul_compat with (r := no) (c := ni); auto; [|reflexivity].
  apply mmul_compat; [reflexivity|]. intros u v Hu Hv. symmetry. apply (VE r0 c0 Hr0 Hc0 u v Hu Hv).
Qed.
Print Assumptions C37_stencil_partial.

(** an operator of odd degree changes sign instead: under a mirror the stencil satisfies the constraint with a minus sign *)
Theorem C37_mirror_sign : forall (s : gspace) (e : gelt) (no ni n k dil : nat) (A B : mat) (P V : nat -> nat -> list R),
  constructed s -> fg_is_element (sp_group s) e = true -> grid_exact s e -> (0 < dil)%nat ->
  ~ rotates s e -> Nat.even n = false ->
  (forall i j, length (P i j) = S n) ->
  (forall p, meq no ni (fun i j => hom_value (P i j) (fst (plane_action s e p)) (snd (plane_action s e p)))
                       (mmul ni (mmul no A (fun i j => hom_value (P i j) (fst p) (snd p))) B)) ->
  (forall i j, (i < no)%nat -> (j < ni)%nat -> discretize DFd (grid_coords k dil) (P i j) = Ok (V i j)) ->
  forall r c r0 c0, (r < k)%nat -> (c < k)%nat -> (r0 < k)%nat -> (c0 < k)%nat ->
    centre k k r c = plane_action s e (centre k k r0 c0) ->
    meq no ni (fun i j => nth (r * k + c) (V i j) 0) (fun i j => - mmul ni (mmul no A (fun i j => nth (r0 * k + c0) (V i j) 0)) B i j).
Proof.
  intros s e no ni n k dil A B P V Hc He Hx Hd NR Od L H HV r c r0 c0 Hr Hcc Hr0 Hc0 E.
  assert (F : gflip s e = true). { destruct (gflip s e) eqn:F; [reflexivity|]. exfalso. apply NR. exists (gangle s e). intros p. rewrite plane_action_form, F by auto. reflexivity. }
  destruct (plane_signed s e Hc He Hx) as [sw [a [b [Ha [Hb [PS RL]]]]]].
  assert (W := fd_odd_even k dil Hd).
  assert (HS : forall q, meq no ni (fun i j => hom_value (P i j) (fst (signed sw a b q)) (snd (signed sw a b q))) (mmul ni (mmul no A (fun i j => hom_value (P i j) (fst q) (snd q))) B)).
  { intros q. rewrite <- (PS q). apply H. }
  assert (ST := poly_steer (fd_at k dil) sw a b no ni A B n P W Ha Hb L HS).
  assert (VE : forall x y, (x < k)%nat -> (y < k)%nat -> meq no ni (fun i j => nth (x * k + y) (V i j) 0) (fun i j => poly_w (fd_at k dil) (P i j) (frame DFd (grid_point k dil (x * k + y))))).
  { intros x y Hx' Hy' i j Hi Hj. apply (discretize_poly DFd k dil (P i j) (V i j) Hd); [eapply nonempty, L|apply HV; auto|nia]. }
  intros i j Hi Hj. rewrite (VE r c Hr Hcc i j Hi Hj). rewrite grid_centre by auto. rewrite E, <- plane_scale, PS by auto. set (p := scale_pt (INR dil) (centre k k r0 c0)).
  rewrite (frame_move DFd s e sw a b p RL), F. rewrite poly_neg by (auto; eapply nonempty, L). rewrite L. replace (S n - 1)%nat with n by lia.
  assert (S1 : (-1) ^ n = -1). { assert (O : Nat.odd n = true) by (unfold Nat.odd; rewrite Od; reflexivity). apply Nat.odd_spec in O. destruct O as [h ->]. rewrite Nat.add_1_r. apply pow_1_odd. }
  rewrite S1. rewrite (ST (frame DFd p) i j Hi Hj).
  assert (X : mmul ni (mmul no A (fun i j => poly_w (fd_at k dil) (P i j) (frame DFd p))) B i j = mmul ni (mmul no A (fun i j => nth (r0 * k + c0) (V i j) 0)) B i j).
  { apply mmul_compat with (r := no) (c := ni); auto; [|reflexivity].
    apply mmul_compat; [reflexivity|]. intros u v Hu Hv. rewrite (VE r0 c0 Hr0 Hc0 u v Hu Hv). rewrite grid_centre by auto. reflexivity. }
  rewrite X. ring.
Qed.
Print Assumptions C37_mirror_sign.

(** the derivative d/dx is invariant under the mirror (x, y) -> (x, -y) but its stencil on the 3 x 3 grid is not *)
Definition fd_ddx : list R := flat_map (fun a => map (fun b => 1 * (a * b)) [0; 1; 0]) [- (1 / 2); 0; 1 / 2].
Lemma fd3_1 : fd_weights 1 (symmetric_points 3 1) = [- (1 / 2); 0; 1 / 2].
Proof. unfold fd_weights, symmetric_points. cbn. repeat (f_equal; try field). Qed.
Lemma fd3_0 : fd_weights 0 (symmetric_points 3 1) = [0; 1; 0].
Proof. unfold fd_weights, symmetric_points. cbn. repeat (f_equal; try field). Qed.
Lemma ddx_value (v : list R) : discretize DFd (grid_coords 3 1) [1; 0] = Ok v -> nth 1 v 0 = - (1 / 2) /\ nth 7 v 0 = 1 / 2.
Proof.
  intros E. apply discretize_value in E; [|lia|discriminate]. destruct E as [_ V]. assert (V1 := V 0%nat 1%nat ltac:(lia) ltac:(lia)). assert (V7 := V 2%nat 1%nat ltac:(lia) ltac:(lia)).
  cbn [Nat.mul Nat.add] in V1, V7. rewrite V1, V7.
  unfold stencil. cbn [length Nat.sub rsum nth INR]. rewrite fd3_1, fd3_0. cbn [nth]. split; lra.
Qed.
Theorem C37_mirror_refuted : exists (P V : nat -> nat -> list R),
  (forall p, hom_value (P 0 0)%nat (fst (plane_action (SpFlip (GC 2) 0) (EI 1) p)) (snd (plane_action (SpFlip (GC 2) 0) (EI 1) p)) = hom_value (P 0 0)%nat (fst p) (snd p)) /\
  discretize DFd (grid_coords 3 1) (P 0 0)%nat = Ok (V 0 0)%nat /\
  centre 3 3 2 1 = plane_action (SpFlip (GC 2) 0) (EI 1) (centre 3 3 0 1) /\
  nth (2 * 3 + 1) (V 0 0)%nat 0 <> nth (0 * 3 + 1) (V 0 0)%nat 0.
Proof.
  destruct (discretize_ok 3 1 [1; 0]) as [v Ev]. 1: lia. all: try discriminate. all: try (cbn; lia).
  exists (fun _ _ => [1; 0]), (fun _ _ => v). split; [|split; [exact Ev|split]].
  - intros [x y]. cbn. rewrite ?Rmult_0_r, ?Rplus_0_r, ?cos_0, ?sin_0. unfold hom_value. cbn. ring_simplify. lra.
  - cbn. unfold centre. cbn. rewrite ?Rmult_0_r, ?cos_0, ?sin_0. unfold mirror_pt. cbn. rewrite ?Rmult_0_r, ?cos_0, ?sin_0. f_equal; lra.
  - destruct (ddx_value v Ev) as [V1 V7]. cbn [Nat.mul Nat.add]. rewrite V1, V7. lra.
Qed.
Print Assumptions C37_mirror_refuted.

(** ** C37: R2Diffop *)
Lemma diffop_made {G} (tin tout : ctype G) ks mo acc padding p stride dil mode groups bias bf moff mpow smo aoff m :
  r2diffop_make tin tout ks mo acc padding stride dil mode groups bias bf moff mpow smo aoff = Ok m -> parse_padding padding = Ok (p, p) ->
  exists k order keep power maxf ds in_reps, diffop_sizes ks mo acc = Ok (k, order) /\ diffop_params k bf order mpow smo aoff = Ok (keep, power, maxf, ds) /\
    made tin tout (Z.to_nat k) p stride dil groups (dop_block (fun rin rout => sp_dbuild (ft_gs tin) rin rout power (Some maxf) moff) ds (Z.to_nat k) dil keep) m in_reps /\
    parse_mode mode = Ok (cv_mode m).
Proof.
  intros H Hp. unfold r2diffop_make in H. apply assert_ok in H as [H1 H]. apply rbind_ok in H as [[k order] [Hs H]]. rewrite Hp in H. cbn [rbind] in H.
  apply rbind_ok in H as [md [Hm H]].
  apply rbind_ok in H as [ir [Hg H]]. cbv zeta in H. apply rbind_ok in H as [[[[keep power] maxf] ds] [Hc H]]. apply rbind_ok in H as [e [He H]].
  destruct (Nat.eqb_spec (be_dimension kid_eqb e) 0) as [|N]; [discriminate|]. injection H as <-.
  exists k, order, keep, power, maxf, ds, ir. split; [auto|]. split; [auto|]. split; [|auto]. constructor; cbn; auto; try lia. destruct (_ && _)%bool; auto.
Qed.
Lemma params_inv k bf order mpow smo aoff keep power maxf ds : diffop_params k bf order mpow smo aoff = Ok (keep, power, maxf, ds) ->
  ds = MkDisc (match smo with Some s => DGauss s | None => DFd end) aoff /\ forall a, keep a = true -> match bf with Some f => f a = true | None => True end.
Proof.
  unfold diffop_params. intros H. apply assert_ok in H as [_ H]. injection H as <- <- <- <-. split; [reflexivity|]. intros a. destruct bf; [|auto]. intros E. apply andb_true_iff in E. apply E.
Qed.

(** For every weights, image, size, order, accuracy, method, and every element e of the group that maps the pixel grid to itself: if e is a
    rotation; or, without [angle_offset], if e is a mirror and either the layer uses derivatives of Gaussians or its filter keeps only
    even orders.  The remaining case, odd orders with mirrors and finite differences (the default), is false:
    [C37_R2Diffop_mirror_refuted]; method "rbffd" is not modelled. *)
Theorem C37_R2Diffop_equivariant_partial : forall G (sp : space G) isrep tin tout ks mo acc padding p stride dil mode groups bias bf moff mpow smo aoff m
    (interp : forall A : Type, R -> R -> arr A -> arr A) B (st : cstate) (e : gelt) (x y : arr (B -> vec)) t,
  conv_args sp isrep tin tout dil None ->
  r2diffop_make tin tout ks mo acc padding stride dil mode groups bias bf moff mpow smo aoff = Ok m -> parse_padding padding = Ok (p, p) ->
  used_params m st = expand_parameters m (cs_w st) (cs_b st) ->
  fg_is_element (sp_group (sp_obj sp)) e = true -> grid_exact (sp_obj sp) e ->
  (rotates (sp_obj sp) e \/ (aoff = None /\ (smo <> None \/ exists f, bf = Some f /\ forall a, f a = true -> Nat.even (ta_order a) = true))) ->
  conv_forward m st tin x = Ok (y, t) ->
  ((a_h x + 2 * p - (dil * (cv_k m - 1) + 1)) mod stride = 0)%nat -> ((a_w x + 2 * p - (dil * (cv_k m - 1) + 1)) mod stride = 0)%nat ->
  exists x' y' y'', field_transform interp tin x e = Ok x' /\ conv_forward m st tin x' = Ok (y', t) /\ field_transform interp tout y e = Ok y'' /\
    same_field (ct_size tout) y' y''.
Proof.
  intros G sp isrep tin tout ks mo acc padding p stride dil mode groups bias bf moff mpow smo aoff m interp B st e x y t CA H Hp Hu He Hx OK Hf D1 D2.
  destruct (diffop_made _ _ _ _ _ _ _ _ _ _ _ _ _ _ _ _ _ _ H Hp) as (k & order & keep & power & maxf & ds & in_reps & ES & EP & MD & _).
  destruct (space_ok _ _ _ (ca_space _ _ _ _ _ _ CA)) as [code [el [inv SF]]].
  destruct CA as [_ C1 C2 C3 C4 C5 C6 C7 C8 C9]. cbn in C9.
  assert (GE := Hx). apply (grid_exact_iff _ _ (sf_constructed _ _ _ _ _ SF) He) in Hx as [kk Hk].
  unfold conv_forward in Hf. apply assert_ok in Hf as [Ht Hf]. apply rbind_ok in Hf as [fb [Hfb Hf]]. apply rbind_ok in Hf as [y0 [Hy Hf]]. injection Hf as -> <-.
  assert (Hexp : expand_parameters m (cs_w st) (cs_b st) = Ok fb) by congruence.
  assert (Hw : length (cs_w st) = be_dimension kid_eqb (cv_exp m)).
  { unfold expand_parameters in Hexp. apply rbind_ok in Hexp as [f [Hexp _]]. unfold be_forward in Hexp. apply assert_ok in Hexp as [Hexp _]. apply Nat.eqb_eq; auto. }
  assert (GG := dop_block_good _ _ _ _ _ SF (Z.to_nat k) dil keep ds power (Some maxf) moff C9). rewrite C1 in MD.
  rewrite (md_k MD) in D1, D2.
  assert (OO : orders_ok (sp_obj sp) ds keep e).
  { destruct (params_inv _ _ _ _ _ _ _ _ _ _ EP) as [Eds Kf]. split; [exact GE|]. intros a Ka. destruct OK as [R|[EO M]].
    - left. apply rotates_noflip; auto. apply (sf_constructed _ _ _ _ _ SF).
    - right. rewrite Eds. cbn [ds_offset ds_method]. split; [exact EO|]. destruct M as [M|[f [Ef M]]].
      + destruct smo; [discriminate|congruence].
      + intros _. apply M. specialize (Kf a Ka). rewrite Ef in Kf. exact Kf. }
  destruct (run_equivariant sp isrep code el inv SF interp tin tout C1 C2 C3 C4 C5 C6 (Z.to_nat k) p stride dil groups _ m in_reps (orders_ok (sp_obj sp) ds keep) MD GG C7 C8
              (cs_w st) (cs_b st) fb e kk x y Hw Hexp He OO Hk Hy D1 D2) as (x' & y' & y'' & R1 & R2 & R3 & R4).
  exists x', y', y''. split; [exact R1|]. split; [|split; [exact R3|exact R4]].
  unfold conv_forward. rewrite Ht. cbn [assert_]. rewrite Hfb. cbn [rbind]. rewrite R2. cbn [rbind]. reflexivity.
Qed.
Print Assumptions C37_R2Diffop_equivariant_partial.

Lemma diffop_make_ok {G} (sp spo : space G) (ri ro : rep G) ks mo acc k order padding pad stride dil mode md bias bf moff mpow smo aoff keep power maxf ds sb :
  space_eqb sp spo = true -> diffop_sizes ks mo acc = Ok (k, order) -> parse_padding padding = Ok pad -> parse_mode mode = Ok md -> diffop_params k bf order mpow smo aoff = Ok (keep, power, maxf, ds) ->
  dop_block (fun rin rout => sp_dbuild sp rin rout power (Some maxf) moff) ds (Z.to_nat k) dil keep ri ro = Ok sb -> (0 < length (sb_els sb))%nat -> (0 < rp_size ri)%nat -> (0 < rp_size ro)%nat ->
  exists m, r2diffop_make (MkFT sp [ri]) (MkFT spo [ro]) ks mo acc padding stride dil mode 1 bias bf moff mpow smo aoff = Ok m /\
    let ids := basis_ids rp_name ka_id [((rp_name ri, rp_name ro), sb)] [ri] [ro] in
    exists cg, cv_exp m = MkBE [ri] [ro] (Z.to_nat k * Z.to_nat k) 1 [((rp_name ri, rp_name ro), sb)] [(rp_name ri, rp_name ro)] cg
                 (ranges_from ids 0 [(rp_name ri, rp_name ro)]) (concat [ids (rp_name ri, rp_name ro)]) /\
      cv_bias m = (if (bias && (0 <? length (bias_cols 0 [ro]))%nat)%bool then Some (bias_cols 0 [ro]) else None).
Proof.
  intros H1 H0 H2 H3 H4 H5 H6 H7 H8. unfold r2diffop_make. cbn [ft_gs ft_reps]. rewrite H1. cbn [assert_]. rewrite H0. cbn [rbind]. rewrite H2, H3. cbn [rbind group_in Nat.ltb Nat.leb]. rewrite H4. cbn [rbind].
  set (gen := dop_block (fun rin rout => sp_dbuild sp rin rout power (Some maxf) moff) ds (Z.to_nat k) dil keep) in *.
  unfold be_make. assert (E : build_blocks rp_name rep_eqb gen [ri] [ro] = Ok [((rp_name ri, rp_name ro), sb)]).
  { unfold build_blocks. cbn [set_of filter list_prod map app fold_left rbind fst snd]. rewrite H5. reflexivity. }
  cbv zeta. cbn [ft_reps ft_gs]. match goal with |- context [build_blocks rp_name rep_eqb ?g [ri] [ro]] => change (build_blocks rp_name rep_eqb g [ri] [ro]) with (build_blocks rp_name rep_eqb gen [ri] [ro]) end.
  rewrite E. cbn [rbind map fst sort_pairs fold_right insert_pair rmap]. unfold contiguous, indices, fields. cbn [map label_indices fst snd].
  rewrite !String.eqb_refl, !app_nil_r.
  assert (C : forall n, (0 < n)%nat -> exists c, check_consecutive_numbers (map Z.of_nat (seq 0 n)) = Ok c).
  { intros n Hn. unfold check_consecutive_numbers. destruct n as [|n]; [lia|]. cbn [seq map].
    match goal with |- context [forallb ?f ?l] => assert (F : forallb f l = true) end.
    { apply forallb_forall. intros x Hx. change (In x (map Z.of_nat (seq 0 (S n)))) in Hx. apply in_map_iff in Hx as [y [<- _]]. apply Z.leb_le. lia. }
    rewrite F. cbn [assert_]. eauto. }
  destruct (C _ H7) as [c1 ->]. destruct (C _ H8) as [c2 ->]. cbn [rbind].
  match goal with |- context [(?d =? 0)%nat] => assert (D : (d =? 0)%nat = false) end.
  { apply Nat.eqb_neq. unfold be_dimension. cbn [be_ids concat map]. unfold basis_ids. cbn [enumerate combine length seq map concat fst snd]. unfold key_eqb at 1. cbn [fst snd]. rewrite !String.eqb_refl. cbn [andb kget]. unfold key_eqb. cbn [fst snd]. rewrite !String.eqb_refl. cbn [andb]. destruct (sb_els sb); [cbn in H6; lia|]. cbn. lia. }
  rewrite D. eexists. split; [reflexivity|]. cbv zeta. eexists. split; reflexivity.
Qed.

(** *** concrete layers: one field of the trivial representation, one operator *)
Lemma single_one {At} no ni S (sh : At -> nat) a e : sh a = 1%nat -> 1 / 10 <= sq_norm no ni S e ->
  exists c, c <> 0 /\ single_block no ni S sh (fun _ => true) [(a, e)] = Ok (MkSB no ni [(a, fun s o i => e s o i / c)]).
Proof.
  intros Hs Hq. set (q := sq_norm no ni S e) in *. assert (P : 1 / 1000 <= sqrt q).
  { rewrite <- (sqrt_square (1 / 1000)) by lra. apply sqrt_le_1_alt. lra. }
  exists (sqrt q). split; [lra|]. unfold single_block. cbn [filter fst]. cbn [map fst snd]. rewrite Hs.
  assert (N : normalize no ni S (INR 1) e = fun s o i => e s o i / sqrt q).
  { unfold normalize. fold q. cbn [INR]. replace (q / 1) with q by field. destruct (Rlt_dec q _); [lra|]. destruct (Rlt_dec (sqrt q) _); [lra|]. reflexivity. }
  rewrite N. cbn [filter snd].
  assert (Q : sq_norm no ni S (fun s o i => e s o i / sqrt q) = 1).
  { replace 1 with (q * / q) by (field; lra). unfold q at 2. unfold sq_norm. rewrite <- rsum_scal_r. apply rsum_ext. intros s _. rewrite <- rsum_scal_r. apply rsum_ext. intros o _. rewrite <- rsum_scal_r. apply rsum_ext. intros i _.
    assert (S2 := sqrt_sqrt q ltac:(lra)). rewrite <- S2 at 3. field. lra. }
  rewrite Q. unfold Rltb. destruct (Rlt_dec _ _); [reflexivity|lra].
Qed.

Lemma one_operator (sp : space Z) (r : rep Z) ks mo acc k order padding pad dil bf mpow smo aoff keep power maxf ds t a d v :
  space_eqb sp sp = true -> rp_size r = 1%nat -> diffop_sizes ks mo acc = Ok (k, order) -> parse_padding padding = Ok pad ->
  diffop_params k bf order mpow smo aoff = Ok (keep, power, maxf, ds) ->
  sp_dbuild sp r r power (Some maxf) None = Ok t -> filter (fun p => keep (fst p)) (combine (tb_iter t) (tb_coefficients t)) = [(a, d)] ->
  ka_rows (dop_attr t a) = 1%nat -> discretize (ds_method ds) (grid_coords (Z.to_nat k) dil) (offset_poly (ds_offset ds) (dp_coef d 0%nat 0%nat)) = Ok v ->
  (exists s, (s < Z.to_nat k * Z.to_nat k)%nat /\ 1 / 10 <= nth s v 0 * nth s v 0) ->
  exists m c, r2diffop_make (MkFT sp [r]) (MkFT sp [r]) ks mo acc padding 1 dil "zeros" 1 false bf None mpow smo aoff = Ok m /\ c <> 0 /\
    forall w b, exists f, expand_parameters m [w] b = Ok (f, None) /\ forall s, f O O s = w * (nth s v 0 / c).
Proof.
  intros H1 Hr H0 H2 H4 Ht Hf Ha Hd [s0 [Hs0 Hn]].
  set (F := fun s i j => nth s (nth j (nth i [[v]] []) []) 0).
  destruct (single_one 1 1 (Z.to_nat k * Z.to_nat k) ka_rows (dop_attr t a) F Ha) as [c [Hc SB]].
  { eapply Rle_trans; [exact Hn|]. apply (sq_norm_ge 1 1 _ F s0 0 0); auto. }
  destruct (diffop_make_ok sp sp r r ks mo acc k order padding pad 1 dil "zeros" MZeros false bf None mpow smo aoff keep power maxf ds
              (MkSB 1 1 [(dop_attr t a, fun s o i => F s o i / c)])) as [m [M [cg [BE BB]]]]; auto; try (rewrite Hr; lia).
  { unfold dop_block. rewrite Ht. cbn [rbind]. unfold sample_masked. rewrite Hf. cbn [rmap fst snd]. rewrite Hr. unfold sample_dop. cbn [seq rmap]. rewrite Hd. cbn [rbind]. exact SB. }
  exists m, c. split; [exact M|]. split; [exact Hc|]. intros w b. unfold expand_parameters. rewrite BE, BB. cbn [andb].
  set (n := rp_name r) in *.
  assert (K1 : key_eqb (n, n) (n, n) = true) by (unfold key_eqb; cbn [fst snd]; rewrite String.eqb_refl; reflexivity).
  set (sb := MkSB 1 1 [(dop_attr t a, fun s o i => F s o i / c)]) in *.
  assert (I1 : basis_ids rp_name ka_id [((n, n), sb)] [r] [r] (n, n) = [(n, 0%nat, n, 0%nat, ka_id (dop_attr t a))]).
  { unfold basis_ids. cbn [enumerate combine length seq map concat fst snd kget]. fold n. rewrite K1. reflexivity. }
  unfold be_forward. unfold be_dimension. cbn [be_ids be_pairs be_npairs be_in be_out Nat.eqb fst snd]. cbn [concat app]. rewrite I1. cbn [app distinct_ids filter length Nat.eqb assert_ Nat.mul].
  assert (IX : indices rp_name rp_size [r] n = [0%nat]).
  { unfold indices, fields. cbn [map label_indices fst snd]. fold n. rewrite String.eqb_refl, Hr. reflexivity. }
  rewrite IX. cbn [span fold_left]. unfold expand_block. cbn [be_blocks be_ranges be_in be_out fst snd]. unfold ranges_from. cbn [kget]. rewrite K1, I1. cbn [fst snd length sb sb_els].
  assert (CN : Model_Expansion.count rp_name rp_size [r] n = 1%nat).
  { unfold Model_Expansion.count, fields. cbn [map label_fields fst snd]. fold n. rewrite String.eqb_refl. reflexivity. }
  rewrite CN. cbn [Nat.mul Nat.add sub_list firstn skipn length Nat.eqb Nat.sub]. cbn [rbind]. unfold merged_size. cbn [fst snd be_in be_out]. rewrite CN. cbn [sb_rows sb_cols Nat.mul Nat.add Nat.eqb Nat.sub].
  eexists. split; [reflexivity|]. intros s. unfold merged. cbn [fst snd be_in be_out]. rewrite CN. cbn. unfold sb_el. cbn. ring.
Qed.
Lemma one_forward (sp : space Z) (r : rep Z) ks mo acc k order bf mpow smo aoff m c v f (x : arr (unit -> vec)) :
  rp_size r = 1%nat -> diffop_sizes ks mo acc = Ok (k, order) -> k = 3%Z ->
  r2diffop_make (MkFT sp [r]) (MkFT sp [r]) ks mo acc (PadInt 0) 1 1 "zeros" 1 false bf None mpow smo aoff = Ok m ->
  expand_parameters m [1] [] = Ok (f, None) -> (forall s, f O O s = 1 * (nth s v 0 / c)) -> a_h x = 3%nat -> a_w x = 3%nat ->
  space_eqb sp sp = true ->
  exists y, conv_forward m (MkCS true [1] [] None None) (MkFT sp [r]) x = Ok (y, MkFT sp [r]) /\ a_h y = 1%nat /\ a_w y = 1%nat /\
    a_px y 0 0 tt 0%nat = rsum 3 (fun i => rsum 3 (fun j => nth (i * 3 + j) v 0 * a_px x i j tt 0%nat)) / c.
Proof.
  intros Hr Hs Hk M Hf Vf Hh Hw Hsp. destruct (diffop_made _ _ _ _ _ _ 0 _ _ _ _ _ _ _ _ _ _ _ M eq_refl) as (k' & o' & keep & power & maxf & ds & ir & ES & EP & MD & EM).
  rewrite Hs in ES. injection ES as <- <-. subst k. change (Z.to_nat 3) with 3%nat in MD.
  unfold conv_forward, used_params. cbn [cs_training cs_w cs_b]. rewrite Hf. cbn [rbind]. unfold run_conv.
  rewrite (md_pad MD), (md_in MD), (md_out MD), (md_k MD), (md_stride MD), (md_dil MD), (md_grp MD). cbn in EM. injection EM as <-. cbn [fst snd].
  assert (TE : ft_eqb space_eqb rep_eqb (MkFT sp [r]) (MkFT sp [r]) = true). { unfold ft_eqb. cbn [ft_gs ft_reps]. rewrite Hsp. cbn. rewrite rep_eqb_refl. reflexivity. }
  rewrite TE. cbn [assert_]. rewrite pad2d_eq. cbn [pad_legal andb rbind]. unfold conv_valid. cbn [pads a_h a_w a_px]. rewrite Hh, Hw.
  assert (CT : ct_size (MkFT sp [r]) = 1%nat) by (unfold ct_size; cbn; rewrite Hr; reflexivity). rewrite CT.
  cbn [Nat.ltb Nat.leb Nat.mul Nat.sub Nat.add Nat.modulo Nat.eqb andb Nat.divmod fst snd rbind].
  eexists. split; [reflexivity|]. split; [reflexivity|]. split; [reflexivity|]. cbn [a_px].
  cbn. rewrite !Vf. unfold Rdiv. ring.
Qed.

Lemma flip_basis : exists t d0 d1, sp_dbuild (space_flip 0) c2_rep c2_rep 0 (Some 1%Z) None = Ok t /\ tb_iter t = [MkTA (0,0)%nat 0 0 0 0 0 0 0; MkTA (0,0)%nat 1 1 0 1 1 1 0] /\
  ka_rows (dop_attr t (MkTA (0,0)%nat 1 1 0 1 1 1 0)) = 1%nat /\ tb_coefficients t = [d0; d1] /\ dp_coef d1 0%nat 0%nat = [1; 0].
Proof.
  eexists. eexists. eexists. split.
  { cbn [sp_dbuild space_flip]. unfold check_limits. cbn [opt_nonneg assert_ Z.leb Z.compare]. unfold diffops_Flip_act_R2, tb_make, sk_make. rewrite !is_eye_mid. reflexivity. }
  split; [cbv; reflexivity|]. split.
  { cbv. reflexivity. }
  split.
  { unfold tb_coefficients, sd_coefficients. cbn. reflexivity. }
  cbn. destruct (Req_EM_T 0 0); [|congruence]. change (Pos.to_nat 1) with 1%nat. cbn. repeat f_equal; ring.
Qed.

Definition flip_type : ctype Z := MkFT (space_flip 0) [c2_rep].
Definition order_is (n : nat) : option (tattr -> bool) := Some (fun a => (ta_order a =? n)%nat).
Lemma flip_args : conv_args (space_flip 0) (cyc_rep 2) flip_type flip_type 1 None.
Proof.
  constructor; cbn.
  - apply PS_flip.
  - reflexivity.
  - reflexivity.
  - constructor; [apply c2_rep_is|constructor].
  - constructor; [apply c2_rep_is|constructor].
  - intros a b [<-|[]] [<-|[]] _. reflexivity.
  - intros a b [<-|[]] [<-|[]] _. reflexivity.
  - intros r [<-|[]]. cbn. lia.
  - intros r [<-|[]]. cbn. lia.
  - lia.
Qed.
(** the layer with the one operator d/dx on fields of the trivial representation of the mirror group *)
Lemma flip_layer smo v : discretize (match smo with Some s => DGauss s | None => DFd end) (grid_coords 3 1) [1; 0] = Ok v ->
  (exists s, (s < 9)%nat /\ 1 / 10 <= nth s v 0 * nth s v 0) ->
  exists m c, r2diffop_make flip_type flip_type (Some 3%Z) (Some 1%Z) None (PadInt 0) 1 1 "zeros" 1 false (order_is 1) None None smo None = Ok m /\ c <> 0 /\
    forall x : arr (unit -> vec), a_h x = 3%nat -> a_w x = 3%nat ->
      exists y, conv_forward m (MkCS true [1] [] None None) flip_type x = Ok (y, flip_type) /\ a_h y = 1%nat /\ a_w y = 1%nat /\
        a_px y 0 0 tt 0%nat = rsum 3 (fun i => rsum 3 (fun j => nth (i * 3 + j) v 0 * a_px x i j tt 0%nat)) / c.
Proof.
  intros Ev Hv. destruct flip_basis as (t & d0 & d1 & Ht & Hi & Ha & Hc & Hd).
  destruct (one_operator (space_flip 0) c2_rep (Some 3%Z) (Some 1%Z) None 3 1 (PadInt 0) (0, 0)%nat 1 (order_is 1) None smo None _ _ _ _ t (MkTA (0,0)%nat 1 1 0 1 1 1 0) d1 v
    eq_refl eq_refl eq_refl eq_refl eq_refl Ht) as [m [c [M [Hc0 F]]]].
  - rewrite Hi, Hc. reflexivity.
  - exact Ha.
  - rewrite Hd. exact Ev.
  - exact Hv.
  - exists m, c. split; [exact M|]. split; [exact Hc0|]. intros x Hh Hw. destruct (F 1 []) as [f [Ef Vf]].
    apply (one_forward (space_flip 0) c2_rep (Some 3%Z) (Some 1%Z) None 3 1 (order_is 1) None smo None m c v f x); auto.
Qed.

(** With the finite differences (the default), the layer is not equivariant to the mirror. *)
Theorem C37_R2Diffop_mirror_refuted : forall (interp : forall A : Type, R -> R -> arr A -> arr A), exists m st (x : arr (unit -> vec)) y x' y' y'',
  conv_args (space_flip 0) (cyc_rep 2) flip_type flip_type 1 None /\
  r2diffop_make flip_type flip_type (Some 3%Z) (Some 1%Z) None (PadInt 0) 1 1 "zeros" 1 false (order_is 1) None None None None = Ok m /\
  cs_training st = true /\ fg_is_element (sp_group (sp_obj (space_flip 0))) (EI 1) = true /\ grid_exact (sp_obj (space_flip 0)) (EI 1) /\
  conv_forward m st flip_type x = Ok (y, flip_type) /\ field_transform interp flip_type x (EI 1) = Ok x' /\
  conv_forward m st flip_type x' = Ok (y', flip_type) /\ field_transform interp flip_type y (EI 1) = Ok y'' /\
  ~ same_field (ct_size flip_type) y' y''.
Proof.
  intros interp. destruct (discretize_ok 3 1 [1; 0]) as [v Ev]. 1: lia. all: try discriminate. all: try (cbn; lia).
  destruct (flip_layer None v Ev) as [m [c [M [Hc F]]]].
  { exists 1%nat. split; [lia|]. rewrite (proj1 (ddx_value v Ev)). lra. }
  set (x := MkArr 3 3 (fun i j (_ : unit) (_ : nat) => if (i =? 0)%nat && (j =? 1)%nat then 1 else 0)).
  destruct (F x eq_refl eq_refl) as [y [Y1 [Y2 [Y3 Y4]]]].
  destruct (space_ok _ _ _ (PS_flip 0)) as (code & el & inv & SF).
  destruct (transform_exact (space_flip 0) _ _ _ _ SF interp flip_type (EI 1) 1%Z 0%Z x) as [x' [X1 X2]]; [reflexivity|discriminate|reflexivity|reflexivity|cbn; ring|].
  destruct (transform_exact (space_flip 0) _ _ _ _ SF interp flip_type (EI 1) 1%Z 0%Z y) as [y'' [Z1 Z2]]; [reflexivity|discriminate|reflexivity|reflexivity|cbn; ring|].
  destruct X2 as (X2 & X3 & X4). destruct Z2 as (Z2 & Z3 & Z4). cbn [sp_obj space_flip gflip Z.eqb negb] in *.
  assert (Hx' : a_h x' = 3%nat /\ a_w x' = 3%nat) by (rewrite X2, X3; split; reflexivity). destruct Hx' as [Hx1 Hx2].
  destruct (F x' Hx1 Hx2) as [y' [U1 [U2 [U3 U4]]]].
  exists m, (MkCS true [1] [] None None), x, y, x', y', y''. split; [apply flip_args|]. split; [exact M|]. split; [reflexivity|]. split; [reflexivity|].
  split. { right. cbn. unfold mirror_pt. cbn. rewrite ?sin_0, ?cos_0. ring. }
  split; [exact Y1|]. split; [exact X1|]. split; [exact U1|]. split; [exact Z1|].
  intros (S1 & S2 & S3). specialize (S3 0%nat 0%nat tt 0%nat ltac:(lia) ltac:(lia) ltac:(cbn; lia)).
  assert (Dz1 : a_h (turn true 0 y) = 1%nat) by (cbn; auto). assert (Dz2 : a_w (turn true 0 y) = 1%nat) by (cbn; auto).
  rewrite (Z4 0%nat 0%nat tt 0%nat) in S3 by (try lia; cbn; lia).
  assert (T : trep [c2_rep] 1%Z 0%nat 0%nat = 1) by (change (rp_mat c2_rep 1%Z 0%nat 0%nat = 1); apply c2_mat).
  assert (PX : forall i j, (i < 3)%nat -> (j < 3)%nat -> a_px x' i j tt 0%nat = a_px x (2 - i) j tt 0%nat).
  { intros i j Hi Hj. rewrite (X4 i j tt 0%nat) by (try lia; cbn; lia). change (ct_size flip_type) with 1%nat. unfold amap, mvec. cbn [a_px rsum ft_reps flip_type]. rewrite T.
    change (a_px (turn true 0 x) i j tt 0%nat) with (a_px x (3 - 1 - i) j tt 0%nat). replace (3 - 1 - i)%nat with (2 - i)%nat by lia. ring. }
  assert (PY : a_px (amap (fun v b => mvec (ct_size flip_type) (trep (ft_reps flip_type) 1%Z) (v b)) (turn true 0 y)) 0 0 tt 0%nat = a_px y 0 0 tt 0%nat).
  { change (ct_size flip_type) with 1%nat. unfold amap, mvec. cbn [a_px rsum ft_reps flip_type]. rewrite T.
    change (a_px (turn true 0 y) 0 0 tt 0%nat) with (a_px y (a_h y - 1 - 0) 0 tt 0%nat). rewrite Y2. cbn [Nat.sub]. ring. }
  rewrite PY, U4, Y4 in S3. destruct (ddx_value v Ev) as [V1 V7].
  assert (Q : forall a b, a / c = b / c -> a = b). { intros a b E. apply (Rmult_eq_reg_r (/ c)); [exact E|]. apply Rinv_neq_0_compat. exact Hc. }
  apply Q in S3. cbn [rsum] in S3. rewrite !PX in S3 by lia. cbn [x a_px Nat.sub Nat.eqb andb Nat.mul Nat.add] in S3. rewrite V1, V7 in S3. lra.
Qed.
Print Assumptions C37_R2Diffop_mirror_refuted.

(** hypotheses met: the mirror with derivatives of Gaussians *)
Example C37_ex_gauss : exists m st (x y : arr (unit -> vec)),
  conv_args (space_flip 0) (cyc_rep 2) flip_type flip_type 1 None /\
  r2diffop_make flip_type flip_type (Some 3%Z) (Some 1%Z) None (PadInt 0) 1 1 "zeros" 1 false (order_is 1) None None (Some 1) None = Ok m /\
  cs_training st = true /\ grid_exact (sp_obj (space_flip 0)) (EI 1) /\ conv_forward m st flip_type x = Ok (y, flip_type) /\ a_px y 0 0 tt 0%nat <> 0.
Proof.
  assert (E : exists v, discretize (DGauss 1) (grid_coords 3 1) [1; 0] = Ok v).
  { cbn [discretize]. unfold gaussian_derivative. destruct (filter _ _); [eauto|]. destruct (Req_EM_T 1 0); [lra|eauto]. }
  destruct E as [v Ev].
  assert (V : nth 5 v 0 = - 2 * exp (-1)).
  { destruct (discretize_poly (DGauss 1) 3 1 [1; 0] v) as [_ V]; [lia|discriminate|exact Ev|]. rewrite V by lia.
    replace (grid_point 3 1 5) with ((1, 0) : point) by (unfold grid_point; cbn; f_equal; lra).
    unfold poly_w. cbn [weight frame length Nat.sub rsum nth fst snd]. unfold gauss1. cbn [gauss2 fst snd INR].
    replace (- (1 / 1 ^ 2 * 1) ^ 2) with (-1) by field. replace (- (1 / 1 ^ 2 * 0) ^ 2) with 0 by field. rewrite exp_0. field. }
  assert (B : 1 / 3 <= exp (-1)).
  { replace (exp (-1)) with (/ exp 1) by (rewrite <- exp_Ropp; f_equal; lra). assert (X := exp_le_3). assert (Y := exp_pos 1). unfold Rdiv. rewrite Rmult_1_l. apply Rinv_le_contravar; lra. }
  destruct (flip_layer (Some 1) v Ev) as [m [c [M [Hc F]]]].
  { exists 5%nat. split; [lia|]. rewrite V. nra. }
  set (x := MkArr 3 3 (fun i j (_ : unit) (_ : nat) => if (i =? 1)%nat && (j =? 2)%nat then 1 else 0)).
  destruct (F x eq_refl eq_refl) as [y [Y1 [Y2 [Y3 Y4]]]].
  exists m, (MkCS true [1] [] None None), x, y. split; [apply flip_args|]. split; [exact M|]. split; [reflexivity|].
  split. { right. cbn. unfold mirror_pt. cbn. rewrite ?sin_0, ?cos_0. ring. }
  split; [exact Y1|]. rewrite Y4. cbn [rsum x a_px Nat.eqb andb Nat.mul Nat.add]. rewrite V. intros Z.
  assert (X : 0 + (0 + nth 0 v 0 * 0 + nth 1 v 0 * 0 + nth 2 v 0 * 0) + (0 + nth 3 v 0 * 0 + nth 4 v 0 * 0 + -2 * exp (-1) * 1) + (0 + nth 6 v 0 * 0 + nth 7 v 0 * 0 + nth 8 v 0 * 0) = 0).
  { apply (Rmult_eq_reg_r (/ c)); [|apply Rinv_neq_0_compat; exact Hc]. rewrite Rmult_0_l. exact Z. }
  lra.
Qed.

(** hypotheses met: a quarter turn, the Laplacian, finite differences; C_4 with fields of the trivial representation *)
Definition c4_triv : rep Z := MkRep "t" [c4_i0] mid mid [].
Definition c4_ttype : ctype Z := MkFT (space_CN 4) [c4_triv].
Example C37_ex_laplacian : exists m st (x y : arr (unit -> vec)),
  conv_args (space_CN 4) (cyc_rep 4) c4_ttype c4_ttype 1 None /\
  r2diffop_make c4_ttype c4_ttype (Some 3%Z) (Some 2%Z) None (PadInt 0) 1 1 "zeros" 1 false (order_is 2) None None None None = Ok m /\
  cs_training st = true /\ grid_exact (sp_obj (space_CN 4)) (EI 1) /\ rotates (sp_obj (space_CN 4)) (EI 1) /\
  conv_forward m st c4_ttype x = Ok (y, c4_ttype) /\ a_px y 0 0 tt 0%nat <> 0.
Proof.
  assert (Bt : exists t d0 d1, sp_dbuild (space_CN 4) c4_triv c4_triv 1 (Some 2%Z) None = Ok t /\ tb_iter t = [MkTA (0,0)%nat 0 0 0 0 0 0 0; MkTA (0,0)%nat 0 0 1 2 1 0 1] /\
    ka_rows (dop_attr t (MkTA (0,0)%nat 0 0 1 2 1 0 1)) = 1%nat /\ tb_coefficients t = [d0; d1] /\ dp_coef d1 0%nat 0%nat = [1; 0; 1]).
  { eexists. eexists. eexists. split.
    { cbn [sp_dbuild space_CN]. unfold check_limits. cbn [opt_nonneg assert_ Z.leb Z.compare]. unfold diffops_CN_act_R2, tb_make, sk_make. rewrite !is_eye_mid. reflexivity. }
    split; [cbv; reflexivity|]. split; [cbv; reflexivity|]. split.
    { unfold tb_coefficients, sd_coefficients. cbn. reflexivity. }
    cbn. change (Pos.to_nat 1) with 1%nat. cbn. repeat f_equal; ring. }
  destruct Bt as (t & d0 & d1 & Ht & Hi & Ha & Hc & Hd).
  destruct (discretize_ok 3 1 [1; 0; 1]) as [v Ev]. 1: lia. all: try discriminate. all: try (cbn; lia).
  assert (V : nth 4 v 0 = - 4).
  { apply discretize_value in Ev; [|lia|discriminate]. destruct Ev as [_ V]. assert (V4 := V 1%nat 1%nat ltac:(lia) ltac:(lia)). cbn [Nat.mul Nat.add] in V4. rewrite V4.
    unfold stencil. cbn [length Nat.sub rsum nth INR]. unfold fd_weights, symmetric_points. cbn. field. }
  destruct (one_operator (space_CN 4) c4_triv (Some 3%Z) (Some 2%Z) None 3 2 (PadInt 0) (0, 0)%nat 1 (order_is 2) None None None _ _ _ _ t (MkTA (0,0)%nat 0 0 1 2 1 0 1) d1 v
    eq_refl eq_refl eq_refl eq_refl eq_refl Ht) as [m [c [M [Hc0 F]]]].
  - rewrite Hi, Hc. reflexivity.
  - exact Ha.
  - rewrite Hd. exact Ev.
  - exists 4%nat. split; [cbn; lia|]. rewrite V. lra.
  - set (x := MkArr 3 3 (fun i j (_ : unit) (_ : nat) => if (i =? 1)%nat && (j =? 1)%nat then 1 else 0)).
    destruct (F 1 []) as [f [Ef Vf]].
    destruct (one_forward (space_CN 4) c4_triv (Some 3%Z) (Some 2%Z) None 3 2 (order_is 2) None None None m c v f x) as [y [Y1 [Y2 [Y3 Y4]]]]; auto.
    exists m, (MkCS true [1] [] None None), x, y. split.
    { constructor; cbn.
      - apply PS_CN; lia.
      - reflexivity.
      - reflexivity.
      - constructor; [split; [apply inverse_pair_mid|constructor; [exists 0%Z; reflexivity|constructor]]|constructor].
      - constructor; [split; [apply inverse_pair_mid|constructor; [exists 0%Z; reflexivity|constructor]]|constructor].
      - intros a b [<-|[]] [<-|[]] _. reflexivity.
      - intros a b [<-|[]] [<-|[]] _. reflexivity.
      - intros r [<-|[]]. cbn. lia.
      - intros r [<-|[]]. cbn. lia.
      - lia. }
    split; [exact M|]. split; [reflexivity|].
    split. { left. cbn. replace (2 * PI * 1 / 4) with (PI / 2) by field. rewrite cos_PI2. ring. }
    split. { eexists. intros p. cbn. reflexivity. }
    split; [exact Y1|]. rewrite Y4. cbn [rsum x a_px Nat.eqb andb Nat.mul Nat.add]. rewrite V. intros Z.
    assert (X : 0 + (0 + nth 0 v 0 * 0 + nth 1 v 0 * 0 + nth 2 v 0 * 0) + (0 + nth 3 v 0 * 0 + -4 * 1 + nth 5 v 0 * 0) + (0 + nth 6 v 0 * 0 + nth 7 v 0 * 0 + nth 8 v 0 * 0) = 0).
    { apply (Rmult_eq_reg_r (/ c)); [|apply Rinv_neq_0_compat; exact Hc0]. rewrite Rmult_0_l. exact Z. }
    lra.
Qed.

(** ** C28 for R2Diffop: the weights *)
Theorem C28_R2Diffop : forall G (sp : space G) isrep tin tout ks mo acc padding p stride dil mode groups bias bf moff mpow smo aoff m,
  conv_args sp isrep tin tout dil None -> (0 < groups)%nat -> parse_padding padding = Ok (p, p) ->
  r2diffop_make tin tout ks mo acc padding stride dil mode groups bias bf moff mpow smo aoff = Ok m ->
  exists k order keep power maxf ds, diffop_sizes ks mo acc = Ok (k, order) /\ diffop_params k bf order mpow smo aoff = Ok (keep, power, maxf, ds) /\
    (0 < be_dimension kid_eqb (cv_exp m))%nat /\
    weight_layout rp_name rp_size (fun r => length (rp_irreps r)) ka_id ka_in ka_out kid_eqb (one_group tin groups) (ft_reps tout)
      (dop_block (fun rin rout => sp_dbuild sp rin rout power (Some maxf) moff) ds (Z.to_nat k) dil keep) (cv_exp m).
Proof.
  intros G sp isrep tin tout ks mo acc padding p stride dil mode groups bias bf moff mpow smo aoff m CA Hg Hp H.
  destruct (diffop_made _ _ _ _ _ _ _ _ _ _ _ _ _ _ _ _ _ _ H Hp) as (k & order & keep & power & maxf & ds & in_reps & ES & EP & MD & _).
  exists k, order, keep, power, maxf, ds. split; [exact ES|]. split; [exact EP|]. split; [exact (md_dim MD)|].
  destruct (space_ok _ _ _ (ca_space _ _ _ _ _ _ CA)) as [code [el [inv SF]]].
  destruct CA as [_ C1 C2 C3 C4 C5 C6 C7 C8 C9]. cbn in C9.
  assert (EI : in_reps = one_group tin groups).
  { assert (X := md_groups MD). unfold group_in, one_group in *. destruct (1 <? groups)%nat.
    - cbv zeta in X. repeat (apply assert_ok in X as [_ X]). injection X as <-. reflexivity.
    - injection X as <-. reflexivity. }
  assert (SUB : forall r, In r in_reps -> In r (ft_reps tin)) by (intros r; apply (in_reps_sub _ _ C5 C6 _ _ _ _ _ _ _ _ MD Hg)).
  rewrite <- EI. rewrite <- C1.
  eapply (layout rp_name rp_size _ rep_eqb ka_id ka_in ka_out kid_eqb).
  - apply kid_eqb_spec.
  - apply rep_eqb_refl.
  - apply rep_eqb_name.
  - exact (md_exp MD).
  - intros x y Hx Hy. apply C5; auto.
  - intros x y Hx Hy. apply C6; auto.
  - intros r Hr. apply C7; auto.
  - exact C8.
  - intros i o sb Hi Ho Eg. assert (GG := dop_block_good _ _ _ _ _ SF (Z.to_nat k) dil keep ds power (Some maxf) moff C9). rewrite <- C1 in GG.
    apply (gen_spec _ _ _ _ _ _ _ C3 C4 C5 C6 _ _ _ _ _ _ _ _ _ MD GG Hg i o sb Hi Ho Eg).
Qed.
Print Assumptions C28_R2Diffop.

(** ** C33 for R2Diffop: evaluate_output_shape *)
Theorem C33_R2Diffop_shape_partial : forall G (tin tout : ctype G) ks mo acc p stride dil mode groups bias bf moff mpow smo aoff m B st t (x y : arr (B -> vec)) t' batch,
  r2diffop_make tin tout ks mo acc (PadInt p) stride dil mode groups bias bf moff mpow smo aoff = Ok m ->
  conv_forward m st t x = Ok (y, t') ->
  conv_output_shape m (batch, Z.of_nat (ct_size tin), Z.of_nat (a_h x), Z.of_nat (a_w x)) = Ok (batch, Z.of_nat (ct_size t'), Z.of_nat (a_h y), Z.of_nat (a_w y)).
Proof.
  intros G tin tout ks mo acc p stride dil mode groups bias bf moff mpow smo aoff m B st t x y t' batch M F.
  destruct (diffop_made _ _ _ _ _ _ p _ _ _ _ _ _ _ _ _ _ _ M eq_refl) as (k & order & keep & power & maxf & ds & in_reps & ES & EP & MD & _).
  assert (CP : cv_padding m = PadInt p).
  { clear -M. unfold r2diffop_make in M. apply assert_ok in M as [_ M]. apply rbind_ok in M as [[k o] [_ M]]. cbn [parse_padding rbind] in M. apply rbind_ok in M as [md [_ M]]. apply rbind_ok in M as [i [_ M]]. cbv zeta in M.
    apply rbind_ok in M as [[[[a b] c] d] [_ M]]. apply rbind_ok in M as [e [_ M]]. destruct (_ =? 0)%nat; [discriminate|]. injection M as <-. reflexivity. }
  eapply made_shape; eauto.
Qed.
Print Assumptions C33_R2Diffop_shape_partial.

(** ** C38 for R2Diffop: the kernel size and the maximum order it chooses *)
(** When only one of kernel_size and maximum_order is given, the other one is chosen such that every operator up to the
    maximum order has a stencil, of the requested accuracy, and the kernel is the smallest (the order the largest) such one.  Giving
    all three of kernel_size, maximum_order and accuracy, or neither of the first two, is refused. *)
Theorem C38_R2Diffop_sizes : (forall k o a, diffop_sizes (Some k) (Some o) (Some a) = Err "ValueError"%string) /\
  (forall a, diffop_sizes None None a = Err "AssertionError"%string) /\
  forall ks mo acc k o, diffop_sizes ks mo acc = Ok (k, o) ->
  (ks = None \/ mo = None) -> (forall o', mo = Some o' -> (0 <= o')%Z) -> (forall a, acc = Some a -> (1 <= a)%Z) ->
  (0 <= o < k)%Z /\ (forall v, ks = Some v -> k = v) /\ (forall v, mo = Some v -> o = v) /\
  forall a, acc = Some a -> (required_points o a <= k)%Z /\ (ks = None -> k = required_points o a) /\
    (mo = None -> forall o', (0 <= o')%Z -> (required_points o' a <= k)%Z -> (o' <= o)%Z).
Proof.
  split; [reflexivity|]. split; [reflexivity|].
  assert (RP : forall o a, (0 <= o)%Z -> (1 <= a)%Z -> (o < required_points o a)%Z).
  { intros o a Ho Ha. unfold required_points. destruct (Z.eqb_spec ((a - 1) mod 2) 0) as [|N]; [lia|].
    assert (a <> 1%Z) by (intros ->; apply N; reflexivity). lia. }
  intros [k0|] [o0|] acc k o H C Ho Ha; cbn [diffop_sizes] in H.
  - destruct C; discriminate.
  - apply rbind_ok in H as [o1 [H1 H]]. injection H as <- <-. set (a := match acc with Some a => a | None => if (1 <? k0)%Z then 2%Z else 1%Z end) in *.
    assert (Ha' : (1 <= a)%Z) by (unfold a; destruct acc; [auto|destruct (1 <? k0)%Z; lia]).
    destruct (Prop_Diffops.C38_largest_possible_order a k0 Ha') as [L1 L2].
    destruct (Z_lt_le_dec k0 a) as [Lt|Le]; [rewrite (L2 Lt) in H1; discriminate|]. destruct (L1 Le) as [o2 [E [P M]]]. rewrite E in H1. injection H1 as ->.
    assert (Q := proj1 (M o1 P) (Z.le_refl _)). split; [assert (X := RP o1 a P Ha'); lia|]. split; [intros v V; injection V as <-; reflexivity|]. split; [discriminate|].
    intros a0 ->. split; [exact Q|]. split; [discriminate|]. intros _ o' P' R'. apply (M o' P'). exact R'.
  - injection H as <- <-. specialize (Ho o0 eq_refl). set (a := match acc with Some a => a | None => if (0 <? o0)%Z then 2%Z else 1%Z end).
    assert (Ha' : (1 <= a)%Z) by (unfold a; destruct acc; [auto|destruct (0 <? o0)%Z; lia]).
    split; [split; [exact Ho|apply RP; auto]|]. split; [discriminate|]. split; [intros v V; injection V as <-; reflexivity|].
    intros a0 ->. split; [apply Z.le_refl|]. split; [reflexivity|]. discriminate.
  - discriminate.
Qed.
Print Assumptions C38_R2Diffop_sizes.
Example C38_sizes_ex : diffop_sizes None (Some 2%Z) (Some 4%Z) = Ok (5, 2)%Z /\ diffop_sizes (Some 5%Z) None None = Ok (5, 4)%Z.
Proof. split; reflexivity. Qed.
(** hypotheses of [C37_stencil_partial]: the Laplacian and a quarter turn *)
Example C37_ex_stencil : exists v, discretize DFd (grid_coords 3 1) [1; 0; 1] = Ok v /\
  grid_exact (SpRot (GC 4)) (EI 1) /\ rotates (SpRot (GC 4)) (EI 1) /\
  forall p, meq 1 1 (fun _ _ => hom_value [1; 0; 1] (fst (plane_action (SpRot (GC 4)) (EI 1) p)) (snd (plane_action (SpRot (GC 4)) (EI 1) p)))
                  (mmul 1 (mmul 1 mid (fun _ _ => hom_value [1; 0; 1] (fst p) (snd p))) mid).
Proof.
  destruct (discretize_ok 3 1 [1; 0; 1]) as [v Ev]. 1: lia. all: try discriminate. all: try (cbn; lia).
  exists v. split; [exact Ev|]. split. { left. cbn. replace (2 * PI * 1 / 4) with (PI / 2) by field. rewrite cos_PI2. ring. }
  split; [eexists; intros p; cbn; reflexivity|]. intros p i j Hi Hj. assert (i = 0%nat) by lia. assert (j = 0%nat) by lia. subst i j.
  unfold mmul, mid. cbn. replace (2 * PI * 1 / 4) with (PI / 2) by field. unfold rotate_pt, hom_value. rewrite cos_PI2, sin_PI2. cbn. ring.
Qed.
