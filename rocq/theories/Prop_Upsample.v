(** C54: upsampling commutes with the transformations of the plane.  C33 and C48 for R2Upsampling. *)
From Coq Require Import Reals ZArith String List Bool Lia Lra.
From Verif Require Import Base LinAlg Spec Model_Groups Model_Rep Proofs_Rep Model_FieldType Proofs_FieldType Model_GSpace Spec_GSpace Proofs_GSpace Model_Conv Spec_Conv Proofs_Conv
  Proofs_Conv2 Proofs_Conv3 Proofs_Conv4 Proofs_Conv5 Proofs_Conv6 Model_Fieldwise Spec_Fieldwise Model_Regular Proofs_Restrict Proofs_Regular2 Prop_Fieldwise3 Model_Pool Spec_Pool Proofs_Pool Proofs_Pool2 Prop_Pool Prop_Pool2 Model_Upsample Proofs_Upsample.
Import ListNotations.
Open Scope R_scope.

(** For elements that swap the two axes the requested size is a square.  In the mode nearest every pixel is repeated a whole number
    of times; with align_corners an axis of more than one pixel does not become a single pixel.  (Both dropped: refuted below.) *)
Theorem C54_upsampling : forall G (sp : space G) isrep (t : ctype G) scale size mode align m (interp : forall A : Type, R -> R -> arr A -> arr A) B
    (e : gelt) (x y : arr (B -> vec)) t',
  planar_space G sp isrep -> ft_gs t = sp -> ft_reps t <> [] ->
  upsampling_make t scale size mode align = Ok m ->
  fg_is_element (sp_group (sp_obj sp)) e = true -> grid_exact (sp_obj sp) e ->
  (forall o1 o2, size = Some (IPair o1 o2) -> o1 = o2) \/ keeps_axes (sp_obj sp) e ->
  upsampling_forward space_eqb rep_eqb m t x = Ok (y, t') ->
  (mode = "nearest"%string -> (exists q, a_h y = q * a_h x)%nat /\ (exists q, a_w y = q * a_w x)%nat) ->
  (mode = "bilinear"%string -> align = true -> (a_h x = 1 \/ 1 < a_h y)%nat /\ (a_w x = 1 \/ 1 < a_w y)%nat) ->
  exists x' y' y'', field_transform interp t x e = Ok x' /\ upsampling_forward space_eqb rep_eqb m t x' = Ok (y', t') /\ field_transform interp t' y e = Ok y'' /\
    same_field (ct_size t) y' y''.
Proof.
  intros G sp isrep t scale size mode align m interp B e x y t' PS Ht Hne M He Hx Q F A1 A2.
  unfold upsampling_make in M. apply assert_ok in M as [_ M]. destruct (String.eqb mode "nearest" || String.eqb mode "bilinear")%bool eqn:MO; [|discriminate]. injection M as <-.
  unfold upsampling_forward in *. cbn [up_in up_size up_scale up_mode up_align] in *.
  apply assert_ok in F as [TE F]. apply rbind_ok in F as (y0 & F & E). injection E as -> <-.
  assert (AX : up_dom (option_map pair_of size) scale mode (if negb (String.eqb mode "nearest") then Some align else None) (a_h x) (a_w x)).
  { pose proof F as F'. apply interp_inv in F' as (H1 & H2 & H3 & H4 & -> & _). cbn [up_val a_h a_w] in A1, A2.
    assert (MB : mode <> "nearest"%string -> mode = "bilinear"%string).
    { intros N. apply orb_true_iff in MO as [MO|MO]; apply String.eqb_eq in MO; congruence. }
    assert (AL : forall b, (if negb (String.eqb mode "nearest") then Some align else None) = Some b -> align = b) by (intros b; destruct (String.eqb mode "nearest"); cbn; congruence).
    split; split; [intros N; apply A1, N|intros N D; apply (A2 (MB N) (AL _ D))|intros N; apply A1, N|intros N D; apply (A2 (MB N) (AL _ D))]. }
  destruct (module_equivariant sp isrep interp PS t Ht Hne e He Hx _ _ _ _ x y (interp_grid (option_map pair_of size) scale mode (if negb (String.eqb mode "nearest") then Some align else None) (ct_size t)))
    as (x' & y' & y'' & B1 & B2 & B3 & B4); auto.
  - destruct Q as [Q|Q]; [left|right; exact Q]. unfold up_square. destruct size as [[o|o1 o2]|]; cbn; auto.
  - exists x', y', y''. rewrite TE. cbn [assert_]. rewrite B2. auto.
Qed.
Print Assumptions C54_upsampling.

(** with a scale factor there is no condition left *)
Corollary C54_scale_factor : forall G (sp : space G) isrep (t : ctype G) s mode align m (interp : forall A : Type, R -> R -> arr A -> arr A) B
    (e : gelt) (x y : arr (B -> vec)) t',
  planar_space G sp isrep -> ft_gs t = sp -> ft_reps t <> [] ->
  upsampling_make t (Some s) None mode align = Ok m ->
  fg_is_element (sp_group (sp_obj sp)) e = true -> grid_exact (sp_obj sp) e ->
  upsampling_forward space_eqb rep_eqb m t x = Ok (y, t') ->
  a_h y = (s * a_h x)%nat /\ a_w y = (s * a_w x)%nat /\
  exists x' y' y'', field_transform interp t x e = Ok x' /\ upsampling_forward space_eqb rep_eqb m t x' = Ok (y', t') /\ field_transform interp t' y e = Ok y'' /\
    same_field (ct_size t) y' y''.
Proof.
  intros G sp isrep t s mode align m interp B e x y t' PS Ht Hne M He Hx F.
  assert (D : (0 < a_h x)%nat /\ (0 < a_w x)%nat /\ (0 < s)%nat /\ a_h y = (s * a_h x)%nat /\ a_w y = (s * a_w x)%nat).
  { pose proof M as M'. pose proof F as F'. unfold upsampling_make in M'. apply assert_ok in M' as [_ M']. destruct (String.eqb mode "nearest" || String.eqb mode "bilinear")%bool; [|discriminate]. injection M' as <-.
    unfold upsampling_forward in F'. apply assert_ok in F' as [_ F']. apply rbind_ok in F' as (y0 & F' & E). injection E as -> <-. cbn [up_in up_size up_scale up_mode up_align option_map] in F'.
    apply interp_inv in F' as (H1 & H2 & H3 & H4 & -> & _). cbn [outs fst snd up_val a_h a_w] in *. rewrite (Nat.mul_comm s), (Nat.mul_comm s). repeat split; auto. destruct s; lia. }
  destruct D as (D1 & D2 & D3 & D4 & D5). split; [exact D4|]. split; [exact D5|].
  apply (C54_upsampling G sp isrep t (Some s) None mode align m interp B e x y t'); auto.
  - left. discriminate.
  - intros _. split; exists s; auto.
  - intros _ _. rewrite D4, D5. destruct s as [|s]; [lia|]. split.
    + destruct (Nat.eq_dec (a_h x) 1); [left; auto|right]. destruct (a_h x) as [|[|h]]; lia.
    + destruct (Nat.eq_dec (a_w x) 1); [left; auto|right]. destruct (a_w x) as [|[|h]]; lia.
Qed.
Print Assumptions C54_scale_factor.

(** a quarter turn of a 2 x 3 image, scale factor 2, both modes; and a requested size of 5 x 5 *)
Example C54_ex : exists m1 m2 m3 y1 y2 y3 (t := MkFT (space_CN 4) [c4 0; c4 1]) (x := MkArr 2 3 (fun i j (_ : unit) c => INR (i * j + c))),
  planar_space Z (space_CN 4) (cyc_rep 4) /\ ft_reps t <> [] /\ fg_is_element (GC 4) (EI 1) = true /\ grid_exact (SpRot (GC 4)) (EI 1) /\
  upsampling_make t (Some 2%nat) None "nearest" false = Ok m1 /\ upsampling_forward space_eqb rep_eqb m1 t x = Ok (y1, t) /\ a_h y1 = 4%nat /\ a_w y1 = 6%nat /\
  upsampling_make t (Some 2%nat) None "bilinear" true = Ok m2 /\ upsampling_forward space_eqb rep_eqb m2 t x = Ok (y2, t) /\ a_h y2 = 4%nat /\
  upsampling_make t None (Some (IInt 5)) "bilinear" false = Ok m3 /\ upsampling_forward space_eqb rep_eqb m3 t x = Ok (y3, t) /\ a_h y3 = 5%nat /\ a_w y3 = 5%nat.
Proof.
  do 6 eexists. cbv zeta. split; [apply PS_CN; lia|]. split; [discriminate|]. split; [reflexivity|]. split; [apply exact_c4|].
  unfold upsampling_forward. split; [reflexivity|]. cbn [up_in]. rewrite type_refl_CN. cbn [assert_]. split; [reflexivity|]. split; [reflexivity|]. split; [reflexivity|].
  split; [reflexivity|]. cbn [up_in]. rewrite type_refl_CN. cbn [assert_]. split; [reflexivity|]. split; [reflexivity|].
  split; [reflexivity|]. cbn [up_in]. rewrite type_refl_CN. cbn [assert_]. split; [reflexivity|]. split; reflexivity.
Qed.

(** ** the two conditions are needed *)
(** a quarter turn of an n x n image with a bright corner: what interpolate with the size o x o makes of it *)
Lemma corner_turned interp n : let t := MkFT (space_CN 4) [c4 0] in exists x', field_transform interp t (MkArr n n corner) (EI 1) = Ok x' /\ a_h x' = n /\ a_w x' = n /\
  forall i j, (i < n)%nat -> (j < n)%nat -> a_px x' i j tt 0%nat = corner j (n - 1 - i) tt 0%nat.
Proof.
  intros t. assert (PS : planar_space Z (space_CN 4) (cyc_rep 4)) by (apply PS_CN; lia).
  destruct (space_ok _ _ _ PS) as [code [el [inv SF]]]. assert (A : gangle (SpRot (GC 4)) (EI 1) = IZR 1 * (PI / 2)) by (cbn; field).
  destruct (transform_exact _ _ _ _ _ SF interp t (EI 1) 1%Z 1%Z (MkArr n n corner) eq_refl ltac:(discriminate) eq_refl eq_refl A) as (x' & X1 & X2).
  change (ct_size t) with 1%nat in *. cbn [ft_reps t] in X2. exists x'. split; [exact X1|]. destruct X2 as (D1 & D2 & V). split; [exact D1|]. split; [exact D2|].
  intros i j Hi Hj. rewrite V; [|rewrite D1; exact Hi|rewrite D2; exact Hj|lia].
  match goal with |- a_px (amap ?f _) i j tt _ = _ => change (a_px (amap f (transpose (flip_cols (MkArr n n corner)))) i j tt 0%nat = corner j (n - 1 - i) tt 0%nat) end.
  cbn [amap a_px transpose flip_cols a_w]. unfold mvec. cbn [rsum]. rewrite trep_c4_0. ring.
Qed.
Lemma turned interp (y : arr (unit -> vec)) : let t := MkFT (space_CN 4) [c4 0] in exists y'', field_transform interp t y (EI 1) = Ok y'' /\ a_h y'' = a_w y /\ a_w y'' = a_h y /\
  forall i j, (i < a_w y)%nat -> (j < a_h y)%nat -> a_px y'' i j tt 0%nat = a_px y j (a_w y - 1 - i)%nat tt 0%nat.
Proof.
  intros t. assert (PS : planar_space Z (space_CN 4) (cyc_rep 4)) by (apply PS_CN; lia).
  destruct (space_ok _ _ _ PS) as [code [el [inv SF]]]. assert (A : gangle (SpRot (GC 4)) (EI 1) = IZR 1 * (PI / 2)) by (cbn; field).
  destruct (transform_exact _ _ _ _ _ SF interp t (EI 1) 1%Z 1%Z y eq_refl ltac:(discriminate) eq_refl eq_refl A) as (x' & X1 & X2).
  change (ct_size t) with 1%nat in *. cbn [ft_reps t] in X2. exists x'. split; [exact X1|]. destruct X2 as (D1 & D2 & V). split; [exact D1|]. split; [exact D2|].
  intros i j Hi Hj. rewrite V; [|rewrite D1; exact Hi|rewrite D2; exact Hj|lia].
  match goal with |- a_px (amap ?f _) i j tt _ = _ => change (a_px (amap f (transpose (flip_cols y))) i j tt 0%nat = a_px y j (a_w y - 1 - i)%nat tt 0%nat) end.
  cbn [amap a_px transpose flip_cols a_w]. unfold mvec. cbn [rsum]. rewrite trep_c4_0. ring.
Qed.
(** mode nearest, a 3 x 3 image and size 2: rows 0 and 1 are kept, so a half turn or a quarter turn before gives other pixels *)
Theorem C54_nearest_refuted : exists (t : ctype Z) m x y, planar_space Z (ft_gs t) (cyc_rep 4) /\ ft_gs t = space_CN 4 /\ ft_reps t <> [] /\
  upsampling_make t None (Some (IInt 2)) "nearest" false = Ok m /\ upsampling_forward (B := unit) space_eqb rep_eqb m t x = Ok (y, t) /\ a_h x = 3%nat /\ a_w x = 3%nat /\
  forall interp, exists x' y' y'', field_transform interp t x (EI 1) = Ok x' /\ upsampling_forward space_eqb rep_eqb m t x' = Ok (y', t) /\ field_transform interp t y (EI 1) = Ok y'' /\
    ~ same_field (ct_size t) y' y''.
Proof.
  set (t := MkFT (space_CN 4) [c4 0]). exists t. eexists. exists (MkArr 3 3 corner). eexists.
  split; [apply PS_CN; lia|]. split; [reflexivity|]. split; [discriminate|]. split; [reflexivity|].
  unfold upsampling_forward. cbn [up_in up_size up_scale up_mode up_align option_map pair_of]. assert (TE : ft_eqb space_eqb rep_eqb t t = true) by apply type_refl_CN. rewrite TE. cbn [assert_].
  split; [reflexivity|]. split; [reflexivity|]. split; [reflexivity|]. intros interp.
  destruct (corner_turned interp 3) as (x' & X1 & DX1 & DX2 & VX). fold t in X1.
  match goal with |- exists _ _ _, _ /\ _ /\ field_transform interp t ?yy _ = _ /\ _ => set (y0 := yy) end.
  destruct (turned interp y0) as (y'' & Y1 & DY1 & DY2 & VY). fold t in Y1. exists x'. eexists. exists y''. split; [exact X1|]. split.
  { unfold interpolate. rewrite DX1, DX2. reflexivity. }
  split; [exact Y1|]. intros (_ & _ & V). specialize (V 1%nat 0%nat tt 0%nat ltac:(cbn; lia) ltac:(cbn; lia) ltac:(cbn; lia)).
  rewrite VY in V by (cbn; lia). cbn [a_px y0 a_w Nat.sub fst snd] in V.
  assert (T : forall i, (i < 2)%nat -> taps "nearest" None (INR 3 / INR 2) 3 2 i = [(i, 1)]).
  { intros i Hi. unfold taps. cbn [String.eqb Ascii.eqb Bool.eqb]. unfold nearest_taps. rewrite (int_part_nat _ i); [rewrite Nat.min_l by lia; reflexivity| |]; destruct i as [|[|i]]; try lia; cbn; lra. }
  cbn [String.eqb Ascii.eqb Bool.eqb negb] in V. change (1 - 0)%nat with 1%nat in V. change (2 - 1 - 1)%nat with 0%nat in V. rewrite !T in V by lia. unfold tap_sum in V. cbn [fold_right fst snd] in V.
  rewrite VX in V by lia. unfold corner in V. cbn in V. lra.
Qed.
Print Assumptions C54_nearest_refuted.
(** align_corners, a 2 x 2 image and size 1: the result is the first pixel *)
Theorem C54_align_corners_refuted : exists (t : ctype Z) m x y, planar_space Z (ft_gs t) (cyc_rep 4) /\ ft_gs t = space_CN 4 /\ ft_reps t <> [] /\
  upsampling_make t None (Some (IInt 1)) "bilinear" true = Ok m /\ upsampling_forward (B := unit) space_eqb rep_eqb m t x = Ok (y, t) /\ a_h x = 2%nat /\ a_w x = 2%nat /\
  forall interp, exists x' y' y'', field_transform interp t x (EI 1) = Ok x' /\ upsampling_forward space_eqb rep_eqb m t x' = Ok (y', t) /\ field_transform interp t y (EI 1) = Ok y'' /\
    ~ same_field (ct_size t) y' y''.
Proof.
  set (t := MkFT (space_CN 4) [c4 0]). exists t. eexists. exists (MkArr 2 2 corner). eexists.
  split; [apply PS_CN; lia|]. split; [reflexivity|]. split; [discriminate|]. split; [reflexivity|].
  unfold upsampling_forward. cbn [up_in up_size up_scale up_mode up_align option_map pair_of]. assert (TE : ft_eqb space_eqb rep_eqb t t = true) by apply type_refl_CN. rewrite TE. cbn [assert_].
  split; [reflexivity|]. split; [reflexivity|]. split; [reflexivity|]. intros interp.
  destruct (corner_turned interp 2) as (x' & X1 & DX1 & DX2 & VX). fold t in X1.
  match goal with |- exists _ _ _, _ /\ _ /\ field_transform interp t ?yy _ = _ /\ _ => set (y0 := yy) end.
  destruct (turned interp y0) as (y'' & Y1 & DY1 & DY2 & VY). fold t in Y1. exists x'. eexists. exists y''. split; [exact X1|]. split.
  { unfold interpolate. rewrite DX1, DX2. reflexivity. }
  split; [exact Y1|]. intros (_ & _ & V). specialize (V 0%nat 0%nat tt 0%nat ltac:(cbn; lia) ltac:(cbn; lia) ltac:(cbn; lia)).
  rewrite VY in V by (cbn; lia). cbn [a_px y0 a_w Nat.sub fst snd] in V.
  assert (T : forall ratio, taps "bilinear" (Some true) ratio 2 1 0 = [(0%nat, 1 - 0); (1%nat, 0)]).
  { intros ratio. unfold taps. cbn [String.eqb Ascii.eqb Bool.eqb]. unfold source. cbn [Nat.ltb Nat.leb]. rewrite Rmult_0_r. replace 0 with (INR 0 + 0) at 1 by (cbn; ring). rewrite linear_at by (try lia; lra). reflexivity. }
  cbn [String.eqb Ascii.eqb Bool.eqb negb] in V. rewrite !T in V. unfold tap_sum in V. cbn [fold_right fst snd] in V.
  rewrite !VX in V by lia. unfold corner in V. cbn in V. lra.
Qed.
Print Assumptions C54_align_corners_refuted.

(** ** C33 *)
Theorem C33_upsampling_shape : forall G (t : ctype G) scale size mode align m B (x y : arr (B -> vec)) t' batch,
  upsampling_make t scale size mode align = Ok m -> upsampling_forward space_eqb rep_eqb m t x = Ok (y, t') ->
  upsampling_shape m (batch, Z.of_nat (ct_size t), Z.of_nat (a_h x), Z.of_nat (a_w x)) = Ok (batch, Z.of_nat (ct_size t'), Z.of_nat (a_h y), Z.of_nat (a_w y)).
Proof.
  intros G t scale size mode align m B x y t' batch M F. unfold upsampling_make in M. apply assert_ok in M as [_ M]. destruct (String.eqb mode "nearest" || String.eqb mode "bilinear")%bool; [|discriminate]. injection M as <-.
  unfold upsampling_forward in F. apply assert_ok in F as [_ F]. apply rbind_ok in F as (y0 & F & E). injection E as -> <-. cbn [up_in up_size up_scale up_mode up_align] in *.
  apply interp_inv in F as (H1 & H2 & H3 & H4 & -> & SZ). unfold upsampling_shape. cbn [up_in up_size up_scale]. change (ft_chans t) with (ct_size t). rewrite Z.eqb_refl. cbn [assert_ up_val a_h a_w].
  destruct size as [o|]; cbn [option_map] in *.
  - destruct SZ as [[SZ _]|[_ ->]]; [discriminate|]. reflexivity.
  - destruct SZ as [[_ SZ]|[SZ _]]; [|congruence]. destruct scale as [s|]; [|congruence]. cbn [outs fst snd]. rewrite !Nat2Z.inj_mul. reflexivity.
Qed.
Print Assumptions C33_upsampling_shape.

(** ** C48 *)
(** Missing for the full property: modules with a size (refuted below) *)
Theorem C48_upsampling_export_partial : forall G (t : ctype G) scale mode align m c, upsampling_make t scale None mode align = Ok m -> upsampling_export m = Ok c ->
  forall B (x : arr (B -> vec)), ft_eqb space_eqb rep_eqb t t = true -> upsampling_forward space_eqb rep_eqb m t x = rbind (tupsample_forward c x) (fun y => Ok (y, t)).
Proof.
  intros G t scale mode align m c M E B x TE. unfold upsampling_make in M. apply assert_ok in M as [_ M]. destruct (String.eqb mode "nearest" || String.eqb mode "bilinear")%bool; [|discriminate]. injection M as <-.
  injection E as <-. unfold upsampling_forward. cbn [up_in]. rewrite TE. reflexivity.
Qed.
Print Assumptions C48_upsampling_export_partial.
(** with a size, the exported module raises for every image, also where the module does not (C54_ex) *)
Theorem C48_upsampling_size_refuted : forall G (t : ctype G) scale size mode align m c, upsampling_make t scale (Some size) mode align = Ok m -> upsampling_export m = Ok c ->
  forall B (x : arr (B -> vec)), tupsample_forward c x = Err "ValueError".
Proof.
  intros G t scale size mode align m c M E B x. unfold upsampling_make in M. apply assert_ok in M as [A M]. destruct scale; [discriminate|].
  destruct (String.eqb mode "nearest" || String.eqb mode "bilinear")%bool; [|discriminate]. injection M as <-. injection E as <-. reflexivity.
Qed.
Print Assumptions C48_upsampling_size_refuted.
