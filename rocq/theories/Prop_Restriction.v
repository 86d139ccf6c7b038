(** Theorem C18 for RestrictionModule over every gspace and subgroup, and the parts of C33 and C48 about it. *)
From Coq Require Import Reals ZArith String List Bool Lia Lra.
From Verif Require Import Base Spec Model_Groups Proofs_Groups Proofs_Cont Model_Rep Proofs_Rep Proofs_Restrict Model_FieldType Proofs_FieldType Model_Tensor Proofs_Tensor Model_GSpace Spec_GSpace Proofs_GSpace
  Model_Kernels Model_Utils Model_Expansion Model_Conv Spec_Conv Proofs_Conv Proofs_Conv2 Proofs_Conv4 Proofs_Conv5 Proofs_Conv6 Prop_GSpace Model_Support Model_Restriction.
Import ListNotations.
Open Scope R_scope.

(** ** the small specification *)
(** representations of a group: of its irreps, with an invertible change of basis *)
Definition rep_of (g : fgroup) : rep (carrier g) -> Prop :=
  match g return rep (carrier g) -> Prop with GC N => cyc_rep N | GD N => dih_rep N | GSO2 _ => so2_rep | GO2 _ => o2_rep end.
(** the interpolation of images treats every channel by itself *)
Definition channelwise (interp : forall A : Type, R -> R -> arr A -> arr A) : Prop :=
  forall B n c s (x y : arr (B -> vec)), same_field n x y -> same_field n (interp _ c s x) (interp _ c s y).

(** ** proofs *)
Lemma space_of_obj s : sp_obj (space_of s) = s.
Proof. destruct s as [g|g a|g|g a]; destruct g; reflexivity. Qed.
Lemma space_of_prj s : sp_prj (space_of s) = prj_of (sp_group s).
Proof. destruct s as [g|g a|g|g a]; destruct g; reflexivity. Qed.
Lemma space_of_planar s : constructed s -> planar_space _ (space_of s) (rep_of (sp_group s)).
Proof.
  intros [Hg Hc]. destruct s as [g|g a|g|g a]; destruct g as [N|N|F|F]; cbn in Hg, Hc |- *; try discriminate.
  - destruct (Z.eqb_spec N 1) as [->|]; [|discriminate]. exact PS_trivial.
  - destruct (Z.eqb_spec N 2) as [->|]; [|discriminate]. exact (PS_flip a).
  - unfold rot2d_on_r2 in Hc. cbn [fg_order] in Hc. apply PS_CN. destruct (Z.ltb_spec 1 N); [lia|]. destruct (Z.eqb_spec N (-1)); [lia|discriminate].
  - apply PS_SO2. exact Hg.
  - unfold fliprot2d_on_r2 in Hc. cbn [fg_rotation_order] in Hc. apply PS_DN. destruct (Z.ltb_spec 1 N); [lia|]. destruct (Z.eqb_spec N (-1)); [lia|discriminate].
  - apply PS_O2. exact Hg.
Qed.

Lemma patch_irreps {G} (r : rep G) : rp_irreps (restrict_trivial_patch r) = rp_irreps r /\ rp_cob (restrict_trivial_patch r) = rp_cob r /\ rp_inv (restrict_trivial_patch r) = rp_inv r.
Proof. unfold restrict_trivial_patch. destruct (_ && _)%bool; auto. Qed.
Lemma patch_mat {G} (r : rep G) g : rp_mat (restrict_trivial_patch r) g = rp_mat r g.
Proof. destruct (patch_irreps r) as [A [B C]]. unfold rp_mat, rp_size. rewrite A, B, C. reflexivity. Qed.
Lemma patch_size {G} (r : rep G) : rp_size (restrict_trivial_patch r) = rp_size r.
Proof. destruct (patch_irreps r) as [A _]. unfold rp_size. rewrite A. reflexivity. Qed.
Lemma patch_accepted {G} (r : rep G) : rep_accepted (restrict_trivial_patch r) <-> rep_accepted r.
Proof. destruct (patch_irreps r) as [A [B C]]. unfold rep_accepted. rewrite B, C, patch_size. reflexivity. Qed.
Lemma patch_rep g (r : rep (carrier g)) : rep_of g r -> rep_of g (restrict_trivial_patch r).
Proof.
  assert (P := patch_accepted r). destruct (patch_irreps r) as [A _].
  destruct g; cbn [rep_of carrier] in *; intros [H1 H2]; (split; [apply P; exact H1|]); rewrite A; exact H2.
Qed.

(** what is needed of one representation *)
Definition restricted_well (g g' : fgroup) (mapping : gelt -> gelt) (r : rep (carrier g)) (r' : rep (carrier g')) : Prop :=
  rp_size r' = rp_size r /\ rep_of g' r' /\
  forall h, fg_is_element g' h = true -> exists h0 g0, prj_of g' h = Some h0 /\ prj_of g (mapping h) = Some g0 /\ meq (rp_size r) (rp_size r) (rp_mat r' h0) (rp_mat r g0).

(** from the typed lemma to the dynamically typed statement *)
Lemma good_well {g g' : fgroup} (elH : carrier g' -> Prop) mapping parent (r : rep (carrier g)) restrict :
  good_restriction elH (rep_of g') parent r restrict ->
  (forall h, fg_is_element g' h = true -> exists h0, elH h0 /\ prj_of g' h = Some h0 /\ prj_of g (mapping h) = Some (parent h0)) ->
  (forall inv, exists r', restrict inv = Ok r') ->
  (forall inv, exists r', restrict inv = Ok r') /\ forall inv r', restrict inv = Ok r' -> rep_accepted r' -> restricted_well g g' mapping r r'.
Proof.
  intros [_ G2] HP T. split; [exact T|]. intros inv r' E A. destruct (G2 inv r' E A) as [A1 [A2 A3]]. split; [exact A1|]. split; [exact A2|].
  intros h Hh. destruct (HP h Hh) as [h0 [E0 [P1 P2]]]. exists h0, (parent h0). auto.
Qed.
Lemma restrict_any_inv {G H} prefix (one : irrep G -> result (mat * list (irrep H))) r : (exists inv r', restrict_representation prefix one r inv = Ok r' /\ rep_accepted r') ->
  forall inv, exists r', restrict_representation prefix one r inv = Ok r'.
Proof. intros [i0 [r0 [E _]]] inv. unfold restrict_representation in *. apply rbind_ok in E as [p [-> _]]. cbn. eauto. Qed.

Lemma elements_GC M h : fg_is_element (GC M) h = true -> exists z, h = EI z /\ cyc_el M z.
Proof. destruct h; cbn; try discriminate. eauto. Qed.
Lemma elements_GD M h : fg_is_element (GD M) h = true -> exists a b, h = EFI a b /\ dih_el M (a, b).
Proof. destruct h; cbn; try discriminate. eauto. Qed.

Lemma restrict_one_well name g id g' mapping child r : group_object g -> fg_subgroup g id = Ok (g', mapping, child) -> rep_of g r ->
  (forall inv, exists r', restrict_representation name (restrict_one g g' id) r inv = Ok r') /\
  forall inv r', restrict_representation name (restrict_one g g' id) r inv = Ok r' -> rep_accepted r' -> restricted_well g g' mapping r r'.
Proof.
  intros Hg HS Hr. destruct g as [N|N|F|F]; destruct id as [M|a M|a M]; cbn [fg_subgroup] in HS; try discriminate.
  - destruct (cyc_subgroup N M) as [[[M' p] c]|] eqn:E; [|discriminate]. cbn [rbind wrap_fin] in HS. injection HS as <- <- <-.
    assert (EM : M' = M). { clear -E. unfold cyc_subgroup, py_mod in E. destruct (M =? 0)%Z; [discriminate|]. apply assert_ok in E as [_ E]. apply rbind_ok in E as [g [Eg E]]. injection E as <- _ _. apply assert_ok in Eg as [_ Eg]. injection Eg as <-. reflexivity. }
    subst M'. assert (GR := cyc_restriction N M name r _ _ _ Hg E Hr).
    refine (good_well (g := GC N) (g' := GC M) (cyc_el M) _ p r _ GR _ (restrict_any_inv _ _ _ (proj1 GR))).
    intros h Hh. apply elements_GC in Hh as [z [-> Hz]]. exists z. auto.
  - destruct (dih_subgroup N (a, M)) as [s|] eqn:E; [|discriminate]. cbn [rbind] in HS. assert (GR := dih_restriction N (a, M) name r s Hg E Hr).
    destruct s as [M' p c|M' p c]; cbn [wrap_fin] in HS; injection HS as <- <- <-.
    + refine (good_well (g := GD N) (g' := GC M') (cyc_el M') _ p r _ GR _ (restrict_any_inv _ _ _ (proj1 GR))).
      intros h Hh. apply elements_GC in Hh as [z [-> Hz]]. exists z. cbn [in_int prj_of prj_EI]. split; [auto|]. split; [auto|]. unfold mk_EFI, prj_EFI. destruct (p z); reflexivity.
    + refine (good_well (g := GD N) (g' := GD M') (dih_el M') _ p r _ GR _ (restrict_any_inv _ _ _ (proj1 GR))).
      intros h Hh. apply elements_GD in Hh as [x [y [-> Hz]]]. exists (x, y). cbn [in_flipint prj_of prj_EFI]. split; [auto|]. split; [auto|]. unfold mk_EFI, prj_EFI. destruct (p (x, y)); reflexivity.
  - destruct (so2_subgroup M) as [s|] eqn:E; [|discriminate]. cbn [rbind] in HS.
    assert (HM : exists p c, s = SubC M p c). { clear -E. unfold so2_subgroup in E. apply rbind_ok in E as [q [Eq E]]. apply assert_ok in Eq as [_ Eq]. injection Eq as <-. injection E as <-. eauto. }
    destruct HM as [p [c ->]]. cbn [wrap_fin] in HS. injection HS as <- <- <-. assert (GR := so2_restriction M name r M p c E Hr).
    refine (good_well (g := GSO2 F) (g' := GC M) (cyc_el M) _ p r _ GR _ (restrict_any_inv _ _ _ (proj1 GR))).
    intros h Hh. apply elements_GC in Hh as [z [-> Hz]]. exists z. auto.
  - destruct (o2_subgroup (a, M)) as [s|] eqn:E; [|discriminate]. cbn [rbind] in HS. assert (GR := o2_restriction (a, M) name r s E Hr).
    destruct s as [p c|p c|[M' p c|M' p c]]; cbn [wrap_fin] in HS; injection HS as <- <- <-.
    + refine (good_well (g := GO2 F) (g' := GO2 F) o2_el _ p r _ GR _ (restrict_any_inv _ _ _ (proj1 GR))).
      intros h Hh. destruct h as [ | | |x y]; try discriminate. exists (x, y). cbn [in_flipreal prj_of prj_EFR]. split; [exact Hh|]. split; [auto|]. unfold mk_EFR, prj_EFR. destruct (p (x, y)); reflexivity.
    + refine (good_well (g := GO2 F) (g' := GSO2 F) so2_el _ p r _ GR _ (restrict_any_inv _ _ _ (proj1 GR))).
      intros h Hh. destruct h as [ |z| | ]; try discriminate. exists z. cbn [in_real prj_of prj_ER]. split; [exact I|]. split; [auto|]. unfold mk_EFR, prj_EFR. destruct (p z); reflexivity.
    + refine (good_well (g := GO2 F) (g' := GC M') (cyc_el M') _ p r _ GR _ (restrict_any_inv _ _ _ (proj1 GR))).
      intros h Hh. apply elements_GC in Hh as [z [-> Hz]]. exists z. cbn [in_int prj_of prj_EI]. split; [auto|]. split; [auto|]. unfold mk_EFR, prj_EFR. destruct (p z); reflexivity.
    + refine (good_well (g := GO2 F) (g' := GD M') (dih_el M') _ p r _ GR _ (restrict_any_inv _ _ _ (proj1 GR))).
      intros h Hh. apply elements_GD in Hh as [x [y [-> Hz]]]. exists (x, y). cbn [in_flipint prj_of prj_EFI]. split; [auto|]. split; [auto|]. unfold mk_EFR, prj_EFR. destruct (p (x, y)); reflexivity.
Qed.

(** the action on images of arrays that agree on the first channels *)
Lemma same_rows {B} n (x y : arr (B -> vec)) : same_field n x y -> same_field n (flip_rows x) (flip_rows y).
Proof. intros (H1 & H2 & H3). split; [exact H1|]. split; [exact H2|]. cbn. intros i j b c Hi Hj Hc. rewrite <- H1. apply H3; auto. lia. Qed.
Lemma same_cols {B} n (x y : arr (B -> vec)) : same_field n x y -> same_field n (flip_cols x) (flip_cols y).
Proof. intros (H1 & H2 & H3). split; [exact H1|]. split; [exact H2|]. cbn. intros i j b c Hi Hj Hc. rewrite <- H2. apply H3; auto. lia. Qed.
Lemma same_transpose {B} n (x y : arr (B -> vec)) : same_field n x y -> same_field n (transpose x) (transpose y).
Proof. intros (H1 & H2 & H3). split; [exact H2|]. split; [exact H1|]. cbn. intros i j b c Hi Hj Hc. apply H3; auto. Qed.
Lemma same_rot90 {B} n k (x y : arr (B -> vec)) : same_field n x y -> same_field n (rot90 x k) (rot90 y k).
Proof.
  intros H. unfold rot90. destruct (_ =? 0)%Z; [exact H|]. destruct (_ =? 2)%Z; [apply same_cols, same_rows, H|]. destruct (_ =? 1)%Z; [apply same_transpose, same_cols, H|].
  apply same_cols, same_transpose, H.
Qed.
Lemma same_rotate interp {B} n a (x y : arr (B -> vec)) : channelwise interp -> same_field n x y -> same_field n (rotate_array interp x a) (rotate_array interp y a).
Proof. intros C H. unfold rotate_array. destruct (is_integer _); [apply same_rot90, H|apply C, H]. Qed.
Lemma same_action interp {B} n s e (x y : arr (B -> vec)) x' : channelwise interp -> basespace_action interp s x e = Ok x' -> same_field n x y ->
  exists y', basespace_action interp s y e = Ok y' /\ same_field n x' y'.
Proof.
  intros C E0 H. revert E0. unfold basespace_action. destruct (fg_is_element (sp_group s) e); cbn [assert_]; [|discriminate].
  destruct s as [g|g ax|g|g ax]; destruct e as [z|a|f z|f a]; try discriminate; cbv zeta; intros E.
  1-4: injection E as <-; exists y; auto.
  - destruct (z =? 0)%Z; injection E as <-; [exists y; auto|]. eexists. split; [reflexivity|]. destruct (Req_EM_T ax 0); [apply same_rows, H|apply same_rotate; [exact C|apply same_rows, H]].
  - injection E as <-. eexists. split; [reflexivity|]. apply same_rotate; auto.
  - injection E as <-. eexists. split; [reflexivity|]. apply same_rotate; auto.
  - injection E as <-. eexists. split; [reflexivity|]. assert (H' : same_field n (if (f =? 0)%Z then x else flip_rows x) (if (f =? 0)%Z then y else flip_rows y)) by (destruct (f =? 0)%Z; [exact H|apply same_rows, H]).
    destruct (Req_EM_T _ 0); [exact H'|apply same_rotate; auto].
  - injection E as <-. eexists. split; [reflexivity|]. assert (H' : same_field n (if (f =? 0)%Z then x else flip_rows x) (if (f =? 0)%Z then y else flip_rows y)) by (destruct (f =? 0)%Z; [exact H|apply same_rows, H]).
    destruct (Req_EM_T _ 0); [exact H'|apply same_rotate; auto].
Qed.
Lemma action_total interp {A} s e (x : arr A) : constructed s -> fg_is_element (sp_group s) e = true -> exists y, basespace_action interp s x e = Ok y.
Proof.
  intros [_ Hc] He. unfold basespace_action. rewrite He. cbn [assert_]. destruct s as [g|g ax|g|g ax]; destruct g; cbn in Hc; try discriminate; destruct e; try discriminate; cbv zeta; try (eexists; reflexivity).
  destruct (_ =? 0)%Z; eexists; reflexivity.
Qed.

Definition names_tell {G} (reps : list (rep G)) : Prop := forall r s, In r reps -> In s reps -> rp_name r = rp_name s -> r = s.

Lemma gspace_eq_dec (a b : gspace) : {a = b} + {a <> b}.
Proof. decide equality; try apply Req_EM_T; decide equality; apply Z.eq_dec. Defined.
Lemma restriction_inv name invs s reps uniq id s' tout : restriction_make name invs s reps uniq id = Ok (existT _ s' tout) ->
  exists mapping child, sp_restrict s id = Ok (s', mapping, child) /\
    ft_restrict (fun _ _ => true) (space_of s') (group_restrict name invs (sp_group s) (sp_group s') id) uniq (MkFT (space_of s) reps) = Ok tout.
Proof.
  intros E. unfold restriction_make in E. apply rbind_ok in E as [[[s1 mapping] child] [E1 E]].
  apply rbind_ok in E as [t [Et E]]. assert (X : existT (fun s' => ctype (carrier (sp_group s'))) s1 t = existT _ s' tout) by congruence.
  assert (s1 = s') by (apply (f_equal (@projT1 _ _)) in X; exact X). subst s1. apply (Eqdep_dec.inj_pair2_eq_dec _ gspace_eq_dec) in X. subst t. eauto.
Qed.
(** the transform of a field, up to the channels that do not exist *)
Lemma transform_any interp {B} s (reps : list (rep (carrier (sp_group s)))) (x : arr (B -> vec)) e g : channelwise interp -> constructed s -> reps <> [] -> fg_is_element (sp_group s) e = true ->
  prj_of (sp_group s) e = Some g ->
  exists y y', field_transform interp (MkFT (space_of s) reps) x e = Ok y /\
    basespace_action interp s (amap (fun v b => mvec (nsum (map rp_size reps)) (trep reps g) (v b)) x) e = Ok y' /\ same_field (nsum (map rp_size reps)) y y'.
Proof.
  intros CW Hc Hne He Hg. unfold field_transform, type_representation. cbn [ft_reps ft_gs]. destruct (directsum reps (Some "FiberRepresentation"%string)) as [rho|] eqn:E.
  2:{ unfold directsum in E. destruct reps; [congruence|discriminate]. }
  cbn [rbind]. rewrite space_of_obj. unfold featurefield_action. rewrite fg_eqb_refl. cbn [assert_]. rewrite space_of_prj, Hg.
  set (n := nsum (map rp_size reps)). assert (Sz : rp_size rho = n) by apply (ds_size _ _ _ E). rewrite Sz.
  change (MkArr (a_h x) (a_w x) (fun i j b => mvec n (rp_mat rho g) (a_px x i j b))) with (amap (fun v (b : B) => mvec n (rp_mat rho g) (v b)) x).
  destruct (action_total interp s e (amap (fun v (b : B) => mvec n (rp_mat rho g) (v b)) x) Hc He) as [y Hy].
  destruct (same_action interp n s e _ (amap (fun v b => mvec n (trep reps g) (v b)) x) y CW Hy) as [y' [Y1 Y2]].
  { apply same_field_lin; [|apply same_field_refl]. apply (directsum_mat _ _ _ g E). }
  exists y, y'. auto.
Qed.

(** ** C18: the module *)
(** Whatever the space, the subgroup and the type, if names identify the representations of the type: the constructor gives the type over the
    restricted space, made of representations of the subgroup of the same sizes; forward leaves the numbers unchanged, and for every
    element h of the subgroup, transforming the input by the image of h and restricting it is the same as restricting it and
    transforming the result by h. *)
Theorem C18_module_partial : forall name invs s reps uniq id s' tout,
  constructed s -> Forall (rep_of (sp_group s)) reps -> (forall r, In r uniq <-> In r reps) -> names_tell reps ->
  (forall r r', In r reps -> group_restrict name invs (sp_group s) (sp_group s') id r = Ok r' -> rep_accepted r') ->
  restriction_make name invs s reps uniq id = Ok (existT _ s' tout) ->
  exists mapping child, sp_restrict s id = Ok (s', mapping, child) /\ ft_gs tout = space_of s' /\ Forall (rep_of (sp_group s')) (ft_reps tout) /\
    map rp_size (ft_reps tout) = map rp_size reps /\
    forall interp B (x z : arr (B -> vec)) h tz, let tin := MkFT (space_of s) reps in
    channelwise interp -> fg_is_element (sp_group s') h = true -> restriction_forward tin tout tin x = Ok (z, tz) ->
    z = x /\ tz = tout /\
    exists x' z' z'', field_transform interp tin x (mapping h) = Ok x' /\ restriction_forward tin tout tin x' = Ok (z', tz) /\
      field_transform interp tz z h = Ok z'' /\ same_field (ct_size tin) z' z''.
Proof.
  intros name invs s reps uniq id s' tout Hc HR U NT AC E. destruct (restriction_inv _ _ _ _ _ _ _ _ E) as [mapping [child [E1 E2]]].
  exists mapping, child. split; [exact E1|]. destruct (restrict_form _ _ _ _ _ Hc E1) as (Hc' & HS & HE).
  destruct (ft_restrict_spec _ _ _ _ (MkFT (space_of s) reps) _ U NT E2) as [G1 F2]. cbn [ft_reps ft_gs] in F2. split; [exact G1|].
  assert (W : Forall2 (restricted_well (sp_group s) (sp_group s') mapping) reps (ft_reps tout)).
  { assert (IN : forall r, In r reps -> In r reps) by auto. revert IN F2. generalize (ft_reps tout) as l'. generalize reps at 1 3 4 as l. induction l as [|r l IH]; intros l' IN F2; inversion F2 as [|? r' ? l2 F3 F4]; subst; constructor.
    - assert (Hr : rep_of (sp_group s) r) by (rewrite Forall_forall in HR; apply HR, IN; left; auto). assert (A := AC r r' (IN r (or_introl eq_refl)) F3).
      unfold group_restrict in F3. apply rbind_ok in F3 as [r0 [F3 F5]]. injection F5 as <-. apply (proj1 (patch_accepted r0)) in A.
      destruct (restrict_one_well name _ _ _ _ _ r (proj1 Hc) HS Hr) as [_ RW]. destruct (RW _ _ F3 A) as [W1 [W2 W3]].
      split; [rewrite patch_size; exact W1|]. split; [apply patch_rep, W2|]. intros h Hh. destruct (W3 h Hh) as [h0 [g0 [W4 [W5 W6]]]]. exists h0, g0. split; [exact W4|]. split; [exact W5|].
      intros i j Hi Hj. rewrite patch_mat. apply W6; auto.
    - apply IH; auto. intros; apply IN; right; auto. }
  split; [|split].
  { clear -W. induction W as [|r r' l l' H W IH]; constructor; auto. apply H. }
  { clear -W. induction W as [|r r' l l' H W IH]; cbn; [reflexivity|]. f_equal; auto. apply H. }
  assert (SZ : nsum (map rp_size (ft_reps tout)) = nsum (map rp_size reps)).
  { f_equal. clear -W. induction W as [|r r' l l' H W IH]; cbn; [reflexivity|]. f_equal; auto. apply H. }
  assert (NE : reps <> [] /\ ft_reps tout <> []).
  { assert (X : ft_reps tout <> []). { unfold ft_restrict in E2. apply rbind_ok in E2 as [d [_ E2]]. apply rbind_ok in E2 as [fs [_ E2]]. unfold mk_ftype in E2. apply assert_ok in E2 as [E3 E2]. apply assert_ok in E2 as [_ E2]. injection E2 as <-. cbn. destruct fs; [discriminate|congruence]. }
    split; [|exact X]. intros Z. apply X. destruct W; [reflexivity|discriminate]. }
  destruct NE as [NE NE'].
  intros interp B x z h tz tin CW Hh F. unfold restriction_forward in F. apply assert_ok in F as [FT F]. injection F as <- <-. split; [reflexivity|]. split; [reflexivity|].
  destruct (HE h Hh) as [Hm _].
  assert (PJ : exists h0 g0, prj_of (sp_group s') h = Some h0 /\ prj_of (sp_group s) (mapping h) = Some g0).
  { destruct W as [|r r' l l' (_ & _ & W3) _]; [congruence|]. destruct (W3 h Hh) as [h0 [g0 [P1 [P2 _]]]]. eauto. }
  destruct PJ as [h0 [g0 [P1 P2]]].
  assert (TR : meq (nsum (map rp_size reps)) (nsum (map rp_size reps)) (trep (ft_reps tout) h0) (trep reps g0)).
  { assert (X : Forall2 (fun p q : nat * mat => fst p = fst q /\ meq (fst p) (fst p) (snd p) (snd q)) (map (fun r => (rp_size r, rp_mat r g0)) reps) (map (fun r => (rp_size r, rp_mat r h0)) (ft_reps tout))).
    { clear -W P1 P2 Hh. induction W as [|r r' l l' (W1 & _ & W3) W IH]; constructor; auto. cbn. split; [auto|]. destruct (W3 h Hh) as [h1 [g1 [Q1 [Q2 Q3]]]]. assert (h1 = h0) by congruence. assert (g1 = g0) by congruence. subst.
      intros i j Hi Hj. symmetry. apply Q3; auto. }
    apply bdiag_ext in X. unfold bsize in X. rewrite map_map in X. intros i j Hi Hj. symmetry. apply X; exact Hi || exact Hj. }
  destruct (transform_any interp s reps x (mapping h) g0 CW Hc NE Hm P2) as (x' & y1 & T1 & T2 & T3).
  destruct (transform_any interp s' (ft_reps tout) x h h0 CW Hc' NE' Hh P1) as (z'' & y2 & T4 & T5 & T6).
  assert (ET : tout = MkFT (space_of s') (ft_reps tout)) by (destruct tout; cbn in G1 |- *; subst; reflexivity).
  destruct (C20_restrict_space s id Hc) as [_ C20]. destruct (C20 _ _ _ E1) as (_ & _ & C20'). destruct (C20' h Hh) as (_ & _ & C20''). rewrite C20'' in T5. rewrite SZ in T5, T6.
  destruct (same_action interp (nsum (map rp_size reps)) s (mapping h) _ (amap (fun v b => mvec (nsum (map rp_size reps)) (trep reps g0) (v b)) x) y2 CW T5) as [y' [Y1 Y2]].
  { apply same_field_lin; [exact TR|apply same_field_refl]. }
  assert (y' = y1) by congruence. subst y'.
  exists x', x', z''. split; [exact T1|]. split; [unfold restriction_forward; rewrite FT; reflexivity|]. split; [rewrite ET; exact T4|].
  change (ct_size tin) with (nsum (map rp_size reps)). apply (same_field_trans _ _ y1); [exact T3|]. apply (same_field_trans _ _ y2); apply same_field_sym; [exact Y2|exact T6].
Qed.
Print Assumptions C18_module_partial.

(** the constructor accepts every subgroup that the group accepts *)
Theorem C18_module_exists : forall name invs s reps uniq id sub,
  constructed s -> Forall (rep_of (sp_group s)) reps -> reps <> [] -> (forall r, In r uniq <-> In r reps) ->
  fg_subgroup (sp_group s) id = Ok sub -> exists s' tout, restriction_make name invs s reps uniq id = Ok (existT _ s' tout).
Proof.
  intros name invs s reps uniq id sub Hc HR NE U HS. destruct (restrict_total s id sub Hc HS) as [s' E1].
  destruct (restrict_form _ _ _ _ _ Hc E1) as (_ & HS' & _).
  destruct (ft_restrict_total (fun _ _ => true) (space_of s') (group_restrict name invs (sp_group s) (sp_group s') id) uniq (MkFT (space_of s) reps) U NE) as [t Et].
  - intros r Hr. cbn [ft_reps] in Hr. rewrite Forall_forall in HR. destruct (restrict_one_well name _ _ _ _ _ r (proj1 Hc) HS' (HR r Hr)) as [T _].
    unfold group_restrict. destruct (T (invs (sp_group s) r)) as [r' ->]. cbn. eauto.
  - reflexivity.
  - exists s', t. unfold restriction_make. rewrite E1. cbn [rbind]. rewrite Et. reflexivity.
Qed.
Print Assumptions C18_module_exists.

(** All the hypotheses are met: the frequency-1 irrep of D_4 (mirror about the x axis) restricted to the mirror about its axis 1,
    where it splits with a change of basis; [h] is that mirror, of image (1, 1). *)
Example C18_module_ex : exists ir r invs s' tout, dih_irrep 4 1 1 = Ok ir /\ r = rep_of_irrep "irrep_1,1" ir /\
  let s := SpFlipRot (GD 4) 0 in
  constructed s /\ Forall (rep_of (GD 4)) [r] /\ (forall q, In q [r] <-> In q [r]) /\ names_tell [r] /\
  restriction_make "D4" invs s [r] [r] (IdAxisInt (Some 1%Z) 1) = Ok (existT _ s' tout) /\
  (forall q q', In q [r] -> group_restrict "D4" invs (GD 4) (sp_group s') (IdAxisInt (Some 1%Z) 1) q = Ok q' -> rep_accepted q') /\
  sp_group s' = GC 2 /\ fg_is_element (sp_group s') (EI 1) = true /\
  (forall m c, sp_restrict s (IdAxisInt (Some 1%Z) 1) = Ok (s', m, c) -> m (EI 1) = EFI 1 1).
Proof.
  assert (HI : exists ir, dih_irrep 4 1 1 = Ok ir) by (eexists; reflexivity). destruct HI as [ir HI]. set (r := rep_of_irrep "irrep_1,1" ir).
  assert (HR : dih_rep 4 r). { split; [apply inverse_pair_mid|]. constructor; [exists 1%Z, 1%Z; exact HI|constructor]. }
  destruct (dih_restriction 4 (Some 1%Z, 1%Z) "D4" r _ ltac:(lia) eq_refl HR) as [[inv [r' [G1 G2]]] _].
  set (s := SpFlipRot (GD 4) 0). assert (Hc : constructed s) by (split; reflexivity).
  assert (HS : exists sub, fg_subgroup (sp_group s) (IdAxisInt (Some 1%Z) 1) = Ok sub) by (eexists; reflexivity). destruct HS as [sub HS].
  destruct (C18_module_exists "D4" (fun g q => inv) s [r] [r] _ sub Hc (Forall_cons _ HR (Forall_nil _)) ltac:(discriminate) ltac:(reflexivity) HS) as [s' [tout M]].
  exists ir, r, (fun g q => inv), s', tout. split; [exact HI|]. split; [reflexivity|]. cbv zeta. fold s r.
  destruct (restriction_inv _ _ _ _ _ _ _ _ M) as [mapping [child [E1 _]]]. destruct (restrict_form _ _ _ _ _ Hc E1) as (_ & HS' & _).
  assert (Hg : sp_group s' = GC 2). { clear -HS'. cbn in HS'. unfold wrap_fin in HS'. injection HS' as H _ _. symmetry. exact H. }
  split; [exact Hc|]. split; [constructor; [exact HR|constructor]|]. split; [reflexivity|]. split; [intros a b [<-|[]] [<-|[]] _; reflexivity|]. split; [exact M|].
  split; [|split; [exact Hg|split; [rewrite Hg; reflexivity|]]].
  - rewrite Hg. intros q q' [<-|[]] Q. unfold group_restrict in Q. cbn [restrict_one] in Q.
    change (restrict_representation "D4" (dih_restrict_one_C 4 (Some 1%Z, 1%Z)) r inv) with (restrict_representation "D4" (dih_restrict_one_C 4 (Some 1%Z, 1%Z)) r inv) in Q.
    apply rbind_ok in Q as [q0 [Q1 Q2]]. injection Q2 as <-. apply patch_accepted. assert (X : Ok q0 = Ok r') by (rewrite <- Q1; exact G1). injection X as ->. exact G2.
  - intros m c E2. assert (X : (mapping, child) = (m, c)) by congruence. injection X as <- <-. cbn in HS'. unfold wrap_fin in HS'. injection HS' as _ H _. rewrite <- H. reflexivity.
Qed.

(** With two different representations of one name the module gives a field the representation of the other one, as
    [C18_same_name_refuted] says of the type.  Such types are not far-fetched: the restrictions of one representation to two
    subgroups of the same kind have the same name. *)
Theorem C18_same_name_restrictions : exists ir r inv1 inv2 r1 r2, dih_irrep 4 1 1 = Ok ir /\ r = rep_of_irrep "irrep_1,1" ir /\
  restrict_representation "D4" (dih_restrict_one_C 4 (Some 0%Z, 1%Z)) r inv1 = Ok r1 /\ rep_accepted r1 /\
  restrict_representation "D4" (dih_restrict_one_C 4 (Some 1%Z, 1%Z)) r inv2 = Ok r2 /\ rep_accepted r2 /\
  rp_name r1 = rp_name r2 /\ cyc_rep 2 r1 /\ cyc_rep 2 r2 /\ rp_mat r1 1%Z 0%nat 0%nat <> rp_mat r2 1%Z 0%nat 0%nat.
Proof.
  assert (HI : exists ir, dih_irrep 4 1 1 = Ok ir) by (eexists; reflexivity). destruct HI as [ir HI]. set (r := rep_of_irrep "irrep_1,1" ir).
  assert (HR : dih_rep 4 r). { split; [apply inverse_pair_mid|]. constructor; [exists 1%Z, 1%Z; exact HI|constructor]. }
  destruct (dih_restriction 4 (Some 0%Z, 1%Z) "D4" r _ ltac:(lia) eq_refl HR) as [[inv1 [r1 [G1 G2]]] G3].
  destruct (dih_restriction 4 (Some 1%Z, 1%Z) "D4" r _ ltac:(lia) eq_refl HR) as [[inv2 [r2 [K1 K2]]] K3].
  destruct (G3 _ _ G1 G2) as [G4 [G5 G6]]. destruct (K3 _ _ K1 K2) as [K4 [K5 K6]].
  exists ir, r, inv1, inv2, r1, r2. split; [exact HI|]. split; [reflexivity|]. split; [exact G1|]. split; [exact G2|]. split; [exact K1|]. split; [exact K2|].
  split. { unfold restrict_representation in G1, K1. apply rbind_ok in G1 as [? [_ G1]]. apply rbind_ok in K1 as [? [_ K1]]. injection G1 as <-. injection K1 as <-. reflexivity. }
  split; [exact G5|]. split; [exact K5|].
  assert (S : rp_size r = 2%nat). { injection HI as <-. reflexivity. }
  rewrite (G6 1%Z eq_refl 0%nat 0%nat), (K6 1%Z eq_refl 0%nat 0%nat) by (rewrite S; lia).
  injection HI as <-. unfold rp_mat, rp_size, isizes, mmul; cbn. unfold mid; cbn.
  replace (1 * (0 * (2 * PI / 4)) + 0) with 0 by ring. replace (1 * (1 * (2 * PI / 4)) + 0) with (PI / 2) by field.
  rewrite cos_0, sin_0, cos_PI2, sin_PI2. lra.
Qed.
Print Assumptions C18_same_name_restrictions.

(** ** C33, C48 *)
(** the announced shape, for the same types *)
Theorem C33_restriction_shape : forall name invs s reps uniq id s' tout B (x z : arr (B -> vec)) tz batch,
  let tin := MkFT (space_of s) reps in
  constructed s -> Forall (rep_of (sp_group s)) reps -> (forall r, In r uniq <-> In r reps) -> names_tell reps ->
  (forall r r', In r reps -> group_restrict name invs (sp_group s) (sp_group s') id r = Ok r' -> rep_accepted r') ->
  restriction_make name invs s reps uniq id = Ok (existT _ s' tout) -> restriction_forward tin tout tin x = Ok (z, tz) ->
  restriction_shape (batch, Z.of_nat (ct_size tin), Z.of_nat (a_h x), Z.of_nat (a_w x)) = (batch, Z.of_nat (ct_size tz), Z.of_nat (a_h z), Z.of_nat (a_w z)).
Proof.
  intros name invs s reps uniq id s' tout B x z tz batch tin Hc HR U NT AC M F. destruct (C18_module_partial _ _ _ _ _ _ _ _ Hc HR U NT AC M) as (mp & ch & _ & _ & _ & SZ & _).
  unfold restriction_forward in F. apply assert_ok in F as [_ F]. injection F as <- <-. unfold restriction_shape, ct_size. rewrite SZ. reflexivity.
Qed.
Print Assumptions C33_restriction_shape.
(** the exported module, torch.nn.Identity, gives the numbers that forward gives *)
Theorem C48_restriction_export : forall G H (tin : ctype G) (tout : ctype H) t B (x z : arr (B -> vec)) tz,
  restriction_forward tin tout t x = Ok (z, tz) -> restriction_export x = z.
Proof. intros G H tin tout t B x z tz F. unfold restriction_forward in F. apply assert_ok in F as [_ F]. injection F as <- _. reflexivity. Qed.
Print Assumptions C48_restriction_export.
