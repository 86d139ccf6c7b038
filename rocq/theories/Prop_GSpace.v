(** C19-C21 (gspaces): action on the pixel grid, restriction of the space, comparison. *)
From Coq Require Import Reals ZArith String List Bool Lia Lra.
From Verif Require Import Base Spec Model_Groups Proofs_Groups Proofs_Cont Model_GSpace Spec_GSpace Proofs_GSpace.
Import ListNotations.
Open Scope R_scope.

(** ** C19 *)
(** On elements that map the pixel grid to itself, the action moves every pixel to where the plane
    transformation puts it (counter-clockwise, y up), whatever the interpolation routine does otherwise;
    the identity acts trivially and actions compose like group elements. *)
Theorem C19_grid_action : forall (interp : forall A : Type, R -> R -> arr A -> arr A) (s : gspace),
  constructed s ->
  let el g := fg_is_element (sp_group s) g = true in
  (forall A (x : arr A) g, el g -> grid_exact s g ->
     exists y, basespace_action interp s x g = Ok y /\ moved_by (plane_action s g) x y) /\
  (forall A (x : arr A), basespace_action interp s x (fg_identity (sp_group s)) = Ok x) /\
  (forall A (x : arr A) g h, el g -> el h -> grid_exact s g -> grid_exact s h ->
     el (fg_combine (sp_group s) g h) /\ grid_exact s (fg_combine (sp_group s) g h) /\
     exists y z w, basespace_action interp s x h = Ok y /\ basespace_action interp s y g = Ok z /\
       basespace_action interp s x (fg_combine (sp_group s) g h) = Ok w /\ arr_eq z w).
Proof.
  intros interp s Hc el. split; [|split].
  - intros A x g Hg He. apply action_moves; auto.
  - intros A x. apply action_id; auto.
  - intros A x g h Hg Hh Eg Eh. split; [apply compose_form; auto|]. split; [apply exact_combine; auto|].
    apply action_comp; auto.
Qed.
Print Assumptions C19_grid_action.

(** therefore the action on feature fields is a group action too *)
Theorem C19_featurefield_action : forall (interp : forall A : Type, R -> R -> arr A -> arr A) (s : gspace)
    (B : Type) (n : nat) (rho : gelt -> mat) (x : arr (B -> vec)),
  constructed s ->
  let el g := fg_is_element (sp_group s) g = true in
  let act := featurefield_action interp s (sp_group s) n rho in
  is_representation el (fg_combine (sp_group s)) (fg_identity (sp_group s)) n rho ->
  (exists y, act x (fg_identity (sp_group s)) = Ok y /\ same_field n y x) /\
  (forall g h, el g -> el h -> grid_exact s g -> grid_exact s h ->
     exists y z w, act x h = Ok y /\ act y g = Ok z /\
       act x (fg_combine (sp_group s) g h) = Ok w /\ same_field n z w).
Proof.
  intros interp s B n rho x Hc el act Hr. split.
  - apply featurefield_id; auto.
  - intros g h Hg Hh Eg Eh. apply featurefield_comp; auto.
Qed.
Print Assumptions C19_featurefield_action.

(** which elements are exact: all of C_1, C_2, C_4 and, for an axis at a multiple of 45 degrees, of the
    mirror group and of D_2 and D_4; quarter turns of SO(2) and O(2) *)
Theorem C19_exact_elements : forall m : Z,
  let axis := IZR m * (PI / 4) in
  (forall N e, (N = 2 \/ N = 4)%Z -> grid_exact (SpRot (GC N)) (EI e)) /\
  (forall e, grid_exact (SpFlip (GC 2) axis) (EI e)) /\
  (forall N f e, (N = 2 \/ N = 4)%Z -> (f = 0 \/ f = 1)%Z -> grid_exact (SpFlipRot (GD N) axis) (EFI f e)) /\
  (forall F k, (0 <= F)%Z -> grid_exact (SpRot (GSO2 F)) (ER (IZR k * (PI / 2)))) /\
  (forall F f k, (0 <= F)%Z -> (f = 0 \/ f = 1)%Z -> grid_exact (SpFlipRot (GO2 F) axis) (EFR f (IZR k * (PI / 2)))).
Proof.
  intros m axis.
  assert (Q : forall k, cos (IZR k * (PI/2)) = 0 \/ sin (IZR k * (PI/2)) = 0).
  { intros k. pose proof (cos_sin_quarter k) as H.
    destruct (mod4 k) as [F|[F|[F|F]]]; rewrite F in H; tauto. }
  assert (P : forall k q, snd q = 0 -> grid_exact (SpRot (GSO2 0)) (ER 0) ->
     fst (rotate_pt (IZR k * (PI/2)) q) = 0 \/ snd (rotate_pt (IZR k * (PI/2)) q) = 0).
  { intros k [a b] Hb _. cbn in *. subst b. destruct (Q k) as [-> | ->]; [left|right]; ring. }
  assert (H0 : grid_exact (SpRot (GSO2 0)) (ER 0)) by (right; cbn; rewrite sin_0; ring).
  assert (Hm : mirror_pt axis (1, 0) = rotate_pt (IZR m * (PI/2)) (1, 0)).
  { rewrite mirror_rotate. cbn. unfold axis. replace (2 * (IZR m * (PI/4))) with (IZR m * (PI/2)) by field.
    f_equal. f_equal. lra. }
  assert (HN : forall N e, (N = 2 \/ N = 4)%Z -> exists k, 2 * PI * IZR e / IZR N = IZR k * (PI/2)).
  { intros N e [-> | ->]; [exists (2 * e)%Z; rewrite mult_IZR; field|exists e; field]. }
  split; [|split; [|split; [|split]]]; unfold grid_exact; cbn [plane_action].
  - intros N e HNe. destruct (HN N e HNe) as [k ->]. apply P; auto.
  - intros e. destruct (Z.eqb e 1); [rewrite Hm; apply P; auto|right; reflexivity].
  - intros N f e HNe Hf. destruct (HN N e HNe) as [k ->]. destruct Hf as [-> | ->]; cbn [Z.eqb]; [apply P; auto|].
    cbn [Pos.eqb]. rewrite Hm, rotate_rotate.
    replace (IZR k * (PI/2) + IZR m * (PI/2)) with (IZR (k + m) * (PI/2)) by (rewrite plus_IZR; ring). apply P; auto.
  - intros. apply P; auto.
  - intros F f k _ Hf. destruct Hf as [-> | ->]; cbn [Z.eqb]; [apply P; auto|].
    cbn [Pos.eqb]. rewrite Hm, rotate_rotate.
    replace (IZR k * (PI/2) + IZR m * (PI/2)) with (IZR (k + m) * (PI/2)) by (rewrite plus_IZR; ring). apply P; auto.
Qed.
Print Assumptions C19_exact_elements.

(** non-vacuity: D_4 about the default vertical axis on a 2 x 3 image; a quarter turn gives the 3 x 2 image
    whose first row is the last column, and mirroring in the vertical axis reverses the columns *)
Example C19_ex : forall interp,
  let x := MkArr 2 3 (fun i j => (i, j)) in
  let s := SpFlipRot (GD 4) (PI / 2) in
  constructed s /\
  (exists y, basespace_action interp s x (EFI 0 1) = Ok y /\ a_h y = 3%nat /\ a_w y = 2%nat /\
     a_px y 0 0 = (0, 2)%nat /\ a_px y 0 1 = (1, 2)%nat /\ a_px y 2 0 = (0, 0)%nat) /\
  (exists y, basespace_action interp s x (EFI 1 0) = Ok y /\ a_h y = 2%nat /\ a_w y = 3%nat /\
     a_px y 0 0 = (0, 2)%nat /\ a_px y 1 0 = (1, 2)%nat /\ a_px y 0 1 = (0, 1)%nat).
Proof.
  intros interp x s. assert (Hc : constructed s) by (split; [reflexivity|reflexivity]).
  split; [exact Hc|]. split.
  - rewrite (action_exact interp s x (EFI 0 1) 1); [|exact Hc|reflexivity|cbn; field].
    eexists; split; [reflexivity|]. repeat split.
  - rewrite (action_exact interp s x (EFI 1 0) 2); [|exact Hc|reflexivity|cbn; field].
    eexists; split; [reflexivity|]. repeat split.
Qed.
(** a representation of D_4 for C19_featurefield_action: the flip character *)
Example C19_ex_rep : is_representation (fun g => fg_is_element (GD 4) g = true) (fg_combine (GD 4)) (fg_identity (GD 4)) 1
  (fun g => match g with EFI f _ => mat1 (flip_sign f) | _ => mid end).
Proof.
  split; [intros i j Hi Hj; replace i with O by lia; replace j with O by lia; reflexivity|].
  intros a b Ha Hb. destruct a; try discriminate Ha. destruct b; try discriminate Hb.
  apply dih_elZ in Ha. apply dih_elZ in Hb. destruct Ha as [[-> | ->] _], Hb as [[-> | ->] _];
  intros i j Hi Hj; cbn; unfold mmul, mat1, flip_sign, rsum; cbn; ring.
Qed.

(** ** C20 *)
(** restrict(id) succeeds exactly when the fiber group accepts the id; then the new space is a
    constructed one over the subgroup, and each of its elements moves plane points, and acts on arrays
    (interpolated or not), like its image in the original group. *)
Theorem C20_restrict_space : forall (s : gspace) (id : gid), constructed s ->
  ((exists r, sp_restrict s id = Ok r) <-> (exists r, fg_subgroup (sp_group s) id = Ok r)) /\
  forall s' mapping child, sp_restrict s id = Ok (s', mapping, child) ->
    constructed s' /\ fg_subgroup (sp_group s) id = Ok (sp_group s', mapping, child) /\
    forall h, fg_is_element (sp_group s') h = true ->
      fg_is_element (sp_group s) (mapping h) = true /\
      (forall p, plane_action s' h p = plane_action s (mapping h) p) /\
      (forall interp A (x : arr A), basespace_action interp s' x h = basespace_action interp s x (mapping h)).
Proof.
  intros s id Hc. split.
  - split; intros [r H].
    + destruct r as [[s' m] c]. destruct (restrict_form _ _ _ _ _ Hc H) as (_ & K & _). eauto.
    + destruct (restrict_total _ _ _ Hc H) as [s' K]. eauto.
  - intros s' mapping child H. destruct (restrict_form _ _ _ _ _ Hc H) as (H1 & H2 & H3).
    split; [exact H1|]. split; [exact H2|]. intros h Hh. split; [apply (H3 h Hh)|]. split.
    + intros p. apply (restrict_compatible (fun _ _ _ x => x) _ _ _ _ _ Hc H h Hh).
    + intros interp A x. apply (restrict_compatible interp _ _ _ _ _ Hc H h Hh).
Qed.
Print Assumptions C20_restrict_space.

(** non-vacuity: D_6 about axis pi/2 restricted to D_2 about its axis 1: new axis pi/2 + pi/6 *)
Example C20_ex : exists m c s',
  sp_restrict (SpFlipRot (GD 6) (PI/2)) (IdAxisInt (Some 1%Z) 2) = Ok (s', m, c) /\ constructed (SpFlipRot (GD 6) (PI/2)) /\
  sp_group s' = GD 2 /\ m (EFI 1 1) = EFI 1 4 /\ plane_action s' (EFI 1 0) (1, 0) = rotate_pt (2 * (PI/2 + PI/6)) (1, 0).
Proof.
  assert (Hc : constructed (SpFlipRot (GD 6) (PI/2))) by (split; reflexivity).
  destruct (restrict_total (SpFlipRot (GD 6) (PI/2)) (IdAxisInt (Some 1%Z) 2) _ Hc eq_refl) as [s' Hs'].
  destruct (restrict_form _ _ _ _ _ Hc Hs') as (H1 & H2 & H3). cbn [snd fst] in *.
  assert (Hg : sp_group s' = GD 2) by (injection H2; intros; congruence).
  do 3 eexists. split; [exact Hs'|]. split; [exact Hc|]. split; [exact Hg|]. split; [reflexivity|].
  assert (Hel : fg_is_element (sp_group s') (EFI 1 0) = true) by (rewrite Hg; reflexivity).
  rewrite (proj1 (restrict_compatible (fun _ _ _ x => x) _ _ _ _ _ Hc Hs' (EFI 1 0) Hel)). cbn.
  rewrite mirror_rotate, rotate_rotate. cbn. replace (2 * PI * 1 / 6 + 2 * (PI/2)) with (2 * (PI/2 + PI/6)) by field.
  f_equal. f_equal. lra.
Qed.

(** ** C21, gspaces *)
(** Comparison is an equivalence; two spaces without an axis that compare equal are the same; spaces
    that compare equal and have the same axis are the same (hence same action, same hash). *)
Theorem C21_gspace_eq_partial :
  (forall s, sp_eqb s s = true) /\
  (forall a b, sp_eqb a b = true -> sp_eqb b a = true) /\
  (forall a b c, sp_eqb a b = true -> sp_eqb b c = true -> sp_eqb a c = true) /\
  (forall a b, sp_eqb a b = true -> sp_group a = sp_group b) /\
  (forall a b, sp_eqb a b = true ->
     (match a, b with SpFlip _ x, SpFlip _ y | SpFlipRot _ x, SpFlipRot _ y => x = y | _, _ => True end) -> a = b).
Proof.
  split; [intros []; apply fg_eqb_refl|]. split.
  { intros [] []; cbn; intros H; try discriminate; apply fg_eqb_eq in H; subst; apply fg_eqb_refl. }
  split.
  { intros [] [] []; cbn; intros H K; try discriminate; apply fg_eqb_eq in H; apply fg_eqb_eq in K; subst; apply fg_eqb_refl. }
  split; intros [] []; cbn; intros H; try discriminate; apply fg_eqb_eq in H; intros; subst; auto.
Qed.
Print Assumptions C21_gspace_eq_partial.

(** The claim fails when the axes differ: the comparison ignores the axis.  Two mirror spaces about the
    x axis and about the y axis compare equal and act differently. *)
Theorem C21_gspace_eq_refuted :
  let a := SpFlip (GC 2) 0 in let b := SpFlip (GC 2) (PI / 2) in
  constructed a /\ constructed b /\ sp_eqb a b = true /\ fg_is_element (GC 2) (EI 1) = true /\
  plane_action a (EI 1) (1, 0) <> plane_action b (EI 1) (1, 0) /\
  forall interp, exists y z, basespace_action interp a (MkArr 1 2 (fun i j => j)) (EI 1) = Ok y /\
    basespace_action interp b (MkArr 1 2 (fun i j => j)) (EI 1) = Ok z /\ ~ arr_eq y z.
Proof.
  intros a b. assert (Ha : constructed a) by (split; reflexivity). assert (Hb : constructed b) by (split; reflexivity).
  split; [exact Ha|]. split; [exact Hb|]. split; [reflexivity|]. split; [reflexivity|]. split.
  - cbn. unfold mirror_pt; cbn. rewrite cos_0, sin_0, cos_PI2, sin_PI2. intros H. injection H. lra.
  - intros interp.
    rewrite (action_exact interp a _ (EI 1) 0); [|exact Ha|reflexivity|cbn; ring].
    rewrite (action_exact interp b _ (EI 1) 2); [|exact Hb|reflexivity|cbn; field].
    do 2 eexists. split; [reflexivity|]. split; [reflexivity|]. cbn. intros (_ & _ & H).
    specialize (H 0%nat 0%nat ltac:(cbn; lia) ltac:(cbn; lia)). discriminate H.
Qed.
Print Assumptions C21_gspace_eq_refuted.

(** ... and for D_N spaces equality does not even imply equality of the hashed names *)
Theorem C21_gspace_hash_refuted :
  let a := SpFlipRot (GD 4) 0 in let b := SpFlipRot (GD 4) (1 / 2) in
  constructed a /\ constructed b /\ sp_eqb a b = true /\ sp_name a <> sp_name b.
Proof.
  split; [split; reflexivity|]. split; [split; reflexivity|]. split; [reflexivity|].
  cbn. replace (0 * 100000) with (IZR 0) by ring. replace (1 / 2 * 100000) with (IZR 50000) by lra.
  unfold py_round. rewrite !Int_part_IZR. replace (IZR 0 - IZR 0) with 0 by ring. replace (IZR 50000 - IZR 50000) with 0 by ring.
  destruct (Rlt_dec 0 (1/2)); [|lra]. discriminate.
Qed.
Print Assumptions C21_gspace_hash_refuted.
