(** C22 for the five classes, and linear independence of the generated kernels (C25). *)
From Coq Require Import Reals ZArith String List Bool Lia Lra Setoid Morphisms Sorted.
From Verif Require Import Base Spec Model_Groups Model_Rep Model_GSpace Spec_GSpace Model_Kernels Spec_Kernels
  Proofs_Groups Proofs_Cont Proofs_Irreps Proofs_GSpace Proofs_Trig Proofs_Kernels Proofs_Kernels2.
Import ListNotations.
Open Scope R_scope.

(** ** C22 *)
Definition all_constraints {G} s (code : G -> gelt) el inv (iout iin : irrep G) (b : kbasis) : Prop :=
  forall idx, (idx < kb_dim b)%nat ->
    angular_constraint s code el inv (ir_size iout) (ir_size iin) (ir_mat iout) (ir_mat iin) (fun a => kb_sample b idx (Some a)) /\
    fixed_constraint el inv (ir_size iout) (ir_size iin) (ir_mat iout) (ir_mat iin) (kb_sample b idx None).

Lemma class_ok {G} el inv s (code : G -> gelt) th fl axis P m n fo fi iout iin oax els :
  planar el s code th fl axis P -> std el inv th fl m fo iout -> std el inv th fl n fi iin ->
  match oax with None => 0 | Some a => a end = axis ->
  (forall e, In e els -> good_el el fl P m n fo fi (ir_size iout) (ir_size iin) e) ->
  empty_or (kb_make oax (ir_size iout) (ir_size iin) els) (all_constraints s code el inv iout iin).
Proof.
  intros HP So Si Ha He. apply kb_make_spec. intros _ idx Hidx.
  apply (good_angular el inv s code th fl axis P HP m n fo fi iout iin (MkKB oax (ir_size iout) (ir_size iin) els)); auto.
  apply He, nth_In, Hidx.
Qed.

Lemma C22_flip axis F T n m iin iout : cyc_irrep 2 n = Ok iin -> cyc_irrep 2 m = Ok iout -> bounds_ok F T = true ->
  empty_or (flips_basis axis F T iin iout) (all_constraints (SpFlip (GC 2) axis) EI (cyc_el 2) (cyc_inverse 2) iout iin).
Proof.
  intros Hi Ho HB. destruct (flips_inv axis F T n m iin iout Hi Ho HB) as [ts [I [S ->]]].
  destruct (cyc_irrep2 _ _ Hi) as [_ [_ Si]]. destruct (cyc_irrep2 _ _ Ho) as [_ [_ So]].
  set (els := els_keep _ _). replace (kb_make (Some axis) 1 1 els) with (kb_make (Some axis) (ir_size iout) (ir_size iin) els) by (rewrite Si, So; auto). unfold els; clear els.
  apply (class_ok _ _ _ _ (fun _ => 0) (fun g => g) axis 1 0 0 m n); [apply planar_flip|apply std_flip; auto|apply std_flip; auto|reflexivity|].
  intros e He. apply in_els_keep in He. destruct He as [t [Ht [_ ->]]]. rewrite So, Si. cbn [good_el ke_mu ke_gq]. split.
  - exists t. lia.
  - right. auto.
Qed.

Lemma C22_rotN N F T n m iin iout : (0 < N)%Z -> cyc_irrep N n = Ok iin -> cyc_irrep N m = Ok iout -> bounds_ok F T = true ->
  empty_or (rotN_basis N F T iin iout) (all_constraints (SpRot (GC N)) EI (cyc_el N) (cyc_inverse N) iout iin).
Proof.
  intros HN Hi Ho HB. destruct (rotN_inv N F T n m iin iout HN Hi Ho HB) as [els [-> C]].
  apply (class_ok _ _ _ _ (thN N) (fun _ => 0%Z) 0 N m n 0 0); [apply planar_rotN; auto|apply std_rotN; auto|apply std_rotN; auto|reflexivity|].
  assert (NF : noflip (cyc_el N) (fun _ : Z => 0%Z)) by (intros ? ?; auto).
  intros e He. destruct C as [[Si [So [t0 [t1 [S0 [S1 [I0 [I1 ->]]]]]]]]|[[SS [t0 [S0 [I0 ->]]]]|[Si [So [t0 [S0 [I0 ->]]]]]]].
  - rewrite Si, So. cbn [good_el]. split; [|auto].
    apply in_app_or in He. destruct He as [He|He]; [|apply in_app_or in He; destruct He as [He|He]; [|apply in_app_or in He; destruct He as [He|He]]];
    apply in_els_of in He; destruct He as [t [_ ->]]; exists t; cbn [ke_mu ke_s sgn Z.eqb]; unfold sgn; cbn [Z.eqb]; lia.
  - apply in_app_or in He. assert (E : exists t, (ke_mu e = n + m + t * N)%Z).
    { destruct He as [He|He]; apply in_els_of in He; destruct He as [t [_ ->]]; exists t; reflexivity. }
    destruct SS as [[Si So]|[Si So]]; rewrite Si, So; cbn [good_el]; auto.
  - rewrite Si, So. cbn [good_el]. split; [|auto].
    apply in_app_or in He. destruct He as [He|He]; apply in_els_keep in He; destruct He as [t [_ [_ ->]]]; exists t; reflexivity.
Qed.

Lemma C22_rot F n m iin iout : so2_irrep n = Ok iin -> so2_irrep m = Ok iout ->
  empty_or (rot_basis iin iout) (all_constraints (SpRot (GSO2 F)) ER so2_el so2_inverse iout iin).
Proof.
  intros Hi Ho. destruct (rot_inv n m iin iout Hi Ho) as [els [-> C]].
  apply (class_ok _ _ _ _ (fun g => g) (fun _ => 0%Z) 0 0 m n 0 0); [apply planar_rot|apply std_rot; auto|apply std_rot; auto|reflexivity|].
  assert (NF : noflip so2_el (fun _ : R => 0%Z)) by (intros ? ?; auto).
  intros e He. destruct C as [[Si [So ->]]|[[SS ->]|[Si [So [-> [-> ->]]]]]].
  - rewrite Si, So. cbn [good_el]. split; [|auto]. exists 0%Z.
    destruct He as [<-|[<-|[<-|[<-|[]]]]]; cbn [ke_mu ke_s]; unfold sgn; cbn [Z.eqb]; lia.
  - assert (E : exists t, (ke_mu e = n + m + t * 0)%Z).
    { exists 0%Z. destruct He as [<-|[<-|[]]]; cbn [ke_mu]; lia. }
    destruct SS as [[Si So]|[Si So]]; rewrite Si, So; cbn [good_el]; auto.
  - rewrite Si, So. cbn [good_el]. split; [|auto]. exists 0%Z. destruct He as [<-|[]]. reflexivity.
Qed.

Lemma C22_fliprotN N axis F T ji n jo m iin iout : (0 < N)%Z ->
  dih_irrep N ji n = Ok iin -> dih_irrep N jo m = Ok iout -> bounds_ok F T = true ->
  empty_or (fliprotN_basis N axis F T iin iout) (all_constraints (SpFlipRot (GD N) axis) codeD (dih_el N) (dih_inverse N) iout iin).
Proof.
  intros HN Hi Ho HB. destruct (fliprotN_inv N axis F T ji n jo m iin iout HN Hi Ho HB) as [els [-> C]].
  apply (class_ok _ _ _ _ (fun g => thN N (snd g)) fst axis N m n jo ji); [apply planar_fliprotN; auto|apply std_fliprotN; auto|apply std_fliprotN; auto|reflexivity|].
  intros e He. destruct C as [[Si [So [t0 [t1 [S0 [S1 [I0 [I1 ->]]]]]]]]|[[SS [t0 [S0 [I0 ->]]]]|[Si [So [t0 [S0 [I0 ->]]]]]]].
  - rewrite Si, So. cbn [good_el].
    apply in_app_or in He. destruct He as [He|He];
    apply in_els_of in He; destruct He as [t [_ ->]]; (split; [exists t; cbn [ke_mu ke_s]; unfold sgn; cbn [Z.eqb]; lia|auto]).
  - apply in_els_of in He; destruct He as [t [_ ->]].
    destruct SS as [[Si So]|[Si So]]; rewrite Si, So; cbn [good_el Nat.eqb ke_mu ke_gq]; (split; [exists t; reflexivity|auto]).
  - rewrite Si, So. cbn [good_el]. apply in_els_keep in He; destruct He as [t [_ [_ ->]]]. split; [exists t; reflexivity|auto].
Qed.

Lemma C22_fliprot F axis ji n jo m iin iout :
  o2_irrep ji n = Ok iin -> o2_irrep jo m = Ok iout ->
  empty_or (fliprot_basis axis iin iout) (all_constraints (SpFlipRot (GO2 F) axis) codeO o2_el o2_inverse iout iin).
Proof.
  intros Hi Ho. destruct (fliprot_inv axis ji n jo m iin iout Hi Ho) as [els [-> C]].
  apply (class_ok _ _ _ _ snd fst axis 0 m n jo ji); [apply planar_fliprot|apply std_fliprot; auto|apply std_fliprot; auto|reflexivity|].
  intros e He. destruct C as [[Si [So ->]]|[[SS ->]|[Si [So [-> [-> ->]]]]]].
  - rewrite Si, So. cbn [good_el]. destruct He as [<-|[<-|[]]]; (split; [exists 0%Z; cbn [ke_mu ke_s]; unfold sgn; cbn [Z.eqb]; lia|auto]).
  - destruct He as [<-|[]].
    destruct SS as [[Si So]|[Si So]]; rewrite Si, So; cbn [good_el Nat.eqb ke_mu ke_gq]; (split; [exists 0%Z; lia|auto]).
  - rewrite Si, So. cbn [good_el]. unfold els_keep in He. apply in_map_iff in He. destruct He as [p [<- Hp]].
    apply filter_In in Hp. destruct Hp as [[<-|[]] _]. cbn [ke_mu ke_gq fst snd]. split; [exists 0%Z; lia|auto].
Qed.

(** ** C25: keys identify the elements *)
Definition key (e : kel) : Z * Z * Z := (ke_s e, ke_mu e, ke_gq e).
Definition el_at (els : list kel) (b : nat) : kel := nth b els kel0.

Lemma key_inj els b b' : NoDup (map key els) -> (b < length els)%nat -> (b' < length els)%nat ->
  key (el_at els b) = key (el_at els b') -> b = b'.
Proof.
  intros ND Hb Hb' E. apply (proj1 (NoDup_nth (map key els) (key kel0)) ND); rewrite ?map_length; auto.
  rewrite !map_nth. exact E.
Qed.

(** a bound on the frequencies of a finite list *)
Lemma mu_bound els : exists F : nat, forall b, (b < length els)%nat -> (Z.abs (ke_mu (el_at els b)) <= Z.of_nat F)%Z.
Proof.
  assert (H : exists F : nat, forall e, In e els -> (Z.abs (ke_mu e) <= Z.of_nat F)%Z).
  { induction els as [|e els [F H]]; [exists 0%nat; intros e []|].
    exists (F + Z.to_nat (Z.abs (ke_mu e)))%nat. intros e' [<-|He']; [lia|]. specialize (H _ He'). lia. }
  destruct H as [F H]. exists F. intros b Hb. apply H, nth_In, Hb.
Qed.

Definition barg (els : list kel) (b : nat) (x : R) : R := IZR (ke_mu (el_at els b)) * x + ke_gamma (el_at els b).

Lemma ind_scal c v w : ind c (v * w) = ind c v * w.
Proof. unfold ind. destruct c; ring. Qed.

Lemma chan_indep els (c : nat -> R) : NoDup (map key els) ->
  (forall b, (b < length els)%nat -> ke_gq (el_at els b) = 0%Z \/ ke_gq (el_at els b) = 1%Z) ->
  (forall s x, rsum (length els) (fun b => ind (Z.eqb (ke_s (el_at els b)) s) (c b * cos (barg els b x))) = 0) ->
  (forall s x, rsum (length els) (fun b => ind (Z.eqb (ke_s (el_at els b)) s) (c b * sin (barg els b x))) = 0) ->
  forall b, (b < length els)%nat -> c b = 0.
Proof.
  intros ND HG HC HS b Hb.
  destruct (mu_bound els) as [F HF]. set (L := length els) in *. set (E := el_at els) in *.
  set (s := ke_s (E b)).
  set (P := fun g k => rsum L (fun i => ind (Z.eqb (ke_s (E i)) s && Z.eqb (ke_gq (E i)) g && Z.eqb k (ke_mu (E i))) (c i))).
  assert (Z0 : forall k, (Z.abs k <= Z.of_nat F)%Z -> P 0%Z k = 0 /\ P 1%Z k = 0).
  { apply exp_unique; intros x.
    - rewrite <- (HC s x). unfold re_sum, P.
      rewrite (zsum_ext F _ (fun k => rsum L (fun i => ind (Z.eqb k (ke_mu (E i)))
         (ind (Z.eqb (ke_s (E i)) s && Z.eqb (ke_gq (E i)) 0) (c i * cos (IZR k * x)) - ind (Z.eqb (ke_s (E i)) s && Z.eqb (ke_gq (E i)) 1) (c i * sin (IZR k * x)))))).
      + rewrite <- rsum_zsum. apply rsum_ext. intros i Hi. rewrite zsum_ind by (apply HF; auto).
        unfold barg, ke_gamma. fold E. destruct (Z.eqb (ke_s (E i)) s); cbn [andb ind]; [|lra].
        destruct (HG i Hi) as [Hg|Hg]; rewrite Hg; cbn [Z.eqb Pos.eqb ind].
        * rewrite Rmult_0_l, ?Rplus_0_r. lra.
        * rewrite Rmult_1_l, cos_plus, cos_PI2, sin_PI2. lra.
      + intros k _. rewrite <- !rsum_scal_r, <- rsum_minus. apply rsum_ext. intros i Hi.
        destruct (Z.eqb (ke_s (E i)) s), (Z.eqb (ke_gq (E i)) 0), (Z.eqb (ke_gq (E i)) 1), (Z.eqb k (ke_mu (E i))); cbn [andb ind]; ring.
    - rewrite <- (HS s x). unfold im_sum, P.
      rewrite (zsum_ext F _ (fun k => rsum L (fun i => ind (Z.eqb k (ke_mu (E i)))
         (ind (Z.eqb (ke_s (E i)) s && Z.eqb (ke_gq (E i)) 0) (c i * sin (IZR k * x)) + ind (Z.eqb (ke_s (E i)) s && Z.eqb (ke_gq (E i)) 1) (c i * cos (IZR k * x)))))).
      + rewrite <- rsum_zsum. apply rsum_ext. intros i Hi. rewrite zsum_ind by (apply HF; auto).
        unfold barg, ke_gamma. fold E. destruct (Z.eqb (ke_s (E i)) s); cbn [andb ind]; [|lra].
        destruct (HG i Hi) as [Hg|Hg]; rewrite Hg; cbn [Z.eqb Pos.eqb ind].
        * rewrite Rmult_0_l, !Rplus_0_r. lra.
        * rewrite Rmult_1_l, sin_plus, cos_PI2, sin_PI2. lra.
      + intros k _. rewrite <- !rsum_scal_r, <- rsum_plus. apply rsum_ext. intros i Hi.
        destruct (Z.eqb (ke_s (E i)) s), (Z.eqb (ke_gq (E i)) 0), (Z.eqb (ke_gq (E i)) 1), (Z.eqb k (ke_mu (E i))); cbn [andb ind]; ring. }
  assert (W : P (ke_gq (E b)) (ke_mu (E b)) = c b).
  { unfold P. rewrite (rsum_single L b); auto.
    - fold s. rewrite !Z.eqb_refl. reflexivity.
    - intros i Hi Hne. destruct (Z.eqb_spec (ke_s (E i)) s); cbn [andb ind]; auto.
      destruct (Z.eqb_spec (ke_gq (E i)) (ke_gq (E b))); cbn [andb ind]; auto.
      destruct (Z.eqb_spec (ke_mu (E b)) (ke_mu (E i))); cbn [andb ind]; auto.
      exfalso. apply Hne. apply (key_inj els); auto. unfold s in *. unfold key. change (el_at els) with E. congruence. }
  rewrite <- W. destruct (HG b Hb) as [Hg|Hg]; rewrite Hg; apply Z0, HF, Hb.
Qed.

Lemma real_indep els (c : nat -> R) : NoDup (map key els) ->
  (forall b, (b < length els)%nat -> ke_s (el_at els b) = 0%Z /\
     (ke_gq (el_at els b) = 0 /\ 0 <= ke_mu (el_at els b) \/ ke_gq (el_at els b) = 1 /\ 0 < ke_mu (el_at els b))%Z) ->
  (forall x, rsum (length els) (fun b => c b * cos (barg els b x)) = 0) ->
  forall b, (b < length els)%nat -> c b = 0.
Proof.
  intros ND HG HC b Hb.
  destruct (mu_bound els) as [F HF]. set (L := length els) in *. set (E := el_at els) in *.
  set (p := fun k => rsum L (fun i => ind (Z.eqb (ke_gq (E i)) 0) (ind (Z.eqb k (ke_mu (E i))) (c i / 2) + ind (Z.eqb k (- ke_mu (E i))) (c i / 2)))).
  set (q := fun k => rsum L (fun i => ind (Z.eqb (ke_gq (E i)) 1) (ind (Z.eqb k (ke_mu (E i))) (c i / 2) - ind (Z.eqb k (- ke_mu (E i))) (c i / 2)))).
  assert (Z0 : forall k, (Z.abs k <= Z.of_nat F)%Z -> p k = 0 /\ q k = 0).
  { apply exp_unique; intros x.
    - rewrite <- (HC x). unfold re_sum, p, q.
      rewrite (zsum_ext F _ (fun k => rsum L (fun i =>
         ind (Z.eqb k (ke_mu (E i))) (ind (Z.eqb (ke_gq (E i)) 0) (c i / 2 * cos (IZR k * x)) - ind (Z.eqb (ke_gq (E i)) 1) (c i / 2 * sin (IZR k * x))) +
         ind (Z.eqb k (- ke_mu (E i))) (ind (Z.eqb (ke_gq (E i)) 0) (c i / 2 * cos (IZR k * x)) + ind (Z.eqb (ke_gq (E i)) 1) (c i / 2 * sin (IZR k * x)))))).
      + rewrite <- rsum_zsum. apply rsum_ext. intros i Hi. assert (B := HF i Hi). rewrite zsum_plus, !zsum_ind by lia.
        unfold barg, ke_gamma. fold E. rewrite opp_IZR, Ropp_mult_distr_l_reverse, cos_neg, sin_neg.
        destruct (HG i Hi) as [_ [[Hg _]|[Hg _]]]; rewrite Hg; cbn [Z.eqb Pos.eqb ind].
        * rewrite Rmult_0_l, ?Rplus_0_r. lra.
        * rewrite Rmult_1_l, cos_plus, cos_PI2, sin_PI2. lra.
      + intros k _. rewrite <- !rsum_scal_r, <- rsum_minus. apply rsum_ext. intros i Hi.
        destruct (Z.eqb (ke_gq (E i)) 0), (Z.eqb (ke_gq (E i)) 1), (Z.eqb k (ke_mu (E i))), (Z.eqb k (- ke_mu (E i))); cbn [andb ind]; ring.
    - unfold im_sum, p, q. symmetry.
      rewrite (zsum_ext F _ (fun k => rsum L (fun i =>
         ind (Z.eqb k (ke_mu (E i))) (ind (Z.eqb (ke_gq (E i)) 0) (c i / 2 * sin (IZR k * x)) + ind (Z.eqb (ke_gq (E i)) 1) (c i / 2 * cos (IZR k * x))) +
         ind (Z.eqb k (- ke_mu (E i))) (ind (Z.eqb (ke_gq (E i)) 0) (c i / 2 * sin (IZR k * x)) - ind (Z.eqb (ke_gq (E i)) 1) (c i / 2 * cos (IZR k * x)))))).
      + rewrite <- rsum_zsum. symmetry. apply rsum_0. intros i Hi. assert (B := HF i Hi). rewrite zsum_plus, !zsum_ind by lia.
        rewrite opp_IZR, Ropp_mult_distr_l_reverse, cos_neg, sin_neg.
        destruct (HG i Hi) as [_ [[Hg _]|[Hg _]]]; rewrite Hg; cbn [Z.eqb Pos.eqb ind]; lra.
      + intros k _. rewrite <- !rsum_scal_r, <- rsum_plus. apply rsum_ext. intros i Hi.
        destruct (Z.eqb (ke_gq (E i)) 0), (Z.eqb (ke_gq (E i)) 1), (Z.eqb k (ke_mu (E i))), (Z.eqb k (- ke_mu (E i))); cbn [andb ind]; ring. }
  destruct (Z0 (ke_mu (E b)) (HF b Hb)) as [Zp Zq].
  assert (U : forall i, (i < L)%nat -> i <> b -> ke_gq (E i) = ke_gq (E b) -> ke_mu (E i) <> ke_mu (E b)).
  { intros i Hi Hne Hg Hm. apply Hne. apply (key_inj els); auto. unfold key. fold E.
    destruct (HG i Hi) as [-> _]. destruct (HG b Hb) as [-> _]. congruence. }
  destruct (HG b Hb) as [_ [[Hg Hm]|[Hg Hm]]].
  - unfold p in Zp. rewrite (rsum_single L b) in Zp; auto.
    + rewrite Hg, !Z.eqb_refl in Zp. cbn [Z.eqb ind] in Zp. destruct (Z.eqb (ke_mu (E b)) (- ke_mu (E b))); cbn [ind] in Zp; lra.
    + intros i Hi Hne. destruct (Z.eqb_spec (ke_gq (E i)) 0) as [Hgi|]; cbn [ind]; auto.
      assert (V := U i Hi Hne ltac:(congruence)). destruct (HG i Hi) as [_ Mi].
      destruct (Z.eqb_spec (ke_mu (E b)) (ke_mu (E i))); [congruence|]. destruct (Z.eqb_spec (ke_mu (E b)) (- ke_mu (E i))); [lia|].
      cbn [ind]. lra.
  - unfold q in Zq. rewrite (rsum_single L b) in Zq; auto.
    + rewrite Hg, !Z.eqb_refl in Zq. cbn [ind] in Zq. destruct (Z.eqb_spec (ke_mu (E b)) (- ke_mu (E b))); [lia|]. cbn [ind] in Zq. lra.
    + intros i Hi Hne. destruct (Z.eqb_spec (ke_gq (E i)) 1) as [Hgi|]; cbn [ind]; auto.
      assert (V := U i Hi Hne ltac:(congruence)). destruct (HG i Hi) as [_ Mi].
      destruct (Z.eqb_spec (ke_mu (E b)) (ke_mu (E i))); [congruence|]. destruct (Z.eqb_spec (ke_mu (E b)) (- ke_mu (E i))); [lia|].
      cbn [ind]. lra.
Qed.

(** the basis as a family of functions of the angle *)
Definition shape_ok (r c : nat) : Prop := (r = 1 \/ r = 2)%nat /\ (c = 1 \/ c = 2)%nat.

(** conditions under which the family is independent *)
Definition indep_els (r c : nat) (els : list kel) : Prop :=
  NoDup (map key els) /\
  (forall e, In e els -> (ke_gq e = 0 \/ ke_gq e = 1)%Z /\ (ke_s e = 0 \/ ke_s e = 1)%Z /\
     (r * c <> 4 -> ke_s e = 0%Z)%nat /\
     ((r * c = 1)%nat -> (0 <= ke_mu e)%Z /\ (ke_gq e = 1%Z -> (0 < ke_mu e)%Z))).

Lemma indep_of_els oax r c els : shape_ok r c -> indep_els r c els ->
  independent (length els) r c (fun idx a => kb_sample (MkKB oax r c els) idx (Some a)).
Proof.
  intros [Hr Hc] [ND HE] w HW. set (a0 := match oax with None => 0 | Some a => a end).
  assert (HW' : forall x i j, (i < r)%nat -> (j < c)%nat -> rsum (length els) (fun b => w b * kmat r c (el_at els b) x i j) = 0).
  { intros x i j Hi Hj. rewrite <- (HW (x + a0) i j Hi Hj). apply rsum_ext. intros b Hb. unfold kb_sample.
    rewrite kb_sample_Some. cbn [kb_rows kb_cols kb_els]. unfold ax. cbn [kb_axis]. fold a0.
    replace (x + a0 - a0) with x by ring. reflexivity. }
  clear HW.
  assert (HE' : forall b, (b < length els)%nat -> In (el_at els b) els) by (intros; apply nth_In; auto).
  destruct Hr as [-> | ->]; destruct Hc as [-> | ->].
  - apply real_indep; auto.
    + intros b Hb. destruct (HE _ (HE' b Hb)) as [Hg [_ [Hs Hm]]]. split; [apply Hs; lia|]. specialize (Hm eq_refl). lia.
    + intros x. apply (HW' x 0%nat 0%nat); lia.
  - apply chan_indep; auto.
    + intros b Hb. apply (HE _ (HE' b Hb)).
    + intros s x. destruct (Z.eqb_spec s 0) as [->|Hs].
      * rewrite <- (HW' x 0%nat 0%nat) by lia. apply rsum_ext. intros b Hb. destruct (HE _ (HE' b Hb)) as [_ [_ [Hs _]]]. rewrite Hs by lia. reflexivity.
      * apply rsum_0. intros b Hb. destruct (HE _ (HE' b Hb)) as [_ [_ [Hs' _]]]. rewrite Hs' by lia. destruct (Z.eqb_spec 0 s); [congruence|reflexivity].
    + intros s x. destruct (Z.eqb_spec s 0) as [->|Hs].
      * rewrite <- (HW' x 0%nat 1%nat) by lia. apply rsum_ext. intros b Hb. destruct (HE _ (HE' b Hb)) as [_ [_ [Hs _]]]. rewrite Hs by lia. reflexivity.
      * apply rsum_0. intros b Hb. destruct (HE _ (HE' b Hb)) as [_ [_ [Hs' _]]]. rewrite Hs' by lia. destruct (Z.eqb_spec 0 s); [congruence|reflexivity].
  - apply chan_indep; auto.
    + intros b Hb. apply (HE _ (HE' b Hb)).
    + intros s x. destruct (Z.eqb_spec s 0) as [->|Hs].
      * rewrite <- (HW' x 0%nat 0%nat) by lia. apply rsum_ext. intros b Hb. destruct (HE _ (HE' b Hb)) as [_ [_ [Hs _]]]. rewrite Hs by lia. reflexivity.
      * apply rsum_0. intros b Hb. destruct (HE _ (HE' b Hb)) as [_ [_ [Hs' _]]]. rewrite Hs' by lia. destruct (Z.eqb_spec 0 s); [congruence|reflexivity].
    + intros s x. destruct (Z.eqb_spec s 0) as [->|Hs].
      * rewrite <- (HW' x 1%nat 0%nat) by lia. apply rsum_ext. intros b Hb. destruct (HE _ (HE' b Hb)) as [_ [_ [Hs _]]]. rewrite Hs by lia. reflexivity.
      * apply rsum_0. intros b Hb. destruct (HE _ (HE' b Hb)) as [_ [_ [Hs' _]]]. rewrite Hs' by lia. destruct (Z.eqb_spec 0 s); [congruence|reflexivity].
  - apply chan_indep; auto.
    + intros b Hb. apply (HE _ (HE' b Hb)).
    + intros s x. assert (A := HW' x 0%nat 0%nat ltac:(lia) ltac:(lia)). assert (B := HW' x 1%nat 1%nat ltac:(lia) ltac:(lia)).
      destruct (Z.eqb_spec s 0) as [->|Hs]; [|destruct (Z.eqb_spec s 1) as [->|Hs1]].
      * transitivity (1 / 2 * rsum (length els) (fun b => w b * kmat 2 2 (el_at els b) x 0%nat 0%nat) + 1 / 2 * rsum (length els) (fun b => w b * kmat 2 2 (el_at els b) x 1%nat 1%nat)); [|rewrite A, B; lra].
        rewrite <- !rsum_scal, <- rsum_plus. apply rsum_ext. intros b Hb. unfold kmat, psichi, mat2, barg.
        destruct (HE _ (HE' b Hb)) as [_ [[Hs | Hs] _]]; rewrite Hs; cbn [Z.eqb Pos.eqb ind]; unfold sgn; cbn [Z.eqb Pos.eqb]; lra.
      * transitivity (1 / 2 * rsum (length els) (fun b => w b * kmat 2 2 (el_at els b) x 0%nat 0%nat) - 1 / 2 * rsum (length els) (fun b => w b * kmat 2 2 (el_at els b) x 1%nat 1%nat)); [|rewrite A, B; lra].
        rewrite <- !rsum_scal, <- rsum_minus. apply rsum_ext. intros b Hb. unfold kmat, psichi, mat2, barg.
        destruct (HE _ (HE' b Hb)) as [_ [[Hs' | Hs'] _]]; rewrite Hs'; cbn [Z.eqb Pos.eqb ind]; unfold sgn; cbn [Z.eqb Pos.eqb]; lra.
      * apply rsum_0. intros b Hb. destruct (HE _ (HE' b Hb)) as [_ [Hs' _]]. destruct (Z.eqb_spec (ke_s (el_at els b)) s); [lia|reflexivity].
    + intros s x. assert (A := HW' x 1%nat 0%nat ltac:(lia) ltac:(lia)). assert (B := HW' x 0%nat 1%nat ltac:(lia) ltac:(lia)).
      destruct (Z.eqb_spec s 0) as [->|Hs]; [|destruct (Z.eqb_spec s 1) as [->|Hs1]].
      * transitivity (1 / 2 * rsum (length els) (fun b => w b * kmat 2 2 (el_at els b) x 1%nat 0%nat) - 1 / 2 * rsum (length els) (fun b => w b * kmat 2 2 (el_at els b) x 0%nat 1%nat)); [|rewrite A, B; lra].
        rewrite <- !rsum_scal, <- rsum_minus. apply rsum_ext. intros b Hb. unfold kmat, psichi, mat2, barg.
        destruct (HE _ (HE' b Hb)) as [_ [[Hs | Hs] _]]; rewrite Hs; cbn [Z.eqb Pos.eqb ind]; unfold sgn; cbn [Z.eqb Pos.eqb]; lra.
      * transitivity (1 / 2 * rsum (length els) (fun b => w b * kmat 2 2 (el_at els b) x 1%nat 0%nat) + 1 / 2 * rsum (length els) (fun b => w b * kmat 2 2 (el_at els b) x 0%nat 1%nat)); [|rewrite A, B; lra].
        rewrite <- !rsum_scal, <- rsum_plus. apply rsum_ext. intros b Hb. unfold kmat, psichi, mat2, barg.
        destruct (HE _ (HE' b Hb)) as [_ [[Hs' | Hs'] _]]; rewrite Hs'; cbn [Z.eqb Pos.eqb ind]; unfold sgn; cbn [Z.eqb Pos.eqb]; lra.
      * apply rsum_0. intros b Hb. destruct (HE _ (HE' b Hb)) as [_ [Hs' _]]. destruct (Z.eqb_spec (ke_s (el_at els b)) s); [lia|reflexivity].
Qed.

(** NoDup of the lists the constructors build *)
Lemma nodup_app {A} (l l' : list A) : NoDup l -> NoDup l' -> (forall x, In x l -> In x l' -> False) -> NoDup (l ++ l').
Proof.
  induction l as [|a l IH]; cbn; intros H H' D; auto. inversion H; subst. constructor.
  - intros I. apply in_app_or in I. destruct I as [I|I]; [auto|]. apply (D a); auto.
  - apply IH; auto. intros x I I'. apply (D x); auto.
Qed.
Lemma sorted_nodup ts : StronglySorted Z.lt ts -> NoDup ts.
Proof.
  induction 1 as [|a l S IH Hf]; constructor; auto. intros I. rewrite Forall_forall in Hf. specialize (Hf _ I). lia.
Qed.
Lemma nodup_map_in {A B} (f : A -> B) l : NoDup l -> (forall x y, In x l -> In y l -> f x = f y -> x = y) -> NoDup (map f l).
Proof.
  induction 1 as [|a l Ha Hl IH]; cbn; intros Hf; constructor.
  - intros I. apply in_map_iff in I. destruct I as [b [E I]]. apply Ha. rewrite (Hf a b); auto.
  - apply IH. intros x y Hx Hy. apply Hf; auto.
Qed.
Lemma nodup_filter {A} (p : A -> bool) l : NoDup l -> NoDup (filter p l).
Proof.
  induction 1 as [|a l Ha Hl IH]; cbn; [constructor|]. destruct (p a); auto. constructor; auto.
  intros I. apply filter_In in I. tauto.
Qed.
Lemma nodup_els_of gq s k N ts : (0 < N)%Z -> StronglySorted Z.lt ts -> NoDup (map key (els_of gq s (sh k N ts))).
Proof.
  intros HN S. unfold els_of, sh. rewrite !map_map. apply nodup_map_in; [apply sorted_nodup; auto|].
  intros x y _ _ E. unfold key in E. cbn in E. injection E as E. apply Z.mul_reg_r with N; lia.
Qed.
Lemma nodup_els_keep gq k N ts : (0 < N)%Z -> StronglySorted Z.lt ts -> NoDup (map key (els_keep gq (sh k N ts))).
Proof.
  intros HN S. unfold els_keep, sh. rewrite map_map. apply nodup_map_in.
  - apply nodup_filter. apply nodup_map_in; [apply sorted_nodup; auto|]. intros x y _ _ E. congruence.
  - intros x y Hx Hy E. apply filter_In in Hx, Hy. destruct Hx as [Hx _], Hy as [Hy _].
    apply in_map_iff in Hx, Hy. destruct Hx as [t [<- _]], Hy as [t' [<- _]]. unfold key in E. cbn in E. injection E as E.
    assert (t = t') as -> by (apply Z.mul_reg_r with N; lia). reflexivity.
Qed.

Definition basis_independent (b : kbasis) : Prop :=
  independent (kb_dim b) (kb_rows b) (kb_cols b) (fun idx a => kb_sample b idx (Some a)).

Lemma class_indep oax r c els : shape_ok r c -> indep_els r c els -> empty_or (kb_make oax r c els) basis_independent.
Proof. intros Hs He. apply kb_make_spec. intros _. apply (indep_of_els oax r c els Hs He). Qed.

Lemma C25_flip axis F T n m iin iout : cyc_irrep 2 n = Ok iin -> cyc_irrep 2 m = Ok iout -> bounds_ok (Some F) T = true ->
  empty_or (flips_basis axis (Some F) T iin iout) basis_independent.
Proof.
  intros Hi Ho HB. destruct (flips_inv axis _ T n m iin iout Hi Ho HB) as [ts [I [S ->]]].
  apply class_indep; [split; auto|]. split.
  - apply (nodup_els_keep _ 0 1 ts); auto; lia.
  - intros e He. apply in_els_keep in He. destruct He as [t [Ht [Hk ->]]]. cbn [ke_gq ke_mu ke_s].
    apply I in Ht. destruct Ht as [Ht _]. unfold keep in Hk.
    assert (0 <= (n + m) mod 2 < 2)%Z by (apply Z.mod_pos_bound; lia).
    split; [lia|]. split; [auto|]. split; [auto|]. intros _. lia.
Qed.

Lemma in_sh_els gq s k N ts e : In e (els_of gq s (sh k N ts)) -> ke_gq e = gq /\ ke_s e = s.
Proof. intros H. apply in_els_of in H. destruct H as [t [_ ->]]. auto. Qed.
Lemma key_disj l l' : (forall e e', In e l -> In e' l' -> key e <> key e') -> forall x, In x (map key l) -> In x (map key l') -> False.
Proof.
  intros H x I I'. apply in_map_iff in I, I'. destruct I as [e [<- I]], I' as [e' [E I']]. apply (H e e'); auto.
Qed.

Lemma C25_rotN N F T n m iin iout : (0 < N)%Z -> cyc_irrep N n = Ok iin -> cyc_irrep N m = Ok iout -> bounds_ok F T = true ->
  (F <> None \/ (ir_size iin * ir_size iout <> 1)%nat) ->
  empty_or (rotN_basis N F T iin iout) basis_independent.
Proof.
  intros HN Hi Ho HB HF. destruct (rotN_inv N F T n m iin iout HN Hi Ho HB) as [els [-> C]].
  apply class_indep; [destruct C as [[-> [-> _]]|[[[[-> ->]|[-> ->]] _]|[-> [-> _]]]]; split; auto|].
  destruct C as [[Si [So [t0 [t1 [S0 [S1 [I0 [I1 ->]]]]]]]]|[[SS [t0 [S0 [I0 ->]]]]|[Si [So [t0 [S0 [I0 ->]]]]]]].
  - split.
    + rewrite !map_app. apply nodup_app; [apply nodup_els_of; auto| |].
      { apply nodup_app; [apply nodup_els_of; auto| |].
        { apply nodup_app; [apply nodup_els_of; auto|apply nodup_els_of; auto|].
          apply key_disj. intros e e' A B. apply in_sh_els in A, B. unfold key. destruct A as [-> ->], B as [-> ->]. intros X; inversion X. }
        rewrite <- map_app. apply key_disj. intros e e' A B. apply in_sh_els in A. apply in_app_or in B. unfold key. destruct A as [-> ->].
        destruct B as [B|B]; apply in_sh_els in B; destruct B as [-> ->]; intros X; inversion X. }
      rewrite <- !map_app. apply key_disj. intros e e' A B. apply in_sh_els in A. unfold key. destruct A as [-> ->].
      apply in_app_or in B. destruct B as [B|B]; [|apply in_app_or in B; destruct B as [B|B]]; apply in_sh_els in B; destruct B as [-> ->]; intros X; inversion X.
    + intros e He. rewrite Si, So.
      apply in_app_or in He. destruct He as [He|He]; [|apply in_app_or in He; destruct He as [He|He]; [|apply in_app_or in He; destruct He as [He|He]]];
      apply in_sh_els in He; destruct He as [-> ->]; (split; [auto|]; split; [auto|]; split; [lia|lia]).
  - split.
    + rewrite map_app. apply nodup_app; [apply nodup_els_of; auto|apply nodup_els_of; auto|].
      apply key_disj. intros e e' A B. apply in_sh_els in A, B. unfold key. destruct A as [-> ->], B as [-> ->]. intros X; inversion X.
    + intros e He. apply in_app_or in He. destruct He as [He|He]; apply in_sh_els in He; destruct He as [-> ->];
      (split; [auto|]; split; [auto|]; split; [auto|]); destruct SS as [[-> ->]|[-> ->]]; intros; lia.
  - rewrite Si, So in *. destruct HF as [HF|HF]; [|lia]. destruct F as [f|]; [|congruence]. split.
    + rewrite map_app. apply nodup_app; [apply nodup_els_keep; auto|apply nodup_els_keep; auto|].
      apply key_disj. intros e e' A B. apply in_els_keep in A, B. destruct A as [t [_ [_ ->]]], B as [t' [_ [_ ->]]]. unfold key; cbn. congruence.
    + intros e He. apply in_app_or in He. destruct He as [He|He]; apply in_els_keep in He; destruct He as [t [Ht [Hk ->]]]; cbn [ke_gq ke_s ke_mu];
      (split; [auto|]; split; [auto|]; split; [auto|]); intros _; apply I0 in Ht; destruct Ht as [Ht _]; unfold keep in Hk; lia.
Qed.

Lemma C25_fliprotN N axis F T ji n jo m iin iout : (0 < N)%Z ->
  dih_irrep N ji n = Ok iin -> dih_irrep N jo m = Ok iout -> bounds_ok F T = true ->
  (F <> None \/ (ir_size iin * ir_size iout <> 1)%nat) ->
  empty_or (fliprotN_basis N axis F T iin iout) basis_independent.
Proof.
  intros HN Hi Ho HB HF. destruct (fliprotN_inv N axis F T ji n jo m iin iout HN Hi Ho HB) as [els [-> C]].
  destruct (dih_irrep_inv N ji n iin HN Hi) as [Vi _]. destruct (dih_irrep_inv N jo m iout HN Ho) as [Vo _].
  apply class_indep; [destruct C as [[-> [-> _]]|[[[[-> ->]|[-> ->]] _]|[-> [-> _]]]]; split; auto|].
  destruct C as [[Si [So [t0 [t1 [S0 [S1 [I0 [I1 ->]]]]]]]]|[[SS [t0 [S0 [I0 ->]]]]|[Si [So [t0 [S0 [I0 ->]]]]]]].
  - split.
    + rewrite !map_app. apply nodup_app; [apply nodup_els_of; auto|apply nodup_els_of; auto|].
      apply key_disj. intros e e' A B. apply in_sh_els in A, B. unfold key. destruct A as [-> ->], B as [-> ->]. intros X; inversion X.
    + intros e He. rewrite Si, So. apply in_app_or in He. destruct He as [He|He];
      apply in_sh_els in He; destruct He as [-> ->]; (split; [auto|]; split; [auto|]; split; [lia|lia]).
  - split; [apply nodup_els_of; auto|].
    intros e He. apply in_sh_els in He; destruct He as [-> ->].
    split; [unfold dih_irrep_valid in Vi, Vo; destruct (ir_size iin =? 2)%nat; lia|].
    split; [auto|]; split; [auto|]; destruct SS as [[-> ->]|[-> ->]]; intros; lia.
  - rewrite Si, So in *. destruct HF as [HF|HF]; [|lia]. destruct F as [f|]; [|congruence]. split.
    + apply nodup_els_keep; auto.
    + intros e He. apply in_els_keep in He; destruct He as [t [Ht [Hk ->]]]; cbn [ke_gq ke_s ke_mu].
      assert (0 <= (ji + jo) mod 2 < 2)%Z by (apply Z.mod_pos_bound; lia).
      split; [lia|]; split; [auto|]; split; [auto|]; intros _; apply I0 in Ht; destruct Ht as [Ht _]; unfold keep in Hk; lia.
Qed.

Lemma C25_rot n m iin iout : so2_irrep n = Ok iin -> so2_irrep m = Ok iout ->
  empty_or (rot_basis iin iout) basis_independent.
Proof.
  intros Hi Ho. destruct (rot_inv n m iin iout Hi Ho) as [els [-> C]].
  apply class_indep; [destruct C as [[-> [-> _]]|[[[[-> ->]|[-> ->]] _]|[-> [-> _]]]]; split; auto|].
  destruct C as [[Si [So ->]]|[[SS ->]|[Si [So [-> [-> ->]]]]]].
  - split.
    + cbn. constructor; [|constructor; [|constructor; [|constructor; [|constructor]]]]; cbn; unfold key; cbn; intuition congruence.
    + intros e He. rewrite Si, So. destruct He as [<-|[<-|[<-|[<-|[]]]]]; cbn; (split; [auto|]; split; [auto|]; split; [lia|lia]).
  - split.
    + cbn. constructor; [|constructor; [|constructor]]; cbn; unfold key; cbn; intuition congruence.
    + intros e He. destruct He as [<-|[<-|[]]]; cbn; (split; [auto|]; split; [auto|]; split; [auto|]); destruct SS as [[-> ->]|[-> ->]]; intros; lia.
  - split.
    + cbn. constructor; [|constructor]; cbn; tauto.
    + intros e He. destruct He as [<-|[]]; cbn. split; [auto|]; split; [auto|]; split; [auto|]. intros; lia.
Qed.

Lemma C25_fliprot axis ji n jo m iin iout : o2_irrep ji n = Ok iin -> o2_irrep jo m = Ok iout ->
  empty_or (fliprot_basis axis iin iout) basis_independent.
Proof.
  intros Hi Ho. destruct (fliprot_inv axis ji n jo m iin iout Hi Ho) as [els [-> C]].
  assert (Vi : (ji = 0 \/ ji = 1)%Z) by (destruct (o2_irrep_inv ji n iin Hi) as [_ [_ [_ D]]]; intuition).
  assert (Vo : (jo = 0 \/ jo = 1)%Z) by (destruct (o2_irrep_inv jo m iout Ho) as [_ [_ [_ D]]]; intuition).
  apply class_indep; [destruct C as [[-> [-> _]]|[[[[-> ->]|[-> ->]] _]|[-> [-> _]]]]; split; auto|].
  destruct C as [[Si [So ->]]|[[SS ->]|[Si [So [-> [-> ->]]]]]].
  - split.
    + cbn. constructor; [|constructor; [|constructor]]; cbn; unfold key; cbn; intuition congruence.
    + intros e He. rewrite Si, So. destruct He as [<-|[<-|[]]]; cbn [ke_gq ke_s ke_mu]; (split; [auto|]; split; [auto|]; split; [lia|lia]).
  - split.
    + cbn. constructor; [|constructor]; cbn; tauto.
    + intros e He. destruct He as [<-|[]]; cbn [ke_gq ke_s ke_mu]. split; [destruct (ir_size iin =? 2)%nat; lia|]; split; [auto|]; split; [auto|]; destruct SS as [[-> ->]|[-> ->]]; intros; lia.
  - assert (0 <= (ji + jo) mod 2 < 2)%Z by (apply Z.mod_pos_bound; lia).
    assert (E : ((ji + jo) mod 2 = 0 \/ (ji + jo) mod 2 = 1)%Z) by lia. destruct E as [-> | ->].
    + split; [cbn; constructor; [|constructor]; cbn; tauto|].
      intros e He. destruct He as [<-|[]]; cbn [ke_gq ke_s ke_mu fst snd]. split; [auto|]; split; [auto|]; split; [auto|]. intros; lia.
    + split; [cbn; constructor|]. intros e He. destruct He.
Qed.
