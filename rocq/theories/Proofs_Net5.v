(** For C56: the batch normalisations obey the law. *)
From Coq Require Import Reals ZArith String List Bool Lia Lra FunctionalExtensionality.
From Verif Require Import Base LinAlg Spec Spec_Fields Model_Groups Model_Rep Proofs_Rep Proofs_Restrict Model_FieldType Proofs_FieldType Model_GSpace Spec_GSpace Proofs_GSpace Model_Tensor Model_Utils Model_Modules Model_Conv Spec_Conv
  Proofs_Conv Proofs_Conv2 Proofs_Conv3 Proofs_Conv4 Proofs_Conv5 Proofs_Conv6 Proofs_Tensor Model_Fieldwise Spec_Fieldwise Spec_Fieldwise2 Proofs_Utils Proofs_Modules Proofs_Fieldwise Proofs_Fieldwise2 Proofs_Fieldwise3 Proofs_Fieldwise5 Proofs_Fieldwise8 Model_BatchNorm Spec_BatchNorm Proofs_BatchNorm Proofs_BatchNorm2 Proofs_BatchNorm3
  Proofs_BatchNorm4 Proofs_BatchNorm5 Proofs_BatchNorm7 Proofs_BatchNorm8 Proofs_BatchNorm9 Model_Support Spec_Support Model_Net Spec_Net Proofs_Net Proofs_Net2 Proofs_Net3.
Import ListNotations.
Open Scope R_scope.

(** ** numbered entries *)
Section Flat.
Context {B : Type} (bt : batch B) (NB : numbered bt).
Lemma unflat_in h w p : (p < bt_n bt * (h * w))%nat -> let q := unflat bt h w p in (fst (snd q) < h /\ snd (snd q) < w)%nat /\ flat bt h w q = p.
Proof.
  intros Hp. cbv zeta. unfold unflat, flat. cbn [fst snd].
  assert (HW : (h * w <> 0)%nat) by (intros E; rewrite E in Hp; lia). assert (h <> 0 /\ w <> 0)%nat as [H0 W0] by (split; intros ->; lia).
  pose proof (Nat.div_mod p (h * w) HW) as D. pose proof (Nat.mod_upper_bound p (h * w) HW) as U. set (a := (p / (h * w))%nat) in *. set (r := (p mod (h * w))%nat) in *.
  assert (A : (a < bt_n bt)%nat) by (apply Nat.div_lt_upper_bound; lia).
  assert (M : (p mod w = r mod w)%nat) by (rewrite D; replace (h * w * a + r)%nat with (r + (a * h) * w)%nat by lia; apply Nat.mod_add; auto).
  rewrite M. pose proof (Nat.div_mod r w W0) as D2. pose proof (Nat.mod_upper_bound r w W0) as U2.
  split; [split; [apply Nat.div_lt_upper_bound; lia|exact U2]|]. rewrite (proj2 NB a A).
  rewrite Nat.mul_add_distr_r. replace (a * h * w)%nat with (h * w * a)%nat by lia. lia.
Qed.
Lemma flat_in h w b i j : (i < h)%nat -> (j < w)%nat -> (flat bt h w (b, (i, j)) < bt_n bt * (h * w))%nat /\ unflat bt h w (flat bt h w (b, (i, j))) = (b, (i, j)).
Proof.
  intros Hi Hj. unfold flat, unflat. cbn [fst snd]. destruct (proj1 NB b) as [N1 N2]. set (k := bt_num bt b) in *.
  assert (E : ((k * h + i) * w + j = h * w * k + (i * w + j))%nat) by (rewrite Nat.mul_add_distr_r; lia).
  assert (L : (i * w + j < h * w)%nat). { assert ((i + 1) * w <= h * w)%nat by (apply Nat.mul_le_mono_r; lia). lia. }
  split.
  - rewrite E. assert ((k + 1) * (h * w) <= bt_n bt * (h * w))%nat by (apply Nat.mul_le_mono_r; lia). lia.
  - rewrite E. rewrite <- (Nat.div_unique (h * w * k + (i * w + j)) (h * w) k (i * w + j)) by (auto; lia). rewrite N2.
    rewrite <- (Nat.mod_unique (h * w * k + (i * w + j)) (h * w) k (i * w + j)) by (auto; lia).
    rewrite <- (Nat.div_unique (i * w + j) w i j) by lia.
    rewrite <- (Nat.mod_unique (h * w * k + (i * w + j)) w (h * k + i) j) by (auto; lia). reflexivity.
Qed.
End Flat.
Lemma acts_each_iff {G} n (reps : list (rep G)) g pi d d' : reps <> [] -> length d = nsum (map rp_size reps) ->
  acts_each n reps (fun _ => g) pi d d' <-> length d' = length d /\ forall p i, (p < n)%nat -> (i < length d)%nat -> val d' i p = mvec (length d) (trep reps g) (fun a => val d a (pi p)) i.
Proof.
  intros Hne L. unfold acts_each, transform_fibers, type_representation.
  assert (D : exists rho, directsum reps (Some "FiberRepresentation"%string) = Ok rho) by (destruct reps; [tauto|]; eexists; reflexivity). destruct D as [rho D]. rewrite D. cbn [rbind].
  pose proof (ds_size _ _ _ D) as S. pose proof (directsum_mat _ _ _ g D) as M. rewrite <- L in S, M. rewrite S.
  assert (E : forall (v : vec) i, (i < length d)%nat -> mvec (length d) (rp_mat rho g) v i = mvec (length d) (trep reps g) v i).
  { intros v i Hi. unfold mvec. apply rsum_ext. intros a Ha. rewrite (M i a Hi Ha). reflexivity. }
  split.
  - intros (L' & V). split; [exact L'|]. intros p i Hp Hi. destruct (V p Hp) as (t' & T & V'). injection T as <-. rewrite V' by auto. apply E; auto.
  - intros (L' & V). split; [exact L'|]. intros p Hp. eexists. split; [reflexivity|]. intros i Hi. rewrite V by auto. symmetry. apply E; auto.
Qed.

(** a law that modules working on numbered entries obey if they commute with the transformations and permutations of the entries *)
Definition entries_give {G B} (g : G) (bt : batch B) (S : Type) (law : (arr (B -> vec) * ctype G -> result (arr (B -> vec) * ctype G)) -> (arr (B -> vec) * ctype G -> result (arr (B -> vec) * ctype G)) -> ctype G -> ctype G -> (arr (B -> vec) -> arr (B -> vec) -> Prop) -> Prop) : Prop :=
  forall (fwd fwd' : nat -> gtensor (space G) (rep G) (nat -> R) -> result (gtensor (space G) (rep G) (nat -> R) * S)) t (ok : arr (B -> vec) -> arr (B -> vec) -> Prop), ft_reps t <> [] ->
  (forall pi (X X' : gtensor (space G) (rep G) (nat -> R)) x y, ok x y -> typed space_eqb rep_eqb t X -> typed space_eqb rep_eqb t X' -> let n := entries bt x in bij n pi -> acts_each n (ft_reps t) (fun _ => g) pi (gt_data X) (gt_data X') ->
     exists Y Y' s s', fwd n X = Ok (Y, s) /\ fwd' n X' = Ok (Y', s') /\ gt_type Y = t /\ gt_type Y' = t /\ length (gt_data Y) = ct_size t /\ acts_each n (ft_reps t) (fun _ => g) pi (gt_data Y) (gt_data Y')) ->
  law (on_entries bt fwd) (on_entries bt fwd') t t ok.

Section Entries.
Context {G B : Type} (sp : space G) (e : gelt) (g : G) (kk : Z) (bt : batch B) (NB : numbered bt).
Notation fl := (gflip (sp_obj sp) e).
Notation teqb := (ft_eqb space_eqb rep_eqb).
Notation rel := (@rel G B sp e g kk).
Notation law := (@law G B sp e g kk).
Notation gtensor := (gtensor (space G) (rep G) (nat -> R)).
Notation is_typed := (typed space_eqb rep_eqb).

Lemma flat_channels_len n (x : arr (B -> vec)) : length (flat_channels bt n x) = n.
Proof. unfold flat_channels. rewrite map_length, seq_length. reflexivity. Qed.
Lemma flat_channels_val n (x : arr (B -> vec)) c p : (c < n)%nat -> (p < bt_n bt * (a_h x * a_w x))%nat ->
  val (flat_channels bt n x) c p = let q := unflat bt (a_h x) (a_w x) p in a_px x (fst (snd q)) (snd (snd q)) (fst q) c.
Proof.
  intros Hc Hp. unfold val, flat_channels.
  set (f := fun (c p : nat) => if (p <? bt_n bt * (a_h x * a_w x))%nat then let q := unflat bt (a_h x) (a_w x) p in a_px x (fst (snd q)) (snd (snd q)) (fst q) c else 0).
  rewrite (nth_indep _ _ (f 0%nat)) by (rewrite map_length, seq_length; auto). rewrite (map_nth f). rewrite seq_nth by auto. unfold f. apply Nat.ltb_lt in Hp. rewrite Hp. reflexivity.
Qed.
(** the number of the entry of x that an entry of x' comes from *)
Definition entry (x x' : arr (B -> vec)) (p : nat) : nat :=
  let q := unflat bt (a_h x') (a_w x') p in flat bt (a_h x) (a_w x) (fst q, origin fl kk (a_h x) (a_w x) (snd q)).
Lemma rel_area (t : ctype G) x x' : rel t x x' -> (a_h x' * a_w x' = a_h x * a_w x)%nat.
Proof. intros R. apply rel_dims in R as [-> ->]. unfold turn. rewrite rot90_red. destruct (mod4 kk) as [Q|[Q|[Q|Q]]]; rewrite Q; destruct fl; cbn; lia. Qed.
Lemma entry_facts (t : ctype G) x x' p : rel t x x' -> (p < bt_n bt * (a_h x * a_w x))%nat ->
  let q := unflat bt (a_h x') (a_w x') p in let o := origin fl kk (a_h x) (a_w x) (snd q) in
  (fst (snd q) < a_h x' /\ snd (snd q) < a_w x')%nat /\ flat bt (a_h x') (a_w x') q = p /\ (fst o < a_h x /\ snd o < a_w x)%nat /\
  (entry x x' p < bt_n bt * (a_h x * a_w x))%nat /\ unflat bt (a_h x) (a_w x) (entry x x' p) = (fst q, o).
Proof.
  intros R Hp. cbv zeta. pose proof Hp as Hp'. rewrite <- (rel_area t x x' R) in Hp'. destruct (unflat_in bt NB _ _ p Hp') as [[Q1 Q2] Q3]. split; [auto|]. split; [auto|].
  pose proof Q1 as R1. pose proof Q2 as R2. destruct (rel_dims _ _ _ _ _ _ _ R) as [D1 D2]. rewrite D1 in R1 at 2. rewrite D2 in R2 at 2. pose proof (origin_in fl kk _ _ _ R1 R2) as [O1 O2]. split; [auto|].
  unfold entry. destruct (origin fl kk (a_h x) (a_w x) (snd (unflat bt (a_h x') (a_w x') p))) as [i j]. cbn [fst snd] in O1, O2. apply (flat_in bt NB); auto.
Qed.
Lemma entry_bij (t : ctype G) x x' : rel t x x' -> bij (bt_n bt * (a_h x * a_w x)) (entry x x').
Proof.
  intros R. split.
  - intros p Hp. apply (entry_facts t x x' p R Hp).
  - intros p p' Hp Hp' E. destruct (entry_facts t x x' p R Hp) as ((Q1 & Q2) & F & _ & _ & U). destruct (entry_facts t x x' p' R Hp') as ((Q1' & Q2') & F' & _ & _ & U').
    rewrite E, U' in U. pose proof (f_equal fst U) as U1. pose proof (f_equal snd U) as U2. cbn [fst snd] in U1, U2. rewrite <- F, <- F'. apply f_equal. destruct (rel_dims _ _ _ _ _ _ _ R) as [D1 D2].
    assert (U3 : snd (unflat bt (a_h x') (a_w x') p') = snd (unflat bt (a_h x') (a_w x') p)).
    { apply (origin_inj fl kk (a_h x) (a_w x)); rewrite <- ?D1, <- ?D2; auto. }
    rewrite (surjective_pairing (unflat bt (a_h x') (a_w x') p)), (surjective_pairing (unflat bt (a_h x') (a_w x') p')). rewrite U3, U1. reflexivity.
Qed.
Lemma rel_acts_each (t : ctype G) x x' : ft_reps t <> [] -> rel t x x' ->
  acts_each (bt_n bt * (a_h x * a_w x)) (ft_reps t) (fun _ => g) (entry x x') (flat_channels bt (ct_size t) x) (flat_channels bt (ct_size t) x').
Proof.
  intros Hne R. apply acts_each_iff; [exact Hne|apply flat_channels_len|]. rewrite !flat_channels_len. split; [reflexivity|]. intros p i Hp Hi.
  destruct (entry_facts t x x' p R Hp) as ((Q1 & Q2) & F & (O1 & O2) & EI & U). rewrite flat_channels_val by (auto; rewrite (rel_area t x x' R); auto). cbv zeta.
  destruct R as (_ & _ & R3). rewrite R3 by auto. cbn [amap a_px]. unfold mvec. apply rsum_ext. intros a Ha. f_equal. rewrite flat_channels_val by auto. cbv zeta. rewrite U. cbn [fst snd]. rewrite turn_origin. cbv zeta.
  destruct (unflat bt (a_h x') (a_w x') p) as [b [i' j']]. reflexivity.
Qed.
Lemma flat_image_rel (t tin : ctype G) x x' (d d' : list (nat -> R)) : ft_reps t <> [] -> rel tin x x' -> length d = ct_size t ->
  acts_each (bt_n bt * (a_h x * a_w x)) (ft_reps t) (fun _ => g) (entry x x') d d' -> rel t (flat_image bt (a_h x) (a_w x) d) (flat_image bt (a_h x') (a_w x') d').
Proof.
  intros Hne R L A. apply acts_each_iff in A as [L' V]; auto. destruct (rel_dims _ _ _ _ _ _ _ R) as [D1 D2]. destruct (turn_h fl kk (flat_image bt (a_h x) (a_w x) d)) as [T1 T2]. cbn [flat_image a_h a_w] in T1, T2.
  split; [cbn [flat_image amap a_h a_w]; rewrite T1; exact D1|]. split; [cbn [flat_image amap a_h a_w]; rewrite T2; exact D2|]. cbn [flat_image amap a_h a_w a_px]. intros i j b c Hi Hj Hc.
  destruct (flat_in bt NB (a_h x') (a_w x') b i j Hi Hj) as [FI FU]. rewrite (rel_area tin x x' R) in FI.
  change (nth c d' (fun _ => 0) (flat bt (a_h x') (a_w x') (b, (i, j)))) with (val d' c (flat bt (a_h x') (a_w x') (b, (i, j)))). rewrite V by (auto; rewrite L; auto). rewrite L. unfold mvec. apply rsum_ext. intros a Ha. f_equal.
  rewrite turn_origin. cbn [flat_image a_h a_w a_px]. unfold entry. rewrite FU. cbn [fst snd]. unfold val. destruct (origin fl kk (a_h x) (a_w x) (i, j)). reflexivity.
Qed.
Lemma entries_law S : entries_give g bt S law.
Proof.
  intros fwd fwd' t ok N H tt x x' y t' E _ SZ R F OK. unfold on_entries in *. cbn [fst snd] in *. rewrite SZ in *. rewrite (rel_area t x x' R).
  destruct (H (entry x x') (MkGT (flat_channels bt (ct_size t) x) tt) (MkGT (flat_channels bt (ct_size t) x') tt) x y OK) as (Y & Y' & s & s' & F1 & F2 & T1 & T2 & L & A).
  - split; [exact E|apply flat_channels_len].
  - split; [exact E|apply flat_channels_len].
  - apply (entry_bij t); auto.
  - apply rel_acts_each; auto.
  - unfold entries in F1, F2. rewrite F1 in F. cbn [rbind fst snd] in F. injection F as <- <-. split; [exact T1|]. rewrite F2. cbn [rbind fst snd]. rewrite T2. eexists. split; [reflexivity|].
    apply (flat_image_rel t t); auto.
Qed.
End Entries.

Section Layers.
Context {G B : Type} (sp : space G) (isrep : rep G -> Prop) (PS : planar_space G sp isrep) (e : gelt) (g : G) (bt : batch B).
Hypothesis He : fg_is_element (sp_group (sp_obj sp)) e = true.
Hypothesis Hg : sp_prj sp e = Some g.
Context (law : (arr (B -> vec) * ctype G -> result (arr (B -> vec) * ctype G)) -> (arr (B -> vec) * ctype G -> result (arr (B -> vec) * ctype G)) -> ctype G -> ctype G -> (arr (B -> vec) -> arr (B -> vec) -> Prop) -> Prop).
Hypothesis entries_law : forall S, entries_give g bt S law.
Notation good := (fun t : ctype G => forall r, In r (ft_reps t) -> isrep r /\ (0 < rp_size r)%nat /\ compatible (rp_nonlin r) (rp_size r) (rp_mat r g)).
Notation enough tr := (fun x _ : arr (B -> vec) => tr = true -> (0 < entries bt x)%nat).

Lemma good_size t : good t -> size_pos t.
Proof. intros H r Hr. apply (H r Hr). Qed.
Lemma nbn_law {K} (keqb : K -> K -> bool) key ksize ksub (EP : forall a b, reflect (a = b) (keqb a b)) (KI : forall a b : K, key a = key b -> a = b) tr (m : nbn (GS := space G) (G := G) (K := K)) :
  nb_wf keqb key ksize ksub m -> ft_reps (nb_in m) <> [] -> each g orthogonal (nb_in m) ->
  law (on_entries bt (fun n => nbn_forward space_eqb rep_eqb keqb key ksize ksub tr n m)) (on_entries bt (fun n => nbn_forward space_eqb rep_eqb keqb key ksize ksub tr n m)) (nb_in m) (nb_in m) (enough tr).
Proof.
  intros W N O. apply entries_law; auto. intros pi X X' x y EN TX TX' n BJ AC.
  destruct (nbn_sim space_eqb rep_eqb keqb key ksize ksub EP KI tr n (fun _ => g) pi m m X X') as (Y & Y' & m1 & m1' & F1 & F2 & _ & A); auto.
  { split; [reflexivity|]. auto 10. }
  destruct (nbn_value space_eqb rep_eqb keqb key ksize ksub EP KI tr n m X W TX EN) as (Z & m2 & F3 & _ & T1 & L & _). rewrite F1 in F3. injection F3 as <- <-.
  destruct (nbn_value space_eqb rep_eqb keqb key ksize ksub EP KI tr n m X' W TX' EN) as (Z & m3 & F4 & _ & T2 & L' & _). rewrite F2 in F4. injection F4 as <- <-.
  exists Y, Y', m1, m1'. auto 10.
Qed.
Lemma norm_bn_law t tr m : norm_bn_reached t m -> good t -> ft_reps t <> [] -> nb_in m = t /\
  law (on_entries bt (fun n => nbn_forward space_eqb rep_eqb Nat.eqb (fun s => py_str s) (fun s => s) (fun s => s) tr n m))
      (on_entries bt (fun n => nbn_forward space_eqb rep_eqb Nat.eqb (fun s => py_str s) (fun s => s) (fun s => s) tr n m)) t t (enough tr).
Proof.
  intros (eps & mo & affine & m0 & h & ys & MK & E0 & MO & H & R) OK N.
  destruct (norm_bn_wf t eps mo affine m0 MK (good_size t OK) E0 MO) as (WF & I1 & I2 & _).
  pose proof MK as A. unfold norm_bn_make in A. apply assert_ok in A as [A _].
  destruct (nbn_life space_eqb rep_eqb Nat.eqb py_str (fun s => s) (fun s => s) Nat.eqb_spec py_str_inj m0 h WF) as (zs & mm & RR & W & K & _); [rewrite I1, I2; exact H|]. rewrite R in RR. injection RR as _ <-.
  assert (EI : nb_in m = t) by congruence. split; [exact EI|]. rewrite <- EI. apply (nbn_law Nat.eqb py_str (fun s => s) (fun s => s) Nat.eqb_spec py_str_inj tr m W); rewrite EI; auto. intros r Hr. apply (orths isrep g t OK A r Hr).
Qed.
Lemma induced_bn_law t tr m : induced_bn_reached t m -> each g orthogonal t -> good t -> ft_reps t <> [] -> nb_in m = t /\
  law (on_entries bt (fun n => nbn_forward space_eqb rep_eqb pair_eqb pair_str fst snd tr n m)) (on_entries bt (fun n => nbn_forward space_eqb rep_eqb pair_eqb pair_str fst snd tr n m)) t t (enough tr).
Proof.
  intros (eps & mo & affine & m0 & ids & h & ys & MK & ID & E0 & MO & H & R) O OK N.
  destruct (induced_bn_wf t eps mo affine m0 MK (good_size t OK) E0 MO) as (WF & I1 & I2 & _). rewrite ID in I2. injection I2 as I2.
  destruct (nbn_life space_eqb rep_eqb pair_eqb pair_str (fun i => fst i) (fun i => snd i) pair_eqbP pair_str_inj m0 h WF) as (zs & mm & RR & W & K & _); [rewrite I1, <- I2; exact H|].
  change (run (nbn_forward space_eqb rep_eqb pair_eqb pair_str fst snd) (nb_apply pair_eqb) m0 h = Ok (zs, mm)) in RR. rewrite R in RR. injection RR as _ <-.
  assert (EI : nb_in m = t) by congruence. split; [exact EI|]. rewrite <- EI. apply (nbn_law pair_eqb pair_str fst snd pair_eqbP pair_str_inj tr m W); rewrite EI; auto.
Qed.
Lemma inner_bn_law t tr m junk junk' : inner_bn_reached t m -> good t -> ft_reps t <> [] -> ib_in m = t /\
  law (on_entries bt (fun n => inner_forward space_eqb rep_eqb tr n junk m)) (on_entries bt (fun n => inner_forward space_eqb rep_eqb tr n junk' m)) t t
    (fun x _ => (tr || negb (ib_track m))%bool = true -> forall r, In r (ft_reps (ib_in m)) -> (1 < rp_size r * entries bt x)%nat).
Proof.
  intros (eps & mo & affine & track & m0 & jk & h & ys & MK & E0 & MO & H & R) OK N.
  destruct (inner_wf t eps mo affine track m0 MK (good_size t OK) E0 MO) as (WF & I1 & _ & _ & _ & I5 & _).
  pose proof MK as A. unfold inner_make in A. apply assert_ok in A as [A _].
  destruct (inner_life space_eqb rep_eqb jk m0 h WF) as (zs & mm & RR & W & K & _).
  { apply Forall_forall. intros ev He'. rewrite Forall_forall in H. specialize (H ev He'). destruct ev as [tr' n' x'|w]; cbn [allowed] in *; unfold ib_sizes; rewrite I1; [|exact H]. destruct H as [TX N0]. split; [exact TX|].
    intros C s Hs. unfold ib_sizes in Hs. rewrite I1 in Hs. rewrite I5 in C. apply in_map_iff in Hs as (r & <- & Hr). apply N0; auto. }
  rewrite R in RR. injection RR as _ <-. assert (EI : ib_in m = t) by congruence. split; [exact EI|]. apply entries_law; auto.
  intros pi X X' x y EN TX TX' n BJ AC. rewrite <- EI in TX, TX', AC.
  assert (IE : inner_enough tr n m) by (intros C s Hs; unfold ib_sizes in Hs; apply in_map_iff in Hs as (r & <- & Hr); apply EN; auto).
  destruct (inner_sim space_eqb rep_eqb tr n junk junk' (fun _ => g) pi m m X X') as (Y & Y' & m1 & m1' & F1 & F2 & _ & A2); auto.
  { split; [reflexivity|]. auto 10. }
  { rewrite EI; exact N. }
  { intros p r _. rewrite EI. apply (perms isrep g); auto. }
  destruct (inner_value space_eqb rep_eqb tr n junk m X W TX IE) as (Z & m2 & F3 & _ & T1 & L & _). rewrite F1 in F3. injection F3 as <- <-.
  destruct (inner_value space_eqb rep_eqb tr n junk' m X' W TX' IE) as (Z & m3 & F4 & _ & T2 & L' & _). rewrite F2 in F4. injection F4 as <- <-.
  rewrite EI in *. exists Y, Y', m1, m1'. auto 10.
Qed.
Lemma gnorm_bn_law cob_id t tr m junk junk' : gnorm_bn_reached cob_id t m -> (forall r, In r (ft_reps t) -> cob_id r = true -> meq (rp_size r) (rp_size r) (rp_cob r) mid) ->
  (forall r ir, In r (ft_reps t) -> In ir (rp_irreps r) -> orthogonal (ir_size ir) (ir_mat ir g)) -> good t -> ft_reps t <> [] -> gb_in m = t /\
  law (on_entries bt (fun n => gnorm_forward space_eqb rep_eqb cob_id tr n junk m)) (on_entries bt (fun n => gnorm_forward space_eqb rep_eqb cob_id tr n junk' m)) t t (enough tr).
Proof.
  intros (uniq & eps & mo & affine & m0 & jk & h & ys & MK & U & E0 & MO & H & R) CI O OK N.
  destruct (space_ok _ _ _ PS) as [code [el [inv SF]]]. destruct (sf_elt _ _ _ _ _ SF e He) as (g' & E1 & _ & E2). rewrite Hg in E2. injection E2 as <-.
  assert (IT : forall r ir, In r (ft_reps t) -> In ir (rp_irreps r) -> ir_trivial ir = true -> ir_size ir = 1%nat /\ ir_mat ir g 0%nat 0%nat = 1).
  { intros r ir Hr Hi T. destruct (sf_triv _ _ _ _ _ SF r ir (proj1 (OK r Hr)) Hi T) as [T1 T2]. auto. }
  assert (RO : forall r, In r (ft_reps t) -> irs_ok (rp_irreps r) /\ cob_ok cob_id r).
  { intros r Hr. split; [|split; [apply (sf_acc _ _ _ _ _ SF); apply (OK r Hr)|auto]]. intros ir Hi. split; [apply (sf_pos _ _ _ _ _ SF r); auto; apply (OK r Hr)|]. intros T. apply (IT r ir Hr Hi T). }
  destruct (gnorm_wf cob_id t uniq eps mo affine m0 MK (good_size t OK) U E0 MO RO) as (WF & I1 & _).
  destruct (gnorm_life space_eqb rep_eqb cob_id jk m0 h WF) as (zs & mm & RR & W & K & _); [rewrite I1; exact H|].
  rewrite R in RR. injection RR as _ <-. assert (EI : gb_in m = t) by congruence. split; [exact EI|]. apply entries_law; auto.
  intros pi X X' x y EN TX TX' n BJ AC. rewrite <- EI in TX, TX', AC.
  destruct (gnorm_sim space_eqb rep_eqb cob_id tr n junk junk' (fun _ => g) pi m m X X') as (Y & Y' & m1 & m1' & F1 & F2 & _ & A2); auto.
  { split; [reflexivity|]. auto 10. }
  { rewrite EI; exact N. }
  { intros p r ir _. rewrite EI. intros Hr Hi. split; [apply (O r); auto|]. intros T. apply (IT r ir Hr Hi T). }
  destruct (gnorm_value space_eqb rep_eqb cob_id tr n junk m X W TX EN) as (Z & m2 & F3 & _ & T1 & L & _). rewrite F1 in F3. injection F3 as <- <-.
  destruct (gnorm_value space_eqb rep_eqb cob_id tr n junk' m X' W TX' EN) as (Z & m3 & F4 & _ & T2 & L' & _). rewrite F2 in F4. injection F4 as <- <-.
  rewrite EI in *. exists Y, Y', m1, m1'. auto 10.
Qed.
End Layers.
