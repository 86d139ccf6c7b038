(** C44: batch normalisation is equivariant over the whole life of the module; C48: export of InnerBatchNorm. *)
From Coq Require Import Reals ZArith String List Bool Lia Lra.
From Verif Require Import Base LinAlg Spec Spec_Fields Model_Groups Model_Rep Model_Regular Model_FieldType Model_Tensor Model_Utils Model_Modules Model_Fieldwise Model_BatchNorm
  Spec_Fieldwise Spec_Fieldwise2 Spec_Dropout Spec_BatchNorm Proofs_Groups Proofs_Irreps Proofs_Rep Proofs_Regular Proofs_Regular2 Proofs_FieldType Proofs_FieldType2 Proofs_Tensor Proofs_Utils Proofs_Modules
  Proofs_Fieldwise Proofs_Fieldwise2 Proofs_Fieldwise3 Proofs_Fieldwise4 Proofs_Fieldwise5 Proofs_Fieldwise8 Proofs_Dropout Proofs_BatchNorm Proofs_BatchNorm2 Proofs_BatchNorm3 Proofs_BatchNorm4
  Proofs_BatchNorm5 Proofs_BatchNorm6 Proofs_BatchNorm7 Proofs_BatchNorm8 Proofs_BatchNorm9 Prop_Regular Prop_Fieldwise2 Prop_Fieldwise3.
Import ListNotations.
Open Scope R_scope.

Section C44.
Context {GS G : Type} (gs_eqb : GS -> GS -> bool) (rp_eqb : rep G -> rep G -> bool).
Notation ftype := (ftype GS (rep G)).
Notation gtensor := (gtensor GS (rep G) chan).
Notation typed := (typed gs_eqb rp_eqb).

(** ** NormBatchNorm *)
Notation norm_forward := (nbn_forward gs_eqb rp_eqb Nat.eqb py_str (fun s => s) (fun s => s)).
(** Two histories of one module: in the second, every sample of every batch is transformed by an element of its own (and the
    points are moved).  Both succeed, the buffers and parameters end up equal, and every output is the output of the first
    history, transformed in the same way.  Batches come in training and evaluation mode in any order; in between, statistics
    are reset and weights are set or reset. *)
Theorem C44_norm_history : forall (t : ftype) eps mo affine m0 h,
  norm_bn_make t eps mo affine = Ok m0 -> size_pos t -> ft_reps t <> [] -> 0 < eps -> momentum_ok mo ->
  Forall (event_ok (fun training n gs pi x x' =>
            typed t x /\ typed t x' /\ (training = true -> (0 < n)%nat) /\ bij n pi /\
            (forall p r, (p < n)%nat -> In r (ft_reps t) -> orthogonal (rp_size r) (rp_mat r (gs p))) /\
            acts_each n (ft_reps t) gs pi (gt_data x) (gt_data x'))
          (nb_event_ok Nat.eqb (map rp_size (ft_reps t)))) h ->
  exists ys ys' m m', run norm_forward (nb_apply Nat.eqb) m0 (map left_of h) = Ok (ys, m) /\
    run norm_forward (nb_apply Nat.eqb) m0 (map right_of h) = Ok (ys', m') /\
    nb_batches m' = nb_batches m /\ (forall s, In s (map rp_size (ft_reps t)) -> nb_var m' s = nb_var m s /\ (forall v, In v (nb_var m s) -> 0 <= v)) /\
    follow (ft_reps t) h ys ys'.
Proof.
  intros t eps mo affine m0 h MK SP NE E0 MO H. destruct (norm_bn_wf t eps mo affine m0 MK SP E0 MO) as (WF & I1 & I2 & _). rewrite <- I1, <- I2 in *. rewrite I1 in NE at 1. rewrite <- I1 in NE.
  destruct (nbn_history gs_eqb rp_eqb Nat.eqb py_str (fun s => s) (fun s => s) Nat.eqb_spec py_str_inj h m0 WF NE H) as (ys & ys' & m & m' & R & R' & (W & S1 & S2 & S3 & S4 & S5 & S6 & S7 & S8) & FO).
  exists ys, ys', m, m'. split; [auto|]. split; [auto|]. split; [auto|]. split; [|auto].
  assert (K : nb_keys m = nb_keys m0).
  { assert (L : Forall (allowed (fun (tr : bool) (n : nat) x => typed (nb_in m0) x /\ (tr = true -> (0 < n)%nat)) (nb_event_ok Nat.eqb (nb_keys m0))) (map left_of h)).
    { apply Forall_forall. intros e He. apply in_map_iff in He as (e2 & <- & H2). rewrite Forall_forall in H. specialize (H e2 H2). destruct e2; cbn in *; [tauto|auto]. }
    destruct (nbn_life gs_eqb rp_eqb Nat.eqb py_str (fun s => s) (fun s => s) Nat.eqb_spec py_str_inj m0 (map left_of h) WF L) as (zs & mm & RR & _ & _ & KK & _). rewrite R in RR. injection RR as _ <-. auto. }
  intros s Hs. rewrite <- K in Hs. split; [auto|]. destruct W as (_ & _ & PV & _). intros v Hv. apply (PV s v Hs Hv).
Qed.
(** After any history, the next batch: the variance of a field is the running average of its mean square (with Bessel's
    correction), and the field is multiplied by weight / sqrt(variance + eps); in training mode, too, with the running average. *)
Theorem C44_norm_value : forall (t : ftype) eps mo affine m0 h,
  norm_bn_make t eps mo affine = Ok m0 -> size_pos t -> 0 < eps -> momentum_ok mo ->
  Forall (allowed (fun training n x => typed t x /\ (training = true -> (0 < n)%nat)) (nb_event_ok Nat.eqb (map rp_size (ft_reps t)))) h ->
  exists ys m, run norm_forward (nb_apply Nat.eqb) m0 h = Ok (ys, m) /\
  forall training n x, typed t x -> (training = true -> (0 < n)%nat) ->
  exists y m1, norm_forward training n m x = Ok (y, m1) /\ gt_type y = t /\
    nb_batches m1 = (if training then S (nb_batches m) else nb_batches m) /\ nb_weight m1 = nb_weight m /\
    forall f s b, nth_error (map rp_size (ft_reps t)) f = Some s -> nth_error (fields (ft_reps t) (gt_data x)) f = Some b ->
      nb_field_var Nat.eqb m1 f s = (if training then average (weight_of mo (S (nb_batches m))) (nb_field_var Nat.eqb m f s) (mean_square n b * unbias n) else nb_field_var Nat.eqb m f s) /\
      0 <= nb_field_var Nat.eqb m1 f s /\
      nth_error (fields (ft_reps t) (gt_data y)) f = Some (scaled (fun _ => nb_field_weight Nat.eqb m f s / sqrt (nb_field_var Nat.eqb m1 f s + eps)) b).
Proof.
  intros t eps mo affine m0 h MK SP E0 MO H. destruct (norm_bn_wf t eps mo affine m0 MK SP E0 MO) as (WF & I1 & I2 & I3 & I4 & _). rewrite <- I1, <- I2, <- I3, <- I4 in *.
  destruct (nbn_life gs_eqb rp_eqb Nat.eqb py_str (fun s => s) (fun s => s) Nat.eqb_spec py_str_inj m0 h WF H) as (ys & m & R & W & E1 & E2 & E3 & E4).
  exists ys, m. split; [auto|]. intros tr n x TX N0. rewrite <- E1 in TX.
  destruct (nbn_next gs_eqb rp_eqb Nat.eqb py_str (fun s => s) (fun s => s) Nat.eqb_spec py_str_inj tr n m x W TX N0) as (y & m1 & F & Y1 & Y2 & Y3 & Y4).
  exists y, m1. split; [auto|]. split; [congruence|]. split; [auto|]. split; [auto|]. intros f s b Hf Hb. rewrite <- E2 in Hf. rewrite <- E1 in *. destruct (Y4 f s b Hf Hb) as (Z1 & Z2 & Z3).
  rewrite <- E3, <- E4. split; [|auto]. rewrite Z1.
  assert (s <> 0)%nat. { destruct W as ((_ & KP & _) & _). apply nth_error_In in Hf. destruct (KP s Hf). lia. }
  rewrite Nat.div_same by auto. rewrite Nat.mul_1_l. reflexivity.
Qed.

(** ** InducedNormBatchNorm: the same, with the sub-fields of the induced representation as samples of the variance *)
Notation induced_forward := (nbn_forward gs_eqb rp_eqb pair_eqb pair_str (fun i => fst i) (fun i => snd i)).
Theorem C44_induced_history : forall (t : ftype) ids eps mo affine m0 h,
  induced_bn_make t eps mo affine = Ok m0 -> rmap (field_id "induced_norm") (ft_reps t) = Ok ids -> size_pos t -> ft_reps t <> [] -> 0 < eps -> momentum_ok mo ->
  Forall (event_ok (fun training n gs pi x x' =>
            typed t x /\ typed t x' /\ (training = true -> (0 < n)%nat) /\ bij n pi /\
            (forall p r, (p < n)%nat -> In r (ft_reps t) -> orthogonal (rp_size r) (rp_mat r (gs p))) /\
            acts_each n (ft_reps t) gs pi (gt_data x) (gt_data x'))
          (nb_event_ok pair_eqb ids)) h ->
  exists ys ys' m m', run induced_forward (nb_apply pair_eqb) m0 (map left_of h) = Ok (ys, m) /\
    run induced_forward (nb_apply pair_eqb) m0 (map right_of h) = Ok (ys', m') /\
    nb_batches m' = nb_batches m /\ (forall i, In i ids -> nb_var m' i = nb_var m i /\ (forall v, In v (nb_var m i) -> 0 <= v)) /\
    follow (ft_reps t) h ys ys'.
Proof.
  intros t ids eps mo affine m0 h MK ID SP NE E0 MO H. destruct (induced_bn_wf t eps mo affine m0 MK SP E0 MO) as (WF & I1 & I2 & _). rewrite ID in I2. injection I2 as I2.
  rewrite <- I1, I2 in *. rewrite I1 in NE at 1. rewrite <- I1 in NE.
  destruct (nbn_history gs_eqb rp_eqb pair_eqb pair_str (fun i => fst i) (fun i => snd i) pair_eqbP pair_str_inj h m0 WF NE H) as (ys & ys' & m & m' & R & R' & (W & S1 & S2 & S3 & S4 & S5 & S6 & S7 & S8) & FO).
  exists ys, ys', m, m'. split; [auto|]. split; [auto|]. split; [auto|]. split; [|auto].
  assert (K : nb_keys m = nb_keys m0).
  { assert (L : Forall (allowed (fun (tr : bool) (n : nat) x => typed (nb_in m0) x /\ (tr = true -> (0 < n)%nat)) (nb_event_ok pair_eqb (nb_keys m0))) (map left_of h)).
    { apply Forall_forall. intros e He. apply in_map_iff in He as (e2 & <- & H2). rewrite Forall_forall in H. specialize (H e2 H2). destruct e2; cbn in *; [tauto|auto]. }
    destruct (nbn_life gs_eqb rp_eqb pair_eqb pair_str (fun i => fst i) (fun i => snd i) pair_eqbP pair_str_inj m0 (map left_of h) WF L) as (zs & mm & RR & _ & _ & KK & _). rewrite R in RR. injection RR as _ <-. auto. }
  intros s Hs. rewrite <- K in Hs. split; [auto|]. destruct W as (_ & _ & PV & _). intros v Hv. apply (PV s v Hs Hv).
Qed.
Theorem C44_induced_value : forall (t : ftype) ids eps mo affine m0 h,
  induced_bn_make t eps mo affine = Ok m0 -> rmap (field_id "induced_norm") (ft_reps t) = Ok ids -> size_pos t -> 0 < eps -> momentum_ok mo ->
  Forall (allowed (fun training n x => typed t x /\ (training = true -> (0 < n)%nat)) (nb_event_ok pair_eqb ids)) h ->
  exists ys m, run induced_forward (nb_apply pair_eqb) m0 h = Ok (ys, m) /\
  forall training n x, typed t x -> (training = true -> (0 < n)%nat) ->
  exists y m1, induced_forward training n m x = Ok (y, m1) /\ gt_type y = t /\
    nb_batches m1 = (if training then S (nb_batches m) else nb_batches m) /\ nb_weight m1 = nb_weight m /\
    forall f size sub b, nth_error ids f = Some (size, sub) -> nth_error (fields (ft_reps t) (gt_data x)) f = Some b ->
      nb_field_var pair_eqb m1 f (size, sub) = (if training then average (weight_of mo (S (nb_batches m))) (nb_field_var pair_eqb m f (size, sub)) (mean_square n b * unbias (size / sub * n)) else nb_field_var pair_eqb m f (size, sub)) /\
      0 <= nb_field_var pair_eqb m1 f (size, sub) /\
      nth_error (fields (ft_reps t) (gt_data y)) f = Some (scaled (fun _ => nb_field_weight pair_eqb m f (size, sub) / sqrt (nb_field_var pair_eqb m1 f (size, sub) + eps)) b).
Proof.
  intros t ids eps mo affine m0 h MK ID SP E0 MO H. destruct (induced_bn_wf t eps mo affine m0 MK SP E0 MO) as (WF & I1 & I2 & I3 & I4 & _). rewrite ID in I2. injection I2 as I2. rewrite <- I1, I2, <- I3, <- I4 in *.
  destruct (nbn_life gs_eqb rp_eqb pair_eqb pair_str (fun i => fst i) (fun i => snd i) pair_eqbP pair_str_inj m0 h WF H) as (ys & m & R & W & E1 & E2 & E3 & E4).
  exists ys, m. split; [auto|]. intros tr n x TX N0. rewrite <- E1 in TX.
  destruct (nbn_next gs_eqb rp_eqb pair_eqb pair_str (fun i => fst i) (fun i => snd i) pair_eqbP pair_str_inj tr n m x W TX N0) as (y & m1 & F & Y1 & Y2 & Y3 & Y4).
  exists y, m1. split; [auto|]. split; [congruence|]. split; [auto|]. split; [auto|]. intros f size sub b Hf Hb. rewrite <- E2 in Hf. rewrite <- E1 in *. destruct (Y4 f (size, sub) b Hf Hb) as (Z1 & Z2 & Z3).
  rewrite <- E3, <- E4. auto.
Qed.

(** ** InnerBatchNorm *)
(** The representations act by permutations of the channels of each field.  Statistics of a batch need more than one value. *)
Theorem C44_inner_history : forall (t : ftype) eps mo affine track m0 junk h,
  inner_make t eps mo affine track = Ok m0 -> size_pos t -> ft_reps t <> [] -> 0 < eps -> momentum_ok mo ->
  Forall (event_ok (fun training n gs pi x x' =>
            typed t x /\ typed t x' /\ ((training || negb track)%bool = true -> forall r, In r (ft_reps t) -> (1 < rp_size r * n)%nat) /\ bij n pi /\
            (forall p r, (p < n)%nat -> In r (ft_reps t) -> is_perm (rp_size r) (rp_mat r (gs p))) /\
            acts_each n (ft_reps t) gs pi (gt_data x) (gt_data x'))
          (ib_event_ok (map rp_size (ft_reps t)))) h ->
  exists ys ys' m m', run (fun training n => inner_forward gs_eqb rp_eqb training n junk) ib_apply m0 (map left_of h) = Ok (ys, m) /\
    run (fun training n => inner_forward gs_eqb rp_eqb training n junk) ib_apply m0 (map right_of h) = Ok (ys', m') /\
    (forall s, In s (map rp_size (ft_reps t)) -> ib_bn m' s = ib_bn m s /\ (forall st v, bn_stats (ib_bn m s) = Some st -> In v st -> 0 <= snd v)) /\
    follow (ft_reps t) h ys ys'.
Proof.
  intros t eps mo affine track m0 junk h MK SP NE E0 MO H. destruct (inner_wf t eps mo affine track m0 MK SP E0 MO) as (WF & I1 & _ & _ & _ & I5 & _). rewrite <- I1, <- I5 in *. rewrite I1 in NE at 1. rewrite <- I1 in NE.
  destruct (inner_history gs_eqb rp_eqb junk h m0 WF NE H) as (ys & ys' & m & m' & R & R' & (W & S1 & S2 & S3 & S4 & S5 & S6 & S7) & FO).
  exists ys, ys', m, m'. split; [auto|]. split; [auto|]. split; [|auto].
  assert (K : ib_in m = ib_in m0).
  { assert (L : Forall (allowed (fun (tr : bool) (n : nat) x => typed (ib_in m0) x /\ inner_enough tr n m0) (ib_event_ok (ib_sizes m0))) (map left_of h)).
    { apply Forall_forall. intros e He. apply in_map_iff in He as (e2 & <- & H2). rewrite Forall_forall in H. specialize (H e2 H2). destruct e2 as [tr n gs pi x x'|w]; cbn in *; [|exact H].
      split; [tauto|]. intros C s Hs. apply in_map_iff in Hs as (r & <- & Hr). destruct H as (_ & _ & N0 & _). apply N0; auto. }
    destruct (inner_life gs_eqb rp_eqb junk m0 (map left_of h) WF L) as (zs & mm & RR & _ & KK & _). rewrite R in RR. injection RR as _ <-. auto. }
  intros s Hs. unfold ib_sizes in S7. rewrite K in S7. split; [auto|]. intros st v ES Hv. destruct W as (_ & _ & _ & _ & BW). unfold ib_sizes in BW. rewrite K in BW. destruct (BW s Hs) as ((B1 & _) & _). apply (proj2 (B1 st ES) v Hv).
Qed.
(** After any history, the next batch: (x - mean) / sqrt(var + eps) * weight + bias, with the statistics of the batch in
    training mode or without running statistics, else with the running ones. *)
Theorem C44_inner_value : forall (t : ftype) eps mo affine track m0 junk h,
  inner_make t eps mo affine track = Ok m0 -> size_pos t -> 0 < eps -> momentum_ok mo ->
  Forall (allowed (fun training n x => typed t x /\ ((training || negb track)%bool = true -> forall r, In r (ft_reps t) -> (1 < rp_size r * n)%nat)) (ib_event_ok (map rp_size (ft_reps t)))) h ->
  exists ys m, run (fun training n => inner_forward gs_eqb rp_eqb training n junk) ib_apply m0 h = Ok (ys, m) /\
  forall training n x, typed t x -> ((training || negb track)%bool = true -> forall r, In r (ft_reps t) -> (1 < rp_size r * n)%nat) ->
  exists y m1, inner_forward gs_eqb rp_eqb training n junk m x = Ok (y, m1) /\ gt_type y = t /\
    forall f s b, nth_error (map rp_size (ft_reps t)) f = Some s -> nth_error (fields (ft_reps t) (gt_data x)) f = Some b ->
      bn_batches (ib_bn m1 s) = (if (training && track)%bool then S (bn_batches (ib_bn m s)) else bn_batches (ib_bn m s)) /\
      (track = true ->
       ib_field_stat m1 f s = (if training then (average (weight_of mo (S (bn_batches (ib_bn m s)))) (fst (ib_field_stat m f s)) (mean_of n b),
                                                 average (weight_of mo (S (bn_batches (ib_bn m s)))) (snd (ib_field_stat m f s)) (var_of n b * unbias (s * n)))
                               else ib_field_stat m f s)) /\
      0 <= snd (ib_field_stat m1 f s) /\
      nth_error (fields (ft_reps t) (gt_data y)) f =
      Some (standardize eps (if (training || negb track)%bool then (mean_of n b, var_of n b) else ib_field_stat m f s) (ib_field_par m f s) b).
Proof.
  intros t eps mo affine track m0 junk h MK SP E0 MO H. destruct (inner_wf t eps mo affine track m0 MK SP E0 MO) as (WF & I1 & I2 & I3 & I4 & I5 & _). rewrite <- I1, <- I2, <- I3, <- I5 in *.
  assert (IE : forall tr n mm, ib_in mm = ib_in m0 -> ib_track mm = ib_track m0 -> ((tr || negb (ib_track m0))%bool = true -> forall r, In r (ft_reps (ib_in m0)) -> (1 < rp_size r * n)%nat) -> inner_enough tr n mm).
  { intros tr n mm Q1 Q2 Q C s Hs. rewrite Q2 in C. unfold ib_sizes in Hs. rewrite Q1 in Hs. apply in_map_iff in Hs as (r & <- & Hr). apply Q; auto. }
  destruct (inner_life gs_eqb rp_eqb junk m0 h WF) as (ys & m & R & W & E1 & E2 & E3 & E4).
  { apply Forall_forall. intros e He. rewrite Forall_forall in H. specialize (H e He). destruct e as [tr n x|w]; cbn [allowed] in *; [|exact H]. destruct H as [TX N0]. split; [auto|]. apply IE; auto. }
  exists ys, m. split; [auto|]. intros tr n x TX N0. rewrite <- E1 in TX.
  destruct (inner_next gs_eqb rp_eqb tr n junk m x W TX (IE tr n m E1 E4 N0)) as (y & m1 & F & Y1 & Y2).
  exists y, m1. split; [auto|]. split; [congruence|]. rewrite <- E1, <- E2, <- E3, <- E4. exact Y2.
Qed.

(** ** GNormBatchNorm *)
(** [uniq]: the set of the representations, in any order; a name belongs to one representation only.  [cob_id]: numpy's test
    whether the change of basis is the identity, here taken exact.  Irreps are orthogonal, trivial ones have size 1. *)
Theorem C44_gnorm_history : forall (cob_id : rep G -> bool) (t : ftype) uniq eps mo affine m0 junk h,
  gnorm_make t uniq eps mo affine = Ok m0 -> size_pos t -> ft_reps t <> [] -> 0 < eps -> momentum_ok mo ->
  (forall r, In r uniq <-> In r (ft_reps t)) -> NoDup (map rp_name uniq) ->
  (forall r, In r (ft_reps t) -> rep_accepted r /\ (cob_id r = true -> meq (rp_size r) (rp_size r) (rp_cob r) mid) /\
     forall ir, In ir (rp_irreps r) -> (0 < ir_size ir)%nat /\ (ir_trivial ir = true -> ir_size ir = 1%nat)) ->
  Forall (event_ok (fun training n gs pi x x' =>
            typed t x /\ typed t x' /\ (training = true -> (0 < n)%nat) /\ bij n pi /\
            (forall p r ir, (p < n)%nat -> In r (ft_reps t) -> In ir (rp_irreps r) ->
               orthogonal (ir_size ir) (ir_mat ir (gs p)) /\ (ir_trivial ir = true -> ir_mat ir (gs p) 0%nat 0%nat = 1)) /\
            acts_each n (ft_reps t) gs pi (gt_data x) (gt_data x'))
          (gb_event_ok t)) h ->
  exists ys ys' m m', run (fun training n => gnorm_forward gs_eqb rp_eqb cob_id training n junk) gb_apply m0 (map left_of h) = Ok (ys, m) /\
    run (fun training n => gnorm_forward gs_eqb rp_eqb cob_id training n junk) gb_apply m0 (map right_of h) = Ok (ys', m') /\
    gb_batches m' = gb_batches m /\
    (forall r, In r (ft_reps t) -> gb_stats m' (rp_name r) = gb_stats m (rp_name r) /\ (forall st v, In st (gb_stats m (rp_name r)) -> In v (snd st) -> 0 <= v)) /\
    follow (ft_reps t) h ys ys'.
Proof.
  intros cob_id t uniq eps mo affine m0 junk h MK SP NE E0 MO U1 U2 RO H.
  assert (RO' : forall r, In r (ft_reps t) -> irs_ok (rp_irreps r) /\ cob_ok cob_id r) by (intros r Hr; destruct (RO r Hr) as (Q1 & Q2 & Q3); split; [exact Q3|split; auto]).
  destruct (gnorm_wf cob_id t uniq eps mo affine m0 MK SP (conj U1 U2) E0 MO RO') as (WF & I1 & _). rewrite <- I1 in H, NE |- *.
  destruct (gnorm_history gs_eqb rp_eqb cob_id junk h m0 WF NE H) as (ys & ys' & m & m' & R & R' & (W & S1 & S2 & S3 & S4 & S5 & S6 & S7 & S8) & FO).
  exists ys, ys', m, m'. split; [auto|]. split; [auto|]. split; [auto|]. split; [|auto].
  assert (K : gb_in m = gb_in m0).
  { assert (L : Forall (allowed (fun (tr : bool) (n : nat) x => typed (gb_in m0) x /\ (tr = true -> (0 < n)%nat)) (gb_event_ok (gb_in m0))) (map left_of h)).
    { apply Forall_forall. intros e He. apply in_map_iff in He as (e2 & <- & H2). rewrite Forall_forall in H. specialize (H e2 H2). destruct e2; cbn in *; [tauto|auto]. }
    destruct (gnorm_life gs_eqb rp_eqb cob_id junk m0 (map left_of h) WF L) as (zs & mm & RR & _ & KK & _). rewrite R in RR. injection RR as _ <-. auto. }
  intros r Hr. rewrite K in S8. split; [auto|]. destruct W as (_ & _ & _ & _ & _ & _ & SO & _). rewrite K in SO. intros st v Hst Hv. destruct (SO r Hr) as [_ Q]. destruct (Q st Hst) as (_ & _ & Q3). auto.
Qed.
(** After any history, the next batch, irrep by irrep: trivial irreps are standardised, the others are divided by the root of
    their mean square.  In training mode the statistics of the batch are used (the variance with Bessel's correction), in
    evaluation mode the running ones. *)
Theorem C44_gnorm_value : forall (cob_id : rep G -> bool) (t : ftype) uniq eps mo affine m0 junk h,
  gnorm_make t uniq eps mo affine = Ok m0 -> size_pos t -> 0 < eps -> momentum_ok mo ->
  (forall r, In r uniq <-> In r (ft_reps t)) -> NoDup (map rp_name uniq) ->
  (forall r, In r (ft_reps t) -> rep_accepted r /\ (cob_id r = true -> meq (rp_size r) (rp_size r) (rp_cob r) mid) /\
     forall ir, In ir (rp_irreps r) -> (0 < ir_size ir)%nat /\ (ir_trivial ir = true -> ir_size ir = 1%nat)) ->
  Forall (allowed (fun training n x => typed t x /\ (training = true -> (0 < n)%nat)) (gb_event_ok t)) h ->
  exists ys m, run (fun training n => gnorm_forward gs_eqb rp_eqb cob_id training n junk) gb_apply m0 h = Ok (ys, m) /\
  forall training n x, typed t x -> (training = true -> (0 < n)%nat) ->
  exists y m1, gnorm_forward gs_eqb rp_eqb cob_id training n junk m x = Ok (y, m1) /\ gt_type y = t /\ gb_batches m1 = (if training then S (gb_batches m) else gb_batches m) /\
    forall f r b, nth_error (ft_reps t) f = Some r -> nth_error (fields (ft_reps t) (gt_data x)) f = Some b ->
      exists b', nth_error (fields (ft_reps t) (gt_data y)) f = Some b' /\ forall i ir, nth_error (rp_irreps r) i = Some ir ->
        let batch_mean := mean_of n (irrep_part r i b) in
        let batch_var := (if ir_trivial ir then var_of n (irrep_part r i b) else mean_square n (irrep_part r i b)) * unbias n in
        let w := weight_of mo (S (gb_batches m)) in
        (ir_trivial ir = true -> gb_mean m1 f r i = if training then average w (gb_mean m f r i) batch_mean else gb_mean m f r i) /\
        gb_vari m1 f r i = (if training then average w (gb_vari m f r i) batch_var else gb_vari m f r i) /\
        0 <= gb_vari m1 f r i /\
        same_chans (irrep_part r i b')
          (if ir_trivial ir then standardize eps (if training then (batch_mean, batch_var) else (gb_mean m f r i, gb_vari m f r i)) (gb_wei m f r i, gb_bias m f r i) (irrep_part r i b)
           else scaled (fun _ => gb_wei m f r i / sqrt ((if training then batch_var else gb_vari m f r i) + eps)) (irrep_part r i b)).
Proof.
  intros cob_id t uniq eps mo affine m0 junk h MK SP E0 MO U1 U2 RO H.
  assert (RO' : forall r, In r (ft_reps t) -> irs_ok (rp_irreps r) /\ cob_ok cob_id r) by (intros r Hr; destruct (RO r Hr) as (Q1 & Q2 & Q3); split; [exact Q3|split; auto]).
  destruct (gnorm_wf cob_id t uniq eps mo affine m0 MK SP (conj U1 U2) E0 MO RO') as (WF & I1 & _ & I3 & I4 & _). rewrite <- I1 in H |- *. rewrite <- I3, <- I4.
  destruct (gnorm_life gs_eqb rp_eqb cob_id junk m0 h WF H) as (ys & m & R & W & E1 & E2 & E3).
  exists ys, m. split; [auto|]. intros tr n x TX N0. rewrite <- E1 in TX.
  destruct (gnorm_next gs_eqb rp_eqb cob_id tr n junk m x W TX N0) as (y & m1 & F & Y1 & Y2 & Y3).
  exists y, m1. split; [auto|]. split; [congruence|]. split; [auto|]. rewrite <- E1, <- E2, <- E3. exact Y3.
Qed.

(** ** C48: the exported BatchNorm2d, in evaluation mode *)
(** If export succeeds on a module in any state reached from its construction, evaluation with the plain BatchNorm2d with the
    exported buffers and parameters gives the output of the module, for every input. *)
Theorem C48_inner_export : forall (t : ftype) eps mo affine track m0 junk h,
  inner_make t eps mo affine track = Ok m0 -> size_pos t -> 0 < eps -> momentum_ok mo ->
  Forall (allowed (fun training n x => typed t x /\ ((training || negb track)%bool = true -> forall r, In r (ft_reps t) -> (1 < rp_size r * n)%nat)) (ib_event_ok (map rp_size (ft_reps t)))) h ->
  exists ys m, run (fun training n => inner_forward gs_eqb rp_eqb training n junk) ib_apply m0 h = Ok (ys, m) /\
  forall n x st pr, inner_export m = Ok (st, pr) -> typed t x ->
  exists y, inner_forward gs_eqb rp_eqb false n junk m x = Ok (y, m) /\ bn2d_eval eps pr st (gt_data x) = Ok (gt_data y).
Proof.
  intros t eps mo affine track m0 junk h MK SP E0 MO H. destruct (inner_wf t eps mo affine track m0 MK SP E0 MO) as (WF & I1 & I2 & I3 & I4 & I5 & _). rewrite <- I1, <- I2, <- I5 in *.
  destruct (inner_life gs_eqb rp_eqb junk m0 h WF) as (ys & m & R & W & E1 & E2 & E3 & E4).
  { apply Forall_forall. intros e He. rewrite Forall_forall in H. specialize (H e He). destruct e as [tr n x|w]; cbn [allowed] in *; [|exact H]. destruct H as [TX N0]. split; [auto|].
    intros C s Hs. apply in_map_iff in Hs as (r & <- & Hr). apply N0; auto. }
  exists ys, m. split; [auto|]. intros n x st pr EX TX. rewrite <- E1 in TX. rewrite <- E2. apply inner_export_ok; auto.
Qed.

(** NormBatchNorm without affine: reset_parameters fails (the weight attribute does not exist) *)
Theorem C44_reset_parameters_refuted : forall (t : ftype) eps mo m0 w,
  norm_bn_make t eps mo false = Ok m0 -> ft_reps t <> [] -> nbn_reset_parameters Nat.eqb w m0 = Err "AttributeError"%string.
Proof.
  intros t eps mo m0 w MK NE. unfold norm_bn_make in MK. apply assert_ok in MK as [_ MK]. apply assert_ok in MK as [_ MK]. unfold nbn_build in MK. apply rbind_ok in MK as (idx & GI & MK). injection MK as <-.
  unfold nbn_reset_parameters. cbn [nb_keys nb_weight]. destruct (ft_reps t); [tauto|reflexivity].
Qed.
End C44.
Print Assumptions C44_norm_history.
Print Assumptions C44_norm_value.
Print Assumptions C44_induced_history.
Print Assumptions C44_induced_value.
Print Assumptions C44_inner_history.
Print Assumptions C44_inner_value.
Print Assumptions C44_gnorm_history.
Print Assumptions C44_gnorm_value.
Print Assumptions C48_inner_export.
Print Assumptions C44_reset_parameters_refuted.

(** ** Concrete cases *)
(** every batch can be transformed, each point by an element of its own *)
Lemma acts_each_ex {GS G} gs_eqb rp_eqb (t : ftype GS (rep G)) n gs pi x : ft_reps t <> [] -> typed gs_eqb rp_eqb t x ->
  exists x', typed gs_eqb rp_eqb t x' /\ acts_each n (ft_reps t) gs pi (gt_data x) (gt_data x').
Proof.
  intros NE [T L]. assert (TF : forall g, exists t', transform_fibers (ft_reps t) g (fun q i => val (gt_data x) i (pi q)) = Ok t') by (intros g; apply transform_total; auto).
  set (pt := fun p => match transform_fibers (ft_reps t) (gs p) (fun q i => val (gt_data x) i (pi q)) with Ok t' => t' p | Err _ => fun _ => 0 end).
  exists (MkGT (map (fun i => (fun p => pt p i) : chan) (seq 0 (length (gt_data x)))) (gt_type x)).
  assert (LL : length (map (fun i => (fun p => pt p i) : chan) (seq 0 (length (gt_data x)))) = length (gt_data x)) by (rewrite map_length, seq_length; auto).
  split; [split; [exact T|cbn [gt_data]; rewrite LL; exact L]|]. split; [exact LL|]. intros p Hp. destruct (TF (gs p)) as [t' E]. exists t'. split; [exact E|]. intros i Hi. cbn [gt_data].
  unfold val at 1. set (h := fun i0 : nat => (fun p0 : nat => pt p0 i0) : chan). rewrite (nth_indep (map h (seq 0 (length (gt_data x)))) (fun _ => 0) (h 0%nat)) by (rewrite map_length, seq_length; auto). rewrite (map_nth h), seq_nth by auto. unfold h, pt. cbn [Nat.add]. rewrite E. reflexivity.
Qed.
(** two fields of the vector irrep of C_4, one of the sign irrep *)
Definition t_bn : ftype unit (rep Z) := MkFT tt [c4 1; c4 2; c4 1].
Lemma in_bn r : In r (ft_reps t_bn) -> exists k, (0 <= k <= 2)%Z /\ r = c4 k.
Proof. cbn [t_bn ft_reps In]. intros [<-|[<-|[<-|[]]]]; [exists 1%Z|exists 2%Z|exists 1%Z]; (split; [lia|reflexivity]). Qed.
Example C44_norm_ex : exists m, norm_bn_make t_bn (1/100000) (Some (1/10)) true = Ok m /\ size_pos t_bn /\ ft_reps t_bn <> [] /\ momentum_ok (Some (1/10)) /\
  (forall gs n pi x, (forall p : nat, cyc_el 4 (gs p)) -> bij n pi -> (0 < n)%nat -> typed ueqb req t_bn x -> exists x',
     typed ueqb req t_bn x' /\ (forall p r, (p < n)%nat -> In r (ft_reps t_bn) -> orthogonal (rp_size r) (rp_mat r (gs p))) /\ acts_each n (ft_reps t_bn) gs pi (gt_data x) (gt_data x')).
Proof.
  eexists. split; [reflexivity|]. split. { intros r H. cbn [t_bn ft_reps In] in H. destruct H as [<-|[<-|[<-|[]]]]; vm_compute; lia. }
  split; [discriminate|]. split; [cbn; lra|]. intros gs n pi x Hg B N TX. destruct (acts_each_ex ueqb req t_bn n gs pi x) as (x' & T' & A); [discriminate|auto|].
  exists x'. split; [auto|]. split; [|auto]. intros p r Hp Hr. destruct (in_bn r Hr) as (k & Hk & ->). apply c4_orth; auto.
Qed.
(** inner batch norm of regular fields of any C_N *)
Example C44_inner_ex : forall N n, (0 < N)%Z -> (0 < n)%nat -> exists r m, regular_representation (cyc_fg N) = Ok r /\
  let t := MkFT tt (repeat r n) in inner_make t (1/100000) (Some (1/10)) true true = Ok m /\ ft_reps t <> [] /\ size_pos t /\
  (forall g r', cyc_el N g -> In r' (ft_reps t) -> is_perm (rp_size r') (rp_mat r' g)).
Proof.
  intros N n HN Hn. destruct (cyc_regular N HN) as (r & E & SZ & _). destruct (regular_name _ _ E) as [NA NL]. exists r.
  assert (SP : size_pos (MkFT tt (repeat r n))) by (intros r' Hr; cbn in Hr; apply repeat_spec in Hr; subst r'; rewrite SZ; lia).
  assert (GX : exists idx, group_index (by_size (MkFT tt (repeat r n))) = Ok idx).
  { apply group_index_total; unfold by_size; cbn [ft_reps].
    - intros l k H. apply in_map_iff in H as (r' & H & Hr). injection H as <- <-. apply SP; auto.
    - intros l H. apply in_map_iff in H as ((l', k) & <- & H). apply in_map_iff in H as (r' & H & Hr). injection H as <- <-. rewrite py_str_eq. apply has_dot_uint. }
  destruct GX as [idx GI].
  unfold inner_make. replace (all_support "pointwise" (MkFT tt (repeat r n))) with true. 2:{ symmetry. apply forallb_forall. intros r' Hr. apply repeat_spec in Hr. subst r'. cbv beta. unfold supports. rewrite NL. reflexivity. }
  cbn [assert_]. rewrite GI. cbn [rbind]. eexists. split; [auto|]. cbv zeta. split; [reflexivity|]. split; [destruct n; [lia|discriminate]|]. split; [auto|].
  intros g r' Hg Hr. cbn in Hr. apply repeat_spec in Hr. subst r'. apply (C42_regular_cyclic N r g HN E Hg).
Qed.
(** export of three fields *)
Definition t_ex : ftype unit (rep Z) := MkFT tt [c4 0; c4 0; c4 0].
Definition x_ex : gtensor unit (rep Z) chan := MkGT [(fun p => INR p); (fun p => 3 * INR p); (fun _ => 7)] t_ex.
Example C48_inner_export_ex : exists m0 s pr, inner_make t_ex (1/100000) (Some (1/10)) true true = Ok m0 /\ typed ueqb req t_ex x_ex /\ inner_export m0 = Ok (s, pr) /\ length s = 3%nat.
Proof. do 3 eexists. split; [reflexivity|]. split; [split; reflexivity|]. split; reflexivity. Qed.
(** sizes that are not contiguous are not exported *)
Example C48_inner_export_fails : exists r m0, directsum [c4 0; c4 0] None = Ok r /\ inner_make (MkFT tt [c4 0; r; c4 0]) (1/100000) (Some (1/10)) true true = Ok m0 /\ inner_export m0 = Err "NotImplementedError"%string.
Proof. do 2 eexists. split; [reflexivity|]. split; reflexivity. Qed.

(** gnorm batch norm of fields with a trivial and a vector part *)
Example C44_gnorm_ex : exists m, gnorm_make (MkFT tt [c4 0; c4 1; c4 0]) [c4 1; c4 0] (1/100000) None true = Ok m /\ size_pos (MkFT tt [c4 0; c4 1; c4 0]) /\
  NoDup (map rp_name [c4 1; c4 0]) /\ (forall r, In r [c4 1; c4 0] <-> In r [c4 0; c4 1; c4 0]) /\
  (forall r, In r [c4 0; c4 1; c4 0] -> rep_accepted r /\ meq (rp_size r) (rp_size r) (rp_cob r) mid /\ (forall ir, In ir (rp_irreps r) -> (0 < ir_size ir)%nat /\ (ir_trivial ir = true -> ir_size ir = 1%nat)) /\
    forall g ir, cyc_el 4 g -> In ir (rp_irreps r) -> orthogonal (ir_size ir) (ir_mat ir g) /\ (ir_trivial ir = true -> ir_mat ir g 0%nat 0%nat = 1)) /\
  (exists ir, In ir (rp_irreps (c4 0)) /\ ir_trivial ir = true) /\ (exists ir, In ir (rp_irreps (c4 1)) /\ ir_trivial ir = false).
Proof.
  eexists. split; [reflexivity|]. split. { intros r H. cbn [ft_reps In] in H. destruct H as [<-|[<-|[<-|[]]]]; vm_compute; lia. }
  split. { repeat constructor; cbn; intuition discriminate. } split; [cbn [In]; tauto|].
  split; [|split; eexists; (split; [left; reflexivity|reflexivity])].
  assert (Q : forall k, (k = 0 \/ k = 1)%Z -> rep_accepted (c4 k) /\ meq (rp_size (c4 k)) (rp_size (c4 k)) (rp_cob (c4 k)) mid /\ (forall ir, In ir (rp_irreps (c4 k)) -> (0 < ir_size ir)%nat /\ (ir_trivial ir = true -> ir_size ir = 1%nat)) /\
    forall g ir, cyc_el 4 g -> In ir (rp_irreps (c4 k)) -> orthogonal (ir_size ir) (ir_mat ir g) /\ (ir_trivial ir = true -> ir_mat ir g 0%nat 0%nat = 1)).
  { intros k Hk. assert (exists ir, cyc_irrep 4 k = Ok ir /\ rp_irreps (c4 k) = [ir] /\ rp_cob (c4 k) = mid /\ rp_inv (c4 k) = mid /\ (0 < ir_size ir)%nat /\ (ir_trivial ir = true -> ir_size ir = 1%nat /\ forall g, ir_mat ir g 0%nat 0%nat = 1)) as (ir & E & I & CB & IV & SZ & TR).
    { destruct Hk as [-> | ->]; eexists; (split; [reflexivity|]); (split; [reflexivity|]); (split; [reflexivity|]); (split; [reflexivity|]); (split; [cbn; lia|]); [intros _; split; reflexivity|discriminate]. }
    rewrite I, CB. split. { unfold rep_accepted. rewrite CB, IV. apply inverse_pair_mid. }
    split; [reflexivity|]. split. { intros ir' [<-|[]]. split; [exact SZ|]. intros T. apply TR. exact T. }
    intros g ir' Hg [<-|[]]. split; [apply (cyc_irrep_rep 4 k ir eq_refl E); exact Hg|]. intros T. apply TR. exact T. }
  intros r [<-|[<-|[<-|[]]]]; apply Q; tauto.
Qed.
(** induced norm batch norm: one field with two sub-fields of size 1, two with one of size 2 *)
Example C44_induced_ex : exists m ids, let t := MkFT tt [add_nl "induced_norm_1" (c4 1); add_nl "induced_norm_2" (c4 1); add_nl "induced_norm_2" (c4 1)] in
  induced_bn_make t (1/100000) (Some (1/10)) true = Ok m /\ rmap (field_id "induced_norm") (ft_reps t) = Ok ids /\ ids = [(2, 1); (2, 2); (2, 2)]%nat /\ size_pos t /\
  (forall g r, cyc_el 4 g -> In r (ft_reps t) -> orthogonal (rp_size r) (rp_mat r g)).
Proof.
  do 2 eexists. cbv zeta. split; [reflexivity|]. split; [reflexivity|]. split; [reflexivity|]. split. { intros r H. cbn [ft_reps In] in H. destruct H as [<-|[<-|[<-|[]]]]; vm_compute; lia. }
  intros g r Hg H. cbn [ft_reps In] in H. destruct H as [<-|[<-|[<-|[]]]]; exact (c4_orth 1 g ltac:(lia) Hg).
Qed.
