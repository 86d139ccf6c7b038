(** Batch normalisation: what the modules compute after any history, field by field. *)
From Coq Require Import Reals ZArith String Ascii Decimal DecimalString List Bool Lia Lra Permutation Sorted FunctionalExtensionality.
From Verif Require Import Base LinAlg Spec Spec_Fields Model_Groups Model_Rep Model_FieldType Model_Tensor Model_Utils Model_Modules Model_Fieldwise Model_BatchNorm Spec_Fieldwise Spec_Fieldwise2 Spec_Dropout Spec_BatchNorm
  Proofs_Rep Proofs_FieldType Proofs_FieldType2 Proofs_Tensor Proofs_Utils Proofs_Modules Proofs_Modules2 Proofs_Modules3 Proofs_Fieldwise Proofs_Fieldwise2 Proofs_Fieldwise3 Proofs_Fieldwise4 Proofs_Fieldwise5 Proofs_Fieldwise8 Proofs_Dropout Proofs_BatchNorm Proofs_BatchNorm2 Proofs_BatchNorm3 Proofs_BatchNorm4 Proofs_BatchNorm5 Proofs_BatchNorm7 Proofs_BatchNorm8.
Import ListNotations.
Open Scope R_scope.

Lemma run_inv {M T W} (fwd : bool -> nat -> M -> T -> result (T * M)) (other : W -> M -> M) (inv : M -> Prop) (okb : bool -> nat -> T -> Prop) (okw : W -> Prop) :
  (forall tr n x m, inv m -> okb tr n x -> exists y m1, fwd tr n m x = Ok (y, m1) /\ inv m1) -> (forall w m, inv m -> okw w -> inv (other w m)) ->
  forall h m, inv m -> Forall (allowed okb okw) h -> exists ys m1, run fwd other m h = Ok (ys, m1) /\ inv m1.
Proof.
  intros F O. induction h as [|e h IH]; intros m I H; [exists [], m; auto|]. inversion H as [|? ? He Hh]; subst. destruct e as [tr n x|w]; cbn [allowed run] in *.
  - destruct (F tr n x m I He) as (y & m1 & E & I1). rewrite E. destruct (IH m1 I1 Hh) as (ys & m2 & R & I2). rewrite R. exists (y :: ys), m2. auto.
  - apply IH; auto.
Qed.
Lemma nth_combine {A B C} (h : A -> B -> C) (l : list A) (l' : list B) j a b d : nth_error l j = Some a -> nth_error l' j = Some b -> nth j (map (fun p => h (fst p) (snd p)) (combine l l')) d = h a b.
Proof.
  intros E E'. apply nth_error_nth. rewrite nth_error_map. assert (nth_error (combine l l') j = Some (a, b)) as ->; [|reflexivity].
  revert l l' E E'. induction j as [|j IH]; intros [|x l] [|y l'] E E'; cbn in *; try discriminate; [congruence|auto].
Qed.

Section Norm.
Context {GS G K : Type} (gs_eqb : GS -> GS -> bool) (rp_eqb : rep G -> rep G -> bool) (keqb : K -> K -> bool) (key : K -> string) (ksize ksub : K -> nat).
Notation ftype := (ftype GS (rep G)).
Notation gtensor := (gtensor GS (rep G) chan).
Notation nbn := (@nbn GS G K).
Notation forward := (nbn_forward gs_eqb rp_eqb keqb key ksize ksub).
Notation typed := (typed gs_eqb rp_eqb).
Notation nb_wf := (nb_wf keqb key ksize ksub).
Hypothesis EP : forall a b, reflect (a = b) (keqb a b).
Hypothesis KI : forall a b, key a = key b -> a = b.
(** running variance and weight of field f, whose group is k *)
Definition nb_field_var (m : nbn) (f : nat) (k : K) : R := nth (rank_of keqb (nb_keys m) f) (nb_var m k) 0.
Definition nb_field_weight (m : nbn) (f : nat) (k : K) : R := match nb_weight m with Some w => nth (rank_of keqb (nb_keys m) f) (w k) 0 | None => 1 end.
Lemma nb_apply_fixed e (m : nbn) : nb_eps (nb_apply keqb e m) = nb_eps m /\ nb_momentum (nb_apply keqb e m) = nb_momentum m.
Proof. destruct e as [|w|w]; cbn [nb_apply]; auto. unfold nbn_reset_parameters. destruct (nb_keys m), (nb_weight m); auto. Qed.
Theorem nbn_life m0 h : nb_wf m0 -> Forall (allowed (fun tr n x => typed (nb_in m0) x /\ (tr = true -> (0 < n)%nat)) (nb_event_ok keqb (nb_keys m0))) h ->
  exists ys m, run forward (nb_apply keqb) m0 h = Ok (ys, m) /\ nb_wf m /\ nb_in m = nb_in m0 /\ nb_keys m = nb_keys m0 /\ nb_eps m = nb_eps m0 /\ nb_momentum m = nb_momentum m0.
Proof.
  intros WF H. apply (run_inv forward (nb_apply keqb) (fun m => nb_wf m /\ nb_in m = nb_in m0 /\ nb_keys m = nb_keys m0 /\ nb_eps m = nb_eps m0 /\ nb_momentum m = nb_momentum m0) (fun tr n x => typed (nb_in m0) x /\ (tr = true -> (0 < n)%nat)) (nb_event_ok keqb (nb_keys m0))); auto.
  - intros tr n x m (W & I1 & I2 & I3 & I4) (TX & N0). rewrite <- I1 in TX. destruct (nbn_value gs_eqb rp_eqb keqb key ksize ksub EP KI tr n m x W TX N0) as (y & m1 & F & W1 & _ & _ & (C1 & C2 & _ & C4 & C5 & _) & _).
    exists y, m1. split; [auto|]. split; [auto|]. split; [congruence|]. split; [congruence|]. split; congruence.
  - intros w m (W & I1 & I2 & I3 & I4) OK. destruct (nb_apply_wf keqb key ksize ksub w m W) as (V1 & V2 & V3); [rewrite I2; auto|]. destruct (nb_apply_fixed w m) as [V4 V5].
    split; [auto|]. split; [congruence|]. split; [congruence|]. split; congruence.
Qed.
Theorem nbn_next tr n m (x : gtensor) : nb_wf m -> typed (nb_in m) x -> (tr = true -> (0 < n)%nat) ->
  exists y m1, forward tr n m x = Ok (y, m1) /\ gt_type y = nb_in m /\ nb_batches m1 = (if tr then S (nb_batches m) else nb_batches m) /\ nb_weight m1 = nb_weight m /\
    forall f k b, nth_error (nb_keys m) f = Some k -> nth_error (fields (ft_reps (nb_in m)) (gt_data x)) f = Some b ->
      nb_field_var m1 f k = (if tr then average (weight_of (nb_momentum m) (S (nb_batches m))) (nb_field_var m f k) (mean_square n b * unbias (ksize k / ksub k * n)) else nb_field_var m f k) /\
      0 <= nb_field_var m1 f k /\
      nth_error (fields (ft_reps (nb_in m)) (gt_data y)) f = Some (scaled (fun _ => nb_field_weight m f k / sqrt (nb_field_var m1 f k + nb_eps m)) b).
Proof.
  intros WF TX N0. destruct (nbn_value gs_eqb rp_eqb keqb key ksize ksub EP KI tr n m x WF TX N0) as (y & m1 & F & W1 & Y1 & Y2 & (C1 & C2 & C3 & C4 & C5 & C6) & C7 & C8 & C9).
  exists y, m1. split; [auto|]. split; [auto|]. split; [auto|]. split; [auto|]. intros f k b Hf Hb. unfold nb_field_var. rewrite C2.
  assert (HK : In k (nb_keys m)) by (eapply nth_error_In; eauto). destruct WF as ((SZ & KP & GI) & (SH1 & SH2) & _).
  pose proof (rank_bound keqb key ksize (nb_keys m) EP KI k f Hf) as RB. set (j := rank_of keqb (nb_keys m) f) in *.
  assert (NV : nth_error (nb_var m k) j = Some (nth j (nb_var m k) 0)) by (apply nth_error_nth'; rewrite SH1; auto). split; [|split].
  - rewrite C8 by auto. destruct tr; [|reflexivity].
    pose proof (group_at keqb key ksize (nb_keys m) (ft_reps (nb_in m)) EP KI (gt_data x) k f Hf) as GA. fold j in GA.
    rewrite (nth_error_nth _ _ [] Hb) in GA. exact (nth_combine (fun o b => average (weight_of (nb_momentum m) (S (nb_batches m))) o (batch_var ksize ksub n k b)) _ _ _ _ _ 0 NV GA).
  - destruct W1 as (_ & (SH1' & _) & PV & _). apply (PV k); [rewrite C2; auto|]. apply nth_In. rewrite SH1', C2 by (rewrite C2; auto). auto.
  - rewrite (C9 f k b Hf Hb). unfold nb_field_weight, nb_w. reflexivity.
Qed.
End Norm.

Section Inner.
Context {GS G : Type} (gs_eqb : GS -> GS -> bool) (rp_eqb : rep G -> rep G -> bool).
Notation gtensor := (gtensor GS (rep G) chan).
Notation ibn := (@ibn GS G).
Notation forward := (inner_forward gs_eqb rp_eqb).
Notation typed := (typed gs_eqb rp_eqb).
(** running mean and variance, weight and bias of field f of size s *)
Definition ib_field_stat (m : ibn) (f s : nat) : R * R := match bn_stats (ib_bn m s) with Some l => nth (rank_of Nat.eqb (ib_sizes m) f) l (0, 1) | None => (0, 1) end.
Definition ib_field_par (m : ibn) (f s : nat) : R * R := match bn_params (ib_bn m s) with Some l => nth (rank_of Nat.eqb (ib_sizes m) f) l (1, 0) | None => (1, 0) end.
Lemma ib_apply_fixed e (m : ibn) : ib_eps (ib_apply e m) = ib_eps m /\ ib_momentum (ib_apply e m) = ib_momentum m.
Proof. destruct e; cbn; auto. Qed.
Theorem inner_life junk m0 h : ib_wf m0 -> Forall (allowed (fun tr n x => typed (ib_in m0) x /\ inner_enough tr n m0) (ib_event_ok (ib_sizes m0))) h ->
  exists ys m, run (fun tr n => forward tr n junk) ib_apply m0 h = Ok (ys, m) /\ ib_wf m /\ ib_in m = ib_in m0 /\ ib_eps m = ib_eps m0 /\ ib_momentum m = ib_momentum m0 /\ ib_track m = ib_track m0.
Proof.
  intros WF H. apply (run_inv (fun tr n => forward tr n junk) ib_apply (fun m => ib_wf m /\ ib_in m = ib_in m0 /\ ib_eps m = ib_eps m0 /\ ib_momentum m = ib_momentum m0 /\ ib_track m = ib_track m0) (fun tr n x => typed (ib_in m0) x /\ inner_enough tr n m0) (ib_event_ok (ib_sizes m0))); auto.
  - intros tr n x m (W & I1 & I2 & I3 & I4) (TX & N0). rewrite <- I1 in TX. assert (N1 : inner_enough tr n m) by (unfold inner_enough, ib_sizes in *; rewrite I4, I1; auto).
    destruct (inner_value gs_eqb rp_eqb tr n junk m x W TX N1) as (y & m1 & F & W1 & _ & _ & (C1 & C2 & C3 & C4 & C5 & C6) & _).
    exists y, m1. split; [auto|]. split; [auto|]. split; [congruence|]. split; [congruence|]. split; congruence.
  - intros w m (W & I1 & I2 & I3 & I4) OK. assert (E : ib_sizes m = ib_sizes m0) by (unfold ib_sizes; rewrite I1; auto). destruct (ib_apply_wf w m W) as (V1 & V2 & V3); [rewrite E; auto|]. destruct (ib_apply_fixed w m) as [V4 V5].
    split; [auto|]. split; [congruence|]. split; [congruence|]. split; congruence.
Qed.
Theorem inner_next tr n junk m (x : gtensor) : ib_wf m -> typed (ib_in m) x -> inner_enough tr n m ->
  exists y m1, forward tr n junk m x = Ok (y, m1) /\ gt_type y = ib_in m /\
    forall f s b, nth_error (map rp_size (ft_reps (ib_in m))) f = Some s -> nth_error (fields (ft_reps (ib_in m)) (gt_data x)) f = Some b ->
      bn_batches (ib_bn m1 s) = (if (tr && ib_track m)%bool then S (bn_batches (ib_bn m s)) else bn_batches (ib_bn m s)) /\
      (ib_track m = true ->
       ib_field_stat m1 f s = (if tr then (average (weight_of (ib_momentum m) (S (bn_batches (ib_bn m s)))) (fst (ib_field_stat m f s)) (mean_of n b),
                                           average (weight_of (ib_momentum m) (S (bn_batches (ib_bn m s)))) (snd (ib_field_stat m f s)) (var_of n b * unbias (s * n)))
                               else ib_field_stat m f s)) /\
      0 <= snd (ib_field_stat m1 f s) /\
      nth_error (fields (ft_reps (ib_in m)) (gt_data y)) f =
      Some (standardize (ib_eps m) (if (tr || negb (ib_track m))%bool then (mean_of n b, var_of n b) else ib_field_stat m f s) (ib_field_par m f s) b).
Proof.
  intros WF TX N0. destruct (inner_value gs_eqb rp_eqb tr n junk m x WF TX N0) as (y & m1 & F & W1 & Y1 & Y2 & (C1 & C2 & C3 & C4 & C5 & C6) & C7 & C8).
  exists y, m1. split; [auto|]. split; [auto|]. intros f s b Hf Hb. change (map rp_size (ft_reps (ib_in m))) with (ib_sizes m) in Hf.
  assert (HS : In s (ib_sizes m)) by (eapply nth_error_In; eauto). destruct WF as (SP & GI & EPS & MO & BW). destruct (BW s HS) as ((B1 & B2) & BT & BH).
  assert (KS1 : ib_sizes m1 = ib_sizes m) by (unfold ib_sizes; rewrite C1; auto).
  pose proof (rank_bound Nat.eqb py_str (fun s => s) (ib_sizes m) Nat.eqb_spec py_str_inj s f Hf) as RB. split; [|split; [|split]].
  - rewrite C7 by auto. unfold bn_next. cbn [bn_batches]. rewrite BT. reflexivity.
  - intros TR. unfold ib_field_stat. rewrite C7 by auto. rewrite KS1. unfold bn_next. cbn [bn_stats]. rewrite TR in BT. unfold bn_tracks in BT. destruct (bn_stats (ib_bn m s)) as [l|] eqn:EL; [|discriminate].
    destruct tr; [|reflexivity]. destruct (B1 l eq_refl) as [LL _].
    pose proof (group_at Nat.eqb py_str (fun s => s) (ib_sizes m) (ft_reps (ib_in m)) Nat.eqb_spec py_str_inj (gt_data x) s f Hf) as GA. rewrite (nth_error_nth _ _ [] Hb) in GA.
    set (w := weight_of (ib_momentum m) (S (bn_batches (ib_bn m s)))).
    assert (NV : nth_error l (rank_of Nat.eqb (ib_sizes m) f) = Some (nth (rank_of Nat.eqb (ib_sizes m) f) l (0, 1))) by (apply nth_error_nth'; rewrite LL; auto).
    exact (nth_combine (fun o b => (average w (fst o) (mean_of n b), average w (snd o) (var_of n b * unbias (s * n)))) _ _ _ _ _ (0, 1) NV GA).
  - unfold ib_field_stat. destruct W1 as (_ & _ & _ & _ & BW1). destruct (BW1 s) as ((B1' & _) & _ & _); [rewrite KS1; auto|]. destruct (bn_stats (ib_bn m1 s)) as [l|]; [|cbn; lra].
    destruct (B1' l eq_refl) as [LL PP]. apply PP. apply nth_In. rewrite LL, KS1. exact RB.
  - rewrite (C8 f s b Hf Hb). f_equal. f_equal.
    unfold bn_used, ib_field_stat. unfold bn_tracks in BT. destruct tr; [reflexivity|]. cbn [orb]. destruct (bn_stats (ib_bn m s)); rewrite <- BT; reflexivity.
Qed.
End Inner.

Section GNorm.
Context {GS G : Type} (gs_eqb : GS -> GS -> bool) (rp_eqb : rep G -> rep G -> bool).
Variable cob_id : rep G -> bool.
Notation gtensor := (gtensor GS (rep G) chan).
Notation gbn := (@gbn GS G).
Notation forward := (gnorm_forward gs_eqb rp_eqb cob_id).
Notation typed := (typed gs_eqb rp_eqb).
Notation rank := (rank_of String.eqb).
(** running mean and variance, weight and bias of irrep number i of field f; only trivial irreps have a mean and a bias *)
Definition gb_mean (m : gbn) (f : nat) (r : rep G) (i : nat) : R :=
  nth (length (filter ir_trivial (firstn i (rp_irreps r)))) (fst (nth (rank (gb_names (gb_in m)) f) (gb_stats m (rp_name r)) ([], []))) 0.
Definition gb_vari (m : gbn) (f : nat) (r : rep G) (i : nat) : R := nth i (snd (nth (rank (gb_names (gb_in m)) f) (gb_stats m (rp_name r)) ([], []))) 0.
Definition gb_bias (m : gbn) (f : nat) (r : rep G) (i : nat) : R :=
  match gb_params m with Some p => nth (length (filter ir_trivial (firstn i (rp_irreps r)))) (fst (nth (rank (gb_names (gb_in m)) f) (p (rp_name r)) ([], []))) 0 | None => 0 end.
Definition gb_wei (m : gbn) (f : nat) (r : rep G) (i : nat) : R :=
  match gb_params m with Some p => nth i (snd (nth (rank (gb_names (gb_in m)) f) (p (rp_name r)) ([], []))) 0 | None => 1 end.
Lemma gb_apply_fixed e (m : gbn) : gb_eps (gb_apply e m) = gb_eps m /\ gb_momentum (gb_apply e m) = gb_momentum m /\ gb_uniq (gb_apply e m) = gb_uniq m.
Proof. destruct e; cbn; auto. Qed.
Notation gb_wf := (gb_wf cob_id).
Theorem gnorm_life junk m0 h : gb_wf m0 -> Forall (allowed (fun tr n x => typed (gb_in m0) x /\ (tr = true -> (0 < n)%nat)) (gb_event_ok (gb_in m0))) h ->
  exists ys m, run (fun tr n => forward tr n junk) gb_apply m0 h = Ok (ys, m) /\ gb_wf m /\ gb_in m = gb_in m0 /\ gb_eps m = gb_eps m0 /\ gb_momentum m = gb_momentum m0.
Proof.
  intros WF H. apply (run_inv (fun tr n => forward tr n junk) gb_apply (fun m => gb_wf m /\ gb_in m = gb_in m0 /\ gb_eps m = gb_eps m0 /\ gb_momentum m = gb_momentum m0) (fun tr n x => typed (gb_in m0) x /\ (tr = true -> (0 < n)%nat)) (gb_event_ok (gb_in m0))); auto.
  - intros tr n x m (W & I1 & I2 & I3) (TX & N0). rewrite <- I1 in TX.
    destruct (gnorm_value gs_eqb rp_eqb cob_id tr n junk m x W TX N0) as (y & m1 & F & W1 & _ & _ & (C1 & C2 & C3 & C4 & C5 & C6 & C7) & _).
    exists y, m1. split; [auto|]. split; [auto|]. split; [congruence|]. split; congruence.
  - intros w m (W & I1 & I2 & I3) OK. destruct (gb_apply_wf cob_id w m W) as (V1 & V2); [rewrite I1; auto|]. destruct (gb_apply_fixed w m) as (V4 & V5 & V6).
    split; [auto|]. split; [congruence|]. split; congruence.
Qed.
Lemma part_irrep r i b : cob_ok cob_id r -> irrep_part r i b = part r (gto cob_id r b) i.
Proof.
  intros C. unfold irrep_part, part. destruct (nth_error (rp_irreps r) i) as [ir|] eqn:Hi; [|reflexivity]. apply map_ext_in. intros e He. apply in_seq in He. apply functional_extensionality. intros p.
  rewrite gto_val; [reflexivity|auto|]. pose proof (ioff_le _ _ _ Hi). unfold rp_size. lia.
Qed.
Lemma gto_gback r u a p : cob_ok cob_id r -> (a < rp_size r)%nat -> val (gto cob_id r (gback cob_id r u)) a p = val u a p.
Proof.
  intros C H. rewrite gto_val by auto. set (s := rp_size r) in *. transitivity (mvec s (rp_inv r) (mvec s (rp_cob r) (fun c => val u c p)) a).
  - apply (mvec_compat s s); [intros x y _ _; reflexivity| |auto]. intros c Hc. rewrite gback_val by auto. reflexivity.
  - rewrite <- mvec_mmul. rewrite (mvec_compat s s (mmul s (rp_inv r) (rp_cob r)) mid _ _ (proj2 (proj1 C)) (fun x _ => eq_refl)) by auto. apply (mvec_one s (fun c => val u c p) a H).
Qed.
Lemma scaled_val (c : R) (b : list chan) e p : (e < length b)%nat -> val (scaled (fun _ => c) b) e p = val b e p * c.
Proof. intros H. unfold val, scaled. set (h := fun (c0 : chan) => (fun p0 : nat => c0 p0 * c) : chan). rewrite (nth_indep (map h b) (fun _ => 0) (h (fun _ => 0))) by (rewrite map_length; auto). rewrite (map_nth h). reflexivity. Qed.
Theorem gnorm_next tr n junk m (x : gtensor) : gb_wf m -> typed (gb_in m) x -> (tr = true -> (0 < n)%nat) ->
  exists y m1, forward tr n junk m x = Ok (y, m1) /\ gt_type y = gb_in m /\ gb_batches m1 = (if tr then S (gb_batches m) else gb_batches m) /\
    forall f r b, nth_error (ft_reps (gb_in m)) f = Some r -> nth_error (fields (ft_reps (gb_in m)) (gt_data x)) f = Some b ->
      exists b', nth_error (fields (ft_reps (gb_in m)) (gt_data y)) f = Some b' /\ forall i ir, nth_error (rp_irreps r) i = Some ir ->
        let batch_mean := mean_of n (irrep_part r i b) in
        let batch_var := (if ir_trivial ir then var_of n (irrep_part r i b) else mean_square n (irrep_part r i b)) * unbias n in
        let w := weight_of (gb_momentum m) (S (gb_batches m)) in
        (ir_trivial ir = true -> gb_mean m1 f r i = if tr then average w (gb_mean m f r i) batch_mean else gb_mean m f r i) /\
        gb_vari m1 f r i = (if tr then average w (gb_vari m f r i) batch_var else gb_vari m f r i) /\
        0 <= gb_vari m1 f r i /\
        same_chans (irrep_part r i b')
          (if ir_trivial ir then standardize (gb_eps m) (if tr then (batch_mean, batch_var) else (gb_mean m f r i, gb_vari m f r i)) (gb_wei m f r i, gb_bias m f r i) (irrep_part r i b)
           else scaled (fun _ => gb_wei m f r i / sqrt ((if tr then batch_var else gb_vari m f r i) + gb_eps m)) (irrep_part r i b)).
Proof.
  intros WF TX N0. destruct (gnorm_value gs_eqb rp_eqb cob_id tr n junk m x WF TX N0) as (y & m1 & F & W1 & Y1 & Y2 & (C1 & C2 & C3 & C4 & C5 & C6 & C7) & C8 & C9).
  exists y, m1. split; [auto|]. split; [auto|]. split; [auto|]. intros f r b Hf Hb. pose proof WF as (SP & UO & GI & EPS & MO & RO & SO & PO).
  assert (HR : In r (ft_reps (gb_in m))) by (eapply nth_error_In; eauto). destruct (RO r HR) as [OK CO]. destruct (SO r HR) as [SO1 SO2].
  eexists. split; [apply (C9 f r b Hf Hb)|]. intros i ir Hi. cbv zeta. destruct (OK ir (nth_error_In _ _ Hi)) as [S0 S1].
  assert (HI : (i < length (rp_irreps r))%nat) by (apply nth_error_Some; congruence).
  set (ks := gb_names (gb_in m)) in *. assert (Hk : nth_error ks f = Some (rp_name r)) by (unfold ks, gb_names; rewrite nth_error_map, Hf; reflexivity).
  pose proof (rank_bound String.eqb (fun l => l) (gsize (gb_uniq m)) ks String.eqb_spec (fun a b h => h) (rp_name r) f Hk) as RB. set (j := rank ks f) in *.
  rewrite !(part_irrep r i b CO). set (t := gto cob_id r b). set (st := gb_stats m (rp_name r)) in *. set (sj := nth j st ([], [])).
  assert (NV : nth_error st j = Some sj) by (apply nth_error_nth'; rewrite SO1; auto).
  pose proof (SO2 sj (nth_error_In _ _ NV)) as (SJ1 & SJ2 & SJ3).
  pose proof (group_at String.eqb (fun l => l) (gsize (gb_uniq m)) ks (ft_reps (gb_in m)) String.eqb_spec (fun a b h => h) (gt_data x) (rp_name r) f Hk) as GA. rewrite (nth_error_nth _ _ [] Hb) in GA. fold j in GA.
  assert (N1 : nth j (gb_stats m1 (rp_name r)) ([], []) = if tr then avg_stat (weight_of (gb_momentum m) (S (gb_batches m))) sj (gn_stats n r t) else sj).
  { rewrite C8 by auto. unfold gn_next. destruct tr; [|reflexivity]. exact (nth_combine (fun o b => avg_stat (weight_of (gb_momentum m) (S (gb_batches m))) o (gn_stats n r (gto cob_id r b))) _ _ _ _ _ ([], []) NV GA). }
  destruct (gn_stats_len n r t) as [GL1 GL2].
  assert (LT : length t = rp_size r). { apply gto_len. apply (fields_val (ft_reps (gb_in m)) (gt_data x) f r b (proj2 TX) Hf Hb). }
  split; [|split; [|split]].
  - intros T. unfold gb_mean. rewrite C1. fold ks j. rewrite N1. fold st sj. destruct tr; [|reflexivity]. unfold avg_stat. cbn [fst].
    pose proof (tcount_lt _ _ _ Hi T) as TC. rewrite <- trivials_len in TC. fold (tcount (rp_irreps r) i).
    rewrite (nth_combine (fun o v => average (weight_of (gb_momentum m) (S (gb_batches m))) o v) _ _ _ (nth (tcount (rp_irreps r) i) (fst sj) 0) (part_mean n r t i)); [reflexivity| |].
    + apply nth_error_nth'. lia.
    + rewrite <- (gn_means n r t i ir OK Hi T). apply nth_error_nth'. lia.
  - unfold gb_vari. rewrite C1. fold ks j. rewrite N1. fold st sj. destruct tr; [|reflexivity]. unfold avg_stat. cbn [snd].
    rewrite (nth_combine (fun o v => average (weight_of (gb_momentum m) (S (gb_batches m))) o v) _ _ _ (nth i (snd sj) 0) (part_var n r t i)); [unfold part_var; rewrite Hi; reflexivity| |].
    + apply nth_error_nth'. lia.
    + rewrite <- (gn_vars n r t i ir (N0 eq_refl) OK Hi). apply nth_error_nth'. lia.
  - destruct W1 as (_ & _ & _ & _ & _ & _ & SO' & _). rewrite C1 in SO'. destruct (SO' r HR) as [L1 L2]. unfold gb_vari. rewrite C1. fold ks j in L1 |- *.
    assert (IN : In (nth j (gb_stats m1 (rp_name r)) ([], [])) (gb_stats m1 (rp_name r))) by (apply nth_In; rewrite L1; auto). destruct (L2 _ IN) as (_ & Q2 & Q3). apply Q3. apply nth_In. lia.
  - set (used := gn_used cob_id tr n r st j b). set (pr := gn_pars (gb_par m (rp_name r)) j).
    assert (UO' : stat_ok r used). { unfold used, gn_used. destruct tr; [apply gn_stats_ok; auto|]. apply SO2. eapply nth_error_In. exact NV. }
    assert (PO' : forall bw, pr = Some bw -> par_ok r bw).
    { intros bw EB. unfold pr, gn_pars, gb_par in EB. destruct (gb_params m) as [p|] eqn:EP; [|discriminate]. injection EB as <-. destruct (PO p r eq_refl HR) as [L1 L2]. apply L2. apply nth_In. rewrite L1. exact RB. }
    assert (UV : nth i (snd used) 0 = if tr then (if ir_trivial ir then var_of n (part r t i) else mean_square n (part r t i)) * unbias n else gb_vari m f r i).
    { unfold used, gn_used. destruct tr; [|reflexivity]. fold t. rewrite (gn_vars n r t i ir (N0 eq_refl) OK Hi). unfold part_var. rewrite Hi. reflexivity. }
    assert (PW : par_w pr i = gb_wei m f r i) by (unfold pr, gn_pars, gb_par, par_w, gb_wei; destruct (gb_params m); reflexivity).
    assert (PB : par_b pr (tcount (rp_irreps r) i) = gb_bias m f r i) by (unfold pr, gn_pars, gb_par, par_b, gb_bias; destruct (gb_params m); reflexivity).
    rewrite (part_irrep r i _ CO). unfold gn_out. fold t used pr. set (u := gn_val (gb_eps m) r used pr t).
    assert (VAL : forall e p, (e < ir_size ir)%nat -> val (part r (gto cob_id r (gback cob_id r u)) i) e p = val u (ioff (rp_irreps r) i + e)%nat p).
    { intros e p He. rewrite (part_val _ _ _ _ _ _ Hi He). apply gto_gback; [auto|]. pose proof (ioff_le _ _ _ Hi). unfold rp_size. lia. }
    destruct (ir_trivial ir) eqn:T.
    + split; [unfold standardize; rewrite map_length, !(part_len _ _ _ _ Hi); reflexivity|]. intros e p He. rewrite (part_len _ _ _ _ Hi) in He. rewrite VAL by auto.
      rewrite (val_standardize (gb_eps m)) by (rewrite (part_len _ _ _ _ Hi); auto). unfold u. rewrite (val_gn (gb_eps m) r used pr t i ir e p) by auto. rewrite T, UV, PW, PB.
      rewrite (part_val _ _ _ _ _ _ Hi He). cbn [fst snd].
      assert (UM : nth (tcount (rp_irreps r) i) (fst used) 0 = if tr then mean_of n (part r t i) else gb_mean m f r i).
      { unfold used, gn_used. destruct tr; [|reflexivity]. fold t. apply (gn_means n r t i ir OK Hi T). }
      rewrite UM. destruct tr; cbn [fst snd]; unfold Rdiv; ring.
    + split; [unfold scaled; rewrite map_length, !(part_len _ _ _ _ Hi); reflexivity|]. intros e p He. rewrite (part_len _ _ _ _ Hi) in He. rewrite VAL by auto.
      rewrite scaled_val by (rewrite (part_len _ _ _ _ Hi); auto). unfold u. rewrite (val_gn (gb_eps m) r used pr t i ir e p) by auto. rewrite T, UV, PW. rewrite (part_val _ _ _ _ _ _ Hi He). reflexivity.
Qed.
End GNorm.
