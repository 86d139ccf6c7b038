(** NormBatchNorm and InducedNormBatchNorm: what a forward pass computes. *)
From Coq Require Import Reals ZArith String Ascii Decimal DecimalString List Bool Lia Lra Permutation Sorted FunctionalExtensionality.
From Verif Require Import Base LinAlg Spec Spec_Fields Model_Groups Model_Rep Model_FieldType Model_Tensor Model_Utils Model_Modules Model_Fieldwise Model_BatchNorm Spec_Fieldwise Spec_Fieldwise2 Spec_Dropout Spec_BatchNorm
  Proofs_FieldType Proofs_FieldType2 Proofs_Tensor Proofs_Utils Proofs_Modules Proofs_Modules2 Proofs_Modules3 Proofs_Fieldwise Proofs_Fieldwise2 Proofs_Fieldwise3 Proofs_Fieldwise4 Proofs_Fieldwise5 Proofs_Fieldwise8 Proofs_Dropout Proofs_BatchNorm Proofs_BatchNorm2.
Import ListNotations.
Open Scope R_scope.

Lemma combine_app_len {A B} (l1 l2 : list A) (r1 r2 : list B) : length l1 = length r1 -> combine (l1 ++ l2) (r1 ++ r2) = combine l1 r1 ++ combine l2 r2.
Proof. revert r1. induction l1 as [|a l1 IH]; intros [|b r1] H; try discriminate; [reflexivity|]. cbn. rewrite IH by (cbn in H; lia). reflexivity. Qed.
Lemma enum_combine {A B C} (h : A -> B -> C) (m : list A) (bl : list B) d : length m = length bl ->
  map (fun mb => h (fst mb) (snd mb)) (combine m bl) = map (fun jb => h (nth (fst jb) m d) (snd jb)) (enumerate bl).
Proof.
  intros L. apply nth_error_ext. intros q. rewrite !nth_error_map. destruct (nth_error bl q) as [b|] eqn:Eb.
  - rewrite (enumerate_at _ _ _ Eb). assert (Hq : (q < length m)%nat) by (rewrite L; apply nth_error_Some; congruence).
    assert (E : nth_error (combine m bl) q = Some (nth q m d, b)).
    { clear -Eb Hq L. revert bl q Eb Hq L. induction m as [|a m IH]; intros [|c bl] q Eb Hq L; try discriminate; [cbn in Hq; lia|].
      destruct q; cbn in *; [congruence|]. apply IH; auto; lia. }
    rewrite E. reflexivity.
  - apply nth_error_None in Eb. assert (E1 : nth_error (combine m bl) q = None) by (apply nth_error_None; rewrite combine_length; lia).
    assert (E2 : nth_error (enumerate bl) q = None). { apply nth_error_None. unfold enumerate. rewrite combine_length, seq_length. lia. }
    rewrite E1, E2. reflexivity.
Qed.
Lemma scale_group_ok s mult (fm : list chan) bl : view_fields s fm = Ok bl -> length mult = length bl ->
  scale_group s mult fm = Ok (concat (map (fun jb => scaled (fun _ => nth (fst jb) mult 0) (snd jb)) (enumerate bl))).
Proof.
  intros V L. destruct (view_inv _ _ _ V) as (S0 & LM & EB).
  assert (HB : forall b, In b bl -> length b = s) by (intros b Hb; rewrite EB in Hb; eapply blocks_len; eauto).
  assert (FM : fm = concat bl). { rewrite EB. symmetry. apply (blocks_join s (length bl)); auto. }
  rewrite <- (enum_combine (fun m b => scaled (fun _ => m) b)) by auto. unfold scale_group, times. rewrite zip_eq_ok; cbn [rbind].
  2:{ rewrite FM, !(concat_blocks_length s); auto. - rewrite map_length. lia. - intros b Hb. apply in_map_iff in Hb as (m & <- & _). apply repeat_length. }
  f_equal. rewrite FM. clear FM EB V LM. revert mult L. induction bl as [|b bl IH]; intros [|m mult] L; try discriminate; [reflexivity|].
  cbn [map concat combine]. rewrite combine_app_len, map_app by (rewrite repeat_length; apply HB; cbn; auto). rewrite IH; [|intros; apply HB; cbn; auto|cbn in L; lia].
  f_equal. unfold scaled. cbn [fst snd]. rewrite <- (HB b) by (cbn; auto). clear. induction b as [|c b IH]; [reflexivity|]. cbn [length repeat combine map fst snd]. f_equal. apply IH.
Qed.
Lemma scale_group_len s mult (fm vals : list chan) : scale_group s mult fm = Ok vals -> length vals = length fm.
Proof.
  unfold scale_group, times, zip_eq. destruct (Nat.eqb_spec (length fm) (length (concat (map (fun m => repeat (fun _ : nat => m) s) mult)))); [|discriminate].
  cbn [rbind]. intros H. injection H as <-. rewrite map_length, combine_length. lia.
Qed.

Section Norm.
Context {GS G K : Type} (gs_eqb : GS -> GS -> bool) (rp_eqb : rep G -> rep G -> bool) (keqb : K -> K -> bool) (key : K -> string) (ksize ksub : K -> nat).
Notation ftype := (ftype GS (rep G)).
Notation gtensor := (gtensor GS (rep G) chan).
Notation nbn := (@nbn GS G K).
Notation forward := (nbn_forward gs_eqb rp_eqb keqb key ksize ksub).
Notation typed := (typed gs_eqb rp_eqb).
Hypothesis EP : forall a b, reflect (a = b) (keqb a b).
Hypothesis KI : forall a b, key a = key b -> a = b.

(** the fixed part of the module *)
Definition nb_fixed (m : nbn) : Prop :=
  map ksize (nb_keys m) = map rp_size (ft_reps (nb_in m)) /\
  (forall k, In k (nb_keys m) -> (0 < ksize k)%nat /\ (0 < ksub k)%nat /\ (ksize k mod ksub k = 0)%nat) /\
  good_index (map (fun k => (key k, ksize k)) (nb_keys m)) (map key (nb_keys m)) (nb_idx m).
(** the shapes of buffers and parameters *)
Definition nb_shape (m : nbn) : Prop :=
  (forall k, In k (nb_keys m) -> length (nb_var m k) = nfields keqb (nb_keys m) k) /\
  (forall w, nb_weight m = Some w -> forall k, In k (nb_keys m) -> length (w k) = nfields keqb (nb_keys m) k).
Definition nb_positive (m : nbn) : Prop := forall k v, In k (nb_keys m) -> In v (nb_var m k) -> 0 <= v.
Definition nb_wf (m : nbn) : Prop := nb_fixed m /\ nb_shape m /\ nb_positive m /\ 0 < nb_eps m /\ momentum_ok (nb_momentum m).
(** the weight of the j-th field of group k *)
Definition nb_w (m : nbn) (k : K) (j : nat) : R := match nb_weight m with Some w => nth j (w k) 0 | None => 1 end.
Definition batch_var (n : nat) (k : K) (b : list chan) : R := mean_square n b * unbias (ksize k / ksub k * n).

Lemma upd_vars_ok f n k old (fm : list chan) bl : (0 < n)%nat -> (0 < ksize k)%nat -> (0 < ksub k)%nat -> (ksize k mod ksub k = 0)%nat ->
  view_fields (ksize k) fm = Ok bl -> length old = length bl ->
  upd_vars f n (ksize k) (ksub k) old fm = Ok (map (fun ob => average f (fst ob) (batch_var n k (snd ob))) (combine old bl)).
Proof.
  intros N0 KS SB MD V L. unfold upd_vars, group_vars. destruct (Nat.eqb_spec n 0); [lia|]. rewrite V. cbn [rbind].
  assert (D : (ksize k / ksub k * ksub k = ksize k)%nat). { pose proof (Nat.div_mod (ksize k) (ksub k) ltac:(lia)). lia. }
  assert (D0 : (0 < ksize k / ksub k)%nat) by (destruct (ksize k / ksub k)%nat; [lia|lia]).
  destruct (view_inv _ _ _ V) as (_ & _ & EB). assert (HB : forall b, In b bl -> length b = ksize k) by (intros b Hb; rewrite EB in Hb; eapply blocks_len; eauto).
  assert (X : forall b, In b bl -> view_fields (ksub k) b = Ok (blocks (ksub k) b) /\ field_var n (ksub k) (blocks (ksub k) b) = batch_var n k b).
  { intros b Hb. destruct (field_var_spec n (ksub k) (ksize k / ksub k) b N0 SB D0) as (subs & E1 & E2); [rewrite HB by auto; lia|].
    assert (E3 : view_fields (ksub k) b = Ok (blocks (ksub k) b)) by (apply view_blocks; [lia|rewrite HB by auto; auto]). split; [auto|].
    rewrite E3 in E1. injection E1 as <-. exact E2. }
  rewrite (rmap_pure _ (blocks (ksub k))) by (intros b Hb; apply X; auto). cbn [rbind]. rewrite zip_eq_ok by (rewrite !map_length; auto). cbn [rbind]. f_equal.
  clear -X. revert old. induction bl as [|b bl IH]; intros [|o old]; try reflexivity. cbn [map combine fst snd]. f_equal.
  - rewrite ema_average. f_equal. apply X. cbn; auto.
  - apply IH. intros b' Hb'. apply X. cbn; auto.
Qed.
Lemma multipliers_ok eps w vars : 0 < eps -> (forall v, In v vars -> 0 <= v) -> (forall l, w = Some l -> length l = length vars) ->
  exists mult, multipliers eps w vars = Ok mult /\ length mult = length vars /\
    forall j, (j < length vars)%nat -> nth j mult 0 = match w with Some l => nth j l 0 | None => 1 end / sqrt (nth j vars 0 + eps).
Proof.
  intros E P L. set (z := match w with Some l => combine l vars | None => map (fun v => (1, v)) vars end).
  assert (LZ : length z = length vars). { unfold z. destruct w; [rewrite combine_length, (L l) by auto; lia|apply map_length]. }
  assert (Z : forall j, (j < length vars)%nat -> nth j z (1, 0) = (match w with Some l => nth j l 0 | None => 1 end, nth j vars 0)).
  { intros j Hj. unfold z. destruct w as [l|].
    - specialize (L l eq_refl). clear -Hj L. revert l j Hj L. induction vars as [|v vars IH]; intros [|a l] j Hj L; try discriminate; [cbn in Hj; lia|].
      destruct j; [reflexivity|]. cbn in *. apply IH; lia.
    - apply (map_nth (fun v => (1, v))). }
  exists (map (fun wv => fst wv / sqrt (snd wv + eps)) z). split; [|split].
  - unfold multipliers. replace (match w with Some l => zip_eq l vars | None => Ok (map (fun v => (1, v)) vars) end) with (Ok z).
    2:{ unfold z. destruct w; [rewrite zip_eq_ok; auto|reflexivity]. }
    cbn [rbind]. apply rmap_pure. intros wv Hw. destruct (Rle_dec (snd wv + eps) 0) as [H|]; [|reflexivity]. exfalso.
    assert (0 <= snd wv); [|lra]. apply P. unfold z in Hw. destruct w; [destruct wv; eapply in_combine_r; eauto|]. apply in_map_iff in Hw as (v & <- & Hv). auto.
  - rewrite map_length. auto.
  - intros j Hj. set (h := fun wv : R * R => fst wv / sqrt (snd wv + eps)). rewrite (nth_indep (map h z) 0 (h (1, 0))) by (rewrite map_length; lia).
    rewrite (map_nth h). rewrite Z by auto. reflexivity.
Qed.

Theorem nbn_value tr n m (x : gtensor) : nb_wf m -> typed (nb_in m) x -> (tr = true -> (0 < n)%nat) ->
  exists y m1, forward tr n m x = Ok (y, m1) /\ nb_wf m1 /\ gt_type y = nb_in m /\ length (gt_data y) = nsum (map rp_size (ft_reps (nb_in m))) /\
    (nb_in m1 = nb_in m /\ nb_keys m1 = nb_keys m /\ nb_idx m1 = nb_idx m /\ nb_eps m1 = nb_eps m /\ nb_momentum m1 = nb_momentum m /\ nb_weight m1 = nb_weight m) /\
    nb_batches m1 = (if tr then S (nb_batches m) else nb_batches m) /\
    (forall k, In k (nb_keys m) -> nb_var m1 k = if tr then map (fun ob => average (weight_of (nb_momentum m) (S (nb_batches m))) (fst ob) (batch_var n k (snd ob)))
        (combine (nb_var m k) (group_of key ksize (nb_keys m) (ft_reps (nb_in m)) (gt_data x) k)) else nb_var m k) /\
    (forall f k b, nth_error (nb_keys m) f = Some k -> nth_error (fields (ft_reps (nb_in m)) (gt_data x)) f = Some b ->
       nth_error (fields (ft_reps (nb_in m)) (gt_data y)) f =
       Some (scaled (fun _ => nb_w m k (rank_of keqb (nb_keys m) f) / sqrt (nth (rank_of keqb (nb_keys m) f) (nb_var m1 k) 0 + nb_eps m)) b)).
Proof.
  intros ((SZ & KP & GI) & (SH1 & SH2) & PV & EPS & MO) (TY & LX) N0.
  set (ks := nb_keys m) in *. set (reps := ft_reps (nb_in m)) in *.
  assert (POS : forall k, In k ks -> (0 < ksize k)%nat) by (intros k Hk; apply KP; auto).
  assert (FI : forall k, In k (first_seen keqb ks) <-> In k ks) by (intros; apply first_seen_in; auto).
  assert (ND : NoDup (first_seen keqb ks)) by (apply first_seen_nodup; auto).
  set (batches := if tr then S (nb_batches m) else nb_batches m).
  assert (GB : forall k b, In b (group_of key ksize ks reps (gt_data x) k) -> length b = ksize k) by (intros; eapply group_blocks; eauto).
  assert (GL : forall k, length (group_of key ksize ks reps (gt_data x) k) = nfields keqb ks k) by (intros; apply group_len; auto).
  (* the variances *)
  assert (VS : exists vars, (if tr then stat_loop keqb key (nb_idx m) (fun k old fm => upd_vars (factor (nb_momentum m) batches) n (ksize k) (ksub k) old fm)
                 (gt_data x) (first_seen keqb ks) (nb_var m) else Ok (nb_var m)) = Ok vars /\
     (forall k, In k ks -> vars k = if tr then map (fun ob => average (weight_of (nb_momentum m) (S (nb_batches m))) (fst ob) (batch_var n k (snd ob)))
        (combine (nb_var m k) (group_of key ksize ks reps (gt_data x) k)) else nb_var m k)).
  { destruct tr; [|eexists; split; [reflexivity|auto]].
    assert (U : forall k fm, In k ks -> read key (nb_idx m) (gt_data x) k fm ->
       upd_vars (factor (nb_momentum m) batches) n (ksize k) (ksub k) (nb_var m k) fm =
       Ok (map (fun ob => average (weight_of (nb_momentum m) (S (nb_batches m))) (fst ob) (batch_var n k (snd ob))) (combine (nb_var m k) (group_of key ksize ks reps (gt_data x) k)))).
    { intros k fm Hk Hr. destruct (group_ok key ksize ks reps (nb_idx m) KI SZ POS GI (gt_data x) k LX Hk) as (fm' & R & V).
      assert (fm' = fm) by (eapply read_fun; eauto). subst fm'. destruct (KP k Hk) as (H1 & H2 & H3).
      rewrite (upd_vars_ok _ n k _ fm _ (N0 eq_refl) H1 H2 H3 V) by (rewrite SH1, GL by auto; auto). rewrite factor_weight. reflexivity. }
    destruct (stat_loop_ok keqb key (nb_idx m) EP KI (fun k old fm => upd_vars (factor (nb_momentum m) batches) n (ksize k) (ksub k) old fm)
      (gt_data x) (first_seen keqb ks) (nb_var m) ND) as (st' & E1 & E2 & E3).
    { intros k Hk. apply FI in Hk. destruct (group_ok key ksize ks reps (nb_idx m) KI SZ POS GI (gt_data x) k LX Hk) as (fm' & R & V). eexists. eexists. split; [exact R|apply U; auto]. }
    exists st'. split; [exact E1|]. intros k Hk. destruct (group_ok key ksize ks reps (nb_idx m) KI SZ POS GI (gt_data x) k LX Hk) as (fm' & R & V).
    specialize (E2 k fm' (proj2 (FI k) Hk) R). rewrite U in E2 by auto. injection E2 as <-. reflexivity. }
  destruct VS as (vars & V1 & V2).
  assert (VL : forall k, In k ks -> length (vars k) = nfields keqb ks k).
  { intros k Hk. rewrite V2 by auto. destruct tr; [|auto]. rewrite map_length, combine_length, GL, SH1 by auto. lia. }
  assert (VP : forall k v, In k ks -> In v (vars k) -> 0 <= v).
  { intros k v Hk. rewrite V2 by auto. destruct tr; [|eauto]. intros H. apply in_map_iff in H as ([o b] & <- & H). cbn [fst snd].
    apply average_pos; [apply weight_range; [auto|lia]| |].
    - apply in_combine_l in H. eauto.
    - unfold batch_var. apply Rmult_le_pos; [apply mean_square_pos|apply unbias_pos]. }
  (* the output *)
  set (op := fun k fm => rbind (multipliers (nb_eps m) (match nb_weight m with Some w => Some (w k) | None => None end) (vars k)) (fun mult => scale_group (ksize k) mult fm)).
  set (g := fun (k : K) (j : nat) (b : list chan) => scaled (fun _ : nat => nb_w m k j / sqrt (nth j (vars k) 0 + nb_eps m)) b).
  assert (OPOK : forall k fm bl, In k ks -> view_fields (ksize k) fm = Ok bl -> length bl = nfields keqb ks k -> op k fm = Ok (concat (map (fun p => g k (fst p) (snd p)) (enumerate bl)))).
  { intros k fm bl Hk V L. unfold op. destruct (multipliers_ok (nb_eps m) (match nb_weight m with Some w => Some (w k) | None => None end) (vars k) EPS) as (mult & M1 & M2 & M3).
    - intros v Hv. eapply VP; eauto.
    - intros l Hl. destruct (nb_weight m) as [w|] eqn:EW; [|discriminate]. injection Hl as <-. rewrite VL by auto. apply (SH2 w); auto.
    - rewrite M1. cbn [rbind]. rewrite (scale_group_ok _ _ _ bl) by (auto; rewrite M2, VL, L by auto; auto). do 2 f_equal. apply map_ext_in. intros [j b] Hj. cbn [fst snd]. unfold g.
      apply in_combine_l in Hj. apply in_seq in Hj. rewrite M3 by (rewrite VL by auto; lia). unfold nb_w. destruct (nb_weight m); reflexivity. }
  destruct (rank_loop keqb key ksize ks reps (nb_idx m) (fun k _ fm => op k fm) g (gt_data x) (gt_data x) EP KI SZ POS GI LX LX) as (y & Y1 & Y2 & Y3).
  { intros k j b Hk Hb. unfold g, scaled. rewrite map_length. auto. }
  { intros k fm bl Hk V L. apply OPOK; auto. }
  assert (Y1' : self_loop key (nb_idx m) op (first_seen keqb ks) (gt_data x) = Ok y).
  { rewrite (self_as_group key ksize ks reps (nb_idx m) KI SZ GI op (gt_data x) LX); auto.
    - intros k fm vals Hk H. unfold op in H. apply rbind_ok in H as (mult & _ & H). eapply scale_group_len; eauto.
    - intros k. apply FI. }
  unfold nbn_forward. rewrite TY. cbn [assert_]. cbv zeta. fold batches. unfold nb_order. fold ks. rewrite V1. cbn [rbind]. fold op. rewrite Y1'. cbn [rbind].
  rewrite mk_gt_fwd by exact Y2. cbn [rbind]. eexists. eexists. split; [reflexivity|]. cbn [gt_type gt_data nb_in nb_keys nb_idx nb_eps nb_momentum nb_weight nb_var nb_batches].
  split. { split; [split; [exact SZ|split; [exact KP|exact GI]]|]. split; [split; [exact VL|exact SH2]|]. split; [exact VP|]. split; [exact EPS|exact MO]. }
  split; [auto|]. split; [auto|]. split; [tauto|]. split; [auto|]. split; [exact V2|].
  intros f k b Hf Hb. apply (Y3 f k b Hf Hb).
Qed.
End Norm.
