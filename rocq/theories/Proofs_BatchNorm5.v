(** InnerBatchNorm. *)
From Coq Require Import Reals ZArith String Ascii Decimal DecimalString List Bool Lia Lra Permutation Sorted FunctionalExtensionality.
From Verif Require Import Base LinAlg Spec Spec_Fields Model_Groups Model_Rep Model_FieldType Model_Tensor Model_Utils Model_Modules Model_Fieldwise Model_BatchNorm Spec_Fieldwise Spec_Fieldwise2 Spec_Dropout Spec_BatchNorm
  Proofs_FieldType Proofs_FieldType2 Proofs_Tensor Proofs_Utils Proofs_Modules Proofs_Modules2 Proofs_Modules3 Proofs_Fieldwise Proofs_Fieldwise2 Proofs_Fieldwise3 Proofs_Fieldwise4 Proofs_Fieldwise5 Proofs_Fieldwise8 Proofs_Dropout Proofs_BatchNorm Proofs_BatchNorm2 Proofs_BatchNorm3 Proofs_BatchNorm4.
Import ListNotations.
Open Scope R_scope.

(** * Statistics *)
Lemma feat_mean_of n b : feat_mean n b = mean_of n b.
Proof.
  unfold feat_mean, mean_of. rewrite mult_INR, (Rmult_comm (INR (length b))). f_equal. rewrite (fold_rsum_map _ _ (fun _ => 0)). rewrite rsum_swap. reflexivity.
Qed.
Lemma feat_var_of n b : feat_var n b = var_of n b.
Proof.
  unfold feat_var, var_of. rewrite mult_INR, (Rmult_comm (INR (length b))). f_equal. rewrite (fold_rsum_map _ _ (fun _ => 0)). rewrite rsum_swap. apply rsum_ext. intros p _. apply rsum_ext. intros i _.
  rewrite feat_mean_of. unfold val. ring.
Qed.
Lemma var_of_pos n b : 0 <= var_of n b.
Proof.
  unfold var_of. apply Rmult_le_pos.
  - apply rsum_nonneg. intros p _. apply rsum_nonneg. intros i _. apply pow2_ge_0.
  - destruct (Nat.eq_dec n 0) as [->|N]; [rewrite Rmult_0_l, Rinv_0; lra|]. destruct (Nat.eq_dec (length b) 0) as [->|L]; [rewrite Rmult_0_r, Rinv_0; lra|].
    left. apply Rinv_0_lt_compat. apply Rmult_lt_0_compat; apply lt_0_INR; lia.
Qed.
(** a permutation of the channels at every point *)
Lemma perm_each n s A pi b b' : (forall p, (p < n)%nat -> is_perm s (A p)) -> moved_each n s A pi b b' ->
  forall p, (p < n)%nat -> exists sg, bij s sg /\ (forall i j, (i < s)%nat -> (j < s)%nat -> A p i j = if (j =? sg i)%nat then 1 else 0) /\ forall a, (a < s)%nat -> val b' a p = val b (sg a) (pi p).
Proof.
  intros P (_ & _ & M) p Hp. destruct (P p Hp) as (sg & B & E). exists sg. split; [auto|]. split; [auto|]. intros a Ha. rewrite M by auto.
  assert (H : (sg a < s)%nat) by (apply B; auto). rewrite (rsum_ext s _ (fun c => if Nat.eqb c (sg a) then val b c (pi p) else 0)).
  - apply (rsum_at' s (sg a) (fun c => val b c (pi p))). auto.
  - intros c Hc. rewrite E by auto. destruct (c =? sg a)%nat; ring.
Qed.
Lemma entries_moved n s A pi b b' (h : R -> R) : bij n pi -> (forall p, (p < n)%nat -> is_perm s (A p)) -> moved_each n s A pi b b' ->
  rsum n (fun p => rsum s (fun i => h (val b' i p))) = rsum n (fun p => rsum s (fun i => h (val b i p))).
Proof.
  intros B P M. rewrite <- (rsum_bij n pi (fun p => rsum s (fun i => h (val b i p))) B). apply rsum_ext. intros p Hp.
  destruct (perm_each _ _ _ _ _ _ P M p Hp) as (sg & BS & _ & V). rewrite <- (rsum_bij s sg (fun i => h (val b i (pi p))) BS). apply rsum_ext. intros a Ha. rewrite V by auto. reflexivity.
Qed.
Lemma mean_of_moved n s A pi b b' : bij n pi -> (forall p, (p < n)%nat -> is_perm s (A p)) -> moved_each n s A pi b b' -> mean_of n b' = mean_of n b.
Proof. intros B P M. pose proof M as (L & L' & _). unfold mean_of. rewrite L, L'. f_equal. apply (entries_moved n s A pi b b' (fun v => v) B P M). Qed.
Lemma var_of_moved n s A pi b b' : bij n pi -> (forall p, (p < n)%nat -> is_perm s (A p)) -> moved_each n s A pi b b' -> var_of n b' = var_of n b.
Proof.
  intros B P M. pose proof M as (L & L' & _). unfold var_of. rewrite (mean_of_moved n s A pi b b' B P M). rewrite L, L'. f_equal.
  apply (entries_moved n s A pi b b' (fun v => (v - mean_of n b) ^ 2) B P M).
Qed.
Lemma val_standardize eps st pa b i p : (i < length b)%nat -> val (standardize eps st pa b) i p = (val b i p - fst st) / sqrt (snd st + eps) * fst pa + snd pa.
Proof.
  intros H. unfold val, standardize. set (h := fun c : chan => fun p0 : nat => (c p0 - fst st) / sqrt (snd st + eps) * fst pa + snd pa).
  rewrite (nth_indep (map h b) (fun _ => 0) (h (fun _ => 0))) by (rewrite map_length; auto). rewrite (map_nth h). reflexivity.
Qed.
Lemma standardize_moved n s A pi eps st pa b b' : (forall p, (p < n)%nat -> is_perm s (A p)) -> moved_each n s A pi b b' ->
  moved_each n s A pi (standardize eps st pa b) (standardize eps st pa b').
Proof.
  intros P M. pose proof M as (L & L' & _). assert (LS : forall e, length (standardize eps st pa e) = length e) by (intros; apply map_length).
  split; [rewrite LS; auto|]. split; [rewrite LS; auto|]. intros p a Hp Ha. destruct (perm_each _ _ _ _ _ _ P M p Hp) as (sg & BS & E & V).
  assert (H : (sg a < s)%nat) by (apply BS; auto). rewrite val_standardize by lia. rewrite V by auto.
  rewrite (rsum_ext s _ (fun c => if Nat.eqb c (sg a) then val (standardize eps st pa b) c (pi p) else 0)).
  - rewrite (rsum_at' s (sg a) (fun c => val (standardize eps st pa b) c (pi p))) by auto. rewrite val_standardize by lia. reflexivity.
  - intros c Hc. rewrite E by auto. destruct (c =? sg a)%nat; ring.
Qed.

(** * BatchNorm3d *)
Definition bn_wf (L : nat) (m : bn3d) : Prop :=
  (forall l, bn_stats m = Some l -> length l = L /\ forall v, In v l -> 0 <= snd v) /\ (forall l, bn_params m = Some l -> length l = L).
Definition bn_has (m : bn3d) : bool := match bn_params m with Some _ => true | None => false end.
Definition bn_tracks (m : bn3d) : bool := match bn_stats m with Some _ => true | None => false end.
(** the statistics used for feature number j, b *)
Definition bn_used (tr : bool) (n : nat) (m : bn3d) (j : nat) (b : list chan) : R * R :=
  if tr then (mean_of n b, var_of n b) else match bn_stats m with Some l => nth j l (0, 1) | None => (mean_of n b, var_of n b) end.
Definition bn_par (m : bn3d) (j : nat) : R * R := match bn_params m with Some l => nth j l (1, 0) | None => (1, 0) end.
Definition bn_next (tr : bool) (mo : option R) (n s : nat) (m : bn3d) (bl : list (list chan)) : bn3d :=
  let w := weight_of mo (S (bn_batches m)) in
  MkBN (bn_params m)
    (match bn_stats m with
     | Some l => Some (if tr then map (fun ob => (average w (fst (fst ob)) (mean_of n (snd ob)), average w (snd (fst ob)) (var_of n (snd ob) * unbias (s * n)))) (combine l bl) else l)
     | None => None end)
    (if (tr && bn_tracks m)%bool then S (bn_batches m) else bn_batches m).
Lemma bn_next_wf tr mo n s m bl : bn_wf (length bl) m -> momentum_ok mo -> bn_wf (length bl) (bn_next tr mo n s m bl).
Proof.
  intros [W1 W2] MO. split; [|exact W2]. intros l. unfold bn_next. cbn [bn_stats]. destruct (bn_stats m) as [l0|]; [|discriminate]. intros E. injection E as <-.
  destruct (W1 l0 eq_refl) as [H1 H2]. destruct tr; [|auto]. split; [rewrite map_length, combine_length; lia|]. intros v Hv. apply in_map_iff in Hv as ([o b] & <- & H). cbn [fst snd].
  apply average_pos; [apply weight_range; [auto|lia]|apply H2; eapply in_combine_l; eauto|]. apply Rmult_le_pos; [apply var_of_pos|apply unbias_pos].
Qed.
Lemma enum_combine2 {A B C D} (h : A -> B -> C -> D) (pr : list A) (st : list B) (bl : list C) dA dB : length pr = length bl -> length st = length bl ->
  map (fun v => h (fst v) (fst (snd v)) (snd (snd v))) (combine pr (combine st bl)) = map (fun p => h (nth (fst p) pr dA) (nth (fst p) st dB) (snd p)) (enumerate bl).
Proof.
  intros L1 L2. rewrite (enum_combine (fun a (bc : B * C) => h a (fst bc) (snd bc)) pr (combine st bl) dA) by (rewrite combine_length; lia).
  apply nth_error_ext. intros q. rewrite !nth_error_map. destruct (nth_error bl q) as [c|] eqn:Ec.
  - assert (Hq : (q < length st)%nat) by (rewrite L2; apply nth_error_Some; congruence).
    assert (E : nth_error (combine st bl) q = Some (nth q st dB, c)).
    { clear -Ec Hq L2. revert bl q Ec Hq L2. induction st as [|a st IH]; intros [|b bl] q Ec Hq L2; try discriminate; [cbn in Hq; lia|].
      destruct q; cbn in *; [congruence|]. apply IH; auto; lia. }
    rewrite (enumerate_at _ _ _ E), (enumerate_at _ _ _ Ec). reflexivity.
  - apply nth_error_None in Ec. assert (E : forall X (l : list X), length l = length bl -> nth_error (enumerate l) q = None).
    { intros X l Hl. apply nth_error_None. unfold enumerate. rewrite combine_length, seq_length. lia. }
    rewrite !E by (rewrite ?combine_length; lia). reflexivity.
Qed.
Lemma bn3d_ok tr eps mo n s m bl : bn_wf (length bl) m -> 0 < eps -> ((tr || negb (bn_tracks m))%bool = true -> (1 < s * n)%nat) ->
  bn3d_forward tr eps mo n s m bl =
  Ok (bn_next tr mo n s m bl, map (fun p => standardize eps (bn_used tr n m (fst p) (snd p)) (bn_par m (fst p)) (snd p)) (enumerate bl)).
Proof.
  intros [W1 W2] EPS N1. unfold bn3d_forward. cbv zeta. fold (bn_tracks m).
  replace ((tr || negb (bn_tracks m)) && (s * n =? 1)%nat)%bool with false.
  2:{ symmetry. destruct (tr || negb (bn_tracks m))%bool; [|reflexivity]. cbn [andb]. apply Nat.eqb_neq. specialize (N1 eq_refl). lia. }
  replace ((tr || negb (bn_tracks m)) && (s * n =? 0)%nat)%bool with false.
  2:{ symmetry. destruct (tr || negb (bn_tracks m))%bool; [|reflexivity]. cbn [andb]. apply Nat.eqb_neq. specialize (N1 eq_refl). lia. }
  set (batch := map (fun b => (feat_mean n b, feat_var n b)) bl).
  assert (BE : batch = map (fun b => (mean_of n b, var_of n b)) bl) by (unfold batch; apply map_ext; intros b; rewrite feat_mean_of, feat_var_of; reflexivity).
  assert (LB : length batch = length bl) by apply map_length.
  assert (ST : match bn_stats m with
         | Some st => if tr
                      then rbind (zip_eq st batch) (fun z => Ok (Some (map (fun ob =>
                             (ema (factor mo (if (tr && bn_tracks m)%bool then S (bn_batches m) else bn_batches m)) (fst (fst ob)) (fst (snd ob)),
                              ema (factor mo (if (tr && bn_tracks m)%bool then S (bn_batches m) else bn_batches m)) (snd (fst ob)) (snd (snd ob) * bessel (s * n)))) z)))
                      else Ok (Some st)
         | None => Ok None end = Ok (bn_stats (bn_next tr mo n s m bl))).
  { unfold bn_next, bn_tracks. cbn [bn_stats]. destruct (bn_stats m) as [l|] eqn:EL; [|reflexivity]. destruct tr; [|reflexivity]. destruct (W1 l eq_refl) as [H1 _].
    rewrite zip_eq_ok by lia. cbn [rbind]. cbn [andb]. do 2 f_equal. rewrite BE, <- combine_map_r, map_map. apply map_ext. intros [o b]. cbn [fst snd].
    rewrite factor_weight, !ema_average, bessel_unbias. reflexivity. }
  rewrite ST. cbn [rbind].
  set (stats := if (tr || negb (bn_tracks m))%bool then batch else match bn_stats m with Some st => st | None => [] end).
  assert (LS : length stats = length bl).
  { unfold stats, bn_tracks. destruct tr; [auto|]. destruct (bn_stats m) as [l|] eqn:EL; cbn; [apply (W1 l eq_refl)|auto]. }
  assert (SP : forall v, In v stats -> 0 <= snd v).
  { unfold stats, bn_tracks. assert (BP : forall v, In v batch -> 0 <= snd v) by (rewrite BE; intros v Hv; apply in_map_iff in Hv as (b & <- & _); apply var_of_pos).
    destruct tr; [auto|]. destruct (bn_stats m) as [l|] eqn:EL; cbn [orb negb]; [apply (W1 l eq_refl)|auto]. }
  rewrite zip_eq_ok by auto. cbn [rbind].
  set (pr := match bn_params m with Some pr => pr | None => map (fun _ => (1, 0)) bl end).
  assert (LP : length pr = length bl). { unfold pr. destruct (bn_params m) as [l|] eqn:EL; [apply W2; auto|apply map_length]. }
  assert (PE : match bn_params m with Some pr => zip_eq pr (combine stats bl) | None => Ok (map (fun v => ((1, 0), v)) (combine stats bl)) end = Ok (combine pr (combine stats bl))).
  { unfold pr in *. destruct (bn_params m) as [l|]; [apply zip_eq_ok; rewrite combine_length; lia|]. f_equal. clear -LS. revert LS. generalize stats. induction bl as [|b bl' IH]; intros [|v st] LS; try discriminate; [reflexivity|].
    cbn [combine map]. f_equal. apply IH. cbn in LS. lia. }
  rewrite PE. cbn [rbind].
  rewrite (rmap_pure _ (fun v => standardize eps (fst (snd v)) (fst v) (snd (snd v)))).
  2:{ intros [q [v b]] Hv. cbn [fst snd]. unfold feat_norm. destruct (Rle_dec (snd v + eps) 0) as [H|]; [|reflexivity]. exfalso.
      apply in_combine_r, in_combine_l in Hv. specialize (SP v Hv). lra. }
  cbn [rbind]. f_equal. f_equal.
  rewrite (enum_combine2 (fun q v b => standardize eps v q b) pr stats bl (1, 0) (0, 1) LP LS). apply map_ext_in. intros [j b] Hj. cbn [fst snd].
  assert (EJ : nth_error bl j = Some b).
  { apply In_nth_error in Hj as [q Hq]. destruct (nth_error bl q) as [b'|] eqn:Eb.
    - rewrite (enumerate_at _ _ _ Eb) in Hq. injection Hq as <- <-. auto.
    - apply nth_error_None in Eb. assert (H : nth_error (enumerate bl) q = None) by (apply nth_error_None; unfold enumerate; rewrite combine_length, seq_length; lia). congruence. }
  assert (Lj : (j < length bl)%nat) by (apply nth_error_Some; congruence).
  assert (BJ : nth j batch (0, 1) = (mean_of n b, var_of n b)) by (rewrite BE; apply nth_error_nth; rewrite nth_error_map, EJ; reflexivity).
  f_equal.
  - unfold stats, bn_used, bn_tracks. destruct tr; [exact BJ|]. destruct (bn_stats m); cbn [orb negb]; [reflexivity|exact BJ].
  - unfold pr, bn_par. destruct (bn_params m) as [l|]; [reflexivity|]. apply (nth_error_nth _ _ _ (map_nth_error _ _ _ EJ)).
Qed.

(** * The module *)
Section Inner.
Context {GS G : Type} (gs_eqb : GS -> GS -> bool) (rp_eqb : rep G -> rep G -> bool).
Notation ftype := (ftype GS (rep G)).
Notation gtensor := (gtensor GS (rep G) chan).
Notation ibn := (@ibn GS G).
Notation forward := (inner_forward gs_eqb rp_eqb).
Notation typed := (typed gs_eqb rp_eqb).
Notation rank := (rank_of Nat.eqb).

Definition ib_wf (m : ibn) : Prop :=
  size_pos (ib_in m) /\ good_index (map (fun s => (py_str s, s)) (ib_sizes m)) (map py_str (ib_sizes m)) (ib_idx m) /\
  0 < ib_eps m /\ momentum_ok (ib_momentum m) /\
  forall s, In s (ib_sizes m) -> bn_wf (nfields Nat.eqb (ib_sizes m) s) (ib_bn m s) /\ bn_tracks (ib_bn m s) = ib_track m /\ bn_has (ib_bn m s) = ib_affine m.
Definition inner_enough (tr : bool) (n : nat) (m : ibn) : Prop := (tr || negb (ib_track m))%bool = true -> forall s, In s (ib_sizes m) -> (1 < s * n)%nat.

Theorem inner_value tr n junk m (x : gtensor) : ib_wf m -> typed (ib_in m) x -> inner_enough tr n m ->
  exists y m1, forward tr n junk m x = Ok (y, m1) /\ ib_wf m1 /\ gt_type y = ib_in m /\ length (gt_data y) = nsum (map rp_size (ft_reps (ib_in m))) /\
    (ib_in m1 = ib_in m /\ ib_idx m1 = ib_idx m /\ ib_eps m1 = ib_eps m /\ ib_momentum m1 = ib_momentum m /\ ib_affine m1 = ib_affine m /\ ib_track m1 = ib_track m) /\
    (forall s, In s (ib_sizes m) -> ib_bn m1 s = bn_next tr (ib_momentum m) n s (ib_bn m s) (group_of py_str (fun s => s) (ib_sizes m) (ft_reps (ib_in m)) (gt_data x) s)) /\
    (forall f s b, nth_error (ib_sizes m) f = Some s -> nth_error (fields (ft_reps (ib_in m)) (gt_data x)) f = Some b ->
       nth_error (fields (ft_reps (ib_in m)) (gt_data y)) f =
       Some (standardize (ib_eps m) (bn_used tr n (ib_bn m s) (rank (ib_sizes m) f) b) (bn_par (ib_bn m s) (rank (ib_sizes m) f)) b)).
Proof.
  intros (SP & GI & EPS & MO & BW) (TY & LX) N1. set (ks := ib_sizes m) in *. set (reps := ft_reps (ib_in m)) in *.
  assert (EP : forall a b, reflect (a = b) (a =? b)%nat) by apply Nat.eqb_spec. pose proof py_str_inj as KI.
  assert (SZ : map (fun s : nat => s) ks = map rp_size reps) by apply map_id.
  assert (POS : forall k, In k ks -> (0 < k)%nat) by (intros k Hk; apply in_map_iff in Hk as (r & <- & Hr); apply SP; auto).
  assert (FI : forall k, In k (first_seen Nat.eqb ks) <-> In k ks) by (intros; apply first_seen_in; auto).
  assert (ND : NoDup (first_seen Nat.eqb ks)) by (apply first_seen_nodup; auto).
  assert (GL : forall k, length (group_of py_str (fun s => s) ks reps (gt_data x) k) = nfields Nat.eqb ks k) by (intros; apply group_len; auto).
  set (step := fun s bn fm => rbind (view_fields s fm) (fun bl => rbind (bn3d_forward tr (ib_eps m) (ib_momentum m) n s bn bl) (fun r => Ok (fst r, concat (snd r))))).
  set (g := fun (s j : nat) (b : list chan) => standardize (ib_eps m) (bn_used tr n (ib_bn m s) j b) (bn_par (ib_bn m s) j) b).
  assert (ST : forall s fm bl, In s ks -> view_fields s fm = Ok bl -> length bl = nfields Nat.eqb ks s ->
     step s (ib_bn m s) fm = Ok (bn_next tr (ib_momentum m) n s (ib_bn m s) bl, concat (map (fun p => g s (fst p) (snd p)) (enumerate bl)))).
  { intros s fm bl Hs V L. destruct (BW s Hs) as (W & T & _). unfold step. rewrite V. cbn [rbind]. rewrite bn3d_ok; [reflexivity|rewrite L; auto|auto|].
    rewrite T. intros H. apply N1; auto. }
  set (op := fun s fm => rbind (step s (ib_bn m s) fm) (fun r => Ok (snd r))).
  destruct (rank_loop Nat.eqb py_str (fun s => s) ks reps (ib_idx m) (fun k _ fm => op k fm) g (gt_data x) (empty junk (length (gt_data x))) EP KI SZ POS GI LX) as (y & Y1 & Y2 & Y3).
  { rewrite empty_length. auto. }
  { intros k j b Hk Hb. unfold g, standardize. rewrite map_length. auto. }
  { intros k fm bl Hk V L. unfold op. rewrite (ST k fm bl Hk V L). reflexivity. }
  destruct (state_loop_group Nat.eqb py_str (ib_idx m) EP KI step op (gt_data x) (first_seen Nat.eqb ks) (ib_bn m) (empty junk (length (gt_data x))) y ND) as (st' & E1 & E2 & E3).
  { intros k Hk. apply FI in Hk. destruct (group_ok py_str (fun s => s) ks reps (ib_idx m) KI SZ POS GI (gt_data x) k LX Hk) as (fm & R & V).
    exists fm. eexists. eexists. split; [exact R|]. split; [apply ST; [auto|exact V|apply GL]|]. unfold op. rewrite (ST k fm _ Hk V) by apply GL. reflexivity. }
  { exact Y1. }
  assert (BN : forall s, In s ks -> st' s = bn_next tr (ib_momentum m) n s (ib_bn m s) (group_of py_str (fun s => s) ks reps (gt_data x) s)).
  { intros s Hs. destruct (group_ok py_str (fun s => s) ks reps (ib_idx m) KI SZ POS GI (gt_data x) s LX Hs) as (fm & R & V).
    destruct (E2 s fm (proj2 (FI s) Hs) R) as [vals E]. rewrite (ST s fm _ Hs V) in E by apply GL. injection E as <- _. reflexivity. }
  unfold inner_forward. rewrite TY. cbn [assert_]. fold ks. fold step. rewrite E1. cbn [rbind snd fst]. rewrite mk_gt_fwd by exact Y2. cbn [rbind].
  eexists. eexists. split; [reflexivity|]. cbn [gt_type gt_data ib_in ib_idx ib_eps ib_momentum ib_affine ib_track ib_bn].
  split. { split; [exact SP|]. split; [exact GI|]. split; [exact EPS|]. split; [exact MO|]. intros s Hs. cbn [ib_bn ib_track]. change (ib_sizes _) with ks in Hs |- *. rewrite BN by auto.
    destruct (BW s Hs) as (W & T & HP). split; [|split; [|exact HP]].
    - rewrite <- (GL s). apply bn_next_wf; [rewrite GL; auto|auto].
    - rewrite <- T. unfold bn_tracks, bn_next. cbn [bn_stats]. destruct (bn_stats (ib_bn m s)); reflexivity. }
  split; [auto|]. split; [auto|]. split; [tauto|]. split; [exact BN|]. intros f s b Hf Hb. apply (Y3 f s b Hf Hb).
Qed.

(** the same buffers and parameters *)
Definition ib_same (m m' : ibn) : Prop :=
  ib_in m' = ib_in m /\ ib_idx m' = ib_idx m /\ ib_eps m' = ib_eps m /\ ib_momentum m' = ib_momentum m /\ ib_affine m' = ib_affine m /\ ib_track m' = ib_track m /\
  forall s, In s (ib_sizes m) -> ib_bn m' s = ib_bn m s.

Theorem inner_sim tr n junk junk' gs pi m m' (x x' : gtensor) : ib_wf m -> ib_wf m' -> ib_same m m' -> typed (ib_in m) x -> typed (ib_in m) x' ->
  ft_reps (ib_in m) <> [] -> inner_enough tr n m -> bij n pi ->
  (forall p r, (p < n)%nat -> In r (ft_reps (ib_in m)) -> is_perm (rp_size r) (rp_mat r (gs p))) ->
  acts_each n (ft_reps (ib_in m)) gs pi (gt_data x) (gt_data x') ->
  exists y y' m1 m1', forward tr n junk m x = Ok (y, m1) /\ forward tr n junk' m' x' = Ok (y', m1') /\
    (ib_wf m1 /\ ib_wf m1' /\ ib_same m1 m1' /\ ib_in m1 = ib_in m /\ ib_track m1 = ib_track m) /\ acts_each n (ft_reps (ib_in m)) gs pi (gt_data y) (gt_data y').
Proof.
  intros WF WF' (S1 & S2 & S3 & S4 & S5 & S6 & S7) TX TX' NE N1 B P A.
  assert (TX2 : typed (ib_in m') x') by (rewrite S1; auto).
  assert (N1' : inner_enough tr n m') by (unfold inner_enough, ib_sizes; rewrite S6, S1; exact N1).
  destruct (inner_value tr n junk m x WF TX N1) as (y & m1 & F & W1 & Y1 & Y2 & (C1 & C2 & C3 & C4 & C5 & C6) & C7 & C8).
  destruct (inner_value tr n junk' m' x' WF' TX2 N1') as (y' & m1' & F' & W1' & Y1' & Y2' & (C1' & C2' & C3' & C4' & C5' & C6') & C7' & C8').
  assert (KS : ib_sizes m' = ib_sizes m) by (unfold ib_sizes; rewrite S1; auto). assert (KS1 : ib_sizes m1 = ib_sizes m) by (unfold ib_sizes; rewrite C1; auto).
  rewrite KS, S1, S3, S4 in *. set (reps := ft_reps (ib_in m)) in *. set (ks := ib_sizes m) in *.
  assert (LK : length ks = length reps) by apply map_length. assert (SZ : map (fun s : nat => s) ks = map rp_size reps) by apply map_id.
  assert (LX : length (gt_data x) = nsum (map rp_size reps)) by apply TX. assert (LX' : length (gt_data x') = nsum (map rp_size reps)) by apply TX'.
  assert (MV : forall f r b b', nth_error reps f = Some r -> nth_error (fields reps (gt_data x)) f = Some b -> nth_error (fields reps (gt_data x')) f = Some b' ->
     moved_each n (rp_size r) (fun p => rp_mat r (gs p)) pi b b') by (apply acts_each_moved; auto).
  assert (PR : forall f r, nth_error reps f = Some r -> forall p, (p < n)%nat -> is_perm (rp_size r) (rp_mat r (gs p))) by (intros f r Hr p Hp; apply P; auto; eapply nth_error_In; eauto).
  assert (VE : forall s, In s ks -> ib_bn m1' s = ib_bn m1 s).
  { intros s Hs. rewrite C7, C7' by auto. rewrite S7 by auto. unfold bn_next. f_equal. destruct (bn_stats (ib_bn m s)) as [l|]; [|reflexivity]. destruct tr; [|reflexivity]. f_equal.
    set (w := weight_of (ib_momentum m) (S (bn_batches (ib_bn m s)))).
    assert (E : forall d : list chan, map (fun ob => (average w (fst (fst ob)) (mean_of n (snd ob)), average w (snd (fst ob)) (var_of n (snd ob) * unbias (s * n)))) (combine l (group_of py_str (fun s => s) ks reps d s)) =
       map (fun ob => (average w (fst (fst ob)) (fst (snd ob)), average w (snd (fst ob)) (snd (snd ob) * unbias (s * n)))) (combine l (map (fun b => (mean_of n b, var_of n b)) (group_of py_str (fun s => s) ks reps d s)))).
    { intros d. rewrite <- combine_map_r, map_map. reflexivity. }
    rewrite !E. do 2 f_equal. unfold group_of. rewrite !map_map. apply map_ext_in. intros f Hf. apply (places_in py_str (fun s => s) ks py_str_inj) in Hf.
    assert (Lf : (f < length reps)%nat) by (rewrite <- LK; apply nth_error_Some; congruence).
    destruct (nth_error reps f) as [r|] eqn:Er; [|apply nth_error_None in Er; lia].
    pose proof (field_at (fun s => s) ks reps SZ (gt_data x) f s Hf) as Hb. pose proof (field_at (fun s => s) ks reps SZ (gt_data x') f s Hf) as Hb'.
    pose proof (MV f r _ _ Er Hb Hb') as MM.
    rewrite (mean_of_moved n _ _ pi _ _ B (PR f r Er) MM), (var_of_moved n _ _ pi _ _ B (PR f r Er) MM). reflexivity. }
  exists y, y', m1, m1'. split; [exact F|]. split; [exact F'|]. split.
  - split; [auto|]. split; [auto|]. split; [|auto]. unfold ib_same. rewrite KS1.
    split; [congruence|]. split; [congruence|]. split; [congruence|]. split; [congruence|]. split; [congruence|]. split; [congruence|exact VE].
  - apply moved_acts_each; auto. intros f r b b' Hr Hb Hb'.
    assert (Lf : (f < length ks)%nat) by (rewrite LK; apply nth_error_Some; congruence).
    destruct (nth_error ks f) as [s|] eqn:Ek; [|apply nth_error_None in Ek; lia].
    destruct (fields_at reps (gt_data x) f r Hr) as [bx Hx]. destruct (fields_at reps (gt_data x') f r Hr) as [bx' Hx'].
    pose proof (C8 f s bx Ek Hx) as E. pose proof (C8' f s bx' Ek Hx') as E'. rewrite Hb in E. rewrite Hb' in E'. injection E as ->. injection E' as ->.
    pose proof (MV f r bx bx' Hr Hx Hx') as MM. rewrite S7 by (eapply nth_error_In; eauto).
    assert (U : bn_used tr n (ib_bn m s) (rank ks f) bx' = bn_used tr n (ib_bn m s) (rank ks f) bx).
    { unfold bn_used. rewrite (mean_of_moved n _ _ pi bx bx' B (PR f r Hr) MM), (var_of_moved n _ _ pi bx bx' B (PR f r Hr) MM). reflexivity. }
    rewrite U. apply standardize_moved; [apply (PR f r Hr)|exact MM].
Qed.

(** other events: the buffers are reset, the parameters are set by training *)
Inductive ib_event := IResetStats | ISetParams (p : nat -> list (R * R)).
Definition ib_apply (e : ib_event) (m : ibn) : ibn :=
  match e with
  | IResetStats => inner_reset m
  | ISetParams p => MkIB (ib_in m) (ib_idx m) (ib_eps m) (ib_momentum m) (ib_affine m) (ib_track m)
      (fun s => MkBN (match bn_params (ib_bn m s) with Some _ => Some (p s) | None => None end) (bn_stats (ib_bn m s)) (bn_batches (ib_bn m s)))
  end.
Definition ib_event_ok (sizes : list nat) (e : ib_event) : Prop :=
  match e with IResetStats => True | ISetParams p => forall s, In s sizes -> length (p s) = length (filter (Nat.eqb s) sizes) end.
Lemma ib_apply_wf e m : ib_wf m -> ib_event_ok (ib_sizes m) e -> ib_wf (ib_apply e m) /\ ib_in (ib_apply e m) = ib_in m /\ ib_track (ib_apply e m) = ib_track m.
Proof.
  intros (SP & GI & EPS & MO & BW) OK. destruct e as [|p]; cbn [ib_apply ib_event_ok] in *.
  - split; [|auto]. unfold inner_reset. split; [exact SP|]. split; [exact GI|]. split; [exact EPS|]. split; [exact MO|]. intros s Hs. change (ib_sizes _) with (ib_sizes m) in *. cbn [ib_bn ib_track].
    destruct (BW s Hs) as ([W1 W2] & T & HP). split; [split; cbn [bn_stats bn_params]|split; [|exact HP]].
    + intros l E. destruct (bn_stats (ib_bn m s)) as [l0|]; [|discriminate]. injection E as <-. rewrite repeat_length. split; [apply (W1 l0 eq_refl)|]. intros v Hv. apply repeat_spec in Hv. subst v. cbn. lra.
    + exact W2.
    + rewrite <- T. unfold bn_tracks. cbn [bn_stats]. destruct (bn_stats (ib_bn m s)); reflexivity.
  - split; [|auto]. split; [exact SP|]. split; [exact GI|]. split; [exact EPS|]. split; [exact MO|]. intros s Hs. change (ib_sizes _) with (ib_sizes m) in *. cbn [ib_bn ib_track].
    destruct (BW s Hs) as ([W1 W2] & T & HP). split; [split; cbn [bn_stats bn_params]|split; [exact T|]].
    3:{ cbn [ib_affine]. rewrite <- HP. unfold bn_has. cbn [bn_params]. destruct (bn_params (ib_bn m s)); reflexivity. } { exact W1. } intros l E. destruct (bn_params (ib_bn m s)); [|discriminate]. injection E as <-. apply OK. auto.
Qed.
Lemma ib_apply_same e m m' : ib_same m m' -> ib_same (ib_apply e m) (ib_apply e m').
Proof.
  intros (S1 & S2 & S3 & S4 & S5 & S6 & S7). destruct e as [|p]; cbn [ib_apply]; unfold inner_reset, ib_same; cbn [ib_in ib_idx ib_eps ib_momentum ib_affine ib_track ib_bn];
    (split; [auto|]); (split; [auto|]); (split; [auto|]); (split; [auto|]); (split; [auto|]); (split; [auto|]); intros s Hs; rewrite S7 by exact Hs; reflexivity.
Qed.
Definition ib_batch_ok (t : ftype) (track tr : bool) (n : nat) (gs : nat -> G) (pi : nat -> nat) (x x' : gtensor) : Prop :=
  typed t x /\ typed t x' /\ ((tr || negb track)%bool = true -> forall r, In r (ft_reps t) -> (1 < rp_size r * n)%nat) /\ bij n pi /\
  (forall p r, (p < n)%nat -> In r (ft_reps t) -> is_perm (rp_size r) (rp_mat r (gs p))) /\
  acts_each n (ft_reps t) gs pi (gt_data x) (gt_data x').
Theorem inner_history junk h m : ib_wf m -> ft_reps (ib_in m) <> [] -> Forall (event_ok (ib_batch_ok (ib_in m) (ib_track m)) (ib_event_ok (ib_sizes m))) h ->
  exists ys ys' m1 m1', run (fun tr n => forward tr n junk) ib_apply m (map left_of h) = Ok (ys, m1) /\ run (fun tr n => forward tr n junk) ib_apply m (map right_of h) = Ok (ys', m1') /\
    (ib_wf m1 /\ ib_same m1 m1') /\ follow (ft_reps (ib_in m)) h ys ys'.
Proof.
  intros WF NE H. set (t := ib_in m) in *. set (tk := ib_track m) in *.
  destruct (run_follow (ft_reps t) (fun tr n => forward tr n junk) ib_apply (fun a b => ib_wf a /\ ib_wf b /\ ib_same a b /\ ib_in a = t /\ ib_track a = tk) (ib_batch_ok t tk) (ib_event_ok (ib_sizes m))) with (h := h) (m := m) (m' := m)
    as (ys & ys' & m1 & m1' & R1 & R2 & (I1 & I2 & I3 & _) & FO).
  - intros tr n gs pi x x' a b (W & W' & SM & E1 & E2) (T1 & T2 & N0 & B & O & A). rewrite <- E1, <- E2 in *.
    assert (N1 : inner_enough tr n a). { intros C s Hs. apply in_map_iff in Hs as (r & <- & Hr). apply N0; auto. }
    destruct (inner_sim tr n junk junk gs pi a b x x' W W' SM T1 T2 NE N1 B O A) as (y & y' & a1 & b1 & F & F' & (W1 & W1' & SM1 & E3 & E4) & A1).
    exists y, y', a1, b1. split; [auto|]. split; [auto|]. split; [|auto]. split; [auto|]. split; [auto|]. split; [auto|]. split; auto.
  - intros w a b (W & W' & SM & E1 & E2) OK. pose proof SM as (Q1 & _). assert (KA : ib_sizes a = ib_sizes m) by (unfold ib_sizes; rewrite E1; reflexivity).
    assert (KB : ib_sizes b = ib_sizes m) by (unfold ib_sizes; rewrite Q1, E1; reflexivity). destruct (ib_apply_wf w a W) as (V1 & V2 & V3); [rewrite KA; auto|].
    destruct (ib_apply_wf w b W') as (V1' & _ & _); [rewrite KB; auto|]. split; [auto|]. split; [auto|]. split; [apply ib_apply_same; auto|]. split; congruence.
  - split; [auto|]. split; [auto|]. split; [|auto]. unfold ib_same. auto 10.
  - exact H.
  - exists ys, ys', m1, m1'. auto 10.
Qed.
Lemma inner_wf (t : ftype) eps mo affine track m : inner_make t eps mo affine track = Ok m -> size_pos t -> 0 < eps -> momentum_ok mo ->
  ib_wf m /\ ib_in m = t /\ ib_eps m = eps /\ ib_momentum m = mo /\ ib_affine m = affine /\ ib_track m = track /\ ib_bn m = (fun s => bn3d_make (nfields Nat.eqb (ib_sizes m) s) affine track).
Proof.
  intros MK SP E0 MO. unfold inner_make in MK. apply assert_ok in MK as [_ MK]. apply rbind_ok in MK as (idx & GI & MK). injection MK as <-.
  cbn [ib_in ib_eps ib_momentum ib_affine ib_track ib_bn]. split; [|auto 10]. split; [exact SP|]. split.
  - unfold ib_sizes. cbn [ib_in ib_idx]. apply group_index_good in GI. unfold by_size in GI. rewrite map_map in GI. rewrite !map_map. exact GI.
  - split; [auto|]. split; [auto|]. intros s Hs. cbn [ib_bn ib_track]. unfold bn3d_make. split; [split; cbn [bn_stats bn_params]|split].
    + intros l E. destruct track; [|discriminate]. injection E as <-. rewrite repeat_length. split; [reflexivity|]. intros v Hv. apply repeat_spec in Hv. subst v. cbn. lra.
    + intros l E. destruct affine; [|discriminate]. injection E as <-. apply repeat_length.
    + unfold bn_tracks. cbn [bn_stats]. destruct track; reflexivity.
    + unfold bn_has. cbn [bn_params]. destruct affine; reflexivity.
Qed.
End Inner.
