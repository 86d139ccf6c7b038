(** InnerBatchNorm: the exported BatchNorm2d. *)
From Coq Require Import Reals ZArith String Ascii Decimal DecimalString List Bool Lia Lra Permutation Sorted FunctionalExtensionality.
From Verif Require Import Base LinAlg Spec Spec_Fields Model_Groups Model_Rep Model_FieldType Model_Tensor Model_Utils Model_Modules Model_Fieldwise Model_BatchNorm Spec_Fieldwise Spec_Fieldwise2 Spec_Dropout Spec_BatchNorm
  Proofs_FieldType Proofs_FieldType2 Proofs_Tensor Proofs_Utils Proofs_Modules Proofs_Modules2 Proofs_Modules3 Proofs_Fieldwise Proofs_Fieldwise2 Proofs_Fieldwise3 Proofs_Fieldwise4 Proofs_Fieldwise5 Proofs_Fieldwise8 Proofs_Fieldwise9 Proofs_Dropout Proofs_BatchNorm Proofs_BatchNorm2 Proofs_BatchNorm3 Proofs_BatchNorm4 Proofs_BatchNorm5.
Import ListNotations.
Open Scope R_scope.

Lemma cut_combine {A B} ss : forall (l : list A) (l' : list B), cut ss (combine l l') = map (fun p => combine (fst p) (snd p)) (combine (cut ss l) (cut ss l')).
Proof.
  induction ss as [|s ss IH]; intros l l'; [reflexivity|]. cbn [cut combine map fst snd]. rewrite combine_firstn. f_equal. rewrite <- IH. f_equal.
  clear. revert l l'. induction s as [|s IH]; intros [|a l] [|b l']; cbn; auto. rewrite combine_nil. reflexivity.
Qed.
Lemma fields_inj {G A} (reps : list (rep G)) (d d' : list A) : length d = nsum (map rp_size reps) -> length d' = nsum (map rp_size reps) ->
  (forall f, (f < length reps)%nat -> nth_error (fields reps d) f = nth_error (fields reps d') f) -> d = d'.
Proof.
  intros L L' H. rewrite <- (concat_cut (map rp_size reps) d L), <- (concat_cut (map rp_size reps) d' L'). f_equal. apply nth_error_ext. intros f.
  destruct (Nat.lt_ge_cases f (length reps)) as [Hf|Hf]; [apply H; auto|].
  rewrite !(proj2 (nth_error_None _ _)); auto; rewrite cut_len, map_length; auto.
Qed.
Lemma nth_error_combine {A B} (l : list A) (l' : list B) i a b : nth_error l i = Some a -> nth_error l' i = Some b -> nth_error (combine l l') i = Some (a, b).
Proof. revert l' i. induction l as [|x l IH]; intros [|y l'] [|i] H H'; cbn in *; try discriminate; [congruence|]. apply IH; auto. Qed.

Section Export.
Context {GS G : Type} (gs_eqb : GS -> GS -> bool) (rp_eqb : rep G -> rep G -> bool).
Notation gtensor := (gtensor GS (rep G) chan).
Notation ibn := (@ibn GS G).

(** the channels of the exported statistics or parameters: those of its field *)
Definition spread (l : list (R * R)) (s j : nat) (b : list (R * R)) : list (R * R) := repeat (nth j l (0, 0)) s.
Lemma spread_all s (l : list (R * R)) (bl : list (list (R * R))) : length l = length bl ->
  concat (map (fun v => repeat v s) l) = concat (map (fun p => spread l s (fst p) (snd p)) (enumerate bl)).
Proof. intros L. unfold spread. rewrite <- (enum_combine (fun v (_ : list (R * R)) => repeat v s) l bl (0, 0)) by auto. f_equal. revert bl L. induction l as [|a l IH]; intros [|b bl] L; try discriminate; [reflexivity|]. cbn. f_equal. apply IH. cbn in L. lia. Qed.

Lemma export_loops (m : ibn) : ib_wf m -> ib_track m = true ->
  forall order (x : list (R * R)) last st pa st' pa', length x = nsum (map rp_size (ft_reps (ib_in m))) -> (forall s, In s order -> In s (ib_sizes m)) -> (match pa with Some _ => true | None => false end) = ib_affine m ->
  export_loop m order last (st, pa) = Ok (st', pa') ->
  group_loop py_str (ib_idx m) (ib_idx m) (fun _ => 0%nat) (fun s _ _ => Ok (concat (map (fun v => repeat v s) (match bn_stats (ib_bn m s) with Some l => l | None => [] end)))) x order 0 st = Ok st' /\
  match pa with
  | Some q => exists q', pa' = Some q' /\
     group_loop py_str (ib_idx m) (ib_idx m) (fun _ => 0%nat) (fun s _ _ => Ok (concat (map (fun v => repeat v s) (match bn_params (ib_bn m s) with Some l => l | None => [] end)))) x order 0 q = Ok q'
  | None => pa' = None
  end.
Proof.
  intros (SP & GI & EPS & MO & BW) TR. induction order as [|s order IH]; intros x last st pa st' pa' LX SUB PA H.
  - injection H as <- <-. split; [reflexivity|]. destruct pa; [eexists; split; reflexivity|reflexivity].
  - cbn [export_loop] in H. destruct (GI (py_str s)) as (ci & E1 & OK1 & CL). { apply in_map, SUB. cbn; auto. }
    assert (LS : nsum (map snd (map (fun s => (py_str s, s)) (ib_sizes m))) = length x). { rewrite map_map. cbn [snd]. rewrite map_id. symmetry. exact LX. }
    assert (AT : attr_of (ib_idx m) (py_str s) = Ok ci) by (unfold attr_of; rewrite E1; auto). rewrite AT in H. cbn [rbind] in H.
    destruct ci as [a b|]; [|discriminate]. destruct (gather_ok (CSlice a b) x OK1) as (fm & F1 & _). { rewrite CL, <- LS. apply ind_bound. }
    destruct (BW s) as ([W1 W2] & T & HP); [apply SUB; cbn; auto|]. rewrite TR in T. unfold bn_tracks in T. destruct (bn_stats (ib_bn m s)) as [l|] eqn:EL; [|discriminate].
    cbn [fst snd] in H. apply rbind_ok in H as (st1 & H1 & H). apply assert_ok in H as [_ H]. apply rbind_ok in H as (pa1 & H2 & H).
    cbn [group_loop]. rewrite AT. cbn [rbind]. rewrite F1. cbn [rbind]. rewrite EL, H1. cbn [rbind]. unfold bn_has in HP.
    assert (SUB' : forall s0, In s0 order -> In s0 (ib_sizes m)) by (intros; apply SUB; cbn; auto).
    destruct pa as [q|].
    + rewrite <- PA in HP. destruct (bn_params (ib_bn m s)) as [pr|] eqn:EP; [|discriminate]. apply rbind_ok in H2 as (q1 & H3 & H2). injection H2 as <-.
      destruct (IH x _ st1 (Some q1) st' pa' LX SUB' PA H) as (I1 & q' & I2 & I3). split; [exact I1|]. exists q'. split; [auto|]. rewrite H3. cbn [rbind]. exact I3.
    + injection H2 as <-. destruct (IH x _ st1 None st' pa' LX SUB' PA H) as (I1 & I2). auto.
Qed.

Theorem inner_export_ok n junk (m : ibn) (x : gtensor) st pr : ib_wf m -> inner_export m = Ok (st, pr) -> typed gs_eqb rp_eqb (ib_in m) x ->
  exists y, inner_forward gs_eqb rp_eqb false n junk m x = Ok (y, m) /\ bn2d_eval (ib_eps m) pr st (gt_data x) = Ok (gt_data y).
Proof.
  intros WF EX TX. pose proof WF as (SP & GI & EPS & MO & BW). unfold inner_export in EX. destruct (ib_track m) eqn:TR; [|discriminate]. cbn [negb] in EX.
  destruct (inner_value gs_eqb rp_eqb false n junk m x WF TX) as (y & m1 & F & W1 & _ & LY & (C1 & C2 & C3 & C4 & C5 & C6) & C7 & C8).
  { intros H. rewrite TR in H. discriminate. }
  set (reps := ft_reps (ib_in m)) in *. set (ks := ib_sizes m) in *.
  assert (CH : ft_chans (ib_in m) = nsum (map rp_size reps)) by reflexivity.
  set (x0 := repeat ((0, 1) : R * R) (ft_chans (ib_in m))). assert (L0 : length x0 = nsum (map rp_size reps)) by (unfold x0; rewrite repeat_length; exact CH).
  destruct (export_loops m WF TR _ x0 None (repeat (0, 1) (ft_chans (ib_in m))) (if ib_affine m then Some (repeat (1, 0) (ft_chans (ib_in m))) else None) st pr L0 (fun s Hs => proj1 (first_seen_in Nat.eqb Nat.eqb_spec _ _) Hs) ltac:(destruct (ib_affine m); reflexivity) EX) as [X1 X2].
  assert (SZ : map (fun s : nat => s) ks = map rp_size reps) by apply map_id.
  assert (POS : forall k, In k ks -> (0 < k)%nat) by (intros k Hk; apply in_map_iff in Hk as (r & <- & Hr); apply SP; auto).
  assert (SPR : forall (sel : nat -> option (list (R * R))) (out z : list (R * R)), length out = nsum (map rp_size reps) -> (forall s, In s ks -> exists l, sel s = Some l /\ length l = nfields Nat.eqb ks s) ->
     group_loop py_str (ib_idx m) (ib_idx m) (fun _ => 0%nat) (fun s _ _ => Ok (concat (map (fun v => repeat v s) (match sel s with Some l => l | None => [] end)))) x0 (first_seen Nat.eqb ks) 0 out = Ok z ->
     length z = nsum (map rp_size reps) /\ forall f s l, nth_error ks f = Some s -> sel s = Some l -> nth_error (fields reps z) f = Some (repeat (nth (rank_of Nat.eqb ks f) l (0, 0)) s)).
  { intros sel out z LO SE HL.
    destruct (rank_loop Nat.eqb py_str (fun s => s) ks reps (ib_idx m) (fun s _ _ => Ok (concat (map (fun v => repeat v s) (match sel s with Some l => l | None => [] end))))
      (fun s j b => spread (match sel s with Some l => l | None => [] end) s j b) x0 out Nat.eqb_spec py_str_inj SZ POS GI L0 LO) as (z' & Z1 & Z2 & Z3).
    - intros s j b _ _. apply repeat_length.
    - intros s fm bl Hs V LB. destruct (SE s Hs) as (l & El & Ll). rewrite El. f_equal. apply spread_all. rewrite LB. exact Ll.
    - assert (z' = z) by congruence. subst z'. split; [auto|]. intros f s l Hf Hl. assert (Lf : (f < length reps)%nat). { unfold ks, ib_sizes in Hf. rewrite <- (map_length rp_size reps). apply nth_error_Some. fold reps in Hf. congruence. }
      destruct (nth_error (fields reps x0) f) as [b|] eqn:Eb. 2:{ apply nth_error_None in Eb. unfold fields in Eb. rewrite cut_len, map_length in Eb. lia. }
      rewrite (Z3 f s b Hf Eb). rewrite Hl. reflexivity. }
  assert (STS : forall s, In s ks -> exists l, bn_stats (ib_bn m s) = Some l /\ length l = nfields Nat.eqb ks s).
  { intros s Hs. destruct (BW s Hs) as ([B1 B2] & T & HP). unfold bn_tracks in T. destruct (bn_stats (ib_bn m s)) as [l|]; [|discriminate]. exists l. split; [auto|]. apply B1. auto. }
  destruct (SPR (fun s => bn_stats (ib_bn m s)) _ st ltac:(rewrite repeat_length; exact CH) STS X1) as [LS FS].
  set (pl := match pr with Some q => q | None => repeat (1, 0) (ft_chans (ib_in m)) end).
  assert (PRS : length pl = nsum (map rp_size reps) /\ forall f s, nth_error ks f = Some s -> nth_error (fields reps pl) f = Some (repeat (bn_par (ib_bn m s) (rank_of Nat.eqb ks f)) s)).
  { destruct (ib_affine m) eqn:AF.
    - destruct X2 as (q' & -> & X2). unfold pl.
      assert (PS : forall s, In s ks -> exists l, bn_params (ib_bn m s) = Some l /\ length l = nfields Nat.eqb ks s).
      { intros s Hs. destruct (BW s Hs) as ([B1 B2] & T & HP). unfold bn_has in HP. destruct (bn_params (ib_bn m s)) as [l|]; [|discriminate]. exists l. split; [auto|]. apply B2. auto. }
      destruct (SPR (fun s => bn_params (ib_bn m s)) _ q' ltac:(rewrite repeat_length; exact CH) PS X2) as [LQ FQ]. split; [exact LQ|]. intros f s Hf.
      destruct (PS s (nth_error_In _ _ Hf)) as (l & El & Ll). rewrite (FQ f s l Hf El). unfold bn_par. rewrite El. do 2 f_equal. apply nth_indep. rewrite Ll.
      apply (rank_bound Nat.eqb py_str (fun s => s) ks Nat.eqb_spec py_str_inj s f Hf).
    - subst pr. unfold pl. split; [rewrite repeat_length; exact CH|]. intros f s Hf. assert (PN : bn_params (ib_bn m s) = None).
      { destruct (BW s (nth_error_In _ _ Hf)) as (_ & _ & HP). unfold bn_has in HP. destruct (bn_params (ib_bn m s)); [discriminate|auto]. }
      unfold bn_par. rewrite PN. pose proof (field_at (fun s => s) ks reps SZ (repeat ((1, 0) : R * R) (ft_chans (ib_in m))) f s Hf) as E.
      pose proof (field_size py_str (fun s => s) ks reps SZ (repeat ((1, 0) : R * R) (ft_chans (ib_in m))) f s ltac:(rewrite repeat_length; exact CH) Hf) as LF.
      rewrite E. f_equal. rewrite <- LF. apply Forall_eq_repeat. apply Forall_forall. intros v Hv. symmetry. apply (repeat_spec (ft_chans (ib_in m))).
      rewrite <- (concat_cut (map rp_size reps) (repeat ((1, 0) : R * R) (ft_chans (ib_in m)))) by (rewrite repeat_length; exact CH). apply in_concat. eexists. split; [|exact Hv]. apply nth_error_In in E. exact E. }
  destruct PRS as [LP FP]. pose proof (proj2 TX) as LX. fold reps in LX.
  assert (M1 : m1 = m).
  { destruct m1 as [a1 a2 a3 a4 a5 a6 a7], m as [b1 b2 b3 b4 b5 b6 b7]. cbn in *. subst. f_equal. unfold inner_forward in F. apply assert_ok in F as [_ F]. apply rbind_ok in F as ([so d] & F1 & F). apply rbind_ok in F as (y0 & F2 & F). cbn in F. injection F as _ <-.
    cbn [ib_sizes ib_in ib_bn ib_eps ib_momentum ib_idx] in F1.
    apply functional_extensionality. intros s. clear -F1. revert F1.
    assert (Q : forall order (st0 : nat -> bn3d) out, (forall k, st0 k = b7 k) -> state_loop Nat.eqb py_str b2 (fun s0 bn fm => rbind (view_fields s0 fm) (fun bl => rbind (bn3d_forward false b3 b4 n s0 bn bl) (fun r => Ok (fst r, concat (snd r))))) (gt_data x) order st0 out = Ok (so, d) -> so s = b7 s).
    { induction order as [|k order IH]; intros st0 out Hst H; [injection H as <- _; auto|]. cbn [state_loop] in H. apply rbind_ok in H as (ci & _ & H). apply rbind_ok in H as (fm & _ & H). apply rbind_ok in H as (sv & H1 & H). apply rbind_ok in H as (out' & _ & H).
      eapply IH; [|exact H]. intros k'. unfold set_at. destruct (Nat.eqb_spec k k') as [<-|]; [|auto]. apply rbind_ok in H1 as (bl & _ & H1). apply rbind_ok in H1 as (r & H1 & H2). injection H2 as <-. cbn [fst].
      rewrite Hst in H1. unfold bn3d_forward in H1. cbn [andb orb] in H1. cbv zeta in H1.
      destruct (negb match bn_stats (b7 k) with Some _ => true | None => false end && (k * n =? 1)%nat)%bool; [discriminate|]. destruct (negb match bn_stats (b7 k) with Some _ => true | None => false end && (k * n =? 0)%nat)%bool; [discriminate|].
      apply rbind_ok in H1 as (st' & G1 & H1). apply rbind_ok in H1 as (z & _ & H1). apply rbind_ok in H1 as (z' & _ & H1). apply rbind_ok in H1 as (o & _ & H1). injection H1 as <-. cbn [fst].
      destruct (b7 k) as [c1 c2 c3]. cbn in *. destruct c2; injection G1 as <-; reflexivity. }
    apply Q. auto. }
  exists y. split; [rewrite F, M1; reflexivity|].
  unfold bn2d_eval. rewrite zip_eq_ok by congruence. cbn [rbind].
  replace (match pr with Some pr0 => zip_eq pr0 (combine st (gt_data x)) | None => Ok (map (fun v => (1, 0, v)) (combine st (gt_data x))) end) with (Ok (combine pl (combine st (gt_data x)))).
  2:{ unfold pl in *. destruct pr as [q|]; [symmetry; apply zip_eq_ok; rewrite combine_length; lia|]. f_equal. clear -LP LS LX. assert (L : ft_chans (ib_in m) = length (combine st (gt_data x))) by (rewrite combine_length, LS, LX, <- LP, repeat_length; lia).
      rewrite L. generalize (combine st (gt_data x)). clear. intros l. induction l as [|a l IH]; [reflexivity|]. cbn [length repeat combine map]. f_equal. auto. }
  cbn [rbind].
  assert (SPOS : forall v, In v st -> 0 <= snd v).
  { intros v Hv. rewrite <- (concat_cut (map rp_size reps) st LS) in Hv. apply in_concat in Hv as (bv & Hbv & Hv). apply In_nth_error in Hbv as [f Hf].
    assert (Lf : (f < length ks)%nat). { unfold ks, ib_sizes. fold reps. rewrite <- (cut_len (map rp_size reps) st). apply nth_error_Some. congruence. }
    destruct (nth_error ks f) as [s|] eqn:Es; [|apply nth_error_None in Es; lia]. destruct (STS s (nth_error_In _ _ Es)) as (l & El & Ll). pose proof (FS f s l Es El) as E. unfold fields in E. rewrite Hf in E. injection E as ->.
    apply repeat_spec in Hv. subst v. destruct (BW s (nth_error_In _ _ Es)) as ([B1 _] & _). destruct (B1 l El) as [_ B]. apply B. apply nth_In. rewrite Ll. apply (rank_bound Nat.eqb py_str (fun s => s) ks Nat.eqb_spec py_str_inj s f Es). }
  rewrite (rmap_pure _ (fun v => standardize (ib_eps m) (fst (snd v)) (fst v) [snd (snd v)])).
  2:{ intros [q [v c]] Hv. cbn [fst snd]. unfold feat_norm. destruct (Rle_dec (snd v + ib_eps m) 0) as [H|]; [|reflexivity]. exfalso. apply in_combine_r, in_combine_l in Hv. specialize (SPOS v Hv). lra. }
  cbn [rbind]. f_equal.
  set (h := fun v : (R * R) * ((R * R) * chan) => (fun p : nat => (snd (snd v) p - fst (fst (snd v))) / sqrt (snd (fst (snd v)) + ib_eps m) * fst (fst v) + snd (fst v)) : chan).
  assert (CC : forall z, concat (map (fun v : (R * R) * ((R * R) * chan) => standardize (ib_eps m) (fst (snd v)) (fst v) [snd (snd v)]) z) = map h z) by (intros z; induction z as [|v z IH]; [reflexivity|]; cbn [map concat]; rewrite IH; reflexivity).
  rewrite CC. apply (fields_inj reps); [rewrite map_length, !combine_length; lia|exact LY|]. intros f Hf.
  assert (Es : exists s, nth_error ks f = Some s). { destruct (nth_error ks f) as [s|] eqn:E; [eauto|]. apply nth_error_None in E. unfold ks, ib_sizes in E. rewrite map_length in E. fold reps in E. lia. }
  destruct Es as [s Es]. destruct (STS s (nth_error_In _ _ Es)) as (l & El & Ll).
  pose proof (field_at (fun s => s) ks reps SZ (gt_data x) f s Es) as Eb. set (b := nth f (fields reps (gt_data x)) []) in *.
  rewrite (C8 f s b Es Eb). unfold fields. rewrite cut_map, nth_error_map, !cut_combine, nth_error_map.
  assert (E2 : nth_error (map (fun p => combine (fst p) (snd p)) (combine (cut (map rp_size reps) st) (cut (map rp_size reps) (gt_data x)))) f = Some (combine (repeat (nth (rank_of Nat.eqb ks f) l (0, 0)) s) b)).
  { rewrite nth_error_map. fold (fields reps st) (fields reps (gt_data x)). rewrite (nth_error_combine _ _ _ _ _ (FS f s l Es El) Eb). reflexivity. }
  fold (fields reps pl). rewrite (nth_error_combine _ _ _ _ _ (FP f s Es) E2). cbn [option_map fst snd]. f_equal.
  assert (LB : length b = s) by (apply (field_size py_str (fun s => s) ks reps SZ (gt_data x) f s LX Es)).
  unfold bn_used. rewrite El. rewrite (nth_indep l (0, 1) (0, 0)) by (rewrite Ll; apply (rank_bound Nat.eqb py_str (fun s => s) ks Nat.eqb_spec py_str_inj s f Es)).
  generalize (nth (rank_of Nat.eqb ks f) l (0, 0)) (bn_par (ib_bn m s) (rank_of Nat.eqb ks f)). intros v w. unfold h. clear -LB. clearbody b. revert s LB. induction b as [|c b IH]; intros s L; cbn in L; subst s; [reflexivity|].
  cbn [repeat combine map standardize]. f_equal. apply IH. reflexivity.
Qed.
End Export.
