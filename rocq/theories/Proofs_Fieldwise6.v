(** The invariant maps compute field by field. *)
From Coq Require Import Reals ZArith String Ascii Decimal DecimalString List Bool Lia Lra Permutation Sorted FunctionalExtensionality.
From Verif Require Import Base Spec_Fields Model_Groups Model_Rep Model_FieldType Model_Utils Model_Modules Model_Fieldwise Spec_Fieldwise Spec_Fieldwise2
  Proofs_FieldType Proofs_FieldType2 Proofs_Utils Proofs_Modules Proofs_Modules2 Proofs_Modules3 Proofs_Fieldwise Proofs_Fieldwise2 Proofs_Fieldwise3 Proofs_Fieldwise4 Proofs_Fieldwise5.
Import ListNotations.
Open Scope nat_scope.

Lemma ones_indices l : forall fs c, label_indices l c (map (fun p => (fst p, 1)) fs) = label_fields l c fs.
Proof.
  induction fs as [|[a n] fs IH]; intros c; [reflexivity|]. cbn [map label_indices label_fields fst]. rewrite Nat.add_1_r, IH.
  destruct (String.eqb a l); reflexivity.
Qed.
(** an interval of numbers *)
Lemma sorted_convex l : StronglySorted lt l -> (forall x y z, In x l -> In z l -> x <= y -> y <= z -> In y l) ->
  exists a, l = seq a (length l).
Proof.
  intros SS C. destruct l as [|a l]; [exists 0; reflexivity|]. exists a.
  enough (X : exists n, a :: l = seq a n). { destruct X as [n E]. rewrite E, seq_length. reflexivity. }
  exists (S (List.last l a) - a). inversion SS as [|? ? SS' F]; subst. rewrite Forall_forall in F.
  assert (LA : In (List.last l a) (a :: l)). { clear. revert a. induction l as [|b l IH]; intros a; [cbn; auto|]. rewrite last_cons. right. apply IH. }
  assert (LM : forall x, In x (a :: l) -> x <= List.last l a).
  { clear -SS. revert a SS. induction l as [|b l IH]; intros a SS x Hx; [destruct Hx as [->|[]]; auto|].
    inversion SS as [|? ? SS' F]; subst. rewrite last_cons. rewrite Forall_forall in F. destruct Hx as [->|Hx]; [|apply IH; auto].
    specialize (IH b SS' b (or_introl eq_refl)). specialize (F b (or_introl eq_refl)). lia. }
  apply sorted_ext; auto; [apply sorted_seq|]. intros x. rewrite in_seq. split.
  - intros Hx. pose proof (LM x Hx). destruct Hx as [->|Hx]; [lia|]. specialize (F x Hx). lia.
  - intros [H1 H2]. apply (C a x (List.last l a)); cbn [In] in *; auto. lia.
Qed.
Lemma contiguous_fields fs l a n : (forall l' m, In (l', m) fs -> 0 < m) -> label_indices l 0 fs = seq a n -> exists b, label_fields l 0 fs = seq b (length (label_fields l 0 fs)).
Proof.
  intros P E. apply sorted_convex; [apply label_fields_sorted|]. intros x y z Hx Hz L1 L2.
  apply label_fields_spec in Hx as [_ [mx Hx]]. apply label_fields_spec in Hz as [_ [mz Hz]]. rewrite Nat.sub_0_r in *.
  destruct (nth_error fs y) as [[l' m]|] eqn:Ey; [|apply nth_error_None in Ey; assert (z < length fs) by (apply nth_error_Some; congruence); lia].
  assert (M : forall c k, nth_error fs c = Some (l, k) -> In (foff fs c) (seq a n)).
  { intros c k Hc. rewrite <- E. apply label_indices_in. exists c, k, 0. split; [auto|]. split; [|lia]. apply (P l). eapply nth_error_In; eauto. }
  pose proof (M _ _ Hx) as Ix. pose proof (M _ _ Hz) as Iz. apply in_seq in Ix, Iz.
  assert (Iy : In (foff fs y) (label_indices l 0 fs)).
  { rewrite E. apply in_seq. pose proof (foff_mono fs x y L1). pose proof (foff_mono fs y z L2). lia. }
  apply label_indices_in in Iy as (c & k & r & Hc & Hr & Er).
  assert (0 < m) by (apply (P l'); eapply nth_error_In; eauto).
  destruct (foff_inj fs y c (l', m) (l, k) 0 r Ey Hc) as [-> _]; cbn; auto; [lia|]. apply label_fields_spec. split; [lia|]. rewrite Nat.sub_0_r. eauto.
Qed.

Section Modules.
Context {GS G X : Type} (fits : GS -> rep G -> bool) (gs_eqb : GS -> GS -> bool) (rp_eqb : rep G -> rep G -> bool)
        (trivial_repr : GS -> rep G).
Notation chan := (X -> R).
Notation ftype := (ftype GS (rep G)).
Notation gtensor := (gtensor GS (rep G) chan).
Notation type_eqb := (ft_eqb gs_eqb rp_eqb).

Lemma by_size_combine (t : ftype) : combine (map (fun r => py_str (rp_size r)) (ft_reps t)) (map rp_size (ft_reps t)) = by_size t.
Proof. unfold by_size. induction (ft_reps t) as [|r l IH]; cbn; congruence. Qed.
Lemma slice_of a n : n <> 0 -> exists i idx, seq a n = i :: idx /\ chan_ok (CSlice (fold_left Nat.min idx i) (fold_left Nat.max idx i + 1)) /\
  chan_list (CSlice (fold_left Nat.min idx i) (fold_left Nat.max idx i + 1)) = seq a n.
Proof.
  intros H. destruct n as [|n]; [lia|]. exists a, (seq (S a) n). rewrite fold_min_seq, fold_max_seq. cbn [chan_ok chan_list]. split; [reflexivity|].
  split; [lia|]. f_equal. lia.
Qed.
Lemma pool_index_good (t : ftype) e : (forall r, In r (ft_reps t) -> 0 < rp_size r) -> pool_index t = Ok e ->
  good_index (by_size t) (map fst (by_size t)) (fst e) /\
  good_index (map (fun p => (fst p, 1)) (by_size t)) (map fst (by_size t)) (snd e).
Proof.
  intros SP H. unfold pool_index in H. apply rbind_ok in H as (d & Hd & H). apply rbind_ok in H as (es & He & H). injection H as <-. cbn [fst snd].
  unfold indexes_from_labels in Hd. apply assert_ok in Hd as [_ Hd]. cbv zeta in Hd. rewrite by_size_combine in Hd.
  assert (PS : forall l m, In (l, m) (by_size t) -> 0 < m). { intros l m Hm. apply in_map_iff in Hm as (r & E & Hr). injection E as _ <-. auto. }
  assert (LB : map (fun r => py_str (rp_size r)) (ft_reps t) = map fst (by_size t)). { unfold by_size. rewrite map_map. reflexivity. }
  rewrite LB in Hd. pose proof (dedup_nodup (map fst (by_size t))) as ND. pose proof (dedup_in (map fst (by_size t))) as DI.
  apply rmap_all in Hd. apply rmap_all in He.
  assert (MAIN : forall l, In l (dedup (map fst (by_size t))) -> exists c c', kget String.eqb (map fst es) l = Some c /\ kget String.eqb (map snd es) l = Some c' /\
     (In l (map fst (by_size t)) -> (chan_ok c /\ chan_list c = label_indices l 0 (by_size t)) /\ (chan_ok c' /\ chan_list c' = label_fields l 0 (by_size t)))).
  { clear DI. intros l Hl. revert es He Hl. induction Hd as [|l0 e0 ls ds Hd _ IH]; intros es He Hl; [destruct Hl|].
    inversion He as [|? q ? qs Hq Hqs]; subst. apply rbind_ok in Hd as (b & Cb & Hd). injection Hd as <-. inversion ND; subst.
    assert (Q : exists c c', q = ((l0, c), (l0, c')) /\ (In l0 (map fst (by_size t)) ->
      (chan_ok c /\ chan_list c = label_indices l0 0 (by_size t)) /\ (chan_ok c' /\ chan_list c' = label_fields l0 0 (by_size t)))).
    { destruct b.
      - destruct (label_indices l0 0 (by_size t)) as [|i idx] eqn:Ei; [discriminate|].
        destruct (label_fields l0 0 (by_size t)) as [|f fl] eqn:Ef; [discriminate|]. injection Hq as <-. eexists. eexists. split; [reflexivity|]. intros _.
        assert (SE : i :: idx = seq i (length (i :: idx))).
        { apply (check_sorted i idx true); auto. rewrite <- Ei. apply label_indices_sorted. }
        split.
        + destruct (slice_of i (length (i :: idx))) as (i' & idx' & E1 & E2 & E3); [discriminate|]. rewrite <- SE in E1. injection E1 as <- <-. rewrite <- SE in E3. auto.
        + destruct (contiguous_fields (by_size t) l0 i (length (i :: idx)) PS) as [b Eb]; [congruence|]. rewrite Ef in Eb.
          destruct (slice_of b (length (f :: fl))) as (f' & fl' & E1 & E2 & E3); [discriminate|]. rewrite <- Eb in E1. injection E1 as <- <-. rewrite <- Eb in E3. auto.
      - injection Hq as <-. eexists. eexists. split; [reflexivity|]. intros _. cbn. auto. }
    destruct Q as (c & c' & -> & Q). cbn [map fst snd kget]. destruct (String.eqb_spec l0 l) as [->|NE].
    - exists c, c'. auto.
    - apply IH; auto. destruct Hl; [congruence|auto]. }
  split; intros l Hl; destruct (MAIN l ltac:(apply DI; auto)) as (c & c' & K1 & K2 & K3); destruct (K3 Hl) as [[A1 A2] [B1 B2]]; [exists c|exists c']; split; auto.
  split; auto. rewrite ones_indices. auto.
Qed.

(** ** GroupPooling, NormPool *)
Definition kf_ones (ks : list nat) : list (nat * nat) := map (fun s => (s, 1)) ks.
Lemma concat_single {A B} (h : A -> B) (bl : list A) : concat (map (fun p => [h (snd p)]) (enumerate bl)) = map h bl.
Proof.
  unfold enumerate. generalize 0. induction bl as [|b bl IH]; intros n; [reflexivity|]. cbn [length seq combine map concat app snd]. f_equal. apply IH.
Qed.
Lemma ones_sum n : nsum (map rp_size (repeat (trivial_repr n) 0)) = 0.
Proof. reflexivity. Qed.
Lemma repeat_ones {A} (h : A -> nat) a n : h a = 1 -> map h (repeat a n) = repeat 1 n.
Proof. intros H. induction n; cbn; congruence. Qed.
Lemma map_ones {A} (l : list A) : map (fun _ => 1) l = repeat 1 (length l).
Proof. induction l; cbn; congruence. Qed.

Lemma pool_fieldwise t m red junk (x : gtensor) : rp_size (trivial_repr (ft_gs t)) = 1 -> pool_make_with fits trivial_repr t = Ok m -> size_pos t -> typed gs_eqb rp_eqb t x ->
  exists y, pool_forward gs_eqb rp_eqb red junk m x = Ok y /\ gt_type y = MkFT (ft_gs t) (repeat (trivial_repr (ft_gs t)) (length (ft_reps t))) /\
    fieldwise (ft_reps t) (ft_reps (gt_type y)) (fun _ b => [red b]) (gt_data x) (gt_data y).
Proof.
  intros T1 MK SP [TY LX]. unfold pool_make_with in MK. apply rbind_ok in MK as (out & MO & MK). apply rbind_ok in MK as (e & PI & MK). injection MK as <-.
  destruct (pool_index_good t e SP PI) as [GI GO]. apply mk_ftype_ok in MO as [-> _].
  unfold pool_forward. cbn [po_in po_out po_cin po_cout]. rewrite TY. cbn [assert_].
  set (n := length (ft_reps t)) in *. set (ot := MkFT (ft_gs t) (repeat (trivial_repr (ft_gs t)) n)).
  assert (LO : map rp_size (ft_reps ot) = repeat 1 n) by (apply repeat_ones; auto).
  set (kf' := kf_ones (map rp_size (ft_reps t))).
  assert (KF : map fst (kf_size t) = map fst kf'). { unfold kf', kf_ones. rewrite kf_size_fst, !map_map. reflexivity. }
  assert (KS : map snd kf' = repeat 1 n). { unfold kf', kf_ones. rewrite !map_map. cbn. rewrite map_ones. reflexivity. }
  assert (FS : map (fun p => (fst p, 1)) (by_size t) = map (fun p => (py_str (fst p), snd p)) kf').
  { unfold by_size, kf', kf_ones. rewrite !map_map. reflexivity. }
  destruct (grouped_loop Nat.eqb py_str (fst e) (snd e) (fun _ => 0) (fun s _ fm => rbind (view_fields s fm) (fun bl => Ok (map red bl))) (gt_data x) (kf_size t) kf'
    (fun s => s) (fun _ => 1) (fun _ _ b => [red b]) (first_seen Nat.eqb (map rp_size (ft_reps t)))) with (out := empty junk (ft_chans ot)) as (y & Y1 & Y2 & Y3); auto.
  - apply Nat.eqb_spec. - apply py_str_inj.
  - intros k q H. apply kf_size_in in H as (-> & ?). auto.
  - intros k q H. apply in_map_iff in H as (s & E & _). congruence.
  - intros k Hk. apply (proj1 (first_seen_in Nat.eqb Nat.eqb_spec k _)) in Hk. apply in_map_iff in Hk as (r & <- & Hr). auto.
  - apply first_seen_nodup, Nat.eqb_spec.
  - intros k. rewrite kf_size_fst. apply first_seen_in, Nat.eqb_spec.
  - rewrite kf_size_snd. auto.
  - rewrite <- by_size_kf. auto.
  - rewrite <- FS. replace (map fst (map (fun p => (fst p, 1)) (by_size t))) with (map fst (by_size t)); auto. rewrite map_map. reflexivity.
  - rewrite empty_length, KS. unfold ft_chans, ft_size. rewrite LO. reflexivity.
  - intros pre k post fm bl E V LB. rewrite V. cbn [rbind]. rewrite concat_single. reflexivity.
  - rewrite Y1. cbn [rbind]. assert (LY : length y = ft_chans ot) by (rewrite Y2; apply empty_length).
    rewrite mk_gt_fwd by exact LY. eexists. split; [reflexivity|]. split; [reflexivity|]. cbn [gt_data gt_type].
    split; [cbn; rewrite repeat_length; reflexivity|]. split; [auto|]. intros f b Hb. pose proof (fields_len _ _ _ _ Hb) as Hf.
    destruct (nth_error (ft_reps t) f) as [r|] eqn:Er; [|apply nth_error_None in Er; lia].
    rewrite (fs_fields _ (kf_size t) py_str) in Hb by (auto using kf_size_snd). injection Hb as <-.
    eexists. split; [apply (fs_fields _ kf' py_str)|].
    + rewrite KS, LO. reflexivity. + cbn. rewrite repeat_length. auto.
    + assert (Hk : In (rp_size r) (first_seen Nat.eqb (map rp_size (ft_reps t)))).
      { apply first_seen_in; [apply Nat.eqb_spec|]. apply in_map. eapply nth_error_In; eauto. }
      apply in_split in Hk as (pre & post & E). rewrite (Y3 pre _ post f _ E (kf_size_nth _ _ _ Er)). apply same_refl.
Qed.

(** ** InducedNormPool *)
Lemma sub_norms_ok s k (b : list chan) : s <> 0 -> length b = k * s -> sub_norms s b = Ok (map vnorm (blocks s b)).
Proof. intros S0 L. unfold sub_norms. rewrite view_blocks; auto. rewrite L. apply Nat.mod_mul. auto. Qed.
Lemma ipool_fieldwise t m junk (x : gtensor) : rp_size (trivial_repr (ft_gs t)) = 1 -> ipool_make fits trivial_repr t = Ok m -> size_pos t -> typed gs_eqb rp_eqb t x ->
  exists y, ipool_forward gs_eqb rp_eqb junk m x = Ok y /\ gt_type y = MkFT (ft_gs t) (repeat (trivial_repr (ft_gs t)) (length (ft_reps t))) /\
    rmap (field_id "induced_norm") (ft_reps t) = Ok (ip_ids m) /\
    fieldwise (ft_reps t) (ft_reps (gt_type y)) (fun f b => let s := snd (nth f (ip_ids m) (0, 0)) in [vmax (map norm_of (cut (repeat s (length b / s)) b))])
      (gt_data x) (gt_data y).
Proof.
  intros T1 MK SP [TY LX]. unfold ipool_make in MK. apply assert_ok in MK as [_ MK]. apply rbind_ok in MK as (out & MO & MK).
  apply rbind_ok in MK as (ids & ID & MK). apply rbind_ok in MK as (cin & CI & MK). apply rbind_ok in MK as (cout & CO & MK). injection MK as <-.
  apply mk_ftype_ok in MO as [-> _]. apply group_index_good in CI, CO. destruct (ids_sizes _ _ _ ID) as [IS IM].
  unfold ipool_forward. cbn [ip_in ip_out ip_cin ip_cout ip_ids]. rewrite TY. cbn [assert_].
  set (n := length (ft_reps t)) in *. set (ot := MkFT (ft_gs t) (repeat (trivial_repr (ft_gs t)) n)).
  assert (LI : length ids = n) by (rewrite <- (map_length fst), IS, map_length; auto).
  assert (LO : map rp_size (ft_reps ot) = repeat 1 n) by (apply repeat_ones; auto).
  set (kf' := map (fun i : nat * nat => (i, 1)) ids).
  assert (KF : map fst (kf_id ids) = map fst kf'). { unfold kf'. rewrite kf_id_fst, map_map, map_id. reflexivity. }
  assert (KS : map snd kf' = repeat 1 n). { unfold kf'. rewrite !map_map. cbn. rewrite map_ones. congruence. }
  rewrite by_id_kf in CI.
  assert (FS : map (fun i => (pair_str i, 1)) ids = map (fun p => (pair_str (fst p), snd p)) kf') by (unfold kf'; rewrite map_map; reflexivity). rewrite FS in CO.
  assert (PV : forall i, In i ids -> 0 < fst i /\ fst i / snd i * snd i = fst i).
  { intros i Hi. destruct (IM i Hi) as [I1 I2]. split.
    - assert (In (fst i) (map rp_size (ft_reps t))) as Hj by (rewrite <- IS; apply in_map; auto). apply in_map_iff in Hj as (r & <- & Hr). auto.
    - rewrite (Nat.div_mod (fst i) (snd i)) at 2 by auto. lia. }
  destruct (grouped_loop pair_eqb pair_str cin cout (fun _ => 0) (fun i _ fm => rbind (view_fields (fst i / snd i * snd i) fm) (fun bl =>
                           rbind (rmap (sub_norms (snd i)) bl) (fun nl => Ok (map vmax nl)))) (gt_data x) (kf_id ids) kf'
    (fun i => fst i) (fun _ => 1) (fun i _ b => [vmax (map vnorm (blocks (snd i) b))]) (first_seen pair_eqb ids)) with (out := empty junk (ft_chans ot)) as (y & Y1 & Y2 & Y3); auto.
  - apply pair_eqbP. - apply pair_str_inj.
  - intros k q H. apply in_map_iff in H as (i & E & _). congruence.
  - intros k q H. apply in_map_iff in H as (i & E & _). congruence.
  - intros k Hk. apply (proj1 (first_seen_in pair_eqb pair_eqbP k _)) in Hk. apply PV; auto.
  - apply first_seen_nodup, pair_eqbP.
  - intros k. rewrite kf_id_fst. apply first_seen_in, pair_eqbP.
  - rewrite kf_id_snd, IS. auto.
  - rewrite empty_length, KS. unfold ft_chans, ft_size. rewrite LO. reflexivity.
  - intros pre k post fm bl E V LB. assert (Hk : In k ids) by (apply (proj1 (first_seen_in pair_eqb pair_eqbP k ids)); rewrite E; apply in_elt).
    destruct (PV k Hk) as [P1 P2]. rewrite P2, V. cbn [rbind].
    assert (R : rmap (sub_norms (snd k)) bl = Ok (map (fun b => map (@vnorm X) (blocks (snd k) b)) bl)).
    { apply rmap_ok_fwd. apply view_inv in V as (_ & _ & ->). clear LB.
      assert (LB : forall b, In b (blocks (fst k) fm) -> length b = fst k) by (intros b; apply blocks_len). revert LB. generalize (blocks (fst k) fm) as B.
      induction B as [|b B IH]; intros LB; constructor; [|apply IH; intros; apply LB; cbn; auto].
      apply (sub_norms_ok _ (fst k / snd k)); [apply (IM k Hk)|]. rewrite P2. apply LB. cbn; auto. }
    rewrite R. cbn [rbind]. rewrite map_map. rewrite (concat_single (fun b => vmax (map (@vnorm X) (blocks (snd k) b)))). reflexivity.
  - rewrite Y1. cbn [rbind]. assert (LY : length y = ft_chans ot) by (rewrite Y2; apply empty_length).
    rewrite mk_gt_fwd by exact LY. eexists. split; [reflexivity|]. split; [reflexivity|]. split; [auto|]. cbn [gt_data gt_type].
    split; [cbn; rewrite repeat_length; reflexivity|]. split; [auto|]. intros f b Hb. pose proof (fields_len _ _ _ _ Hb) as Hf.
    assert (Ei : nth_error ids f = Some (nth f ids (0, 0))) by (apply nth_error_nth'; lia).
    assert (Ek : nth_error (kf_id ids) f = Some (nth f ids (0, 0), fst (nth f ids (0, 0)))) by (unfold kf_id; rewrite nth_error_map, Ei; reflexivity).
    assert (Hi := nth_error_In _ _ Ei). destruct (PV _ Hi) as [P1 P2].
    rewrite (fs_fields _ (kf_id ids) pair_str) in Hb; [|rewrite kf_id_snd; auto|auto]. injection Hb as <-.
    eexists. split; [apply (fs_fields _ kf' pair_str)|].
    + rewrite KS, LO. reflexivity. + cbn. rewrite repeat_length. auto.
    + assert (Hk : In (nth f ids (0, 0)) (first_seen pair_eqb ids)) by (apply first_seen_in; [apply pair_eqbP|auto]).
      apply in_split in Hk as (pre & post & E). rewrite (Y3 pre _ post f _ E Ek). cbv zeta.
      set (b := field _ _ f). set (i := nth f ids (0, 0)) in *.
      assert (LB : length b = fst i). { eapply field_length; [rewrite fs_snd, kf_id_snd, IS; auto|]. rewrite nth_error_map, Ek. reflexivity. }
      rewrite LB. rewrite (blocks_cut (snd i) (fst i / snd i)); [|apply (IM i Hi)|congruence].
      replace (map vnorm (cut (repeat (snd i) (fst i / snd i)) b)) with (map norm_of (cut (repeat (snd i) (fst i / snd i)) b)); [apply same_refl|].
      apply map_ext. intros c. rewrite vnorm_spec. reflexivity.
Qed.
End Modules.
