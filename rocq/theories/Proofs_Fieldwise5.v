(** The modules that group fields by size compute field by field. *)
From Coq Require Import Reals ZArith String Ascii Decimal DecimalString List Bool Lia Lra Permutation Sorted FunctionalExtensionality.
From Verif Require Import Base Spec_Fields Model_Groups Model_Rep Model_FieldType Model_Utils Model_Modules Model_Fieldwise Spec_Fieldwise Spec_Fieldwise2
  Proofs_FieldType Proofs_FieldType2 Proofs_Utils Proofs_Modules Proofs_Modules2 Proofs_Modules3 Proofs_Fieldwise Proofs_Fieldwise2 Proofs_Fieldwise3 Proofs_Fieldwise4.
Import ListNotations.
Open Scope nat_scope.

(** [field_id]: the size is a positive multiple of the size of the sub-fields *)
Lemma subfield_spec pre size : forall nls acc o, subfield_loop pre size acc nls = Ok o -> (forall s, acc = Some s -> s <> 0 /\ size mod s = 0) ->
  forall s, o = Some s -> s <> 0 /\ size mod s = 0.
Proof.
  induction nls as [|nl nls IH]; intros acc o H A s ->; cbn in H; [injection H as ->; auto|].
  destruct (starts_with pre nl); [|eapply IH; eauto]. destruct acc; [discriminate|]. apply rbind_ok in H as (s' & _ & H).
  destruct (Nat.eqb_spec s' 0); [discriminate|]. apply assert_ok in H as [E H]. apply Nat.eqb_eq in E. eapply IH; [exact H| |reflexivity].
  intros s0 Es. injection Es as <-. auto.
Qed.
Lemma field_id_ok {G} pre (r : rep G) i : field_id pre r = Ok i -> fst i = rp_size r /\ snd i <> 0 /\ fst i mod snd i = 0.
Proof.
  unfold field_id. intros H. apply rbind_ok in H as (o & H1 & H2). destruct o as [s|]; [|discriminate]. injection H2 as <-. cbn [fst snd].
  split; auto. eapply subfield_spec; [exact H1| |reflexivity]. discriminate.
Qed.
Lemma ids_sizes {G} pre (reps : list (rep G)) ids : rmap (field_id pre) reps = Ok ids ->
  map fst ids = map rp_size reps /\ (forall i, In i ids -> snd i <> 0 /\ fst i mod snd i = 0).
Proof.
  intros H. apply rmap_all in H. split.
  - induction H as [|r i rs is H _ IH]; [reflexivity|]. cbn. f_equal; auto. apply field_id_ok in H as [-> _]. reflexivity.
  - intros i Hi. induction H as [|r j rs is H _ IH]; [destruct Hi|]. destruct Hi as [->|Hi]; auto. apply field_id_ok in H as (_ & ?). auto.
Qed.

Section Modules.
Context {GS G X : Type} (fits : GS -> rep G -> bool) (gs_eqb : GS -> GS -> bool) (rp_eqb : rep G -> rep G -> bool)
        (is_triv : rep G -> bool) (trivial_repr : GS -> rep G).
Notation chan := (X -> R).
Notation ftype := (ftype GS (rep G)).
Notation gtensor := (gtensor GS (rep G) chan).
Notation type_eqb := (ft_eqb gs_eqb rp_eqb).

Notation typed := (@typed GS G X gs_eqb rp_eqb).

Definition kf_size (t : ftype) : list (nat * nat) := map (fun r => (rp_size r, rp_size r)) (ft_reps t).
Lemma by_size_kf t : by_size t = map (fun p => (py_str (fst p), snd p)) (kf_size t).
Proof. unfold by_size, kf_size. rewrite map_map. reflexivity. Qed.
Lemma kf_size_fst t : map fst (kf_size t) = map rp_size (ft_reps t).
Proof. unfold kf_size. rewrite map_map. reflexivity. Qed.
Lemma kf_size_snd t : map snd (kf_size t) = map rp_size (ft_reps t).
Proof. unfold kf_size. rewrite map_map. reflexivity. Qed.
Lemma kf_size_in t k m : In (k, m) (kf_size t) -> k = m /\ exists r, In r (ft_reps t) /\ m = rp_size r.
Proof. intros H. apply in_map_iff in H as (r & E & H). injection E as <- <-. eauto. Qed.
Lemma kf_size_nth t f r : nth_error (ft_reps t) f = Some r -> nth_error (kf_size t) f = Some (rp_size r, rp_size r).
Proof. intros H. unfold kf_size. rewrite nth_error_map, H. reflexivity. Qed.
Lemma place_ltb keys f : place (ltb_of Nat.leb) Nat.eqb keys f = place Nat.ltb Nat.eqb keys f.
Proof.
  unfold place. destruct (nth_error keys f); auto. f_equal. f_equal. apply filter_ext. intros a. unfold ltb_of.
  destruct (Nat.leb_spec n a), (Nat.ltb_spec a n); auto; lia.
Qed.
Lemma empty_length (junk : nat -> chan) n : length (empty junk n) = n.
Proof. unfold empty. rewrite map_length, seq_length. auto. Qed.

Lemma norm_fieldwise t fn bias m lb junk x : norm_make t fn bias = Ok m -> size_pos t -> same_shape (nn_logb m) lb -> typed t x ->
  exists y, norm_forward gs_eqb rp_eqb junk (set_logb m lb) x = Ok y /\ gt_type y = t /\
    fieldwise (ft_reps t) (ft_reps t) (fun f => norm_act nl_eps (nn_fun m) (bias_at lb (place Nat.ltb Nat.eqb (map rp_size (ft_reps t)) f))) (gt_data x) (gt_data y).
Proof.
  intros MK SP SS [TY LX]. unfold norm_make in MK. apply assert_ok in MK as [_ MK]. apply rbind_ok in MK as (fu & _ & MK).
  apply rbind_ok in MK as (idx & GI & MK). injection MK as <-. cbn [nn_fun nn_logb nn_in nn_idx set_logb] in *.
  unfold norm_forward. cbn [set_logb nn_fun nn_logb nn_in nn_idx]. rewrite TY. cbn [assert_].
  apply group_index_good in GI. rewrite by_size_kf in *.
  destruct (norm_loop Nat.leb Nat.eqb py_str idx (kf_size t) (fun s => (1, s)) fu lb t (gt_data x) (empty junk (length (gt_data x)))) as (mult & M1 & y & Y1 & Y2 & Y3 & Y4); auto.
  - apply Nat.eqb_spec. - apply leb_total_nat. - apply leb_trans_nat. - apply leb_anti_nat. - apply py_str_inj.
  - apply kf_size_snd.
  - intros k n H. apply kf_size_in in H as (-> & r & Hr & ->). cbn. split; [lia|auto].
  - rewrite empty_length. auto.
  - destruct bias, lb; cbn in SS; try tauto. rewrite repeat_length in SS. congruence.
  - rewrite kf_size_fst in M1. unfold sorted_keys in M1. unfold size_order. cbn [fst snd] in M1.
    rewrite M1. cbn [rbind]. rewrite Y1. cbn [rbind]. rewrite Y2. eexists. split; [reflexivity|]. split; [reflexivity|]. cbn [gt_data].
    split; [auto|]. split; [auto|]. intros f b Hb. pose proof (fields_len _ _ _ _ Hb) as Hf.
    destruct (nth_error (ft_reps t) f) as [r|] eqn:Er; [|apply nth_error_None in Er; lia].
    eexists. split; [apply (Y4 f _ _ b (kf_size_nth _ _ _ Er) Hb)|]. rewrite kf_size_fst, place_ltb. cbn [snd].
    rewrite induced_one; [apply same_refl| |].
    + assert (0 < rp_size r) by (apply SP; eapply nth_error_In; eauto). lia.
    + rewrite (fs_fields _ (kf_size t) py_str) in Hb by (auto using kf_size_snd). injection Hb as <-.
      eapply field_length; [rewrite fs_snd, kf_size_snd; auto|]. rewrite nth_error_map, (kf_size_nth _ _ _ Er). reflexivity.
Qed.

Definition kf_id (ids : list (nat * nat)) : list ((nat * nat) * nat) := map (fun i => (i, fst i)) ids.
Lemma by_id_kf ids : by_id ids = map (fun p => (pair_str (fst p), snd p)) (kf_id ids).
Proof. unfold by_id, kf_id. rewrite map_map. reflexivity. Qed.
Lemma kf_id_fst ids : map fst (kf_id ids) = ids.
Proof. unfold kf_id. rewrite map_map. apply map_id. Qed.
Lemma kf_id_snd ids : map snd (kf_id ids) = map fst ids.
Proof. unfold kf_id. rewrite map_map. reflexivity. Qed.
Lemma pair_place_ltb keys f : place (ltb_of pair_leb) pair_eqb keys f = place pair_ltb pair_eqb keys f.
Proof.
  unfold place. destruct (nth_error keys f) as [[a b]|]; auto. f_equal. f_equal. apply filter_ext. intros [c d]. unfold ltb_of, pair_leb, pair_ltb. cbn [fst snd].
  destruct (Nat.ltb_spec a c), (Nat.eqb_spec a c), (Nat.leb_spec b d), (Nat.ltb_spec c a), (Nat.eqb_spec c a), (Nat.ltb_spec d b); cbn; auto; lia.
Qed.
Lemma inorm_fieldwise t fn bias m lb junk x : inorm_make t fn bias = Ok m -> size_pos t -> same_shape (in_logb m) lb -> typed t x ->
  exists y, inorm_forward gs_eqb rp_eqb junk (set_ilogb m lb) x = Ok y /\ gt_type y = t /\
    rmap (field_id "induced_norm") (ft_reps t) = Ok (in_ids m) /\
    fieldwise (ft_reps t) (ft_reps t) (fun f => induced_norm_act nl_eps (in_fun m) (bias_at lb (place pair_ltb pair_eqb (in_ids m) f)) (snd (nth f (in_ids m) (0, 0))))
      (gt_data x) (gt_data y).
Proof.
  intros MK SP SS [TY LX]. unfold inorm_make in MK. apply assert_ok in MK as [_ MK]. apply rbind_ok in MK as (fu & _ & MK).
  apply rbind_ok in MK as (ids & ID & MK). apply rbind_ok in MK as (idx & GI & MK). injection MK as <-. cbn [in_fun in_logb in_in in_idx in_ids set_ilogb] in *.
  unfold inorm_forward. cbn [set_ilogb in_fun in_logb in_in in_idx in_ids]. rewrite TY. cbn [assert_].
  destruct (ids_sizes _ _ _ ID) as [IS IM].
  apply group_index_good in GI. rewrite by_id_kf in *.
  destruct (norm_loop pair_leb pair_eqb pair_str idx (kf_id ids) (fun i => (fst i / snd i, snd i)) fu lb t (gt_data x) (empty junk (length (gt_data x)))) as (mult & M1 & y & Y1 & Y2 & Y3 & Y4); auto.
  - apply pair_eqbP. - apply pair_total. - apply pair_trans. - apply pair_anti. - apply pair_str_inj.
  - rewrite kf_id_snd. auto.
  - intros k n H. apply in_map_iff in H as (i & E & H). injection E as <- <-. cbn [fst snd]. destruct (IM i H) as [I1 I2]. split.
    + rewrite (Nat.div_mod (fst i) (snd i)) at 1 by auto. lia.
    + assert (In (fst i) (map rp_size (ft_reps t))) as Hi by (rewrite <- IS; apply in_map; auto). apply in_map_iff in Hi as (r & <- & Hr). auto.
  - rewrite empty_length. auto.
  - destruct bias, lb; cbn in SS; try tauto. rewrite repeat_length in SS. congruence.
  - rewrite kf_id_fst in M1. unfold sorted_keys in M1. unfold id_order. cbn [fst snd] in M1.
    rewrite M1. cbn [rbind]. rewrite Y1. cbn [rbind]. rewrite Y2. eexists. split; [reflexivity|]. split; [reflexivity|]. cbn [gt_data].
    split; [auto|]. split; [auto|]. split; [auto|]. intros f b Hb. pose proof (fields_len _ _ _ _ Hb) as Hf.
    assert (LI : length ids = length (ft_reps t)) by (rewrite <- (map_length fst), IS, map_length; auto).
    assert (Ei : nth_error ids f = Some (nth f ids (0, 0))) by (apply nth_error_nth'; lia).
    eexists. split; [apply (Y4 f (nth f ids (0,0)) (fst (nth f ids (0, 0))) b); [unfold kf_id; rewrite nth_error_map, Ei; reflexivity|auto]|].
    rewrite kf_id_fst, pair_place_ltb. apply same_refl.
Qed.

(** ** Gates *)
Lemma gate_group_ok s next nf (gl fm : list chan) bl : view_fields s fm = Ok bl -> nf = length bl -> next + nf <= length gl ->
  gate_group s (sub_list gl next (next + nf)) fm =
  Ok (concat (map (fun p => scaled (nth (next + fst p) gl (fun _ => 0%R)) (snd p)) (enumerate bl))).
Proof.
  intros V -> L. unfold gate_group. rewrite V. cbn [rbind]. unfold zip_eq. rewrite sub_list_length by lia.
  replace (next + length bl - next) with (length bl) by lia. rewrite Nat.eqb_refl. cbn [rbind]. f_equal.
  assert (SL : sub_list gl next (next + length bl) = map (fun i => nth (next + i) gl (fun _ => 0%R)) (seq 0 (length bl))).
  { apply nth_error_ext. intros i. rewrite sub_list_nth, nth_error_map. replace (next + length bl - next) with (length bl) by lia.
    destruct (Nat.ltb_spec i (length bl)).
    - rewrite (nth_error_nth' (seq 0 (length bl)) 0) by (rewrite seq_length; lia). rewrite seq_nth by auto. cbn [option_map Nat.add].
      rewrite (nth_error_nth' gl (fun _ => 0%R)) by lia. reflexivity.
    - assert (nth_error (seq 0 (length bl)) i = None) as ->; [|reflexivity]. apply nth_error_None. rewrite seq_length. auto. }
  rewrite SL. unfold enumerate. generalize 0 as i0. clear. induction bl as [|b bl IH]; intros i0; [reflexivity|].
  cbn [length seq map combine concat fst snd]. rewrite IH. reflexivity.
Qed.
Lemma open_gates_ok (gates : list chan) bias : length gates = length bias ->
  exists g, open_gates gates bias = Ok g /\ length g = length gates /\
    forall j, j < length gates -> nth j g (fun _ => 0%R) = gate (nth j gates (fun _ => 0%R)) (nth j bias 0%R).
Proof.
  intros L. unfold open_gates, zip_eq. rewrite L, Nat.eqb_refl. cbn [rbind]. eexists. split; [reflexivity|].
  rewrite map_length, combine_length, L, Nat.min_id. split; [auto|]. intros j Hj.
  rewrite (nth_indep _ _ ((fun gb : chan * R => fun p => sigmoid (fst gb p - snd gb)) ((fun _ => 0%R), 0%R))) by (rewrite map_length, combine_length; lia).
  rewrite (map_nth (fun gb : chan * R => fun p => sigmoid (fst gb p - snd gb))). rewrite combine_nth by auto. reflexivity.
Qed.
Lemma gated2_fieldwise tg t bias m b junk gx x : (forall r, is_triv r = true -> rp_size r = 1) ->
  gated2_make gs_eqb is_triv tg t bias = Ok m -> size_pos t -> length b = length (g2_bias m) ->
  typed tg gx -> typed t x ->
  exists y, gated2_forward gs_eqb rp_eqb junk (set_bias2 m b) gx x = Ok y /\ gt_type y = t /\
    fieldwise (ft_reps t) (ft_reps t) (fun f => let j := place Nat.ltb Nat.eqb (map rp_size (ft_reps t)) f in
      scaled (gate (nth j (gt_data gx) (fun _ => 0%R)) (nth j b 0%R))) (gt_data x) (gt_data y).
Proof.
  intros TR MK SP SS [TG LG] [TY LX]. unfold gated2_make in MK. apply assert_ok in MK as [_ MK]. apply assert_ok in MK as [TT MK].
  apply assert_ok in MK as [_ MK]. apply assert_ok in MK as [LL MK]. apply Nat.eqb_eq in LL.
  apply rbind_ok in MK as (idx & GI & MK). injection MK as <-. cbn [g2_bias g2_in g2_gates g2_idx set_bias2] in *.
  unfold gated2_forward. cbn [set_bias2 g2_bias g2_in g2_gates g2_idx]. rewrite TG, TY. cbn [assert_].
  assert (NG : length (gt_data gx) = length (ft_reps t)).
  { rewrite LG, <- LL. rewrite forallb_forall in TT. revert TT. clear -TR. induction (ft_reps tg) as [|r rs IH]; intros H; [reflexivity|].
    cbn [map]. change (nsum (rp_size r :: map rp_size rs)) with (rp_size r + nsum (map rp_size rs)). rewrite IH by (intros; apply H; cbn; auto).
    rewrite TR by (apply H; cbn; auto). reflexivity. }
  rewrite map_length, seq_length in SS.
  destruct (open_gates_ok (gt_data gx) b) as (g & E & Lg & Eg); [congruence|]. rewrite E. cbn [rbind].
  apply group_index_good in GI. rewrite by_size_kf in *.
  assert (LK : length (kf_size t) = length (ft_reps t)) by (unfold kf_size; apply map_length).
  destruct (grouped_sorted Nat.leb Nat.eqb py_str idx idx
    (fun s next fm => gate_group s (sub_list g next (next + count_label (py_str s) (map (fun p => (py_str (fst p), snd p)) (kf_size t)))) fm)
    (gt_data x) (kf_size t) (kf_size t) (fun s => s) (fun s => s) (fun s j b => scaled (nth j g (fun _ => 0%R)) b) ) with (out := empty junk (ft_chans t)) as (y & Y1 & Y2 & Y3); auto.
  - apply Nat.eqb_spec. - apply leb_total_nat. - apply leb_trans_nat. - apply leb_anti_nat. - apply py_str_inj.
  - intros k n H. apply kf_size_in in H as (-> & ?). auto. - intros k n H. apply kf_size_in in H as (-> & ?). auto.
  - intros k Hk. rewrite kf_size_fst in Hk. apply in_map_iff in Hk as (r & <- & Hr). auto.
  - intros k j c Hk Hc. unfold scaled. rewrite map_length. auto.
  - rewrite kf_size_snd. auto.
  - rewrite empty_length, kf_size_snd. reflexivity.
  - intros k next fm bl Hk V LB NX. apply gate_group_ok; auto.
    + rewrite (label_fields_keys Nat.eqb Nat.eqb_spec py_str py_str_inj). auto.
    + rewrite (label_fields_keys Nat.eqb Nat.eqb_spec py_str py_str_inj). lia.
  - rewrite kf_size_fst in Y1. unfold sorted_keys in Y1. unfold size_order. rewrite Y1. cbn [rbind].
    assert (LY : length y = ft_chans t) by (rewrite Y2; apply empty_length).
    rewrite mk_gt_fwd by exact LY. eexists. split; [reflexivity|]. split; [reflexivity|]. cbn [gt_data]. split; [auto|]. split; [auto|].
    intros f c Hc. pose proof (fields_len _ _ _ _ Hc) as Hf.
    destruct (nth_error (ft_reps t) f) as [r|] eqn:Er; [|apply nth_error_None in Er; lia].
    rewrite (fs_fields _ (kf_size t) py_str) in Hc by (auto using kf_size_snd). injection Hc as <-.
    eexists. split; [apply (fs_fields _ (kf_size t) py_str); auto using kf_size_snd|]. rewrite (Y3 f _ _ (kf_size_nth _ _ _ Er)).
    rewrite kf_size_fst, place_ltb. cbv zeta. rewrite Eg; [apply same_refl|].
    rewrite NG. rewrite <- (map_length rp_size). apply place_lt; [apply Nat.eqb_spec|apply Nat.ltb_irrefl|]. rewrite map_length. auto.
Qed.
End Modules.
