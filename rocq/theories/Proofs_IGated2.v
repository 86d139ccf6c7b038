(** InducedGatedNonLinearity1, field by field: the forward pass. *)
From Coq Require Import Reals ZArith String Ascii Decimal DecimalString List Bool Lia Lra Permutation Sorted FunctionalExtensionality.
From Verif Require Import Base Spec_Fields Model_Groups Model_Rep Model_FieldType Model_Utils Model_Modules Model_Fieldwise Model_IGated Spec_Fieldwise Spec_Fieldwise2 Spec_IGated
  Proofs_FieldType Proofs_FieldType2 Proofs_Utils Proofs_Modules Proofs_Modules2 Proofs_Modules3 Proofs_Fieldwise Proofs_Fieldwise2 Proofs_Fieldwise3 Proofs_Fieldwise4 Proofs_Fieldwise5 Proofs_Fieldwise7 Proofs_IGated.
Import ListNotations.
Open Scope nat_scope.

Section Modules.
Context {GS G X : Type} (fits : GS -> rep G -> bool) (gs_eqb : GS -> GS -> bool) (rp_eqb : rep G -> rep G -> bool).
Notation chan := (X -> R).
Notation ftype := (ftype GS (rep G)).
Notation gtensor := (gtensor GS (rep G) chan).
Notation type_eqb := (ft_eqb gs_eqb rp_eqb).
Notation zero := (fun _ : X => 0%R).

Lemma gate_fields_where (gs : list string) (reps : list (rep G)) (x : list chan) : length gs = length reps ->
  gate_fields gs (fields reps x) = map (field (map lab (combine gs reps)) x) (label_fields GATES 0 (map lab (combine gs reps))).
Proof.
  intros L. unfold gate_fields. set (fs := map lab (combine gs reps)).
  assert (SZ : map rp_size reps = map snd fs). { unfold fs. clear fs x. revert reps L. induction gs as [|g gs IH]; intros [|r reps] L; try discriminate; [reflexivity|]. cbn [combine map snd lab]. f_equal. apply IH. cbn in L; auto. }
  assert (LB : map (fun p => isgate (fst p)) fs = map isgate gs).
  { unfold fs. clear SZ. clear fs x. revert reps L. induction gs as [|g gs IH]; intros [|r reps] L; try discriminate; [reflexivity|]. cbn [combine map fst snd lab]. f_equal; [|apply IH; cbn in L; auto].
    unfold isgate. destruct (String.eqb_spec g GATES); [reflexivity|]. destruct (String.eqb_spec (pair_str (idr r)) GATES) as [E|]; [elim (pair_str_gate _ E)|reflexivity]. }
  unfold fields. rewrite SZ.
  assert (Y : forall fs0 gs0 pre, map (fun p => isgate (fst p)) fs0 = map isgate gs0 ->
    map snd (filter (fun p => isgate (fst p)) (combine gs0 (map (field (pre ++ fs0) x) (seq (length pre) (length fs0))))) =
    map (field (pre ++ fs0) x) (label_fields GATES (length pre) fs0)).
  { induction fs0 as [|[l n] fs0 IH]; intros [|g gs0] pre E; try discriminate; [reflexivity|]. cbn [map] in E. injection E as E1 E2. cbn [fst] in E1.
    cbn [length seq map combine filter fst label_fields]. specialize (IH gs0 (pre ++ [(l, n)]) E2). rewrite <- app_assoc in IH. cbn [app] in IH.
    rewrite app_length in IH. cbn [length] in IH. rewrite Nat.add_1_r in IH. rewrite <- E1. unfold isgate at 1. destruct (String.eqb l GATES); cbn [map snd app]; rewrite <- IH; reflexivity. }
  specialize (Y fs gs [] LB). cbn [app length] in Y. rewrite <- Y. do 3 f_equal. apply nth_error_ext. intros i. destruct (Nat.lt_ge_cases i (length fs)) as [H|H].
  - rewrite cut_field by auto. rewrite nth_error_map, (nth_error_nth' _ 0) by (rewrite seq_length; auto). rewrite seq_nth by auto. reflexivity.
  - transitivity (@None (list chan)); [|symmetry]; apply nth_error_None; [rewrite cut_len, map_length; auto|rewrite map_length, seq_length; auto].
Qed.

Lemma nth_combine {A B} f : forall (l : list A) (l' : list B) a b, nth_error l f = Some a -> nth_error l' f = Some b -> nth_error (combine l l') f = Some (a, b).
Proof. induction f; intros [|a l] [|c l'] x y H1 H2; cbn in *; try discriminate; [congruence|auto]. Qed.

Lemma igated1_fieldwise t gates drop bias m gs b junk (x : gtensor) :
  igated1_make fits t gates drop bias = Ok m -> gate_labels gates (length (ft_reps t)) = Ok gs -> names_identify (ft_reps t) ->
  size_pos t -> length b = length (ig_bias m) -> typed gs_eqb rp_eqb t x ->
  exists y, igated1_forward gs_eqb rp_eqb junk (set_ibias m b) x = Ok y /\ gt_type y = ig_out m /\
    length (gt_data y) = nsum (map rp_size (ft_reps (ig_out m))) /\
    (if drop then ft_reps (ig_out m) = map snd (filter (fun p => isgated (fst p)) (combine gs (ft_reps t))) else ig_out m = t) /\
    (forall f g r v, nth_error gs f = Some g -> g <> GATES -> nth_error (ft_reps t) f = Some r -> nth_error (fields (ft_reps t) (gt_data x)) f = Some v ->
       exists v', nth_error (fields (ft_reps (ig_out m)) (gt_data y)) (if drop then before isgated gs f else f) = Some v' /\
         let j := place pair_ltb pair_eqb (map (fun p => idr (snd p)) (filter (fun p => isgated (fst p)) (combine gs (ft_reps t)))) (before isgated gs f) in
         j < length (gate_fields gs (fields (ft_reps t) (gt_data x))) /\
         same_chans v' (induced_gate_act (snd (idr r)) (map (fun c => gate c (nth j b 0%R)) (nth j (gate_fields gs (fields (ft_reps t) (gt_data x))) [])) v)) /\
    (forall f v, drop = false -> nth_error gs f = Some GATES -> nth_error (fields (ft_reps t) (gt_data x)) f = Some v ->
       nth_error (fields (ft_reps t) (gt_data y)) f = Some (map (fun c => gate c (nth (before isgate gs f) b 0%R)) v)).
Proof.
  intros MK GL NI SP LB [TY LX]. pose proof (gate_labels_len _ _ _ GL) as LG.
  destruct (make_facts fits t gates drop bias m gs MK GL NI) as (HG & NG & EIN & EDR & IO & EFS & CI & CO & GK & EO & LBI & QG & GD). rewrite LBI in LB. clear LBI MK NI.
  destruct m as [min out mdrop mq mfs mord cin cout mb]. cbn [ig_in ig_out ig_drop ig_q ig_fs ig_order ig_cin ig_cout ig_bias set_ibias] in *. subst min mdrop mfs mord.
  set (gr := combine gs (ft_reps t)) in *. set (fs := map lab gr) in *.
  assert (LC : length gr = length (ft_reps t)) by (unfold gr; rewrite combine_length; lia).
  assert (LF : length fs = length (ft_reps t)) by (unfold fs; rewrite map_length; auto).
  assert (NF : forall f g r, nth_error gs f = Some g -> nth_error (ft_reps t) f = Some r -> nth_error fs f = Some (lab (g, r))).
  { intros f g r H1 H2. unfold fs. rewrite nth_error_map. unfold gr. rewrite (nth_combine f _ _ g r H1 H2). reflexivity. }
  assert (SZ : map snd fs = map rp_size (ft_reps t)).
  { unfold fs. rewrite map_map. cbn. unfold gr. clear -LG. revert gs LG. induction (ft_reps t) as [|r l IH]; intros [|g gs] L; try discriminate; [reflexivity|]. cbn. f_equal. apply IH. cbn in L; auto. }
  assert (GD' : forall g r, In (g, r) gr -> g <> GATES -> In (GATED, r) gr).
  { intros g r H N. destruct (HG g) as [->| ->]; auto; [|congruence]. apply in_combine_l in H. auto. }
  assert (FIN : forall l n, In (l, n) fs -> exists g r, In (g, r) gr /\ n = rp_size r /\ l = if String.eqb g GATES then GATES else pair_str (idr r)).
  { intros l n H. apply in_map_iff in H as ([g r] & E & H). unfold lab in E. cbn in E. injection E as <- <-. exists g, r. auto. }
  (* gates *)
  pose proof (group_index_good _ _ CI) as GI.
  destruct (kget String.eqb cin GATES) as [gi|] eqn:EG; [|congruence].
  assert (INg : In GATES (map fst fs)).
  { unfold group_index in CI. apply (proj1 (proj2 (flags_spec (map fst fs)))). clear -CI EG. fold (flags_of (map fst fs)) in CI. apply rmap_all in CI.
    induction CI as [|p q ps qs H _ IH]; [discriminate|]. destruct p as [l fl], q as [l' c]. cbn in EG. destruct (String.eqb_spec l' GATES) as [->|N].
    - left. cbn. unfold branch_index in H. cbn [fst snd] in H. apply rbind_ok in H as (? & _ & H). destruct (has_dot l); [discriminate|]. injection H as -> _. reflexivity.
    - right. auto. }
  assert (EQ : exists Q, mq = Some Q /\ 0 < Q).
  { apply in_map_iff in INg as ([l n] & E & H). cbn in E. subst l. destruct (FIN _ _ H) as (g & r & Hin & _ & E).
    destruct (String.eqb_spec g GATES) as [->|N]; [|symmetry in E; elim (pair_str_gate _ E)]. exists (rp_size r). split; [auto|]. apply SP. apply in_combine_r in Hin. auto. }
  destruct EQ as (Q & -> & Q0).
  assert (FG : forall n, In (GATES, n) fs -> n = Q).
  { intros n H. destruct (FIN _ _ H) as (g & r & Hin & -> & E). destruct (String.eqb_spec g GATES) as [->|N]; [|symmetry in E; elim (pair_str_gate _ E)].
    apply QG in Hin. congruence. }
  assert (FS : forall i n, In (pair_str i, n) fs -> n = fst i).
  { intros i n H. destruct (FIN _ _ H) as (g & r & Hin & -> & E). destruct (String.eqb_spec g GATES) as [->|N]; [elim (pair_str_gate _ E)|]. apply pair_str_inj in E. subst i.
    destruct (GD r (GD' _ _ Hin N)) as (_ & <- & _). reflexivity. }
  destruct (GI GATES INg) as (gi' & EG' & GO1 & GO2). assert (gi' = gi) by congruence. subst gi'.
  assert (LXF : length (gt_data x) = nsum (map snd fs)) by (rewrite SZ; auto).
  destruct (gather_ok gi (gt_data x) GO1) as (graw & GR & PG). { rewrite GO2, LXF. apply ind_bound. }
  rewrite GO2 in PG.
  set (W := gate_fields gs (fields (ft_reps t) (gt_data x))) in *.
  assert (EW : W = map (field fs (gt_data x)) (label_fields GATES 0 fs)) by (apply gate_fields_where; auto).
  assert (VG : view_fields Q graw = Ok W). { rewrite EW. apply (view_group fs (gt_data x) graw GATES Q LXF FG Q0 PG). }
  assert (LQW : forall e, In e W -> length e = Q). { intros e He. apply view_inv in VG as (_ & _ & E). rewrite E in He. apply blocks_len in He. auto. }
  assert (LGR : length W = length (label_fields GATES 0 fs)) by (rewrite EW; apply map_length).
  assert (CNTG : forall k, length (filter isgate (firstn k gs)) = count_label GATES (firstn k fs)).
  { intros k. unfold count_label, fs, gr. rewrite firstn_map, firstn_combine'. assert (L' : length (firstn k gs) = length (firstn k (ft_reps t))) by (rewrite !firstn_length; lia).
    revert L'. generalize (firstn k (ft_reps t)). induction (firstn k gs) as [|g l IH]; intros [|r l'] L'; try discriminate; [reflexivity|]. cbn [combine map filter fst snd lab].
    specialize (IH l' ltac:(cbn in L'; auto)). unfold isgate at 1. destruct (String.eqb_spec g GATES); [cbn [String.eqb Ascii.eqb Bool.eqb GATES length]; f_equal; exact IH|].
    destruct (String.eqb_spec (pair_str (idr r)) GATES) as [E|]; [elim (pair_str_gate _ E)|exact IH]. }
  assert (LNG : length W = length (filter (String.eqb GATES) gs)).
  { rewrite LGR, <- count_label_fields. specialize (CNTG (length gs)). rewrite firstn_all in CNTG. rewrite <- (firstn_all fs), LF, <- LG, <- CNTG. f_equal. apply filter_ext. intros a. unfold isgate. apply String.eqb_sym. }
  destruct (open_blocks_ok Q W b) as (g & OG & Lg & LQg & Eg); [rewrite LNG; symmetry; exact LB|exact LQW|].
  (* the gated fields *)
  set (kfg := map (fun p => idr (snd p)) (filter (fun p => isgated (fst p)) gr)) in *.
  set (order := id_order kfg) in *.
  assert (ORD : order = sorted_keys pair_leb pair_eqb kfg) by reflexivity.
  assert (OIN : forall s, In s order <-> In s kfg) by (intros s; rewrite ORD; apply sorted_keys_in, pair_eqbP).
  assert (OND : NoDup order) by (rewrite ORD; apply sorted_keys_nodup, pair_eqbP).
  assert (KFR : forall i, In i kfg -> exists r, In (GATED, r) gr /\ i = idr r).
  { intros s H. apply in_map_iff in H as ([g0 r] & <- & H). apply filter_In in H as [H Hg]. cbn [fst snd] in *. exists r. split; [|auto]. eapply GD'; eauto. intros ->. discriminate. }
  assert (KFQ : forall i, In i kfg -> snd i <> 0 /\ fst i = Q * snd i).
  { intros i H. destruct (KFR i H) as (r & Hr & ->). destruct (GD r Hr) as (_ & E1 & E2 & E3 & E4). split; auto. injection E4 as E4. rewrite E4, <- E1.
    rewrite (Nat.div_mod (fst (idr r)) (snd (idr r))) at 1 by auto. lia. }
  assert (KFIN : forall i, In i kfg -> In (pair_str i, fst i) fs).
  { intros i H. destruct (KFR i H) as (r & Hr & ->). destruct (GD r Hr) as (_ & E1 & _). unfold fs. apply in_map_iff. exists (GATED, r). split; auto. unfold lab. cbn. rewrite E1. reflexivity. }
  set (fs' := keep_fields drop fs) in *.
  assert (CNT : forall s k, count_label (pair_str s) (filter (fun p => negb (drop && String.eqb (fst p) GATES)) (firstn k fs)) = count_label (pair_str s) (firstn k fs)).
  { intros s k. apply count_filter. intros n. cbn [fst]. destruct (String.eqb_spec (pair_str s) GATES) as [E|]; [elim (pair_str_gate _ E)|]. rewrite andb_false_r. reflexivity. }
  assert (CNT' : forall s, count_label (pair_str s) fs' = count_label (pair_str s) fs).
  { intros s. specialize (CNT s (length fs)). rewrite !firstn_all in CNT. exact CNT. }
  assert (CK2 : forall s k, count_label (pair_str s) (firstn k fs) = length (filter (pair_eqb s) (map (fun p => idr (snd p)) (filter (fun p => isgated (fst p)) (combine (firstn k gs) (firstn k (ft_reps t))))))).
  { intros s k. unfold count_label, fs, gr. rewrite firstn_map, firstn_combine'. generalize (combine (firstn k gs) (firstn k (ft_reps t))) as L. induction L as [|[g0 r] L IH]; [reflexivity|].
    cbn [map filter fst snd lab]. unfold isgated at 1. destruct (String.eqb_spec g0 GATES) as [->|N]; cbn [negb].
    - destruct (String.eqb_spec GATES (pair_str s)) as [E|]; [symmetry in E; elim (pair_str_gate _ E)|]. exact IH.
    - cbn [map filter snd]. destruct (String.eqb_spec (pair_str (idr r)) (pair_str s)) as [E|N2].
      + apply pair_str_inj in E. subst s. destruct (pair_eqbP (idr r) (idr r)); [|congruence]. cbn [length]. rewrite IH. reflexivity.
      + destruct (pair_eqbP s (idr r)); [subst; congruence|]. exact IH. }
  assert (CK3 : forall s, count_label (pair_str s) fs = length (filter (pair_eqb s) kfg)).
  { intros s. specialize (CK2 s (length fs)). rewrite firstn_all in CK2. rewrite CK2. rewrite LF at 2. rewrite firstn_all. rewrite LF, <- LG, firstn_all. reflexivity. }
  assert (LKG : length kfg = length W).
  { unfold kfg, gr. rewrite map_length, <- (map_length fst), filter_fst by auto. rewrite LNG, NG. f_equal. apply filter_ext_in. intros a Ha. destruct (HG a Ha) as [-> | ->]; reflexivity. }
  (* the output tensor before the loop *)
  assert (SZ' : nsum (map snd fs') = ft_chans out /\ map snd fs' = map rp_size (ft_reps out)).
  { assert (E : map snd fs' = map rp_size (ft_reps out)); [|split; [rewrite E; reflexivity|auto]]. destruct drop.
    - rewrite (gated_sel_reps fits t out gs LG IO HG). unfold fs', keep_fields, fs, gr. rewrite (filter_combine_map isgated).
      + rewrite !map_map. reflexivity. + auto.
      + intros a r. cbn [fst snd lab andb]. unfold isgated. destruct (String.eqb_spec a GATES); [reflexivity|].
        destruct (String.eqb_spec (pair_str (idr r)) GATES) as [E|]; [elim (pair_str_gate _ E)|reflexivity].
    - injection IO as <-. unfold fs'. rewrite <- SZ, keep_false. reflexivity. }
  destruct SZ' as [SZ' SZ2].
  assert (LCG : length (concat g) = length (label_indices GATES 0 fs)).
  { rewrite (concat_blocks_length Q) by exact LQg. rewrite Lg, LGR. rewrite (label_indices_length _ _ Q) by exact FG. reflexivity. }
  assert (OUT0 : exists out0, (if drop then Ok (empty junk (ft_chans out)) else scatter gi (empty junk (ft_chans out)) (concat g)) = Ok out0 /\ length out0 = ft_chans out /\
    (drop = false -> picks out0 (label_indices GATES 0 fs) (concat g))).
  { destruct drop.
    - eexists. split; [reflexivity|]. split; [apply empty_length|discriminate].
    - injection IO as <-. destruct (scatter_ok gi (empty junk (ft_chans t)) (concat g) GO1) as (o & O1 & O2 & O3 & O4).
      + rewrite GO2. apply sorted_nodup, label_indices_sorted. + rewrite GO2, empty_length. unfold ft_chans, ft_size. rewrite <- SZ. apply ind_bound.
      + rewrite GO2. auto.
      + exists o. split; [auto|]. rewrite empty_length in O2. split; [auto|]. rewrite <- GO2. auto. }
  destruct OUT0 as (out0 & OU1 & OU2 & OU3).
  (* the loop *)
  assert (GOUT : good_index fs' (map pair_str order) cout).
  { intros l Hl. apply (out_index_good drop fs cout CO). apply in_map_iff in Hl as (s & <- & Hs). apply OIN, KFIN in Hs.
    apply filter_In. split; [apply in_map_iff; exists (pair_str s, fst s); auto|]. destruct (String.eqb_spec (pair_str s) GATES) as [E|]; [elim (pair_str_gate _ E)|]. rewrite andb_false_r. reflexivity. }
  assert (SUB' : forall p, In p fs' -> In p fs) by (intros p Hp; unfold fs', keep_fields in Hp; apply filter_In in Hp; tauto).
  destruct (fieldwise_loop pair_str cin cout (fun s => count_label (pair_str s) fs)
    (fun i next fm => gate_group (snd i) (concat (sub_list g next (next + count_label (pair_str i) fs))) fm) (gt_data x) fs fs' fst fst
    (fun i j v => induced_gate_act (snd i) (nth j g (repeat zero Q)) v) order) with (next := 0) (out := out0) as (y & Y1 & Y2 & Y3 & Y4); auto.
  - intros s Hs. apply OIN in Hs. destruct (KFR s Hs) as (r & Hr & ->). destruct (GD r Hr) as (_ & -> & _). apply SP. apply in_combine_r in Hr. auto.
  - intros s Hs. rewrite <- !count_label_fields. symmetry. apply CNT'.
  - intros s j v Hs Lv. apply OIN, KFQ in Hs as [H1 H2]. rewrite H2 in *. apply act_len; auto.
    destruct (Nat.lt_ge_cases j (length g)); [apply LQg, nth_In; auto|rewrite nth_overflow by auto; apply repeat_length].
  - apply FinFun.Injective_map_NoDup; auto. intros a c. apply pair_str_inj.
  - intros l Hl. apply GI. apply in_map_iff in Hl as (s & <- & Hs). apply OIN, KFIN in Hs. apply in_map_iff. exists (pair_str s, fst s). auto.
  - congruence.
  - intros pre s post fm bl E V LBL. assert (Hs : In s order) by (rewrite E; apply in_elt). apply OIN, KFQ in Hs as [H1 H2]. rewrite H2 in V.
    assert (EL : count_label (pair_str s) fs = length bl) by (rewrite LBL; apply count_label_fields). rewrite EL. apply (igate_group_ok (snd s) Q); auto.
    rewrite <- EL, Lg, <- LKG, CK3. cbn [Nat.add].
    replace (nsum (map (fun s0 => count_label (pair_str s0) fs) pre)) with (nsum (map (fun s0 => length (filter (pair_eqb s0) kfg)) pre)) by (f_equal; apply map_ext; intros; symmetry; apply CK3).
    rewrite ORD in E. rewrite (sorted_before pair_leb pair_eqb pair_eqbP pair_total pair_trans pair_anti _ _ _ _ E).
    apply filter_excl. intros a A1 A2. destruct (pair_eqbP s a); [subst a|discriminate]. unfold ltb_of in A1.
    assert (pair_leb s s = true) as R1 by (destruct (pair_total s s); auto). rewrite R1 in A1. discriminate.
  - unfold igated1_forward. cbn [ig_in ig_out ig_drop ig_q ig_fs ig_order ig_cin ig_cout ig_bias set_ibias]. rewrite TY. cbn [assert_].
    unfold attr_of at 1. rewrite EG. cbn [rbind]. rewrite GR. cbn [rbind]. rewrite VG. cbn [rbind]. rewrite OG. cbn [rbind]. rewrite OU1. cbn [rbind].
    rewrite Y1. cbn [rbind]. assert (LY : length y = ft_chans out) by congruence. rewrite mk_gt_fwd by exact LY.
    eexists. split; [reflexivity|]. split; [reflexivity|]. cbn [gt_data]. split; [exact LY|]. split.
    { destruct drop; [apply (gated_sel_reps fits); auto|congruence]. }
    assert (FV : forall (reps : list (rep G)) (fs0 : list (string * nat)) (d : list chan) f, map snd fs0 = map rp_size reps -> f < length fs0 -> nth_error (fields reps d) f = Some (field fs0 d f)).
    { intros reps fs0 d f E H. unfold fields. rewrite <- E. apply cut_field. auto. }
    split.
    + intros f gl r v Hg NE Er Hv. pose proof (fields_len _ _ _ _ Hv) as Hf.
      rewrite (FV _ fs) in Hv by (auto; lia). injection Hv as <-.
      assert (Hgr : nth_error gr f = Some (gl, r)) by (apply nth_combine; auto).
      assert (Hfs := NF f gl r Hg Er). assert (Hgd : In (GATED, r) gr) by (eapply GD'; eauto; eapply nth_error_In; eauto).
      assert (LBL : lab (gl, r) = (pair_str (idr r), fst (idr r))). { unfold lab. cbn [fst snd]. destruct (GD r Hgd) as (_ & -> & _). destruct (String.eqb_spec gl GATES); [congruence|reflexivity]. }
      rewrite LBL in Hfs. set (s := idr r) in *.
      set (f' := length (filter (fun p : string * nat => negb (drop && String.eqb (fst p) GATES)) (firstn f fs))).
      assert (Ef' : (if drop then before isgated gs f else f) = f').
      { unfold f'. destruct drop.
        - unfold before, fs, gr. rewrite firstn_map, firstn_combine'. rewrite (filter_combine_map isgated).
          + rewrite map_length, <- (map_length fst), filter_fst; auto. rewrite !firstn_length. lia.
          + rewrite !firstn_length. lia.
          + intros a r0. cbn [fst snd lab andb]. unfold isgated. destruct (String.eqb_spec a GATES); [reflexivity|].
            destruct (String.eqb_spec (pair_str (idr r0)) GATES) as [E|]; [elim (pair_str_gate _ E)|reflexivity].
        - cbn [andb]. assert (X0 : forall l : list (string * nat), filter (fun p => negb false) l = l) by (induction l as [|p l IH]; cbn in *; congruence). rewrite X0, firstn_length_le; lia. }
      rewrite Ef'.
      assert (KP : negb (drop && String.eqb (fst (pair_str s, fst s)) GATES) = true).
      { cbn [fst]. destruct (String.eqb_spec (pair_str s) GATES) as [E|]; [elim (pair_str_gate _ E)|]. rewrite andb_false_r. reflexivity. }
      assert (Hfs' : nth_error fs' f' = Some (pair_str s, fst s)) by (apply (nth_filter (fun p : string * nat => negb (drop && String.eqb (fst p) GATES)) f fs _ Hfs KP)).
      assert (f' < length fs') by (apply nth_error_Some; congruence).
      eexists. split; [apply (FV _ fs' y f' SZ2); auto|]. cbv zeta.
      assert (RK := label_fields_rank (pair_str s) fs 0 f (fst s) Hfs). assert (RK' := label_fields_rank (pair_str s) fs' 0 f' (fst s) Hfs'). cbn [Nat.add] in RK, RK'.
      assert (EQ : count_label (pair_str s) (firstn f' fs') = count_label (pair_str s) (firstn f fs)).
      { unfold fs', f', keep_fields. rewrite firstn_filter. apply CNT. }
      rewrite EQ in RK'.
      assert (GT : isgated (fst (gl, r)) = true) by (unfold isgated; cbn; destruct (String.eqb_spec gl GATES); [congruence|reflexivity]).
      assert (X1 : nth_error (filter (fun p : string * rep G => isgated (fst p)) gr) (before isgated gs f) = Some (gl, r)).
      { assert (X0 := nth_filter (fun p : string * rep G => isgated (fst p)) f gr (gl, r) Hgr GT).
        unfold gr in X0 at 2. rewrite firstn_combine' in X0. rewrite <- (map_length fst (filter _ _)), filter_fst in X0 by (rewrite !firstn_length; lia). exact X0. }
      assert (NK : nth_error kfg (before isgated gs f) = Some s) by (unfold kfg; rewrite nth_error_map, X1; reflexivity).
      assert (Hs : In s order) by (apply OIN; eapply nth_error_In; eauto).
      apply in_split in Hs as (pre & post & E). rewrite (Y3 pre s post _ f f' E RK RK').
      assert (PL : 0 + nsum (map (fun s0 => count_label (pair_str s0) fs) pre) + count_label (pair_str s) (firstn f fs) = place pair_ltb pair_eqb kfg (before isgated gs f)).
      { rewrite <- pair_place_ltb. unfold place. rewrite NK. rewrite ORD in E. rewrite <- (sorted_before pair_leb pair_eqb pair_eqbP pair_total pair_trans pair_anti _ _ _ _ E).
        cbn [Nat.add]. f_equal.
        - f_equal. apply map_ext. intros s0. apply CK3.
        - rewrite CK2. f_equal. f_equal. unfold kfg, before. rewrite firstn_map. f_equal.
          assert (X0 := firstn_filter (fun p : string * rep G => isgated (fst p)) f gr). unfold gr in X0 at 1 3. rewrite firstn_combine' in X0. rewrite <- X0. f_equal.
          rewrite <- (map_length fst (filter _ _)), filter_fst; auto. rewrite !firstn_length. lia. }
      rewrite PL.
      assert (PB : place pair_ltb pair_eqb kfg (before isgated gs f) < length W).
      { rewrite <- LKG. apply place_lt; [apply pair_eqbP| |apply nth_error_Some; congruence].
        intros [a c]. unfold pair_ltb. cbn [fst snd]. rewrite !Nat.ltb_irrefl, andb_false_r. reflexivity. }
      split; [auto|]. rewrite Eg by exact PB. apply same_refl.
    + intros f v -> Hg Hv. injection IO as <-. pose proof (fields_len _ _ _ _ Hv) as Hf.
      rewrite (FV _ fs) in Hv by (auto; lia). injection Hv as <-.
      destruct (nth_error (ft_reps t) f) as [r|] eqn:Er; [|apply nth_error_None in Er; lia].
      assert (Hfs := NF f GATES r Hg Er). change (lab (GATES, r)) with (GATES, rp_size r) in Hfs.
      assert (R1 : rp_size r = Q) by (apply FG; eapply nth_error_In; eauto). rewrite R1 in Hfs.
      assert (EFS : fs' = fs) by apply keep_false.
      rewrite (FV _ fs) by (auto; lia). f_equal. rewrite EFS in *.
      rewrite (Y4 f GATES Q Hfs). 2:{ intros H. apply in_map_iff in H as (s & E & _). elim (pair_str_gate _ E). }
      assert (RK := label_fields_rank GATES fs 0 f Q Hfs). cbn [Nat.add] in RK. specialize (OU3 eq_refl).
      set (q := count_label GATES (firstn f fs)) in *.
      assert (Hq : q < length W). { rewrite LGR. apply nth_error_Some. congruence. }
      assert (WG := write_group fs out0 GATES Q g). rewrite (WG ltac:(congruence) FG) with (q := q) (b := nth q g (repeat zero Q)).
      * rewrite Eg by auto. unfold before. rewrite CNTG. fold q. f_equal. rewrite EW. 
        rewrite (nth_indep _ _ (field fs (gt_data x) 0)) by (rewrite map_length, <- LGR; exact Hq).
        rewrite (map_nth (field fs (gt_data x))). f_equal. apply nth_error_nth. exact RK.
      * congruence.
      * exact LQg.
      * exact OU3.
      * exact RK.
      * apply nth_error_nth'. lia.
Qed.
End Modules.
