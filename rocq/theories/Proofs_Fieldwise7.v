(** GatedNonLinearity1, field by field. *)
From Coq Require Import Reals ZArith String Ascii Decimal DecimalString List Bool Lia Lra Permutation Sorted FunctionalExtensionality.
From Verif Require Import Base Spec_Fields Model_Groups Model_Rep Model_FieldType Model_Utils Model_Modules Model_Fieldwise Spec_Fieldwise Spec_Fieldwise2
  Proofs_FieldType Proofs_FieldType2 Proofs_Utils Proofs_Modules Proofs_Modules2 Proofs_Modules3 Proofs_Fieldwise Proofs_Fieldwise2 Proofs_Fieldwise3 Proofs_Fieldwise4 Proofs_Fieldwise5.
Import ListNotations.
Open Scope nat_scope.

Lemma py_str_gate n : py_str n <> GATES.
Proof. unfold py_str, NilZero.string_of_uint, GATES. destruct (Nat.to_uint n); cbn; discriminate. Qed.

(** * Filtered lists *)
Section Filter.
Context {A : Type} (P : A -> bool).
Lemma firstn_filter f (l : list A) : firstn (length (filter P (firstn f l))) (filter P l) = filter P (firstn f l).
Proof.
  rewrite <- (firstn_skipn f l) at 2. rewrite filter_app, firstn_app, firstn_all, Nat.sub_diag. cbn. apply app_nil_r.
Qed.
Lemma nth_filter f (l : list A) a : nth_error l f = Some a -> P a = true -> nth_error (filter P l) (length (filter P (firstn f l))) = Some a.
Proof.
  revert f. induction l as [|b l IH]; intros f H Pa; [destruct f; discriminate|]. destruct f.
  - cbn in H. injection H as ->. cbn. rewrite Pa. reflexivity.
  - cbn [nth_error firstn filter] in *. specialize (IH f H Pa). destruct (P b); cbn [length nth_error]; auto.
Qed.
End Filter.
Lemma count_filter l (P : string * nat -> bool) fs : (forall n, P (l, n) = true) -> count_label l (filter P fs) = count_label l fs.
Proof.
  intros H. unfold count_label. induction fs as [|[a n] fs IH]; [reflexivity|]. cbn [filter fst]. destruct (String.eqb a l) eqn:E.
  - apply String.eqb_eq in E. subst a. rewrite H. cbn [filter fst]. rewrite String.eqb_refl. cbn [length]. rewrite IH. reflexivity.
  - destruct (P (a, n)); cbn [filter fst]; [rewrite E|]; auto.
Qed.
Lemma pos_none labels l : ~ In l labels -> pos_of labels l = [].
Proof.
  intros H. destruct (pos_of labels l) as [|i L] eqn:E; auto. exfalso. apply H.
  assert (In i (pos_of labels l)) as Hi by (rewrite E; cbn; auto). apply pos_of_spec in Hi. eapply nth_error_In; eauto.
Qed.
Lemma pos_repeat l k : pos_of (repeat l k) l = seq 0 k.
Proof.
  apply sorted_ext; [apply pos_of_sorted|apply sorted_seq|]. intros x. rewrite pos_of_spec, in_seq. split.
  - intros H. assert (x < length (repeat l k)) by (apply nth_error_Some; congruence). rewrite repeat_length in *. lia.
  - intros H. rewrite (nth_error_nth' _ l) by (rewrite repeat_length; lia). f_equal. apply nth_repeat.
Qed.
Lemma pos_filter (P : string -> bool) labels l a k : pos_of labels l = seq a k -> P l = true -> exists a', pos_of (filter P labels) l = seq a' k.
Proof.
  intros E Pl. destruct (Nat.eq_dec k 0) as [->|K].
  - exists 0. apply pos_none. intros H. apply filter_In in H as [H _]. apply In_nth_error in H as [i Hi]. apply pos_of_spec in Hi. rewrite E in Hi. destruct Hi.
  - assert (IN : forall i, nth_error labels i = Some l <-> a <= i < a + k). { intros i. rewrite <- pos_of_spec, E, in_seq. lia. }
    assert (B : a + k <= length labels). { specialize (IN (a + k - 1)). destruct IN as [_ IN]. specialize (IN ltac:(lia)). assert (a + k - 1 < length labels) by (apply nth_error_Some; congruence). lia. }
    assert (D : labels = firstn a labels ++ repeat l k ++ skipn (a + k) labels).
    { apply nth_error_ext. intros i. assert (LA : length (firstn a labels) = a) by (apply firstn_length_le; lia).
      destruct (Nat.lt_ge_cases i a).
      - rewrite nth_error_app1 by lia. rewrite <- (firstn_skipn a labels) at 1. rewrite nth_error_app1 by lia. reflexivity.
      - rewrite nth_error_app2 by lia. rewrite LA. destruct (Nat.lt_ge_cases i (a + k)).
        + rewrite nth_error_app1 by (rewrite repeat_length; lia). rewrite (nth_error_nth' (repeat l k) l) by (rewrite repeat_length; lia).
          rewrite nth_repeat. apply IN. lia.
        + rewrite nth_error_app2 by (rewrite repeat_length; lia). rewrite repeat_length. rewrite <- (firstn_skipn (a + k) labels) at 1.
          rewrite nth_error_app2 by (rewrite firstn_length_le by lia; lia). rewrite firstn_length_le by lia. f_equal. lia. }
    assert (NA : ~ In l (firstn a labels)).
    { intros H. apply In_nth_error in H as [i Hi]. assert (i < length (firstn a labels)) by (apply nth_error_Some; congruence).
      rewrite firstn_length_le in * by lia. assert (nth_error labels i = Some l); [|apply IN in H0; lia].
      rewrite <- (firstn_skipn a labels). rewrite nth_error_app1 by (rewrite firstn_length_le; lia). auto. }
    assert (NB : ~ In l (skipn (a + k) labels)).
    { intros H. apply In_nth_error in H as [i Hi]. assert (nth_error labels (a + k + i) = Some l); [|apply IN in H; lia].
      rewrite <- (firstn_skipn (a + k) labels). rewrite nth_error_app2 by (rewrite firstn_length_le by lia; lia). rewrite firstn_length_le by lia.
      replace (a + k + i - (a + k)) with i by lia. auto. }
    rewrite D, !filter_app. assert (F : filter P (repeat l k) = repeat l k). { clear -Pl. induction k; cbn; [auto|]. rewrite Pl. congruence. }
    rewrite F, !pos_of_app, pos_repeat. rewrite pos_none by (rewrite filter_In; tauto). rewrite (pos_none (filter P (skipn _ _))) by (rewrite filter_In; tauto).
    exists (length (filter P (firstn a labels))). cbn [map app]. rewrite app_nil_r.
    generalize (length (filter P (firstn a labels))) as o. clear. intros o. enough (X : forall b, map (fun i => o + i) (seq b k) = seq (o + b) k) by (rewrite (X 0); f_equal; lia).
    induction k as [|k IH]; intros b; cbn; [auto|]. f_equal. rewrite IH. f_equal. lia.
Qed.

Lemma keep_false fs : keep_fields false fs = fs.
Proof. unfold keep_fields. induction fs as [|p l IH]; cbn in *; congruence. Qed.
(** the dict of the kept output channels *)
Lemma out_index_good drop fs d : out_index drop (map fst fs) (keep_fields drop fs) = Ok d ->
  good_index (keep_fields drop fs) (filter (fun l => negb (drop && String.eqb l GATES)) (map fst fs)) d.
Proof.
  intros H l Hl. destruct (flags_spec (map fst fs)) as (ND & K & C). unfold out_index in H. fold (flags_of (map fst fs)) in H.
  apply filter_In in Hl as [Hl Pl]. apply K, (kget_keys _ String.eqb_spec) in Hl as [b Hb].
  set (Q := fun p : string * bool => negb (drop && String.eqb (fst p) GATES)) in *.
  assert (Hb' : kget String.eqb (filter Q (flags_of (map fst fs))) l = Some b).
  { clear -Hb Pl. induction (flags_of (map fst fs)) as [|[a c] L IH]; [discriminate|]. cbn [kget filter] in *. destruct (String.eqb_spec a l) as [->|N].
    - unfold Q at 1. cbn [fst]. rewrite Pl. cbn [kget]. rewrite String.eqb_refl. auto.
    - destruct (Q (a, c)); auto. cbn [kget]. destruct (String.eqb_spec a l); [congruence|auto]. }
  assert (ND' : NoDup (map fst (filter Q (flags_of (map fst fs))))).
  { clear -ND. induction (flags_of (map fst fs)) as [|a L IH]; [constructor|]. cbn in ND. inversion ND; subst. cbn [filter]. destruct (Q a); auto.
    cbn [map]. constructor; auto. intros Hin. apply H1. apply in_map_iff in Hin as (y & E & Hy). apply filter_In in Hy as [Hy _]. rewrite <- E. apply in_map. auto. }
  destruct (rmap_index _ _ _ H ND' l b Hb') as (c & E1 & E2). exists c. split; auto. apply (branch_index_good _ _ _ _ E1).
  intros ->. destruct (C l Hb) as (a & k & E). destruct (pos_filter (fun l => negb (drop && String.eqb l GATES)) _ _ _ _ E Pl) as [a' E'].
  exists a', k. rewrite <- E'. f_equal. unfold keep_fields. clear. induction fs as [|[s n] fs IH]; [reflexivity|]. cbn [map filter fst].
  destruct (negb (drop && String.eqb s GATES)); cbn [map fst]; congruence.
Qed.

Section Modules.
Context {GS G X : Type} (fits : GS -> rep G -> bool) (gs_eqb : GS -> GS -> bool) (rp_eqb : rep G -> rep G -> bool)
        (is_triv : rep G -> bool).
Hypothesis triv1 : forall r, is_triv r = true -> rp_size r = 1.
Notation chan := (X -> R).
Notation ftype := (ftype GS (rep G)).
Notation gtensor := (gtensor GS (rep G) chan).
Notation type_eqb := (ft_eqb gs_eqb rp_eqb).
Notation zero := (fun _ : X => 0%R).



Lemma gate_labels_len gates n l : gate_labels gates n = Ok l -> length l = n.
Proof.
  destruct gates as [l'|]; cbn [gate_labels]; intros H; apply assert_ok in H as [H1 H].
  - injection H as <-. apply Nat.eqb_eq in H1. auto.
  - injection H as <-. apply Nat.eqb_eq in H1. rewrite app_length, !repeat_length. change (fst (Nat.divmod n 1 0 1)) with (n / 2). pose proof (Nat.div_mod n 2 ltac:(lia)). lia.
Qed.
Lemma filter_combine_map {A B C} (P : A -> bool) (h : A * B -> C) (l : list A) (l' : list B) : length l = length l' ->
  forall k : C -> bool, (forall a b, k (h (a, b)) = P a) -> filter k (map h (combine l l')) = map h (filter (fun p => P (fst p)) (combine l l')).
Proof.
  revert l'. induction l as [|a l IH]; intros [|b l'] L k H; try discriminate; [reflexivity|]. cbn [combine map filter fst]. rewrite H.
  rewrite (IH l') by (cbn in L; auto). destruct (P a); reflexivity.
Qed.
Lemma filter_fst {A B} (P : A -> bool) (l : list A) (l' : list B) : length l = length l' -> map fst (filter (fun p => P (fst p)) (combine l l')) = filter P l.
Proof.
  revert l'. induction l as [|a l IH]; intros [|b l'] L; try discriminate; [reflexivity|]. cbn [combine filter fst]. destruct (P a); cbn [map fst]; rewrite IH by (cbn in L; auto); reflexivity.
Qed.
Lemma firstn_combine' {A B} n (l : list A) (l' : list B) : firstn n (combine l l') = combine (firstn n l) (firstn n l').
Proof. apply combine_firstn. Qed.

Lemma gated_sel_reps (t out : ftype) gs : length gs = length (ft_reps t) ->
  index_select fits t (map Z.of_nat (gated_fields gs)) = Ok out -> (forall g, In g gs -> g = GATES \/ g = GATED) ->
  ft_reps out = map snd (filter (fun p => isgated (fst p)) (combine gs (ft_reps t))).
Proof.
  intros L H HG. apply index_select_spec in H as (F & EF & _ & _ & _ & P & _).
  assert (gated_fields gs = F). { revert EF. generalize (gated_fields gs) as a. clear. intros a; revert F. induction a as [|x a IH]; intros [|y F] E; cbn in E; try discriminate; auto. injection E as E1 E2. f_equal; auto. lia. }
  subst F. clear EF. enough (P' : picks (ft_reps t) (gated_fields gs) (map snd (filter (fun p => isgated (fst p)) (combine gs (ft_reps t))))) by (eapply picks_fun; eauto).
  clear P. unfold picks, gated_fields, enumerate. revert L HG. generalize (ft_reps t) as reps. intros reps.
  assert (XX : forall gs0 reps0 (pre : list (rep G)), length gs0 = length reps0 -> (forall g, In g gs0 -> g = GATES \/ g = GATED) ->
    map Some (map snd (filter (fun p => isgated (fst p)) (combine gs0 reps0))) =
    map (nth_error (pre ++ reps0)) (map fst (filter (fun p => String.eqb (snd p) GATED) (combine (seq (length pre) (length gs0)) gs0)))).
  { induction gs0 as [|g gs0 IH]; intros [|r reps0] pre L HG; try discriminate; [reflexivity|].
    cbn [combine length seq filter fst snd]. specialize (IH reps0 (pre ++ [r]) ltac:(cbn in L; auto) ltac:(intros; apply HG; cbn; auto)).
    rewrite app_length in IH. cbn [length] in IH. rewrite Nat.add_1_r in IH. rewrite <- app_assoc in IH. cbn [app] in IH.
    destruct (HG g (or_introl eq_refl)) as [-> | ->]; unfold isgated; cbn [String.eqb Ascii.eqb GATES GATED negb Bool.eqb].
    - exact IH.
    - cbn [map snd fst]. change (map Some (map snd (filter (fun p => isgated (fst p)) (combine gs0 reps0)))) with (map Some (map snd (filter (fun p : string * rep G => isgated (fst p)) (combine gs0 reps0)))) in IH.
      rewrite <- IH. f_equal. rewrite nth_error_app2 by auto. rewrite Nat.sub_diag. reflexivity. }
  intros L HG. apply (XX gs reps [] L HG).
Qed.

Lemma where_fields (gs : list string) (reps : list (rep G)) (x : list chan) : length gs = length reps ->
  channels_where isgate gs (fields reps x) =
  concat (map (field (map (fun p => g1_label (fst p) (snd p)) (combine gs reps)) x) (label_fields GATES 0 (map (fun p => g1_label (fst p) (snd p)) (combine gs reps)))).
Proof.
  intros L. unfold channels_where. f_equal. set (fs := map (fun p => g1_label (fst p) (snd p)) (combine gs reps)).
  assert (SZ : map rp_size reps = map snd fs). { unfold fs. clear fs x. revert reps L. induction gs as [|g gs IH]; intros [|r reps] L; try discriminate; [reflexivity|]. cbn. f_equal. apply IH. cbn in L; auto. }
  assert (LB : map (fun p => isgate (fst p)) fs = map isgate gs).
  { unfold fs. clear SZ. clear fs x. revert reps L. induction gs as [|g gs IH]; intros [|r reps] L; try discriminate; [reflexivity|]. cbn [combine map fst snd g1_label]. f_equal; [|apply IH; cbn in L; auto].
    unfold isgate. destruct (String.eqb_spec g GATES); [reflexivity|]. destruct (String.eqb_spec (py_str (rp_size r)) GATES) as [E|]; [elim (py_str_gate _ E)|reflexivity]. }
  unfold fields. rewrite SZ.
  assert (Y : forall fs0 gs0 pre, map (fun p => isgate (fst p)) fs0 = map isgate gs0 ->
    map snd (filter (fun p => isgate (fst p)) (combine gs0 (map (field (pre ++ fs0) x) (seq (length pre) (length fs0))))) =
    map (field (pre ++ fs0) x) (label_fields GATES (length pre) fs0)).
  { induction fs0 as [|[l n] fs0 IH]; intros [|g gs0] pre E; try discriminate; [reflexivity|]. cbn [map] in E. injection E as E1 E2. cbn [fst] in E1.
    cbn [length seq map combine filter fst label_fields]. specialize (IH gs0 (pre ++ [(l, n)]) E2). rewrite <- app_assoc in IH. cbn [app] in IH.
    rewrite app_length in IH. cbn [length] in IH. rewrite Nat.add_1_r in IH. rewrite <- E1. unfold isgate at 1. destruct (String.eqb l GATES); cbn [map snd app]; rewrite <- IH; reflexivity. }
  specialize (Y fs gs [] LB). cbn [app length] in Y. rewrite <- Y. do 3 f_equal. apply nth_error_ext. intros i. destruct (Nat.lt_ge_cases i (length fs)) as [H|H].
  - rewrite cut_field by auto. rewrite nth_error_map, (nth_error_nth' _ 0) by (rewrite seq_length; auto). rewrite seq_nth by auto. reflexivity.
  - transitivity (@None (list chan)); [|symmetry]; apply nth_error_None; [rewrite cut_len, map_length; auto|rewrite map_length, seq_length; auto].
Qed.

Lemma gated1_fieldwise t gates drop bias m gs b junk (x : gtensor) :
  gated1_make fits is_triv t gates drop bias = Ok m -> gate_labels gates (length (ft_reps t)) = Ok gs ->
  size_pos t -> length b = length (g1_bias m) -> typed gs_eqb rp_eqb t x ->
  exists y, gated1_forward gs_eqb rp_eqb junk (set_bias1 m b) x = Ok y /\ gt_type y = g1_out m /\
    length (gt_data y) = nsum (map rp_size (ft_reps (g1_out m))) /\
    (if drop then ft_reps (g1_out m) = map snd (filter (fun p => isgated (fst p)) (combine gs (ft_reps t))) else g1_out m = t) /\
    (forall f g v, nth_error gs f = Some g -> g <> GATES -> nth_error (fields (ft_reps t) (gt_data x)) f = Some v ->
       exists v', nth_error (fields (ft_reps (g1_out m)) (gt_data y)) (if drop then before isgated gs f else f) = Some v' /\
         let j := place Nat.ltb Nat.eqb (map (fun p => rp_size (snd p)) (filter (fun p => isgated (fst p)) (combine gs (ft_reps t)))) (before isgated gs f) in
         same_chans v' (scaled (gate (nth j (channels_where isgate gs (fields (ft_reps t) (gt_data x))) zero) (nth j b 0%R)) v)) /\
    (forall f, drop = false -> nth_error gs f = Some GATES -> let j := before isgate gs f in
       nth_error (fields (ft_reps t) (gt_data y)) f = Some [gate (nth j (channels_where isgate gs (fields (ft_reps t) (gt_data x))) zero) (nth j b 0%R)]).
Proof.
  intros MK GL SP LB [TY LX]. pose proof (gate_labels_len _ _ _ GL) as LG. unfold gated1_make in MK. rewrite GL in MK. cbn [rbind] in MK.
  apply rbind_ok in MK as (us & CK & MK). cbv zeta in MK. apply assert_ok in MK as [NG MK]. apply Nat.eqb_eq in NG.
  apply rbind_ok in MK as (out & IO & MK). apply rbind_ok in MK as (cin & CI & MK). apply rbind_ok in MK as (cout & CO & MK).
  apply rbind_ok in MK as (u & GK & MK). injection MK as <-. cbn [g1_in g1_out g1_drop g1_fs g1_order g1_cin g1_cout g1_bias set_bias1] in *.
  set (fs := map (fun p => g1_label (fst p) (snd p)) (combine gs (ft_reps t))) in *.
  (* facts about the labels *)
  assert (CK' : forall g r, In (g, r) (combine gs (ft_reps t)) -> (g = GATES /\ rp_size r = 1) \/ g = GATED).
  { intros g r Hin. apply rmap_all in CK. clear -CK Hin triv1. induction CK as [|p q ps qs H _ IH]; [destruct Hin|]. destruct Hin as [->|Hin]; auto. cbn [fst snd] in H.
    destruct (String.eqb_spec g GATES) as [->|N]; [apply assert_ok in H as [H _]; auto|]. destruct (String.eqb_spec g GATED) as [->|N']; [auto|discriminate]. }
  assert (HG : forall g, In g gs -> g = GATES \/ g = GATED).
  { intros g Hg. apply In_nth_error in Hg as [i Hi]. destruct (nth_error (ft_reps t) i) as [r|] eqn:Er.
    - assert (In (g, r) (combine gs (ft_reps t))) as Hin. { apply (nth_error_In _ i). clear -Hi Er. revert gs Hi Er. generalize (ft_reps t). induction i; intros [|a l] [|c gs] H1 H2; cbn in *; try discriminate; [congruence|auto]. }
      destruct (CK' g r Hin) as [[-> _]| ->]; auto.
    - apply nth_error_None in Er. assert (i < length gs) by (apply nth_error_Some; congruence). lia. }
  assert (LC : length (combine gs (ft_reps t)) = length (ft_reps t)) by (rewrite combine_length; lia).
  assert (LF : length fs = length (ft_reps t)) by (unfold fs; rewrite map_length; auto).
  assert (NF : forall f g r, nth_error gs f = Some g -> nth_error (ft_reps t) f = Some r -> nth_error fs f = Some (g1_label g r)).
  { intros f g r H1 H2. unfold fs. rewrite nth_error_map. assert (nth_error (combine gs (ft_reps t)) f = Some (g, r)) as ->; [|reflexivity].
    clear -H1 H2. revert gs H1 H2. generalize (ft_reps t). induction f; intros [|a l] [|c gs] H1 H2; cbn in *; try discriminate; [congruence|auto]. }
  assert (SZ : map snd fs = map rp_size (ft_reps t)).
  { unfold fs. rewrite map_map. cbn. clear -LG. revert gs LG. induction (ft_reps t) as [|r l IH]; intros [|g gs] L; try discriminate; [reflexivity|]. cbn. f_equal. apply IH. cbn in L; auto. }
  assert (FIN : forall l n, In (l, n) fs -> exists g r, In (g, r) (combine gs (ft_reps t)) /\ n = rp_size r /\ l = if String.eqb g GATES then GATES else py_str (rp_size r)).
  { intros l n H. apply in_map_iff in H as ([g r] & E & H). unfold g1_label in E. cbn in E. injection E as <- <-. exists g, r. auto. }
  assert (FG : forall n, In (GATES, n) fs -> n = 1).
  { intros n H. destruct (FIN _ _ H) as (g & r & Hin & -> & E). destruct (CK' g r Hin) as [[_ E1]| ->]; auto.
    cbn in E. symmetry in E. elim (py_str_gate _ E). }
  assert (FS : forall s n, In (py_str s, n) fs -> n = s).
  { intros s n H. destruct (FIN _ _ H) as (g & r & Hin & -> & E). destruct (String.eqb g GATES); [elim (py_str_gate _ E)|]. apply py_str_inj in E. auto. }
  (* gates *)
  pose proof (group_index_good _ _ CI) as GI.
  destruct (kget String.eqb cin GATES) as [gi|] eqn:EG; [|discriminate].
  assert (INg : In GATES (map fst fs)).
  { unfold group_index in CI. apply (proj1 (proj2 (flags_spec (map fst fs)))). clear -CI EG. fold (flags_of (map fst fs)) in CI. apply rmap_all in CI.
    induction CI as [|p q ps qs H _ IH]; [discriminate|]. destruct p as [l fl], q as [l' c]. cbn in EG. destruct (String.eqb_spec l' GATES) as [->|N].
    - left. cbn. unfold branch_index in H. cbn [fst snd] in H. apply rbind_ok in H as (? & _ & H). destruct (has_dot l); [discriminate|]. injection H as -> _. reflexivity.
    - right. auto. }
  destruct (GI GATES INg) as (gi' & EG' & GO1 & GO2). assert (gi' = gi) by congruence. subst gi'.
  assert (LXF : length (gt_data x) = nsum (map snd fs)) by (rewrite SZ; auto).
  destruct (gather_ok gi (gt_data x) GO1) as (graw & GR & PG). { rewrite GO2, LXF. apply ind_bound. }
  rewrite GO2 in PG.
  assert (EW : graw = channels_where isgate gs (fields (ft_reps t) (gt_data x))).
  { rewrite where_fields by auto. fold fs. assert (V := view_group fs (gt_data x) graw GATES 1 LXF FG ltac:(lia) PG).
    apply view_inv in V as (_ & L1 & <-%eq_sym). rewrite (blocks_join 1 (length graw)); lia || auto. }
  assert (LGR : length graw = length (label_fields GATES 0 fs)).
  { rewrite (picks_length _ _ _ PG), (label_indices_length _ _ 1) by auto. lia. }
  assert (CNTG : forall k, length (filter isgate (firstn k gs)) = count_label GATES (firstn k fs)).
  { intros k. unfold count_label, fs. rewrite firstn_map, firstn_combine'. assert (L' : length (firstn k gs) = length (firstn k (ft_reps t))) by (rewrite !firstn_length; lia).
    revert L'. generalize (firstn k (ft_reps t)). induction (firstn k gs) as [|g l IH]; intros [|r l'] L'; try discriminate; [reflexivity|]. cbn [combine map filter fst snd g1_label].
    specialize (IH l' ltac:(cbn in L'; auto)). unfold isgate at 1. destruct (String.eqb_spec g GATES); [cbn [String.eqb Ascii.eqb Bool.eqb GATES length]; f_equal; exact IH|].
    destruct (String.eqb_spec (py_str (rp_size r)) GATES) as [E|]; [elim (py_str_gate _ E)|exact IH]. }
  assert (LNG : length graw = length (filter (String.eqb GATES) gs)).
  { rewrite LGR, <- count_label_fields. specialize (CNTG (length gs)). rewrite firstn_all in CNTG. rewrite <- (firstn_all fs), LF, <- LG, <- CNTG. f_equal. apply filter_ext. intros a. unfold isgate. apply String.eqb_sym. }
  rewrite map_length, seq_length in LB.
  destruct (open_gates_ok graw b) as (g & OG & Lg & Eg); [rewrite LNG; symmetry; exact LB|].
  (* the gated fields *)
  set (kfg := map (fun p => rp_size (snd p)) (filter (fun p => isgated (fst p)) (combine gs (ft_reps t)))) in *.
  assert (KE : map (fun p => rp_size (snd p)) (filter (fun p => negb (String.eqb (fst p) GATES)) (combine gs (ft_reps t))) = kfg) by reflexivity.
  rewrite KE in *. set (order := sort_by Nat.leb (first_seen Nat.eqb kfg)) in *.
  assert (ORD : order = sorted_keys Nat.leb Nat.eqb kfg) by reflexivity.
  assert (OIN : forall s, In s order <-> In s kfg) by (intros s; rewrite ORD; apply sorted_keys_in, Nat.eqb_spec).
  assert (OND : NoDup order) by (rewrite ORD; apply sorted_keys_nodup, Nat.eqb_spec).
  assert (KFIN : forall s, In s kfg -> In (py_str s, s) fs).
  { intros s H. apply in_map_iff in H as ([g0 r] & <- & H). apply filter_In in H as [H Hg]. cbn [fst snd] in *. unfold fs. apply in_map_iff. exists (g0, r). split; auto.
    unfold g1_label. cbn. unfold isgated in Hg. destruct (String.eqb g0 GATES); [discriminate|reflexivity]. }
  set (fs' := keep_fields drop fs) in *.
  assert (CNT : forall s k, count_label (py_str s) (filter (fun p => negb (drop && String.eqb (fst p) GATES)) (firstn k fs)) = count_label (py_str s) (firstn k fs)).
  { intros s k. apply count_filter. intros n. cbn [fst]. destruct (String.eqb_spec (py_str s) GATES) as [E|]; [elim (py_str_gate _ E)|]. rewrite andb_false_r. reflexivity. }
  assert (CNT' : forall s, count_label (py_str s) fs' = count_label (py_str s) fs).
  { intros s. specialize (CNT s (length fs)). rewrite !firstn_all in CNT. exact CNT. }
  assert (CK2 : forall s k, count_label (py_str s) (firstn k fs) = length (filter (Nat.eqb s) (map (fun p => rp_size (snd p)) (filter (fun p => isgated (fst p)) (combine (firstn k gs) (firstn k (ft_reps t))))))).
  { intros s k. unfold count_label, fs. rewrite firstn_map, firstn_combine'. generalize (combine (firstn k gs) (firstn k (ft_reps t))) as L. induction L as [|[g0 r] L IH]; [reflexivity|].
    cbn [map filter fst snd g1_label]. unfold isgated at 1. destruct (String.eqb_spec g0 GATES) as [->|N]; cbn [negb].
    - destruct (String.eqb_spec GATES (py_str s)) as [E|]; [symmetry in E; elim (py_str_gate _ E)|]. exact IH.
    - cbn [map filter snd]. destruct (String.eqb_spec (py_str (rp_size r)) (py_str s)) as [E|N2].
      + apply py_str_inj in E. subst s. rewrite Nat.eqb_refl. cbn [length]. rewrite IH. reflexivity.
      + destruct (Nat.eqb_spec s (rp_size r)); [subst; congruence|]. exact IH. }
  assert (CK3 : forall s, count_label (py_str s) fs = length (filter (Nat.eqb s) kfg)).
  { intros s. specialize (CK2 s (length fs)). rewrite firstn_all in CK2. rewrite CK2. rewrite LF at 2. rewrite firstn_all. rewrite LF, <- LG, firstn_all. reflexivity. }
  assert (LKG : length kfg = length graw).
  { unfold kfg. rewrite map_length, <- (map_length fst), filter_fst by auto. rewrite LNG, NG. f_equal. apply filter_ext_in. intros a Ha. destruct (HG a Ha) as [-> | ->]; reflexivity. }
  (* the output tensor before the loop *)
  assert (SZ' : nsum (map snd fs') = ft_chans out /\ map snd fs' = map rp_size (ft_reps out)).
  { assert (E : map snd fs' = map rp_size (ft_reps out)); [|split; [rewrite E; reflexivity|auto]]. destruct drop.
    - rewrite (gated_sel_reps t out gs LG IO HG). unfold fs', keep_fields, fs. rewrite (filter_combine_map isgated).
      + rewrite !map_map. reflexivity. + auto.
      + intros a r. cbn [fst snd g1_label andb]. unfold isgated. destruct (String.eqb_spec a GATES); [reflexivity|].
        destruct (String.eqb_spec (py_str (rp_size r)) GATES) as [E|]; [elim (py_str_gate _ E)|reflexivity].
    - injection IO as <-. unfold fs'. rewrite <- SZ, keep_false. reflexivity. }
  destruct SZ' as [SZ' SZ2].
  assert (OUT0 : exists out0, (if drop then Ok (empty junk (ft_chans out)) else scatter gi (empty junk (ft_chans out)) g) = Ok out0 /\ length out0 = ft_chans out /\
    (drop = false -> picks out0 (label_indices GATES 0 fs) g)).
  { destruct drop.
    - eexists. split; [reflexivity|]. split; [apply empty_length|discriminate].
    - injection IO as <-. destruct (scatter_ok gi (empty junk (ft_chans t)) g GO1) as (o & O1 & O2 & O3 & O4).
      + rewrite GO2. apply sorted_nodup, label_indices_sorted. + rewrite GO2, empty_length. unfold ft_chans, ft_size. rewrite <- SZ. apply ind_bound.
      + rewrite GO2, <- (picks_length _ _ _ PG). auto.
      + exists o. split; [auto|]. rewrite empty_length in O2. split; [auto|]. rewrite <- GO2. auto. }
  destruct OUT0 as (out0 & OU1 & OU2 & OU3).
  (* the loop *)
  assert (GOUT : good_index fs' (map py_str order) cout).
  { intros l Hl. apply (out_index_good drop fs cout CO). apply in_map_iff in Hl as (s & <- & Hs). apply OIN, KFIN in Hs.
    apply filter_In. split; [apply in_map_iff; exists (py_str s, s); auto|]. destruct (String.eqb_spec (py_str s) GATES) as [E|]; [elim (py_str_gate _ E)|]. rewrite andb_false_r. reflexivity. }
  assert (SUB' : forall p, In p fs' -> In p fs) by (intros p Hp; unfold fs', keep_fields in Hp; apply filter_In in Hp; tauto).
  destruct (fieldwise_loop py_str cin cout (fun s => count_label (py_str s) fs)
    (fun s next fm => gate_group s (sub_list g next (next + count_label (py_str s) fs)) fm) (gt_data x) fs fs' (fun s => s) (fun s => s)
    (fun s j v => scaled (nth j g zero) v) order) with (next := 0) (out := out0) as (y & Y1 & Y2 & Y3 & Y4); auto.
  - intros s Hs. apply OIN, KFIN in Hs. destruct (FIN _ _ Hs) as (g0 & r & Hin & -> & _). apply SP. apply in_combine_r in Hin. auto.
  - intros s Hs. rewrite <- !count_label_fields. symmetry. apply CNT'.
  - intros s j v _ Lv. unfold scaled. rewrite map_length. auto.
  - apply FinFun.Injective_map_NoDup; auto. intros a c. apply py_str_inj.
  - intros l Hl. apply GI. apply in_map_iff in Hl as (s & <- & Hs). apply OIN, KFIN in Hs. apply in_map_iff. exists (py_str s, s). auto.
  - congruence.
  - intros pre s post fm bl E V LBL. apply gate_group_ok; auto.
    + rewrite LBL. apply count_label_fields.
    + rewrite Lg, <- LKG, CK3. cbn [Nat.add].
      replace (nsum (map (fun s0 => count_label (py_str s0) fs) pre)) with (nsum (map (fun s0 => length (filter (Nat.eqb s0) kfg)) pre)) by (f_equal; apply map_ext; intros; symmetry; apply CK3).
      rewrite ORD in E. rewrite (sorted_before Nat.leb Nat.eqb Nat.eqb_spec leb_total_nat leb_trans_nat leb_anti_nat _ _ _ _ E).
      apply filter_excl. intros a H1 H2. apply Nat.eqb_eq in H2. subst a. unfold ltb_of in H1. rewrite Nat.leb_refl in H1. discriminate.
  - unfold gated1_forward. cbn [g1_in g1_out g1_drop g1_fs g1_order g1_cin g1_cout g1_bias set_bias1]. rewrite TY. cbn [assert_].
    unfold attr_of at 1. rewrite EG. cbn [rbind]. rewrite GR. cbn [rbind]. rewrite OG. cbn [rbind]. rewrite OU1. cbn [rbind]. fold order.
    rewrite Y1. cbn [rbind]. assert (LY : length y = ft_chans out) by congruence. rewrite mk_gt_fwd by exact LY.
    eexists. split; [reflexivity|]. split; [reflexivity|]. cbn [gt_data]. split; [exact LY|]. split.
    { destruct drop; [apply gated_sel_reps; auto|congruence]. }
    assert (FV : forall (reps : list (rep G)) (fs0 : list (string * nat)) (d : list chan) f, map snd fs0 = map rp_size reps -> f < length fs0 -> nth_error (fields reps d) f = Some (field fs0 d f)).
    { intros reps fs0 d f E H. unfold fields. rewrite <- E. apply cut_field. auto. }
    split.
    + intros f gl v Hg NE Hv. pose proof (fields_len _ _ _ _ Hv) as Hf. destruct (nth_error (ft_reps t) f) as [r|] eqn:Er; [|apply nth_error_None in Er; lia].
      rewrite (FV _ fs) in Hv by (auto; lia). injection Hv as <-.
      assert (Hfs := NF f gl r Hg Er). assert (LBL : g1_label gl r = (py_str (rp_size r), rp_size r)) by (unfold g1_label; destruct (String.eqb_spec gl GATES); [congruence|reflexivity]).
      rewrite LBL in Hfs. set (s := rp_size r) in *.
      set (f' := length (filter (fun p : string * nat => negb (drop && String.eqb (fst p) GATES)) (firstn f fs))).
      assert (Ef' : (if drop then before isgated gs f else f) = f').
      { unfold f'. destruct drop.
        - unfold before, fs. rewrite firstn_map, firstn_combine'. rewrite (filter_combine_map isgated).
          + rewrite map_length, <- (map_length fst), filter_fst; auto. rewrite !firstn_length. lia.
          + rewrite !firstn_length. lia.
          + intros a r0. cbn [fst snd g1_label andb]. unfold isgated. destruct (String.eqb_spec a GATES); [reflexivity|].
            destruct (String.eqb_spec (py_str (rp_size r0)) GATES) as [E|]; [elim (py_str_gate _ E)|reflexivity].
        - cbn [andb]. assert (X0 : forall l : list (string * nat), filter (fun p => negb false) l = l) by (induction l as [|p l IH]; cbn in *; congruence). rewrite X0, firstn_length_le; lia. }
      rewrite Ef'.
      assert (KP : negb (drop && String.eqb (fst (py_str s, s)) GATES) = true).
      { cbn [fst]. destruct (String.eqb_spec (py_str s) GATES) as [E|]; [elim (py_str_gate _ E)|]. rewrite andb_false_r. reflexivity. }
      assert (Hfs' : nth_error fs' f' = Some (py_str s, s)) by (apply (nth_filter (fun p : string * nat => negb (drop && String.eqb (fst p) GATES)) f fs _ Hfs KP)).
      assert (f' < length fs') by (apply nth_error_Some; congruence).
      eexists. split; [apply (FV _ fs' y f' SZ2); auto|]. cbv zeta.
      assert (RK := label_fields_rank (py_str s) fs 0 f s Hfs). assert (RK' := label_fields_rank (py_str s) fs' 0 f' s Hfs'). cbn [Nat.add] in RK, RK'.
      assert (EQ : count_label (py_str s) (firstn f' fs') = count_label (py_str s) (firstn f fs)).
      { unfold fs', f', keep_fields. rewrite firstn_filter. apply CNT. }
      rewrite EQ in RK'.
      assert (Hs : In s order).
      { apply OIN. unfold kfg. apply in_map_iff. exists (gl, r). split; auto. apply filter_In. split.
        - apply (nth_error_In _ f). clear -Hg Er. revert gs Hg Er. generalize (ft_reps t). induction f; intros [|a l] [|c gs] H1 H2; cbn in *; try discriminate; [congruence|auto].
        - unfold isgated. cbn. destruct (String.eqb_spec gl GATES); [congruence|reflexivity]. }
      apply in_split in Hs as (pre & post & E). rewrite (Y3 pre s post _ f f' E RK RK').
      assert (PL : 0 + nsum (map (fun s0 => count_label (py_str s0) fs) pre) + count_label (py_str s) (firstn f fs) = place Nat.ltb Nat.eqb kfg (before isgated gs f)).
      { rewrite <- place_ltb. unfold place.
        assert (NK : nth_error kfg (before isgated gs f) = Some s).
        { unfold kfg, before. rewrite nth_error_map. assert (X0 := nth_filter (fun p : string * rep G => isgated (fst p)) f (combine gs (ft_reps t)) (gl, r)).
          rewrite firstn_combine' in X0. rewrite <- (map_length fst (filter _ _)), filter_fst in X0 by (rewrite !firstn_length; lia). rewrite X0; [reflexivity| |].
          - clear -Hg Er. revert gs Hg Er. generalize (ft_reps t). induction f; intros [|a l] [|c gs] H1 H2; cbn in *; try discriminate; [congruence|auto].
          - unfold isgated. cbn. destruct (String.eqb_spec gl GATES); [congruence|reflexivity]. }
        rewrite NK. rewrite ORD in E. rewrite <- (sorted_before Nat.leb Nat.eqb Nat.eqb_spec leb_total_nat leb_trans_nat leb_anti_nat _ _ _ _ E).
        cbn [Nat.add]. f_equal.
        - f_equal. apply map_ext. intros s0. apply CK3.
        - rewrite CK2. f_equal. f_equal. unfold kfg, before. rewrite firstn_map. f_equal.
          assert (X0 := firstn_filter (fun p : string * rep G => isgated (fst p)) f (combine gs (ft_reps t))). rewrite firstn_combine' in X0. rewrite <- X0. f_equal.
          rewrite <- (map_length fst (filter _ _)), filter_fst; auto. rewrite !firstn_length. lia. }
      rewrite PL. rewrite <- EW. rewrite Eg; [apply same_refl|]. rewrite <- LKG. apply place_lt; [apply Nat.eqb_spec|apply Nat.ltb_irrefl|].
      apply nth_error_Some. intros NN. unfold kfg, before in NN. apply nth_error_None in NN.
      assert (X0 := nth_filter (fun p : string * rep G => isgated (fst p)) f (combine gs (ft_reps t)) (gl, r)).
      rewrite firstn_combine' in X0. rewrite <- (map_length fst (filter _ _)), filter_fst in X0 by (rewrite !firstn_length; lia).
      assert (X1 : nth_error (filter (fun p : string * rep G => isgated (fst p)) (combine gs (ft_reps t))) (length (filter isgated (firstn f gs))) = Some (gl, r)).
      { apply X0.
        - clear -Hg Er. revert gs Hg Er. generalize (ft_reps t). induction f; intros [|a l] [|c gs] H1 H2; cbn in *; try discriminate; [congruence|auto].
        - unfold isgated. cbn. destruct (String.eqb_spec gl GATES); [congruence|reflexivity]. }
      rewrite map_length in NN. apply nth_error_None in NN. congruence.
    + intros f -> Hg. cbv zeta. injection IO as <-. assert (Hf : f < length (ft_reps t)) by (rewrite <- LG; apply nth_error_Some; congruence).
      destruct (nth_error (ft_reps t) f) as [r|] eqn:Er; [|apply nth_error_None in Er; lia].
      assert (Hfs := NF f GATES r Hg Er). assert (LBL : g1_label GATES r = (GATES, rp_size r)) by reflexivity. rewrite LBL in Hfs.
      assert (R1 : rp_size r = 1) by (apply FG; eapply nth_error_In; eauto). rewrite R1 in Hfs.
      assert (EFS : fs' = fs) by apply keep_false.
      rewrite (FV _ fs) by (auto; lia). f_equal. rewrite EFS in *.
      rewrite (Y4 f GATES 1 Hfs). 2:{ intros H. apply in_map_iff in H as (s & E & _). elim (py_str_gate _ E). }
      assert (RK := label_fields_rank GATES fs 0 f 1 Hfs). cbn [Nat.add] in RK. specialize (OU3 eq_refl).
      set (q := count_label GATES (firstn f fs)) in *.
      assert (Hq : q < length graw). { rewrite LGR. apply nth_error_Some. congruence. }
      assert (W := write_group fs out0 GATES 1 (map (fun c => [c]) g)). rewrite (W ltac:(congruence) FG) with (q := q) (b := [nth q g zero]).
      * rewrite Eg by auto. unfold before. rewrite CNTG. fold q. rewrite EW. reflexivity.
      * rewrite map_length. congruence.
      * intros v Hv. apply in_map_iff in Hv as (c & <- & _). reflexivity.
      * replace (concat (map (fun c : chan => [c]) g)) with g; auto. clear. induction g; cbn; congruence.
      * exact RK.
      * rewrite nth_error_map. rewrite (nth_error_nth' g zero) by lia. reflexivity.
Qed.
End Modules.
