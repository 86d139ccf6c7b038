(** Loops over the groups in the order of their first occurrence; dropout computes field by field. *)
From Coq Require Import Reals ZArith String Ascii Decimal DecimalString List Bool Lia Lra Permutation Sorted FunctionalExtensionality.
From Verif Require Import Base Spec_Fields Model_Groups Model_Rep Model_FieldType Model_Utils Model_Modules Model_Fieldwise Model_Dropout Spec_Fieldwise Spec_Fieldwise2 Spec_Dropout
  Proofs_FieldType Proofs_FieldType2 Proofs_Utils Proofs_Modules Proofs_Modules2 Proofs_Modules3 Proofs_Fieldwise Proofs_Fieldwise2 Proofs_Fieldwise3 Proofs_Fieldwise4 Proofs_Fieldwise5.
Import ListNotations.
Open Scope nat_scope.

(** * The loop without a counter *)
Definition kf_of {K} (size : K -> nat) (ks : list K) : list (K * nat) := map (fun k => (k, size k)) ks.
Lemma kf_of_fst {K} (size : K -> nat) ks : map fst (kf_of size ks) = ks.
Proof. unfold kf_of. rewrite map_map. cbn. apply map_id. Qed.
Lemma kf_of_snd {K} (size : K -> nat) ks : map snd (kf_of size ks) = map size ks.
Proof. unfold kf_of. rewrite map_map. reflexivity. Qed.
Lemma kf_of_fs {K} (size : K -> nat) (key : K -> string) ks : map (fun p => (key (fst p), snd p)) (kf_of size ks) = map (fun k => (key k, size k)) ks.
Proof. unfold kf_of. rewrite map_map. reflexivity. Qed.
Lemma nsum_zero {K} (l : list K) : nsum (map (fun _ => 0) l) = 0.
Proof. induction l; cbn; auto. Qed.

Lemma rank_loop {K G A} (eqb : K -> K -> bool) (key : K -> string) (size : K -> nat) (ks : list K) (reps : list (rep G)) idx
  (op : K -> nat -> list A -> result (list A)) (g : K -> nat -> list A -> list A) (x out : list A) :
  (forall a b, reflect (a = b) (eqb a b)) -> (forall a b, key a = key b -> a = b) -> map size ks = map rp_size reps ->
  (forall k, In k ks -> 0 < size k) -> good_index (map (fun k => (key k, size k)) ks) (map key ks) idx ->
  length x = nsum (map rp_size reps) -> length out = nsum (map rp_size reps) ->
  (forall k j b, In k ks -> length b = size k -> length (g k j b) = size k) ->
  (forall k fm bl, In k ks -> view_fields (size k) fm = Ok bl -> length bl = length (filter (eqb k) ks) ->
     op k 0 fm = Ok (concat (map (fun p => g k (fst p) (snd p)) (enumerate bl)))) ->
  exists y, group_loop key idx idx (fun _ => 0) op x (first_seen eqb ks) 0 out = Ok y /\ length y = nsum (map rp_size reps) /\
    forall f k b, nth_error ks f = Some k -> nth_error (fields reps x) f = Some b -> nth_error (fields reps y) f = Some (g k (rank_of eqb ks f) b).
Proof.
  intros EP KI SZ POS GI LX LO GL OP.
  assert (FI : forall k, In k (first_seen eqb ks) <-> In k ks) by (intros; apply first_seen_in; auto).
  destruct (grouped_loop eqb key idx idx (fun _ => 0) op x (kf_of size ks) (kf_of size ks) size size g (first_seen eqb ks)) with (out := out) as (y & Y1 & Y2 & Y3); auto.
  - intros k m H. apply in_map_iff in H as (k' & E & _). congruence.
  - intros k m H. apply in_map_iff in H as (k' & E & _). congruence.
  - intros k Hk. apply POS, FI. auto.
  - apply first_seen_nodup. auto.
  - intros k. rewrite kf_of_fst. auto.
  - intros k j b Hk. apply GL, FI. auto.
  - rewrite kf_of_snd, SZ. auto.
  - rewrite kf_of_fs, map_map. cbn [fst]. exact GI.
  - rewrite kf_of_fs, map_map. cbn [fst]. exact GI.
  - rewrite kf_of_snd, SZ. auto.
  - intros pre k post fm bl E V LB. rewrite nsum_zero. cbn [Nat.add]. rewrite kf_of_fst in LB. apply OP; auto. apply FI. rewrite E. apply in_elt.
  - exists y. split; [auto|]. split; [congruence|]. intros f k b Hf Hb.
    assert (SS : map snd (kf_of size ks) = map rp_size reps) by (rewrite kf_of_snd; auto).
    pose proof (fields_len _ _ _ _ Hb) as Lf. rewrite (fs_fields _ (kf_of size ks) key) in Hb by auto. injection Hb as <-.
    rewrite (fs_fields _ (kf_of size ks) key) by auto. f_equal.
    assert (Hk : In k (first_seen eqb ks)) by (apply FI; eapply nth_error_In; eauto). apply in_split in Hk as (pre & post & E).
    rewrite (Y3 pre k post f (size k) E); [|unfold kf_of; rewrite nth_error_map, Hf; reflexivity].
    rewrite nsum_zero, kf_of_fst. cbn [Nat.add]. unfold rank_of. rewrite Hf. reflexivity.
Qed.

(** * Contiguous groups *)
Definition split_label (ls : list string) (l : string) : Prop :=
  exists i j k, i < j /\ j < k /\ nth_error ls i = Some l /\ nth_error ls k = Some l /\ nth_error ls j <> Some l.
Lemma split_more ls l m : split_label ls l -> split_label (ls ++ [m]) l.
Proof.
  intros (i & j & k & I1 & I2 & E1 & E2 & E3). assert (Hk : k < length ls) by (apply nth_error_Some; congruence).
  exists i, j, k. rewrite !nth_error_app1 by lia. auto.
Qed.
Lemma contiguous_false labels : forall done last d, (forall l, In l (map fst d) <-> In l done) ->
  (match last with None => done = [] | Some m => exists done', done = done' ++ [m] end) ->
  (forall l, kget String.eqb d l = Some false -> split_label done l) ->
  forall l, kget String.eqb (contiguous_loop last d labels) l = Some false -> split_label (done ++ labels) l.
Proof.
  induction labels as [|l0 labels IH]; intros done last d K LA I l H; cbn [contiguous_loop] in H.
  { rewrite app_nil_r. auto. }
  replace (done ++ l0 :: labels) with ((done ++ [l0]) ++ labels) by (rewrite <- app_assoc; reflexivity).
  eapply IH; [| | |exact H]; clear H IH.
  - intros x. destruct (match last with Some l' => String.eqb l0 l' | None => false end) eqn:ES.
    + destruct last as [m|]; [|discriminate]. apply String.eqb_eq in ES. subst m. destruct LA as [done' ->]. rewrite K, !in_app_iff. cbn. tauto.
    + destruct (kget String.eqb d l0); rewrite (kset_keys _ String.eqb_spec), K, in_app_iff; cbn; intuition auto.
  - eexists. reflexivity.
  - intros x. destruct (match last with Some l' => String.eqb l0 l' | None => false end) eqn:ES.
    + intros Hx. apply split_more. auto.
    + destruct (kget String.eqb d l0) as [v|] eqn:EK.
      * rewrite (kget_kset _ String.eqb_spec). destruct (String.eqb_spec l0 x) as [->|N]; [|intros Hx; apply split_more; auto].
        intros _. assert (Hin : In x done). { apply K. apply (kget_keys _ String.eqb_spec). eauto. }
        destruct last as [m|]; [|subst done; destruct Hin]. apply String.eqb_neq in ES. destruct LA as [done' ->].
        apply in_app_iff in Hin as [Hin|Hin]; [|cbn in Hin; intuition congruence]. apply In_nth_error in Hin as [i Hi].
        assert (Li : i < length done') by (apply nth_error_Some; congruence).
        exists i, (length done'), (length (done' ++ [m])). rewrite app_length. cbn [length]. split; [lia|]. split; [lia|]. split.
        { rewrite nth_error_app1 by (rewrite app_length; cbn; lia). rewrite nth_error_app1 by auto. auto. }
        split.
        { rewrite nth_error_app2 by (rewrite app_length; cbn; lia). rewrite app_length. cbn [length]. rewrite Nat.sub_diag. reflexivity. }
        rewrite nth_error_app1 by (rewrite app_length; cbn; lia). rewrite nth_error_app2 by lia. rewrite Nat.sub_diag. cbn. congruence.
      * rewrite (kget_kset _ String.eqb_spec). destruct (String.eqb_spec l0 x); [discriminate|]. intros Hx. apply split_more. auto.
Qed.
Lemma group_slices fs d : together (map fst fs) -> group_index fs = Ok d -> forall l, In l (map fst fs) -> exists a b, kget String.eqb d l = Some (CSlice a b).
Proof.
  intros T H l Hl. destruct (flags_spec (map fst fs)) as (ND & K & C). unfold group_index in H. fold (flags_of (map fst fs)) in H.
  apply K, (kget_keys _ String.eqb_spec) in Hl as [b Hb]. destruct (rmap_index _ _ _ H ND l b Hb) as (c & E1 & E2).
  assert (B : b = true).
  { destruct b; auto. exfalso. assert (S1 := contiguous_false (map fst fs) [] None []). cbn [app] in S1.
    destruct (S1 ltac:(reflexivity) ltac:(reflexivity) ltac:(discriminate) l Hb) as (i & j & k & I1 & I2 & N1 & N2 & N3). apply N3. eapply T; [exact I1|exact I2| |]; eauto. }
  subst b. unfold branch_index in E1. cbn [fst snd] in E1. apply rbind_ok in E1 as (c0 & E0 & E1).
  destruct (label_indices l 0 fs); [discriminate|]. injection E0 as <-. exists (fold_left Nat.min l0 n), (fold_left Nat.max l0 n + 1).
  rewrite E2. f_equal. destruct (has_dot l) eqn:HD in E1; try discriminate; congruence.
Qed.

(** * Dropout *)
Lemma together_map {A B} (h : A -> B) (l : list A) : (forall a b, h a = h b -> a = b) -> together l -> together (map h l).
Proof.
  intros J T i j k b I1 I2 E1 E2. rewrite nth_error_map in *. destruct (nth_error l i) as [a|] eqn:Ea; [|discriminate]. injection E1 as E1.
  destruct (nth_error l k) as [c|] eqn:Ec; [|discriminate]. injection E2 as E2. rewrite <- E2 in E1. apply J in E1. subst c.
  rewrite (T i j k a I1 I2 Ea Ec). cbn. congruence.
Qed.

Section Drop.
Context {GS G X : Type} (gs_eqb : GS -> GS -> bool) (rp_eqb : rep G -> rep G -> bool).
Notation ftype := (ftype GS (rep G)).
Notation chan := (X -> R).
Notation gtensor := (gtensor GS (rep G) chan).
Notation fdrop_forward := (fdrop_forward gs_eqb rp_eqb).
Notation typed := (typed gs_eqb rp_eqb).

Lemma drop_entry_eq p (u c : chan) (inplace : bool) : p <> 1%R ->
  (fun q => if inplace then c q * (drop_mask p u q / (1 - p)) else c q * drop_mask p u q / (1 - p))%R =
  (fun q => c q * (if Rlt_dec p (u q) then / (1 - p) else 0))%R.
Proof.
  intros P. extensionality q. unfold drop_mask. assert ((1 - p)%R <> 0%R) by lra. destruct (Rlt_dec p (u q)), inplace; field; auto.
Qed.
Lemma dropout_field_ok p inplace u s (fm : list chan) bl : p <> 1%R -> view_fields s fm = Ok bl ->
  dropout_field p inplace u s fm = Ok (concat (map (fun jb => drop_act p (u (fst jb)) (snd jb)) (enumerate bl))).
Proof.
  intros P V. unfold dropout_field. rewrite V. cbn [rbind]. destruct (Req_EM_T p 1); [tauto|]. do 2 f_equal. apply map_ext. intros [j b]. cbn [fst snd].
  unfold drop_act, scaled. apply map_ext. intros c. apply drop_entry_eq. auto.
Qed.
Lemma drop_act_len p (u : chan) b : length (drop_act p u b) = length b.
Proof. apply map_length. Qed.
Lemma dropout_field_len p inplace u s (fm vals : list chan) : dropout_field p inplace u s fm = Ok vals -> length vals = length fm.
Proof.
  intros H. unfold dropout_field in H. apply rbind_ok in H as (bl & V & H). destruct (Req_EM_T p 1); [discriminate|]. injection H as <-.
  destruct (view_inv _ _ _ V) as (S0 & L & E). rewrite L. rewrite (concat_blocks_length s).
  - rewrite map_length. unfold enumerate. rewrite combine_length, seq_length. lia.
  - intros b Hb. apply in_map_iff in Hb as ([j b0] & <- & Hb). rewrite map_length. cbn [snd]. apply in_combine_r in Hb. rewrite E in Hb. eapply blocks_len; eauto.
Qed.

Lemma by_size_ks (t : ftype) : by_size t = map (fun s => (py_str s, s)) (map rp_size (ft_reps t)).
Proof. unfold by_size. rewrite map_map. reflexivity. Qed.

Lemma agree_picks {A} (d d' : list A) idx v : (forall i, In i idx -> nth_error d i = nth_error d' i) -> picks d idx v -> picks d' idx v.
Proof.
  unfold picks. intros H P. rewrite P. apply map_ext_in. auto.
Qed.
Lemma inplace_as_loop (m : fdrop (GS:=GS) (G:=G)) (u : nat -> nat -> chan) (ks : list nat) (x : list chan) : good_index (map (fun s => (py_str s, s)) ks) (map py_str ks) (fd_idx m) ->
  (forall s, In s ks -> exists a b, kget String.eqb (fd_idx m) (py_str s) = Some (CSlice a b)) -> length x = nsum ks ->
  forall order cur, NoDup order -> (forall s, In s order -> In s ks) -> length cur = length x ->
    (forall s, In s order -> forall i, In i (label_indices (py_str s) 0 (map (fun s => (py_str s, s)) ks)) -> nth_error cur i = nth_error x i) ->
  inplace_loop m u order cur =
  group_loop py_str (fd_idx m) (fd_idx m) (fun _ => 0) (fun s _ fm => dropout_field (fd_p m) true (u s) s fm) x order 0 cur.
Proof.
  intros GI SL LX. set (fs := map (fun s => (py_str s, s)) ks) in *. assert (LS : nsum (map snd fs) = length x). { unfold fs. rewrite map_map. cbn. rewrite map_id. auto. }
  induction order as [|s order IH]; intros cur ND SUB LC AG; [reflexivity|]. cbn [inplace_loop group_loop].
  destruct (GI (py_str s)) as (c & E1 & OK1 & CL). { apply in_map. apply SUB. cbn; auto. }
  destruct (SL s) as (a & b & E2). { apply SUB. cbn; auto. } assert (c = CSlice a b) by congruence. subst c. clear E2.
  unfold attr_of. rewrite E1. cbn [rbind]. assert (BD : Forall (fun i => i < length x) (chan_list (CSlice a b))) by (rewrite CL, <- LS; apply ind_bound).
  destruct (gather_ok (CSlice a b) x OK1 BD) as (fm & F1 & F2). destruct (gather_ok (CSlice a b) cur OK1) as (fm' & F1' & F2'). { rewrite LC. auto. }
  assert (fm' = fm). { eapply picks_fun; [|exact F2]. eapply agree_picks; [|exact F2']. rewrite CL. apply AG. cbn; auto. } subst fm'.
  rewrite F1, F1'. cbn [rbind]. destruct (dropout_field (fd_p m) true (u s) s fm) as [vals|e] eqn:EV; cbn [rbind]; [|reflexivity].
  assert (LV : length vals = length (chan_list (CSlice a b))) by (rewrite (dropout_field_len _ _ _ _ _ _ EV); eapply picks_length; eauto).
  destruct (scatter_ok (CSlice a b) cur vals OK1) as (cur' & C1 & C2 & C3 & C4); auto. { apply seq_NoDup. } { rewrite LC. auto. }
  rewrite C1. cbn [rbind]. inversion ND; subst. apply IH; auto; [intros ? ?; apply SUB; cbn; auto|congruence|].
  intros s' Hs' i Hi. rewrite C4; [apply (AG s'); cbn; auto|]. rewrite CL. intros Hi'. pose proof (ind_disjoint _ _ _ _ Hi Hi') as E. apply py_str_inj in E. congruence.
Qed.

Lemma fdrop_fieldwise t p inplace m u junk (x : gtensor) : fdrop_make t p inplace = Ok m -> size_pos t -> typed t x -> p <> 1%R ->
  (inplace = true -> together (map rp_size (ft_reps t))) ->
  exists y after, fdrop_forward true junk u m x = Ok (y, after) /\ gt_type y = t /\ after = (if inplace then gt_data y else gt_data x) /\
    fieldwise (ft_reps t) (ft_reps t) (fun f => drop_act p (u (nth f (map rp_size (ft_reps t)) 0) (rank_of Nat.eqb (map rp_size (ft_reps t)) f))) (gt_data x) (gt_data y).
Proof.
  intros MK SP [TY LX] P TG. unfold fdrop_make in MK. destruct (Rlt_dec p 0); [discriminate|]. destruct (Rlt_dec 1 p); [discriminate|].
  apply rbind_ok in MK as (idx & GI & MK). injection MK as <-. set (ks := map rp_size (ft_reps t)) in *.
  assert (GI' := group_index_good _ _ GI). rewrite by_size_ks in GI'. fold ks in GI'.
  replace (map fst (map (fun s => (py_str s, s)) ks)) with (map py_str ks) in GI' by (rewrite map_map; reflexivity).
  assert (L : forall (inpl : bool) (out : list chan), length out = nsum ks -> exists y, group_loop py_str idx idx (fun _ => 0) (fun s _ fm => dropout_field p inpl (u s) s fm) (gt_data x) (first_seen Nat.eqb ks) 0 out = Ok y /\
     length y = nsum ks /\ fieldwise (ft_reps t) (ft_reps t) (fun f => drop_act p (u (nth f ks 0) (rank_of Nat.eqb ks f))) (gt_data x) y).
  { intros inpl out LO. destruct (rank_loop Nat.eqb py_str (fun s => s) ks (ft_reps t) idx (fun s _ fm => dropout_field p inpl (u s) s fm)
      (fun s j b => drop_act p (u s j) b) (gt_data x) out) as (y & Y1 & Y2 & Y3); auto.
    - apply Nat.eqb_spec. - apply py_str_inj. - rewrite map_id. reflexivity.
    - intros k Hk. apply in_map_iff in Hk as (r & <- & Hr). apply SP. auto.
    - intros k j b _ Hb. rewrite drop_act_len. auto.
    - intros k fm bl Hk V LB. apply dropout_field_ok; auto.
    - exists y. split; [auto|]. split; [auto|]. split; [auto|]. split; [auto|]. intros f b Hb. pose proof (fields_len _ _ _ _ Hb) as Lf.
      destruct (nth_error ks f) as [k|] eqn:Ek. 2:{ apply nth_error_None in Ek. unfold ks in Ek. rewrite map_length in Ek. lia. }
      exists (drop_act p (u k (rank_of Nat.eqb ks f)) b). split; [apply (Y3 f k b); auto|]. rewrite (nth_error_nth ks f 0 Ek). apply same_refl. }
  unfold Model_Dropout.fdrop_forward. cbn [fd_in fd_inplace fd_idx fd_p]. rewrite TY. cbn [assert_ negb]. unfold fd_order. cbn [fd_in]. fold ks. destruct inplace.
  - assert (FI : forall s, In s (first_seen Nat.eqb ks) <-> In s ks) by (intros; apply first_seen_in; apply Nat.eqb_spec).
    rewrite (inplace_as_loop _ u ks (gt_data x)); cbn [fd_idx fd_p]; auto.
    + destruct (L true (gt_data x) LX) as (y & Y1 & Y2 & Y3). rewrite Y1. cbn [rbind].
      rewrite mk_gt_fwd by exact Y2. cbn [rbind]. eexists. eexists. split; [reflexivity|]. cbn [gt_type gt_data]. auto.
    + intros s Hs. apply (group_slices (by_size t) idx); auto.
      * rewrite by_size_ks, map_map. cbn [fst]. apply together_map; [apply py_str_inj|apply TG; auto].
      * rewrite by_size_ks, map_map. cbn [fst]. apply in_map. auto.
    + apply first_seen_nodup, Nat.eqb_spec.
    + intros s. apply FI.
  - destruct (L false (empty junk (length (gt_data x)))) as (y & Y1 & Y2 & Y3). { rewrite empty_length. auto. }
    rewrite Y1. cbn [rbind]. rewrite mk_gt_fwd by exact Y2. cbn [rbind]. eexists. eexists. split; [reflexivity|]. cbn [gt_type gt_data]. auto.
Qed.
End Drop.
