(** GNormBatchNorm: values, simulation, histories. *)
From Coq Require Import Reals ZArith String Ascii Decimal DecimalString List Bool Lia Lra Permutation Sorted FunctionalExtensionality.
From Verif Require Import Base LinAlg Spec Spec_Fields Model_Groups Model_Rep Model_FieldType Model_Tensor Model_Utils Model_Modules Model_Fieldwise Model_BatchNorm Spec_Fieldwise Spec_Fieldwise2 Spec_Dropout Spec_BatchNorm
  Proofs_Rep Proofs_FieldType Proofs_FieldType2 Proofs_Tensor Proofs_Utils Proofs_Modules Proofs_Modules2 Proofs_Modules3 Proofs_Fieldwise Proofs_Fieldwise2 Proofs_Fieldwise3 Proofs_Fieldwise4 Proofs_Fieldwise5 Proofs_Fieldwise8 Proofs_Dropout Proofs_BatchNorm Proofs_BatchNorm2 Proofs_BatchNorm3 Proofs_BatchNorm4 Proofs_BatchNorm5 Proofs_BatchNorm7.
Import ListNotations.
Open Scope R_scope.

(** the loop over the groups in any order that lists every group once *)
Lemma rank_loop_order {K G A} (eqb : K -> K -> bool) (key : K -> string) (size : K -> nat) (ks : list K) (reps : list (rep G)) idx order
  (op : K -> nat -> list A -> result (list A)) (g : K -> nat -> list A -> list A) (x out : list A) :
  (forall a b, reflect (a = b) (eqb a b)) -> (forall a b, key a = key b -> a = b) -> map size ks = map rp_size reps ->
  (forall k, In k ks -> 0 < size k)%nat -> good_index (map (fun k => (key k, size k)) ks) (map key ks) idx ->
  NoDup order -> (forall k, In k order <-> In k ks) ->
  length x = nsum (map rp_size reps) -> length out = nsum (map rp_size reps) ->
  (forall k j b, In k ks -> length b = size k -> length (g k j b) = size k) ->
  (forall k fm bl, In k ks -> view_fields (size k) fm = Ok bl -> length bl = length (filter (eqb k) ks) ->
     op k 0%nat fm = Ok (concat (map (fun p => g k (fst p) (snd p)) (enumerate bl)))) ->
  exists y, group_loop key idx idx (fun _ => 0%nat) op x order 0 out = Ok y /\ length y = nsum (map rp_size reps) /\
    forall f k b, nth_error ks f = Some k -> nth_error (fields reps x) f = Some b -> nth_error (fields reps y) f = Some (g k (rank_of eqb ks f) b).
Proof.
  intros EP KI SZ POS GI ND FI LX LO GL OP.
  destruct (grouped_loop eqb key idx idx (fun _ => 0%nat) op x (kf_of size ks) (kf_of size ks) size size g order) with (out := out) as (y & Y1 & Y2 & Y3); auto.
  - intros k m H. apply in_map_iff in H as (k' & E & _). congruence.
  - intros k m H. apply in_map_iff in H as (k' & E & _). congruence.
  - intros k Hk. apply POS, FI. auto.
  - intros k. rewrite kf_of_fst. auto.
  - intros k j b Hk. apply GL, FI. auto.
  - rewrite kf_of_snd, SZ. auto.
  - rewrite kf_of_fs, map_map. cbn [fst]. exact GI.
  - rewrite kf_of_fs, map_map. cbn [fst]. exact GI.
  - rewrite kf_of_snd, SZ. auto.
  - intros pre k post fm bl E V LB. rewrite nsum_zero. cbn [Nat.add]. rewrite kf_of_fst in LB. apply OP; auto. apply FI. rewrite E. apply in_elt.
  - exists y. split; [auto|]. split; [congruence|]. intros f k b Hf Hb.
    assert (SS : map snd (kf_of size ks) = map rp_size reps) by (rewrite kf_of_snd; auto).
    pose proof (fields_len _ _ _ _ Hb) as Lf. rewrite (fs_fields _ (kf_of size ks) key) in Hb by auto. injection Hb as <-.
    rewrite (fs_fields _ (kf_of size ks) key) by auto. f_equal.
    assert (Hk : In k order) by (apply FI; eapply nth_error_In; eauto). apply in_split in Hk as (pre & post & E).
    rewrite (Y3 pre k post f (size k) E); [|unfold kf_of; rewrite nth_error_map, Hf; reflexivity].
    rewrite nsum_zero, kf_of_fst. cbn [Nat.add]. unfold rank_of. rewrite Hf. reflexivity.
Qed.
Lemma enum_in {A} (l : list A) j b : In (j, b) (enumerate l) -> nth_error l j = Some b.
Proof.
  intros Hj. apply In_nth_error in Hj as [q Hq]. destruct (nth_error l q) as [b'|] eqn:Eb.
  - rewrite (enumerate_at _ _ _ Eb) in Hq. injection Hq as <- <-. auto.
  - apply nth_error_None in Eb. assert (H : nth_error (enumerate l) q = None) by (apply nth_error_None; rewrite enumerate_len; auto). congruence.
Qed.

Section Step.
Context {G : Type}.
Variable cob_id : rep G -> bool.
Definition gn_used (tr : bool) n (r : rep G) (st : list (list R * list R)) (j : nat) (b : list chan) : list R * list R :=
  if tr then gn_stats n r (gto cob_id r b) else nth j st ([], []).
Definition gn_pars (params : option (list (list R * list R))) (j : nat) : option (list R * list R) :=
  match params with Some p => Some (nth j p ([], [])) | None => None end.
Definition gn_out (tr : bool) eps n (r : rep G) params st (j : nat) (b : list chan) : list chan :=
  gback cob_id r (gn_val eps r (gn_used tr n r st j b) (gn_pars params j) (gto cob_id r b)).
Definition avg_stat (w : R) (o v : list R * list R) : list R * list R :=
  (map (fun v => average w (fst v) (snd v)) (combine (fst o) (fst v)), map (fun v => average w (fst v) (snd v)) (combine (snd o) (snd v))).
Definition gn_next (tr : bool) (w : R) n (r : rep G) (st : list (list R * list R)) (bl : list (list chan)) : list (list R * list R) :=
  if tr then map (fun ob => avg_stat w (fst ob) (gn_stats n r (gto cob_id r (snd ob)))) (combine st bl) else st.
Lemma gn_step_ok tr eps w n r params st fm bl : 0 < eps -> irs_ok (rp_irreps r) -> (tr = true -> (0 < n)%nat) -> view_fields (rp_size r) fm = Ok bl -> length st = length bl ->
  (forall s, In s st -> stat_ok r s) -> (forall p, params = Some p -> length p = length bl) ->
  gn_step cob_id tr eps w n r params st fm = Ok (gn_next tr w n r st bl, concat (map (fun p => gn_out tr eps n r params st (fst p) (snd p)) (enumerate bl))).
Proof.
  intros EPS OK N0 V LS SO LP. unfold gn_step. replace (tr && (n =? 0)%nat)%bool with false.
  2:{ destruct tr; [|reflexivity]. symmetry. apply Nat.eqb_neq. specialize (N0 eq_refl). lia. }
  rewrite V. cbn [rbind]. set (bl' := if cob_id r then bl else map (apply_mat (rp_size r) (rp_inv r)) bl).
  assert (BL : bl' = map (gto cob_id r) bl). { unfold bl', gto. destruct (cob_id r); [symmetry; apply map_id|reflexivity]. }
  assert (LB : length bl' = length bl) by (rewrite BL; apply map_length).
  assert (ST : (if tr then rbind (zip_eq st (map (gn_stats n r) bl')) (fun z => Ok (map (fun ob : (list R * list R) * (list R * list R) =>
                (map (fun v => ema w (fst v) (snd v)) (combine (fst (fst ob)) (fst (snd ob))),
                 map (fun v => ema w (fst v) (snd v)) (combine (snd (fst ob)) (snd (snd ob))))) z))
         else Ok st) = Ok (gn_next tr w n r st bl)).
  { unfold gn_next. destruct tr; [|reflexivity]. rewrite zip_eq_ok by (rewrite map_length; lia). cbn [rbind]. f_equal. rewrite BL, map_map, <- combine_map_r, map_map.
    apply map_ext. intros [o b]. cbn [fst snd]. unfold avg_stat. f_equal; apply map_ext; intros; apply ema_average. }
  rewrite ST. cbn [rbind]. set (used := if tr then map (gn_stats n r) bl' else st).
  assert (LU : length used = length bl) by (unfold used; destruct tr; [rewrite map_length; auto|auto]).
  assert (SU : forall s, In s used -> stat_ok r s).
  { unfold used. destruct tr; [|auto]. intros s Hs. apply in_map_iff in Hs as (b & <- & _). apply gn_stats_ok; auto. }
  rewrite zip_eq_ok by lia. cbn [rbind].
  assert (NU : forall j b, nth_error bl j = Some b -> nth j used ([], []) = gn_used tr n r st j b).
  { intros j b Hj. unfold used, gn_used. destruct tr; [|reflexivity]. apply nth_error_nth. rewrite BL, map_map, nth_error_map, Hj. reflexivity. }
  assert (OUT : match params with
         | Some pr => rbind (zip_eq pr (combine used bl')) (fun z' => rmap (fun v => gn_field eps r (fst (snd v)) (Some (fst v)) (snd (snd v))) z')
         | None => rmap (fun v => gn_field eps r (fst v) None (snd v)) (combine used bl') end
         = Ok (map (fun p => gn_val eps r (gn_used tr n r st (fst p) (snd p)) (gn_pars params (fst p)) (gto cob_id r (snd p))) (enumerate bl))).
  { destruct params as [pr|].
    - specialize (LP pr eq_refl). rewrite zip_eq_ok by (rewrite combine_length; lia). cbn [rbind].
      rewrite (rmap_pure _ (fun v => gn_val eps r (fst (snd v)) (Some (fst v)) (snd (snd v)))).
      2:{ intros [q [v b]] Hv. cbn [fst snd]. apply gn_field_ok; [auto|]. apply SU. apply in_combine_r, in_combine_l in Hv. auto. }
      f_equal. rewrite BL, <- combine_map_r.
      assert (CM : combine pr (map (fun p : (list R * list R) * list chan => (fst p, gto cob_id r (snd p))) (combine used bl)) = map (fun p => (fst p, (fst (snd p), gto cob_id r (snd (snd p))))) (combine pr (combine used bl))) by (symmetry; apply (combine_map_r (fun p : (list R * list R) * list chan => (fst p, gto cob_id r (snd p))))).
      rewrite CM, map_map. cbn [fst snd]. rewrite (enum_combine2 (fun q v b => gn_val eps r v (Some q) (gto cob_id r b)) pr used bl ([], []) ([], [])) by lia.
      apply map_ext_in. intros [j b] Hj. cbn [fst snd]. rewrite (NU j b (enum_in _ _ _ Hj)). reflexivity.
    - rewrite (rmap_pure _ (fun v => gn_val eps r (fst v) None (snd v))).
      2:{ intros [v b] Hv. cbn [fst snd]. apply gn_field_ok; [auto|]. apply SU. apply in_combine_l in Hv. auto. }
      f_equal. rewrite BL, <- combine_map_r, map_map. cbn [fst snd]. rewrite (enum_combine (fun v b => gn_val eps r v None (gto cob_id r b)) used bl ([], [])) by lia.
      apply map_ext_in. intros [j b] Hj. cbn [fst snd]. rewrite (NU j b (enum_in _ _ _ Hj)). reflexivity. }
  rewrite OUT. cbn [rbind]. f_equal. f_equal. f_equal. unfold gn_out, gback. destruct (cob_id r); [reflexivity|]. rewrite map_map. reflexivity.
Qed.
Lemma avg_stat_ok w (r : rep G) o v : 0 <= w <= 1 -> stat_ok r o -> stat_ok r v -> stat_ok r (avg_stat w o v).
Proof.
  intros W (A1 & A2 & A3) (B1 & B2 & B3). unfold avg_stat. split; cbn [fst snd]; [rewrite map_length, combine_length; lia|]. split; [rewrite map_length, combine_length; lia|].
  intros z Hz. apply in_map_iff in Hz as ([a b] & <- & H). cbn [fst snd]. apply average_pos; [auto|apply A3; eapply in_combine_l; eauto|apply B3; eapply in_combine_r; eauto].
Qed.
Lemma gn_next_ok tr w n (r : rep G) st bl : 0 <= w <= 1 -> irs_ok (rp_irreps r) -> (tr = true -> (0 < n)%nat) -> length st = length bl -> (forall s, In s st -> stat_ok r s) ->
  length (gn_next tr w n r st bl) = length bl /\ forall s, In s (gn_next tr w n r st bl) -> stat_ok r s.
Proof.
  intros W OK N0 L SO. unfold gn_next. destruct tr; [|auto]. split; [rewrite map_length, combine_length; lia|]. intros s Hs. apply in_map_iff in Hs as ([o b] & <- & H). cbn [fst snd].
  apply avg_stat_ok; [auto|apply SO; eapply in_combine_l; eauto|]. apply gn_stats_ok; auto.
Qed.
End Step.

(** * The module *)
Section GNorm.
Context {GS G : Type} (gs_eqb : GS -> GS -> bool) (rp_eqb : rep G -> rep G -> bool).
Variable cob_id : rep G -> bool.
Notation ftype := (ftype GS (rep G)).
Notation gtensor := (gtensor GS (rep G) chan).
Notation gbn := (@gbn GS G).
Notation forward := (gnorm_forward gs_eqb rp_eqb cob_id).
Notation typed := (typed gs_eqb rp_eqb).
Notation rank := (rank_of String.eqb).

Definition gsize (uniq : list (rep G)) (k : string) : nat := match find (fun r => String.eqb (rp_name r) k) uniq with Some r => rp_size r | None => 0 end.
(** the unique representations: one for each name *)
Definition uniq_ok (t : ftype) (uniq : list (rep G)) : Prop := (forall r, In r uniq <-> In r (ft_reps t)) /\ NoDup (map rp_name uniq).
Lemma uniq_find t uniq r : uniq_ok t uniq -> In r (ft_reps t) -> find (fun r0 => String.eqb (rp_name r0) (rp_name r)) uniq = Some r.
Proof.
  intros [U ND] H. apply U in H. clear U. induction uniq as [|a l IH]; [destruct H|]. cbn [find]. cbn [map] in ND. inversion ND as [|? ? N0 N1]; subst. destruct H as [->|H].
  - rewrite String.eqb_refl. reflexivity.
  - destruct (String.eqb_spec (rp_name a) (rp_name r)) as [E|]; [|apply IH; auto]. exfalso. apply N0. rewrite E. apply in_map. auto.
Qed.
Definition gb_wf (m : gbn) : Prop :=
  size_pos (gb_in m) /\ uniq_ok (gb_in m) (gb_uniq m) /\
  good_index (map (fun k => (k, gsize (gb_uniq m) k)) (gb_names (gb_in m))) (gb_names (gb_in m)) (gb_idx m) /\
  0 < gb_eps m /\ momentum_ok (gb_momentum m) /\
  (forall r, In r (ft_reps (gb_in m)) -> irs_ok (rp_irreps r) /\ cob_ok cob_id r) /\
  (forall r, In r (ft_reps (gb_in m)) -> length (gb_stats m (rp_name r)) = nfields String.eqb (gb_names (gb_in m)) (rp_name r) /\ (forall s, In s (gb_stats m (rp_name r)) -> stat_ok r s)) /\
  (forall p r, gb_params m = Some p -> In r (ft_reps (gb_in m)) -> length (p (rp_name r)) = nfields String.eqb (gb_names (gb_in m)) (rp_name r) /\ (forall s, In s (p (rp_name r)) -> par_ok r s)).
Definition gb_par (m : gbn) (k : string) : option (list (list R * list R)) := match gb_params m with Some p => Some (p k) | None => None end.

Theorem gnorm_value tr n junk m (x : gtensor) : gb_wf m -> typed (gb_in m) x -> (tr = true -> (0 < n)%nat) ->
  exists y m1, forward tr n junk m x = Ok (y, m1) /\ gb_wf m1 /\ gt_type y = gb_in m /\ length (gt_data y) = nsum (map rp_size (ft_reps (gb_in m))) /\
    (gb_in m1 = gb_in m /\ gb_uniq m1 = gb_uniq m /\ gb_idx m1 = gb_idx m /\ gb_eps m1 = gb_eps m /\ gb_momentum m1 = gb_momentum m /\ gb_params m1 = gb_params m /\
     gb_batches m1 = (if tr then S (gb_batches m) else gb_batches m)) /\
    (forall r, In r (ft_reps (gb_in m)) -> gb_stats m1 (rp_name r) = gn_next cob_id tr (weight_of (gb_momentum m) (S (gb_batches m))) n r (gb_stats m (rp_name r))
        (group_of (fun l => l) (gsize (gb_uniq m)) (gb_names (gb_in m)) (ft_reps (gb_in m)) (gt_data x) (rp_name r))) /\
    (forall f r b, nth_error (ft_reps (gb_in m)) f = Some r -> nth_error (fields (ft_reps (gb_in m)) (gt_data x)) f = Some b ->
       nth_error (fields (ft_reps (gb_in m)) (gt_data y)) f =
       Some (gn_out cob_id tr (gb_eps m) n r (gb_par m (rp_name r)) (gb_stats m (rp_name r)) (rank (gb_names (gb_in m)) f) b)).
Proof.
  intros (SP & UO & GI & EPS & MO & RO & SO & PO) (TY & LX) N0. set (ks := gb_names (gb_in m)) in *. set (reps := ft_reps (gb_in m)) in *. set (uniq := gb_uniq m) in *.
  assert (EP : forall a b, reflect (a = b) (String.eqb a b)) by apply String.eqb_spec. assert (KI : forall a b : string, a = b -> a = b) by auto.
  assert (FN : forall r, In r reps -> find (fun r0 => String.eqb (rp_name r0) (rp_name r)) uniq = Some r) by (intros r Hr; apply (uniq_find (gb_in m)); auto).
  assert (GZ : forall r, In r reps -> gsize uniq (rp_name r) = rp_size r) by (intros r Hr; unfold gsize; rewrite FN; auto).
  assert (SZ : map (gsize uniq) ks = map rp_size reps). { unfold ks, gb_names. fold reps. rewrite map_map. apply map_ext_in. auto. }
  assert (KR : forall k, In k ks -> exists r, In r reps /\ k = rp_name r). { intros k Hk. apply in_map_iff in Hk as (r & <- & Hr). exists r. auto. }
  assert (POS : forall k, In k ks -> (0 < gsize uniq k)%nat). { intros k Hk. apply KR in Hk as (r & Hr & ->). rewrite GZ by auto. apply SP. auto. }
  assert (FI : forall k, In k (map rp_name uniq) <-> In k ks).
  { intros k. unfold ks, gb_names. fold reps. split; intros H; apply in_map_iff in H as (r & <- & Hr); apply in_map; apply UO; auto. }
  assert (ND : NoDup (map rp_name uniq)) by apply UO.
  assert (GI' : good_index (map (fun k => (k, gsize uniq k)) ks) (map (fun l => l) ks) (gb_idx m)) by (rewrite map_id; exact GI).
  assert (GL : forall k, length (group_of (fun l => l) (gsize uniq) ks reps (gt_data x) k) = nfields String.eqb ks k) by (intros; apply group_len; auto).
  set (bt := if tr then S (gb_batches m) else gb_batches m). set (w := weight_of (gb_momentum m) (S (gb_batches m))).
  assert (W : 0 <= w <= 1) by (apply weight_range; [auto|lia]).
  set (step := fun name st fm => match find (fun r => String.eqb (rp_name r) name) uniq with
            | Some r => gn_step cob_id tr (gb_eps m) (factor (gb_momentum m) bt) n r (gb_par m name) st fm
            | None => Err "KeyError"%string end).
  set (g := fun (k : string) (j : nat) (b : list chan) => match find (fun r => String.eqb (rp_name r) k) uniq with Some r => gn_out cob_id tr (gb_eps m) n r (gb_par m k) (gb_stats m k) j b | None => b end).
  set (nxt := fun (k : string) bl => match find (fun r => String.eqb (rp_name r) k) uniq with Some r => gn_next cob_id tr w n r (gb_stats m k) bl | None => [] end).
  assert (ST : forall k fm bl, In k ks -> view_fields (gsize uniq k) fm = Ok bl -> length bl = nfields String.eqb ks k ->
     step k (gb_stats m k) fm = Ok (nxt k bl, concat (map (fun p => g k (fst p) (snd p)) (enumerate bl)))).
  { intros k fm bl Hk V L. apply KR in Hk as (r & Hr & ->). unfold step, nxt, g. rewrite (FN r Hr). rewrite GZ in V by auto. destruct (SO r Hr) as [S1 S2].
    replace (gn_next cob_id tr w n r (gb_stats m (rp_name r)) bl) with (gn_next cob_id tr (factor (gb_momentum m) bt) n r (gb_stats m (rp_name r)) bl).
    - apply gn_step_ok; auto; [apply RO; auto|congruence|]. intros p EQ. unfold gb_par in EQ. destruct (gb_params m) as [q|] eqn:EP'; [|discriminate]. injection EQ as <-. rewrite L. apply (PO q r eq_refl Hr).
    - unfold gn_next, bt, w. destruct tr; [|reflexivity]. rewrite factor_weight. reflexivity. }
  set (op := fun k fm => rbind (step k (gb_stats m k) fm) (fun r => Ok (snd r))).
  destruct (rank_loop_order String.eqb (fun l => l) (gsize uniq) ks reps (gb_idx m) (map rp_name uniq) (fun k _ fm => op k fm) g (gt_data x) (empty junk (length (gt_data x))) EP KI SZ POS GI' ND FI LX) as (y & Y1 & Y2 & Y3).
  { rewrite empty_length. auto. }
  { intros k j b Hk Hb. apply KR in Hk as (r & Hr & ->). unfold g. rewrite (FN r Hr). rewrite GZ in Hb |- * by auto. apply gback_len. rewrite gn_val_len. apply gto_len. auto. }
  { intros k fm bl Hk V L. unfold op. rewrite (ST k fm bl Hk V L). reflexivity. }
  destruct (state_loop_group String.eqb (fun l => l) (gb_idx m) EP KI step op (gt_data x) (map rp_name uniq) (gb_stats m) (empty junk (length (gt_data x))) y ND) as (st' & E1 & E2 & E3).
  { intros k Hk. apply FI in Hk. destruct (group_ok (fun l => l) (gsize uniq) ks reps (gb_idx m) KI SZ POS GI' (gt_data x) k LX Hk) as (fm & R & V).
    exists fm. eexists. eexists. split; [exact R|]. split; [apply ST; [auto|exact V|apply GL]|]. unfold op. rewrite (ST k fm _ Hk V) by apply GL. reflexivity. }
  { exact Y1. }
  assert (NX : forall r, In r reps -> st' (rp_name r) = gn_next cob_id tr w n r (gb_stats m (rp_name r)) (group_of (fun l => l) (gsize uniq) ks reps (gt_data x) (rp_name r))).
  { intros r Hr. assert (Hs : In (rp_name r) ks) by (apply in_map; auto). destruct (group_ok (fun l => l) (gsize uniq) ks reps (gb_idx m) KI SZ POS GI' (gt_data x) (rp_name r) LX Hs) as (fm & R & V).
    destruct (E2 (rp_name r) fm (proj2 (FI _) Hs) R) as [vals E]. rewrite (ST (rp_name r) fm _ Hs V) in E by apply GL. injection E as <- _. unfold nxt. rewrite (FN r Hr). reflexivity. }
  unfold gnorm_forward. rewrite TY. cbn [assert_]. cbv zeta. fold uniq. fold bt. change (fun (name : string) (st : list (list R * list R)) (fm : list chan) => match find (fun r => String.eqb (rp_name r) name) uniq with
            | Some r => gn_step cob_id tr (gb_eps m) (factor (gb_momentum m) bt) n r (match gb_params m with Some p => Some (p name) | None => None end) st fm
            | None => Err "KeyError"%string end) with step. rewrite E1. cbn [rbind snd fst]. rewrite mk_gt_fwd by exact Y2. cbn [rbind].
  eexists. eexists. split; [reflexivity|]. cbn [gt_type gt_data gb_in gb_uniq gb_idx gb_eps gb_momentum gb_params gb_stats gb_batches].
  split. { split; [exact SP|]. split; [exact UO|]. split; [exact GI|]. split; [exact EPS|]. split; [exact MO|]. split; [exact RO|]. cbn [gb_in gb_stats gb_params]. split; [|exact PO].
    intros r Hr. rewrite (NX r Hr). destruct (SO r Hr) as [S1 S2]. fold ks. rewrite <- (GL (rp_name r)). apply gn_next_ok; auto; [apply RO; auto|rewrite GL; auto]. }
  split; [auto|]. split; [auto|]. split; [auto 10|]. split; [exact NX|]. intros f r b Hf Hb.
  rewrite (Y3 f (rp_name r) b); auto; [|unfold ks, gb_names; rewrite nth_error_map; fold reps; rewrite Hf; reflexivity]. unfold g. rewrite (FN r) by (eapply nth_error_In; eauto). reflexivity.
Qed.

(** * Simulation *)
Definition gb_same (m m' : gbn) : Prop :=
  gb_in m' = gb_in m /\ gb_uniq m' = gb_uniq m /\ gb_idx m' = gb_idx m /\ gb_eps m' = gb_eps m /\ gb_momentum m' = gb_momentum m /\ gb_params m' = gb_params m /\ gb_batches m' = gb_batches m /\
  forall r, In r (ft_reps (gb_in m)) -> gb_stats m' (rp_name r) = gb_stats m (rp_name r).
Definition irs_at n (gs : nat -> G) (reps : list (rep G)) : Prop := forall p r ir, (p < n)%nat -> In r reps -> In ir (rp_irreps r) ->
  orthogonal (ir_size ir) (ir_mat ir (gs p)) /\ (ir_trivial ir = true -> ir_mat ir (gs p) 0%nat 0%nat = 1).
Theorem gnorm_sim tr n junk junk' gs pi m m' (x x' : gtensor) : gb_wf m -> gb_wf m' -> gb_same m m' -> typed (gb_in m) x -> typed (gb_in m) x' ->
  ft_reps (gb_in m) <> [] -> (tr = true -> (0 < n)%nat) -> bij n pi -> irs_at n gs (ft_reps (gb_in m)) ->
  acts_each n (ft_reps (gb_in m)) gs pi (gt_data x) (gt_data x') ->
  exists y y' m1 m1', forward tr n junk m x = Ok (y, m1) /\ forward tr n junk' m' x' = Ok (y', m1') /\
    (gb_wf m1 /\ gb_wf m1' /\ gb_same m1 m1' /\ gb_in m1 = gb_in m) /\ acts_each n (ft_reps (gb_in m)) gs pi (gt_data y) (gt_data y').
Proof.
  intros WF WF' (S1 & S2 & S3 & S4 & S5 & S6 & S7 & S8) TX TX' NE N1 B P A.
  assert (TX2 : typed (gb_in m') x') by (rewrite S1; auto).
  destruct (gnorm_value tr n junk m x WF TX N1) as (y & m1 & F & W1 & Y1 & Y2 & (C1 & C2 & C3 & C4 & C5 & C6 & C7) & C8 & C9).
  destruct (gnorm_value tr n junk' m' x' WF' TX2 N1) as (y' & m1' & F' & W1' & Y1' & Y2' & (C1' & C2' & C3' & C4' & C5' & C6' & C7') & C8' & C9').
  rewrite S1, S2, S4, S5, S7 in *. pose proof WF as (SP & UO & GI & EPS & MO & RO & SO & PO). set (reps := ft_reps (gb_in m)) in *. set (ks := gb_names (gb_in m)) in *. set (uniq := gb_uniq m) in *.
  assert (GP : forall k, gb_par m' k = gb_par m k) by (intros k; unfold gb_par; rewrite S6; reflexivity).
  assert (SZ : map (gsize uniq) ks = map rp_size reps). { unfold ks, gb_names. fold reps. rewrite map_map. apply map_ext_in. intros r Hr. unfold gsize. rewrite (uniq_find (gb_in m)); auto. }
  assert (LX : length (gt_data x) = nsum (map rp_size reps)) by apply TX. assert (LX' : length (gt_data x') = nsum (map rp_size reps)) by apply TX'.
  assert (MV : forall f r b b', nth_error reps f = Some r -> nth_error (fields reps (gt_data x)) f = Some b -> nth_error (fields reps (gt_data x')) f = Some b' ->
     moved_each n (rp_size r) (fun p => rp_mat r (gs p)) pi b b') by (apply acts_each_moved; auto).
  set (el := fun g => exists p, (p < n)%nat /\ g = gs p).
  assert (IR : forall r, In r reps -> irs_rep el (rp_irreps r)). { intros r Hr ir g Hi (p & Hp & ->). apply (P p r ir Hp Hr Hi). }
  assert (EL : forall p, (p < n)%nat -> el (gs p)) by (intros p Hp; exists p; auto).
  assert (SM : tr = true -> forall f r b b', nth_error reps f = Some r -> nth_error (fields reps (gt_data x)) f = Some b -> nth_error (fields reps (gt_data x')) f = Some b' ->
     gn_stats n r (gto cob_id r b') = gn_stats n r (gto cob_id r b)).
  { intros T f r b b' Hr Hb Hb'. assert (HI : In r reps) by (eapply nth_error_In; eauto). destruct (RO r HI) as [OK CO]. apply (gn_stats_moved n r el gs pi); auto. apply to_irr; eauto. }
  assert (VE : forall r, In r reps -> gb_stats m1' (rp_name r) = gb_stats m1 (rp_name r)).
  { intros r Hr. rewrite C8, C8' by auto. rewrite S8 by auto. unfold gn_next. destruct tr; [|reflexivity]. set (w := weight_of (gb_momentum m) (S (gb_batches m))). set (l := gb_stats m (rp_name r)).
    assert (E : forall d : list chan, map (fun ob => avg_stat w (fst ob) (gn_stats n r (gto cob_id r (snd ob)))) (combine l (group_of (fun l => l) (gsize uniq) ks reps d (rp_name r))) =
       map (fun ob => avg_stat w (fst ob) (snd ob)) (combine l (map (fun b => gn_stats n r (gto cob_id r b)) (group_of (fun l => l) (gsize uniq) ks reps d (rp_name r))))).
    { intros d. rewrite <- combine_map_r, map_map. reflexivity. }
    rewrite !E. do 2 f_equal. unfold group_of. rewrite !map_map. apply map_ext_in. intros f Hf. apply (places_in (fun l => l) (gsize uniq) ks (fun a b h => h)) in Hf.
    assert (Er : nth_error reps f = Some r).
    { unfold ks, gb_names in Hf. fold reps in Hf. rewrite nth_error_map in Hf. destruct (nth_error reps f) as [r'|] eqn:E'; [|discriminate]. cbn in Hf. injection Hf as Hf.
      assert (In r' reps) by (eapply nth_error_In; eauto). pose proof (uniq_find (gb_in m) uniq r' UO H) as U1. rewrite Hf in U1. rewrite (uniq_find (gb_in m) uniq r UO Hr) in U1. congruence. }
    pose proof (field_at (gsize uniq) ks reps SZ (gt_data x) f _ Hf) as Hb. pose proof (field_at (gsize uniq) ks reps SZ (gt_data x') f _ Hf) as Hb'.
    apply (SM eq_refl f r _ _ Er Hb Hb'). }
  exists y, y', m1, m1'. split; [exact F|]. split; [exact F'|]. split.
  - split; [auto|]. split; [auto|]. split; [|auto]. unfold gb_same. rewrite C1. fold reps.
    split; [congruence|]. split; [congruence|]. split; [congruence|]. split; [congruence|]. split; [congruence|]. split; [congruence|]. split; [congruence|exact VE].
  - apply moved_acts_each; auto. intros f r b b' Hr Hb Hb'. assert (HI : In r reps) by (eapply nth_error_In; eauto). destruct (RO r HI) as [OK CO].
    destruct (fields_at reps (gt_data x) f r Hr) as [bx Hx]. destruct (fields_at reps (gt_data x') f r Hr) as [bx' Hx'].
    pose proof (C9 f r bx Hr Hx) as E. pose proof (C9' f r bx' Hr Hx') as E'. rewrite Hb in E. rewrite Hb' in E'. injection E as ->. injection E' as ->.
    pose proof (MV f r bx bx' Hr Hx Hx') as MM. rewrite GP, S8 by auto.
    assert (U : gn_used cob_id tr n r (gb_stats m (rp_name r)) (rank ks f) bx' = gn_used cob_id tr n r (gb_stats m (rp_name r)) (rank ks f) bx).
    { unfold gn_used. destruct tr; [|reflexivity]. apply (SM eq_refl f r bx bx'); auto. }
    unfold gn_out. rewrite U. apply from_irr; [auto|]. apply (gn_val_moved (gb_eps m) n r el gs pi); auto.
    + unfold gn_used. destruct tr; [apply gn_stats_ok; auto|]. destruct (SO r HI) as [L1 L2]. apply L2. apply nth_In. rewrite L1. apply (rank_bound String.eqb (fun l => l) (gsize uniq) ks String.eqb_spec (fun a b h => h)).
      unfold ks, gb_names. fold reps. rewrite nth_error_map, Hr. reflexivity.
    + intros bw EB. unfold gn_pars, gb_par in EB. destruct (gb_params m) as [p|] eqn:EP; [|discriminate]. injection EB as <-. destruct (PO p r eq_refl HI) as [L1 L2]. apply L2. apply nth_In. rewrite L1.
      apply (rank_bound String.eqb (fun l => l) (gsize uniq) ks String.eqb_spec (fun a b h => h)). unfold ks, gb_names. fold reps. rewrite nth_error_map, Hr. reflexivity.
    + apply to_irr; auto.
Qed.

(** * Histories *)
Inductive gb_event := GResetStats | GResetParameters | GSetParams (p : string -> list (list R * list R)).
Definition gb_apply (e : gb_event) (m : gbn) : gbn :=
  match e with
  | GResetStats => gnorm_reset m
  | GResetParameters => gnorm_reset_parameters m
  | GSetParams p => MkGB (gb_in m) (gb_uniq m) (gb_idx m) (gb_eps m) (gb_momentum m) (match gb_params m with Some _ => Some p | None => None end) (gb_stats m) (gb_batches m)
  end.
(** parameters: for each field, a bias for each trivial irrep and a weight for each irrep *)
Definition gb_event_ok (t : ftype) (e : gb_event) : Prop :=
  match e with GSetParams p => forall r, In r (ft_reps t) -> length (p (rp_name r)) = nfields String.eqb (gb_names t) (rp_name r) /\ (forall s, In s (p (rp_name r)) -> par_ok r s) | _ => True end.
Lemma gb_new_ok t uniq r (v : rep G -> list R * list R) : uniq_ok t uniq -> In r (ft_reps t) -> gb_new t uniq v (rp_name r) = repeat (v r) (nfields String.eqb (gb_names t) (rp_name r)).
Proof. intros U H. unfold gb_new. rewrite (uniq_find t) by auto. reflexivity. Qed.
Definition fresh (r : rep G) : list R * list R := (map (fun _ => 0) (trivials r), map (fun _ => 1) (rp_irreps r)).
Lemma fresh_stat r : stat_ok r (fresh r).
Proof. unfold fresh, stat_ok. cbn [fst snd]. rewrite !map_length. split; [auto|]. split; [auto|]. intros v Hv. apply in_map_iff in Hv as (? & <- & _). lra. Qed.
Lemma fresh_par r : par_ok r (fresh r).
Proof. unfold fresh, par_ok. cbn [fst snd]. rewrite !map_length. auto. Qed.
Lemma new_stats t uniq r : uniq_ok t uniq -> In r (ft_reps t) -> length (gb_new t uniq fresh (rp_name r)) = nfields String.eqb (gb_names t) (rp_name r) /\
  (forall s, In s (gb_new t uniq fresh (rp_name r)) -> stat_ok r s /\ par_ok r s).
Proof. intros U H. rewrite (gb_new_ok t uniq r fresh U H), repeat_length. split; [auto|]. intros s Hs. apply repeat_spec in Hs. subst s. split; [apply fresh_stat|apply fresh_par]. Qed.
Lemma gb_apply_wf e m : gb_wf m -> gb_event_ok (gb_in m) e -> gb_wf (gb_apply e m) /\ gb_in (gb_apply e m) = gb_in m.
Proof.
  intros (SP & UO & GI & EPS & MO & RO & SO & PO) OK. destruct e as [| |p]; cbn [gb_apply gb_event_ok] in *; (split; [|reflexivity]).
  - unfold gnorm_reset. split; [exact SP|]. split; [exact UO|]. split; [exact GI|]. split; [exact EPS|]. split; [exact MO|]. split; [exact RO|]. cbn [gb_in gb_stats gb_params]. split; [|exact PO].
    intros r Hr. destruct (new_stats (gb_in m) (gb_uniq m) r UO Hr) as [L S]. split; [exact L|]. intros s Hs. apply S. exact Hs.
  - unfold gnorm_reset_parameters. split; [exact SP|]. split; [exact UO|]. split; [exact GI|]. split; [exact EPS|]. split; [exact MO|]. split; [exact RO|]. cbn [gb_in gb_stats gb_params]. split.
    + intros r Hr. destruct (new_stats (gb_in m) (gb_uniq m) r UO Hr) as [L S]. split; [exact L|]. intros s Hs. apply S. exact Hs.
    + intros p r EQ Hr. destruct (gb_params m); [|discriminate]. injection EQ as <-. destruct (new_stats (gb_in m) (gb_uniq m) r UO Hr) as [L S]. split; [exact L|]. intros s Hs. apply S. exact Hs.
  - split; [exact SP|]. split; [exact UO|]. split; [exact GI|]. split; [exact EPS|]. split; [exact MO|]. split; [exact RO|]. cbn [gb_in gb_stats gb_params]. split; [exact SO|].
    intros q r EQ Hr. destruct (gb_params m); [|discriminate]. injection EQ as <-. apply OK. auto.
Qed.
Lemma gb_apply_same e m m' : gb_same m m' -> gb_same (gb_apply e m) (gb_apply e m').
Proof.
  intros (S1 & S2 & S3 & S4 & S5 & S6 & S7 & S8). destruct e as [| |p]; cbn [gb_apply]; unfold gnorm_reset, gnorm_reset_parameters, gb_same; cbn [gb_in gb_uniq gb_idx gb_eps gb_momentum gb_params gb_batches gb_stats];
    rewrite ?S1, ?S2, ?S3, ?S4, ?S5, ?S6, ?S7; auto 10.
Qed.
Definition gb_batch_ok (t : ftype) (tr : bool) (n : nat) (gs : nat -> G) (pi : nat -> nat) (x x' : gtensor) : Prop :=
  typed t x /\ typed t x' /\ (tr = true -> (0 < n)%nat) /\ bij n pi /\ irs_at n gs (ft_reps t) /\ acts_each n (ft_reps t) gs pi (gt_data x) (gt_data x').
Theorem gnorm_history junk h m : gb_wf m -> ft_reps (gb_in m) <> [] -> Forall (event_ok (gb_batch_ok (gb_in m)) (gb_event_ok (gb_in m))) h ->
  exists ys ys' m1 m1', run (fun tr n => forward tr n junk) gb_apply m (map left_of h) = Ok (ys, m1) /\ run (fun tr n => forward tr n junk) gb_apply m (map right_of h) = Ok (ys', m1') /\
    (gb_wf m1 /\ gb_same m1 m1') /\ follow (ft_reps (gb_in m)) h ys ys'.
Proof.
  intros WF NE H. set (t := gb_in m) in *.
  destruct (run_follow (ft_reps t) (fun tr n => forward tr n junk) gb_apply (fun a b => gb_wf a /\ gb_wf b /\ gb_same a b /\ gb_in a = t) (gb_batch_ok t) (gb_event_ok t)) with (h := h) (m := m) (m' := m)
    as (ys & ys' & m1 & m1' & R1 & R2 & (I1 & I2 & I3 & _) & FO).
  - intros tr n gs pi x x' a b (W & W' & SM & E1) (T1 & T2 & N0 & B & O & A). rewrite <- E1 in *.
    destruct (gnorm_sim tr n junk junk gs pi a b x x' W W' SM T1 T2 NE N0 B O A) as (y & y' & a1 & b1 & F & F' & (W1 & W1' & SM1 & E3) & A1).
    exists y, y', a1, b1. split; [auto|]. split; [auto|]. split; [|auto]. auto.
  - intros w a b (W & W' & SM & E1) OK. pose proof SM as (Q1 & _). destruct (gb_apply_wf w a W) as (V1 & V2); [rewrite E1; auto|].
    destruct (gb_apply_wf w b W') as (V1' & _); [rewrite Q1, E1; auto|]. split; [auto|]. split; [auto|]. split; [apply gb_apply_same; auto|]. congruence.
  - split; [auto|]. split; [auto|]. split; [|auto]. unfold gb_same. auto 10.
  - exact H.
  - exists ys, ys', m1, m1'. auto 10.
Qed.
Lemma gnorm_wf (t : ftype) uniq eps mo affine m : gnorm_make t uniq eps mo affine = Ok m -> size_pos t -> uniq_ok t uniq -> 0 < eps -> momentum_ok mo ->
  (forall r, In r (ft_reps t) -> irs_ok (rp_irreps r) /\ cob_ok cob_id r) ->
  gb_wf m /\ gb_in m = t /\ gb_uniq m = uniq /\ gb_eps m = eps /\ gb_momentum m = mo /\ gb_batches m = 0%nat /\
  (forall r, In r (ft_reps t) -> gb_stats m (rp_name r) = repeat (fresh r) (nfields String.eqb (gb_names t) (rp_name r))) /\
  gb_params m = (if affine then Some (gb_new t uniq fresh) else None).
Proof.
  intros MK SP UO E0 MO RO. unfold gnorm_make in MK. apply rbind_ok in MK as (idx & GI & MK). injection MK as <-.
  cbn [gb_in gb_uniq gb_eps gb_momentum gb_batches gb_stats gb_params]. split.
  - split; [exact SP|]. split; [exact UO|]. cbn [gb_in gb_uniq gb_eps gb_momentum gb_batches gb_stats gb_params gb_idx]. split.
    + apply group_index_good in GI. rewrite map_map in GI. unfold gb_names. rewrite map_map.
      replace (map (fun x : rep G => (rp_name x, gsize uniq (rp_name x))) (ft_reps t)) with (map (fun r : rep G => (rp_name r, rp_size r)) (ft_reps t)); [exact GI|].
      apply map_ext_in. intros r Hr. unfold gsize. rewrite (uniq_find t) by auto. reflexivity.
    + split; [auto|]. split; [auto|]. split; [exact RO|]. split.
      * intros r Hr. destruct (new_stats t uniq r UO Hr) as [L S]. split; [exact L|]. intros s Hs. apply S. exact Hs.
      * intros p r EQ Hr. destruct affine; [|discriminate]. injection EQ as <-. destruct (new_stats t uniq r UO Hr) as [L S]. split; [exact L|]. intros s Hs. apply S. exact Hs.
  - split; [auto|]. split; [auto|]. split; [auto|]. split; [auto|]. split; [auto|]. split; [|reflexivity]. intros r Hr. apply gb_new_ok; auto.
Qed.
End GNorm.
