(** C45: dropout drops whole fields. *)
From Coq Require Import Reals ZArith String List Bool Lia Lra.
From Verif Require Import Base LinAlg Spec Spec_Fields Model_Groups Model_Rep Model_Regular Model_FieldType Model_Tensor Model_Utils Model_Modules Model_Fieldwise Model_Dropout
  Spec_Fieldwise Spec_Fieldwise2 Spec_Dropout Proofs_FieldType Proofs_FieldType2 Proofs_Tensor Proofs_Utils Proofs_Modules Proofs_Fieldwise Proofs_Fieldwise2 Proofs_Fieldwise3 Proofs_Fieldwise4
  Proofs_Fieldwise5 Proofs_Fieldwise8 Proofs_Dropout Prop_Fieldwise3.
Import ListNotations.
Open Scope R_scope.

Section C45.
Context {GS G X : Type} (gs_eqb : GS -> GS -> bool) (rp_eqb : rep G -> rep G -> bool).
Notation ftype := (ftype GS (rep G)).
Notation chan := (X -> R).
Notation gtensor := (gtensor GS (rep G) chan).

(** In training mode every field is multiplied, at each point, by 0 or 1/(1-p) according to random numbers of its own
    ([u s j]: those of the j-th field of size s).  [after] is the content of the input tensor afterwards.  In place, the fields
    of one size have to be next to each other; p = 1 is excluded (see the refutations below). *)
Theorem C45_fields_partial : forall (t : ftype) p inplace m u junk (x : gtensor),
  fdrop_make t p inplace = Ok m -> size_pos t -> typed gs_eqb rp_eqb t x -> p <> 1 ->
  (inplace = true -> together (map rp_size (ft_reps t))) ->
  exists y after, fdrop_forward gs_eqb rp_eqb true junk u m x = Ok (y, after) /\ gt_type y = t /\
    after = (if inplace then gt_data y else gt_data x) /\
    fieldwise (ft_reps t) (ft_reps t)
      (fun f => drop_act p (u (nth f (map rp_size (ft_reps t)) 0%nat) (rank_of Nat.eqb (map rp_size (ft_reps t)) f))) (gt_data x) (gt_data y).
Proof. intros. eapply fdrop_fieldwise; eauto. Qed.
(** no two fields share their random numbers *)
Theorem C45_own_numbers : forall (sizes : list nat) f f', (f < length sizes)%nat -> (f' < length sizes)%nat ->
  (nth f sizes 0%nat, rank_of Nat.eqb sizes f) = (nth f' sizes 0%nat, rank_of Nat.eqb sizes f') -> f = f'.
Proof.
  intros sizes.
  assert (W : forall f f', (f < f')%nat -> (f' < length sizes)%nat -> (nth f sizes 0%nat, rank_of Nat.eqb sizes f) = (nth f' sizes 0%nat, rank_of Nat.eqb sizes f') -> False).
  { intros f f' L L' E. injection E as E1 E2. unfold rank_of in E2. rewrite !(nth_error_nth' sizes 0%nat) in E2 by lia. cbv beta iota in E2. rewrite <- E1 in E2.
    pose proof (rank_lt Nat.eqb Nat.eqb_spec sizes f f' (nth f sizes 0%nat) (nth_error_nth' sizes 0%nat (Nat.lt_trans _ _ _ L L')) L). lia. }
  intros f f' L L' E. destruct (Nat.lt_trichotomy f f') as [H|[H|H]]; auto; exfalso; eapply W; eauto.
Qed.
(** in evaluation mode nothing happens *)
Theorem C45_eval : forall (t : ftype) p inplace m u junk (x : gtensor),
  fdrop_make t p inplace = Ok m -> typed gs_eqb rp_eqb t x -> fdrop_forward gs_eqb rp_eqb false junk u m x = Ok (x, gt_data x).
Proof.
  intros t p inplace m u junk x MK [TY _]. unfold fdrop_make in MK. destruct (Rlt_dec p 0); [discriminate|]. destruct (Rlt_dec 1 p); [discriminate|].
  apply rbind_ok in MK as (idx & _ & MK). injection MK as <-. unfold fdrop_forward. cbn [fd_in]. rewrite TY. reflexivity.
Qed.
(** given the mask (which moves with the points), dropout commutes with every representation *)
Theorem C45_equivariant_partial : forall (t : ftype) p inplace m u u' g pi junk junk' (x x' : gtensor),
  fdrop_make t p inplace = Ok m -> ft_reps t <> [] -> size_pos t -> typed gs_eqb rp_eqb t x -> typed gs_eqb rp_eqb t x' -> p <> 1 ->
  (inplace = true -> together (map rp_size (ft_reps t))) ->
  (forall s j q, u' s j q = u s j (pi q)) -> acts (ft_reps t) g pi (gt_data x) (gt_data x') ->
  exists y y' after after', fdrop_forward gs_eqb rp_eqb true junk u m x = Ok (y, after) /\ fdrop_forward gs_eqb rp_eqb true junk' u' m x' = Ok (y', after') /\
    gt_type y = t /\ gt_type y' = t /\ acts (ft_reps t) g pi (gt_data y) (gt_data y').
Proof.
  intros t p inplace m u u' g pi junk junk' x x' MK NE SP TX TX' P TG U A.
  destruct (fdrop_fieldwise gs_eqb rp_eqb t p inplace m u junk x MK SP TX P TG) as (y & after & F & T & _ & W).
  destruct (fdrop_fieldwise gs_eqb rp_eqb t p inplace m u' junk' x' MK SP TX' P TG) as (y' & after' & F' & T' & _ & W').
  exists y, y', after, after'. split; [auto|]. split; [auto|]. split; [auto|]. split; [auto|].
  eapply fieldwise_acts; [exact NE|apply (proj2 TX)|exact A|exact W|exact W'|]. intros f r r' b b' Hr Hr' Hb Hb' MV. assert (r' = r) by congruence. subst r'.
  apply moved_scaled; auto. intros q. rewrite U. reflexivity.
Qed.
(** PointwiseDropout: the same for single channels, for every p; nothing happens in evaluation mode (as in the exported module,
    torch.nn.Dropout) *)
Theorem C45_pointwise : forall (t : ftype) p m u (x : gtensor), pdrop_make t p = Ok m -> typed gs_eqb rp_eqb t x ->
  exists y, pdrop_forward gs_eqb rp_eqb true u m x = Ok y /\ gt_type y = t /\ length (gt_data y) = length (gt_data x) /\
    pdrop_forward gs_eqb rp_eqb false u m x = Ok (MkGT (gt_data x) t) /\
    forall i q, (i < length (gt_data x))%nat ->
      val (gt_data y) i q = if Req_EM_T p 1 then 0 else drop_entry p (u i) (nth i (gt_data x) (fun _ => 0)) q.
Proof.
  intros t p m u x MK [TY LX]. unfold pdrop_make in MK. destruct (Rlt_dec p 0); [discriminate|]. destruct (Rlt_dec 1 p); [discriminate|]. apply assert_ok in MK as [_ MK]. injection MK as <-.
  unfold pdrop_forward. cbn [pd_in pd_p]. rewrite TY. cbn [assert_ negb].
  assert (LE : length (enumerate (gt_data x)) = length (gt_data x)) by (unfold enumerate; rewrite combine_length, seq_length; lia).
  rewrite mk_gt_fwd by (rewrite map_length, LE; exact LX). rewrite mk_gt_fwd by exact LX. eexists. split; [reflexivity|]. split; [reflexivity|]. cbn [gt_data]. split; [rewrite map_length; auto|].
  split; [reflexivity|]. intros i q Hi. unfold val. pose proof (enumerate_at (gt_data x) i _ (nth_error_nth' _ (fun _ => 0) Hi)) as E.
  erewrite (nth_error_nth _ i); [|rewrite nth_error_map, E; reflexivity]. cbn [fst snd]. destruct (Req_EM_T p 1); [auto|]. unfold drop_entry. reflexivity.
Qed.
End C45.
Print Assumptions C45_fields_partial.
Print Assumptions C45_own_numbers.
Print Assumptions C45_eval.
Print Assumptions C45_equivariant_partial.
Print Assumptions C45_pointwise.

(** concrete cases: three fields of C_4, sizes 2, 1, 1; in place or not; transformed tensors and masks exist *)
Definition t_drop : ftype unit (rep Z) := MkFT tt [c4 1; c4 0; c4 2].
Example C45_ex : forall inplace, exists m, fdrop_make t_drop (1/2) inplace = Ok m /\ ft_reps t_drop <> [] /\ size_pos t_drop /\ 1/2 <> 1 /\
  together (map rp_size (ft_reps t_drop)) /\
  forall (X : Type) g (pi : X -> X) x, typed ueqb req t_drop x -> exists x', typed ueqb req t_drop x' /\ acts (ft_reps t_drop) g pi (gt_data x) (gt_data x').
Proof.
  intros inplace. eexists. split. { unfold fdrop_make. destruct (Rlt_dec (1/2) 0); [lra|]. destruct (Rlt_dec 1 (1/2)); [lra|]. reflexivity. }
  split; [discriminate|]. split. { intros r H. cbn [t_drop ft_reps In] in H. destruct H as [<-|[<-|[<-|[]]]]; vm_compute; lia. }
  split; [lra|]. split.
  { intros i j k a I1 I2 E1 E2. change (map rp_size (ft_reps t_drop)) with [2; 1; 1]%nat in *.
    destruct i as [|[|[|i]]], k as [|[|[|k]]]; try lia; cbn in E1, E2; try congruence; try (destruct i; discriminate); try (destruct k; discriminate).
    all: try (destruct j as [|[|[|j]]]; try lia; cbn; congruence). }
  intros. apply typed_ex; [discriminate|auto].
Qed.

(** The full property fails in two ways.  In place, with fields of one size apart from each other: the fields of that size are
    not dropped, whatever the random numbers say. *)
Definition t_apart : ftype unit (rep Z) := MkFT tt [c4 0; c4 1; c4 0].
Theorem C45_inplace_refuted : exists m, fdrop_make t_apart (1/2) true = Ok m /\
  forall (X : Type) junk (x : gtensor unit (rep Z) (X -> R)), typed ueqb req t_apart x ->
    exists y after, fdrop_forward ueqb req true junk (fun _ _ _ => 0) m x = Ok (y, after) /\
      (forall q, val (gt_data y) 0 q = val (gt_data x) 0 q) /\ (forall q, val (gt_data y) 3 q = val (gt_data x) 3 q) /\
      (forall q, val (gt_data y) 1 q = 0) /\
      ((exists q, val (gt_data x) 0 q <> 0) ->
       ~ fieldwise (ft_reps t_apart) (ft_reps t_apart) (fun _ => drop_act (1/2) (fun _ => 0)) (gt_data x) (gt_data y)).
Proof.
  eexists. split. { unfold fdrop_make. destruct (Rlt_dec (1/2) 0); [lra|]. destruct (Rlt_dec 1 (1/2)); [lra|]. reflexivity. }
  intros X junk [d t] [TY LX]. cbn [gt_data gt_type] in *. change (nsum (map rp_size (ft_reps t_apart))) with 4%nat in LX.
  destruct d as [|c0 [|c1 [|c2 [|c3 [|]]]]]; try discriminate LX.
  unfold fdrop_forward. cbn [fd_in fd_inplace gt_type gt_data]. rewrite TY. cbn [assert_ negb].
  unfold fd_order. cbn [fd_in]. change (first_seen Nat.eqb (map rp_size (ft_reps t_apart))) with [1; 2]%nat.
  cbn [inplace_loop fd_idx fd_p].
  change (attr_of [("1", CList [0; 3]); ("2", CSlice 1 3)]%string%nat (py_str 1)) with (@Ok chan_set (CList [0; 3]%nat)).
  change (attr_of [("1", CList [0; 3]); ("2", CSlice 1 3)]%string%nat (py_str 2)) with (@Ok chan_set (CSlice 1 3)).
  cbn [rbind gather torch_index rmap nth_error].
  unfold dropout_field at 1. cbn [view_fields length Nat.eqb Nat.modulo Nat.divmod fst snd orb negb Nat.sub rbind]. cbn.
  destruct (Req_EM_T (1/2) 1) as [E|_]; [lra|]. cbn. eexists. eexists. split; [reflexivity|]. cbn [gt_data].
  split; [reflexivity|]. split; [reflexivity|]. split.
  - intros q. unfold val. cbn. unfold drop_mask. destruct (Rlt_dec (1/2) 0); lra.
  - intros [q Hq] (_ & _ & F). destruct (F 0%nat [c0] eq_refl) as (b' & E & L & V). cbn in E. injection E as <-. specialize (V 0%nat q ltac:(cbn; lia)).
    unfold val in V, Hq. cbn in V, Hq. destruct (Rlt_dec (1/2) 0); lra.
Qed.
Print Assumptions C45_inplace_refuted.
(** With p = 1, which the constructor accepts, the result is not zero but not a number. *)
Theorem C45_p1_refuted : forall (GS G X : Type) gs_eqb rp_eqb (t : ftype GS (rep G)) inplace m u junk (x : gtensor GS (rep G) (X -> R)),
  fdrop_make t 1 inplace = Ok m -> ft_reps t <> [] -> size_pos t -> typed gs_eqb rp_eqb t x ->
  fdrop_forward gs_eqb rp_eqb true junk u m x = Err "nan"%string.
Proof.
  intros GS G X gs_eqb rp_eqb t inplace m u junk x MK NE SP [TY LX]. unfold fdrop_make in MK. destruct (Rlt_dec 1 0); [lra|]. destruct (Rlt_dec 1 1); [lra|].
  apply rbind_ok in MK as (idx & GI & MK). injection MK as <-. apply group_index_good in GI. rewrite by_size_ks in GI.
  unfold fdrop_forward. cbn [fd_in fd_inplace fd_idx fd_p]. rewrite TY. cbn [assert_ negb]. unfold fd_order. cbn [fd_in].
  destruct (map rp_size (ft_reps t)) as [|s ks] eqn:EK. { destruct (ft_reps t); [tauto|discriminate]. }
  cbn [first_seen]. cbn [inplace_loop group_loop fd_idx fd_p].
  destruct (GI (py_str s)) as (c & E1 & OK1 & CL); [cbn; auto|]. unfold attr_of. rewrite E1. cbn [rbind].
  destruct (gather_ok c (gt_data x) OK1) as (fm & F1 & F2). { rewrite CL. replace (length (gt_data x)) with (nsum (map snd (map (fun s => (py_str s, s)) (s :: ks)))); [apply ind_bound|].
    rewrite map_map. cbn [snd]. rewrite map_id. congruence. }
  rewrite F1. cbn [rbind].
  assert (V : exists bl, view_fields s fm = Ok bl).
  { eexists. apply (view_group (map (fun s => (py_str s, s)) (s :: ks)) (gt_data x) fm (py_str s) s).
    - rewrite map_map. cbn [snd]. rewrite map_id. congruence.
    - intros m Hm. apply in_map_iff in Hm as (s' & E & _). injection E as E <-. apply py_str_inj in E. auto.
    - assert (In s (map rp_size (ft_reps t))) as Hs by (rewrite EK; cbn; auto). apply in_map_iff in Hs as (r & <- & Hr). auto.
    - rewrite CL in F2. exact F2. }
  destruct V as [bl V]. assert (D : forall i, dropout_field 1 i (u s) s fm = Err "nan"%string). { intros i. unfold dropout_field. rewrite V. cbn [rbind]. destruct (Req_EM_T 1 1); [auto|tauto]. }
  destruct inplace; rewrite D; reflexivity.
Qed.
Print Assumptions C45_p1_refuted.
Example C45_p1_ex : exists m, fdrop_make t_drop 1 false = Ok m.
Proof. eexists. unfold fdrop_make. destruct (Rlt_dec 1 0); [lra|]. destruct (Rlt_dec 1 1); [lra|]. reflexivity. Qed.
