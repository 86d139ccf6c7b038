(** NormBatchNorm and InducedNormBatchNorm: transformed histories. *)
From Coq Require Import Reals ZArith String Ascii Decimal DecimalString List Bool Lia Lra Permutation Sorted FunctionalExtensionality.
From Verif Require Import Base LinAlg Spec Spec_Fields Model_Groups Model_Rep Model_FieldType Model_Tensor Model_Utils Model_Modules Model_Fieldwise Model_BatchNorm Spec_Fieldwise Spec_Fieldwise2 Spec_Dropout Spec_BatchNorm
  Proofs_FieldType Proofs_FieldType2 Proofs_Tensor Proofs_Utils Proofs_Modules Proofs_Modules2 Proofs_Modules3 Proofs_Fieldwise Proofs_Fieldwise2 Proofs_Fieldwise3 Proofs_Fieldwise4 Proofs_Fieldwise5 Proofs_Fieldwise8 Proofs_Dropout Proofs_BatchNorm Proofs_BatchNorm2 Proofs_BatchNorm3.
Import ListNotations.
Open Scope R_scope.

Section Norm.
Context {GS G K : Type} (gs_eqb : GS -> GS -> bool) (rp_eqb : rep G -> rep G -> bool) (keqb : K -> K -> bool) (key : K -> string) (ksize ksub : K -> nat).
Notation ftype := (ftype GS (rep G)).
Notation gtensor := (gtensor GS (rep G) chan).
Notation nbn := (@nbn GS G K).
Notation forward := (nbn_forward gs_eqb rp_eqb keqb key ksize ksub).
Notation typed := (typed gs_eqb rp_eqb).
Notation nb_wf := (nb_wf keqb key ksize ksub).
Hypothesis EP : forall a b, reflect (a = b) (keqb a b).
Hypothesis KI : forall a b, key a = key b -> a = b.

(** the same buffers and parameters *)
Definition nb_same (m m' : nbn) : Prop :=
  nb_in m' = nb_in m /\ nb_keys m' = nb_keys m /\ nb_idx m' = nb_idx m /\ nb_eps m' = nb_eps m /\ nb_momentum m' = nb_momentum m /\
  nb_weight m' = nb_weight m /\ nb_batches m' = nb_batches m /\ forall k, In k (nb_keys m) -> nb_var m' k = nb_var m k.

Lemma combine_map_r {A B C} (h : B -> C) (l : list A) : forall l', map (fun p => (fst p, h (snd p))) (combine l l') = combine l (map h l').
Proof. induction l as [|a l IH]; intros [|b l']; cbn; f_equal; auto. Qed.

Theorem nbn_sim tr n gs pi m m' (x x' : gtensor) : nb_wf m -> nb_wf m' -> nb_same m m' -> typed (nb_in m) x -> typed (nb_in m) x' ->
  ft_reps (nb_in m) <> [] -> (tr = true -> (0 < n)%nat) -> bij n pi ->
  (forall p r, (p < n)%nat -> In r (ft_reps (nb_in m)) -> orthogonal (rp_size r) (rp_mat r (gs p))) ->
  acts_each n (ft_reps (nb_in m)) gs pi (gt_data x) (gt_data x') ->
  exists y y' m1 m1', forward tr n m x = Ok (y, m1) /\ forward tr n m' x' = Ok (y', m1') /\
    (nb_wf m1 /\ nb_wf m1' /\ nb_same m1 m1' /\ nb_in m1 = nb_in m /\ nb_keys m1 = nb_keys m) /\ acts_each n (ft_reps (nb_in m)) gs pi (gt_data y) (gt_data y').
Proof.
  intros WF WF' (S1 & S2 & S3 & S4 & S5 & S6 & S7 & S8) TX TX' NE N0 B O A.
  destruct (nbn_value gs_eqb rp_eqb keqb key ksize ksub EP KI tr n m x WF TX N0) as (y & m1 & F & W1 & Y1 & Y2 & (C1 & C2 & C3 & C4 & C5 & C6) & C7 & C8 & C9).
  assert (TX2 : typed (nb_in m') x') by (rewrite S1; auto).
  destruct (nbn_value gs_eqb rp_eqb keqb key ksize ksub EP KI tr n m' x' WF' TX2 N0) as (y' & m1' & F' & W1' & Y1' & Y2' & (C1' & C2' & C3' & C4' & C5' & C6') & C7' & C8' & C9').
  destruct WF as ((SZ & KP & GI) & _). set (reps := ft_reps (nb_in m)) in *. set (ks := nb_keys m) in *.
  assert (LK : length ks = length reps) by (rewrite <- (map_length ksize ks), SZ, map_length; auto).
  rewrite S1, S2, S4, S5, S6, S7 in *. fold reps ks in C8', C9', Y2'.
  assert (LX : length (gt_data x) = nsum (map rp_size reps)) by apply TX. assert (LX' : length (gt_data x') = nsum (map rp_size reps)) by apply TX'.
  assert (MV : forall f r b b', nth_error reps f = Some r -> nth_error (fields reps (gt_data x)) f = Some b -> nth_error (fields reps (gt_data x')) f = Some b' ->
     moved_each n (rp_size r) (fun p => rp_mat r (gs p)) pi b b') by (apply acts_each_moved; auto).
  assert (VE : forall k, In k ks -> nb_var m1' k = nb_var m1 k).
  { intros k Hk. rewrite C8, C8' by auto. destruct tr; [|apply S8; auto]. rewrite S8 by auto.
    assert (E : forall (d : list chan), map (fun ob => average (weight_of (nb_momentum m) (S (nb_batches m))) (fst ob) (batch_var ksize ksub n k (snd ob))) (combine (nb_var m k) (group_of key ksize ks reps d k)) =
       map (fun ob => average (weight_of (nb_momentum m) (S (nb_batches m))) (fst ob) (snd ob)) (combine (nb_var m k) (map (batch_var ksize ksub n k) (group_of key ksize ks reps d k)))).
    { intros d. rewrite <- combine_map_r, map_map. reflexivity. }
    rewrite !E. do 2 f_equal. unfold group_of. rewrite !map_map. apply map_ext_in. intros f Hf. apply (places_in key ksize ks KI) in Hf.
    assert (Lf : (f < length reps)%nat) by (rewrite <- LK; apply nth_error_Some; congruence).
    destruct (nth_error reps f) as [r|] eqn:Er; [|apply nth_error_None in Er; lia].
    pose proof (field_at ksize ks reps SZ (gt_data x) f k Hf) as Hb. pose proof (field_at ksize ks reps SZ (gt_data x') f k Hf) as Hb'.
    unfold batch_var. f_equal. eapply mean_square_moved; [exact B| |exact (MV f r _ _ Er Hb Hb')]. intros p Hp. apply O; auto. eapply nth_error_In; eauto. }
  exists y, y', m1, m1'. split; [exact F|]. split; [exact F'|]. split.
  - split; [auto|]. split; [auto|]. split; [|split; congruence]. unfold nb_same. rewrite C2. fold ks.
    split; [congruence|]. split; [congruence|]. split; [congruence|]. split; [congruence|]. split; [congruence|]. split; [congruence|]. split; [congruence|exact VE].
  - apply moved_acts_each; auto. intros f r b b' Hr Hb Hb'.
    assert (Lf : (f < length ks)%nat) by (rewrite LK; apply nth_error_Some; congruence).
    destruct (nth_error ks f) as [k|] eqn:Ek; [|apply nth_error_None in Ek; lia].
    destruct (fields_at reps (gt_data x) f r Hr) as [bx Hx]. destruct (fields_at reps (gt_data x') f r Hr) as [bx' Hx'].
    pose proof (C9 f k bx Ek Hx) as E. pose proof (C9' f k bx' Ek Hx') as E'. rewrite Hb in E. rewrite Hb' in E'. injection E as ->. injection E' as ->.
    assert (NW : nb_w m' k (rank_of keqb ks f) = nb_w m k (rank_of keqb ks f)) by (unfold nb_w; rewrite S6; reflexivity).
    rewrite NW. rewrite VE by (eapply nth_error_In; eauto). apply moved_each_scaled. eapply MV; eauto.
Qed.

(** what else can happen to a module: its buffers are reset, its parameters are reset or set by training *)
Inductive nb_event := ResetStats | ResetParameters (w : K -> list R) | SetWeight (w : K -> list R).
Definition nb_apply (e : nb_event) (m : nbn) : nbn :=
  match e with
  | ResetStats => nbn_reset keqb m
  | ResetParameters w => match nbn_reset_parameters keqb w m with Ok m' => m' | Err _ => m end
  | SetWeight w => MkNB (nb_in m) (nb_keys m) (nb_idx m) (nb_eps m) (nb_momentum m) (match nb_weight m with Some _ => Some w | None => None end) (nb_var m) (nb_batches m)
  end.
(** the new parameters have the right shape *)
Definition nb_event_ok (keys : list K) (e : nb_event) : Prop :=
  match e with
  | ResetStats => True
  | ResetParameters w | SetWeight w => forall k, In k keys -> length (w k) = length (filter (keqb k) keys)
  end.
Lemma ones_len (k : nat) v : In v (repeat 1 k) -> 0 <= v.
Proof. intros H. apply repeat_spec in H. lra. Qed.
Lemma nb_apply_wf e m : nb_wf m -> nb_event_ok (nb_keys m) e -> nb_wf (nb_apply e m) /\ nb_in (nb_apply e m) = nb_in m /\ nb_keys (nb_apply e m) = nb_keys m.
Proof.
  intros ((SZ & KP & GI) & (SH1 & SH2) & PV & EPS & MO) OK.
  assert (RS : nb_wf (nbn_reset keqb m)).
  { unfold nbn_reset. split; [exact (conj SZ (conj KP GI))|]. cbn. split; [split; cbn; [intros; apply repeat_length|exact SH2]|]. split; [intros k v _; cbn; apply ones_len|auto]. }
  destruct e as [|w|w]; cbn [nb_apply nb_event_ok] in *.
  - split; [auto|split; reflexivity].
  - unfold nbn_reset_parameters. destruct (nb_keys m) as [|k0 ks0] eqn:EK.
    + cbn [nb_in nb_keys]. split; [|split; auto]. split; [split; [|split]; cbn [nb_in nb_keys nb_idx]; rewrite ?EK in *; auto|].
      split; [split; cbn [nb_keys]; intros; contradiction|]. split; [intros k v []|cbn; auto].
    + destruct (nb_weight m) as [w0|] eqn:EW.
      2:{ split; [|auto]. split; [split; [|split]; rewrite ?EK; auto|]. split.
          - split; rewrite EK; [auto|]. intros w' C. rewrite EW in C. discriminate.
          - split; [exact PV|auto]. }
      cbn [nb_in nb_keys]. split; [|split; auto]. split; [split; [|split]; cbn [nb_in nb_keys nb_idx]; auto|].
      split; [split; cbn [nb_keys nb_var nb_weight]; [intros; apply repeat_length|intros w' E; injection E as <-; exact OK]|]. split; [intros k v _; cbn; apply ones_len|cbn; auto].
  - cbn [nb_in nb_keys]. split; [|auto]. split; [exact (conj SZ (conj KP GI))|]. split; [split; cbn; [exact SH1|]|].
    + intros w' E. destruct (nb_weight m); [|discriminate]. injection E as <-. exact OK.
    + split; [exact PV|auto].
Qed.
Lemma nb_apply_same e m m' : nb_same m m' -> nb_same (nb_apply e m) (nb_apply e m').
Proof.
  intros SM. pose proof SM as (S1 & S2 & S3 & S4 & S5 & S6 & S7 & S8). destruct e as [|w|w]; cbn [nb_apply].
  - unfold nbn_reset, nb_same. cbn. rewrite S1, S2, S3, S4, S5, S6. auto 10.
  - unfold nbn_reset_parameters. rewrite S1, S2, S3, S4, S5, S6. destruct (nb_keys m) as [|k ks] eqn:EK, (nb_weight m) eqn:EW; [| | |exact SM];
      unfold nb_same; cbn [nb_in nb_keys nb_idx nb_eps nb_momentum nb_weight nb_var nb_batches]; auto 12.
  - unfold nb_same. cbn. rewrite S1, S2, S3, S4, S5, S6, S7. auto 10.
Qed.

(** a history of batches and other events, and the transformed history *)
Definition nb_batch_ok (t : ftype) (tr : bool) (n : nat) (gs : nat -> G) (pi : nat -> nat) (x x' : gtensor) : Prop :=
  typed t x /\ typed t x' /\ (tr = true -> (0 < n)%nat) /\ bij n pi /\
  (forall p r, (p < n)%nat -> In r (ft_reps t) -> orthogonal (rp_size r) (rp_mat r (gs p))) /\
  acts_each n (ft_reps t) gs pi (gt_data x) (gt_data x').
Theorem nbn_history h m : nb_wf m -> ft_reps (nb_in m) <> [] -> Forall (event_ok (nb_batch_ok (nb_in m)) (nb_event_ok (nb_keys m))) h ->
  exists ys ys' m1 m1', run forward nb_apply m (map left_of h) = Ok (ys, m1) /\ run forward nb_apply m (map right_of h) = Ok (ys', m1') /\
    (nb_wf m1 /\ nb_same m1 m1') /\ follow (ft_reps (nb_in m)) h ys ys'.
Proof.
  intros WF NE H. set (t := nb_in m) in *. set (ks := nb_keys m) in *.
  destruct (run_follow (ft_reps t) forward nb_apply (fun a b => nb_wf a /\ nb_wf b /\ nb_same a b /\ nb_in a = t /\ nb_keys a = ks) (nb_batch_ok t) (nb_event_ok ks)) with (h := h) (m := m) (m' := m)
    as (ys & ys' & m1 & m1' & R1 & R2 & (I1 & I2 & I3 & _) & FO).
  - intros tr n gs pi x x' a b (W & W' & SM & E1 & E2) (T1 & T2 & N0 & B & O & A). rewrite <- E1 in *.
    destruct (nbn_sim tr n gs pi a b x x' W W' SM T1 T2 NE N0 B O A) as (y & y' & a1 & b1 & F & F' & (W1 & W1' & SM1 & E3 & E4) & A1).
    exists y, y', a1, b1. split; [auto|]. split; [auto|]. split; [|auto]. split; [auto|]. split; [auto|]. split; [auto|]. split; [auto|]. congruence.
  - intros w a b (W & W' & SM & E1 & E2) OK. pose proof SM as (Q1 & Q2 & _). destruct (nb_apply_wf w a W) as (V1 & V2 & V3); [rewrite E2; auto|].
    destruct (nb_apply_wf w b W') as (V1' & _ & _); [rewrite Q2, E2; auto|]. split; [auto|]. split; [auto|]. split; [apply nb_apply_same; auto|]. split; congruence.
  - split; [auto|]. split; [auto|]. split; [|auto]. unfold nb_same. auto 10.
  - exact H.
  - exists ys, ys', m1, m1'. auto 10.
Qed.
End Norm.

(** * Construction *)
Section Make.
Context {GS G : Type}.
Notation ftype := (ftype GS (rep G)).
Lemma norm_bn_wf (t : ftype) eps mo affine m : norm_bn_make t eps mo affine = Ok m -> size_pos t -> 0 < eps -> momentum_ok mo ->
  nb_wf Nat.eqb py_str (fun s => s) (fun s => s) m /\ nb_in m = t /\ nb_keys m = map rp_size (ft_reps t) /\ nb_eps m = eps /\ nb_momentum m = mo /\ nb_batches m = 0%nat /\
  nb_var m = (fun k => repeat 1 (nfields Nat.eqb (nb_keys m) k)) /\ nb_weight m = if affine then Some (nb_var m) else None.
Proof.
  intros MK SP E0 MO. unfold norm_bn_make in MK. apply assert_ok in MK as [_ MK]. apply assert_ok in MK as [_ MK]. unfold nbn_build in MK. apply rbind_ok in MK as (idx & GI & MK). injection MK as <-.
  cbn [nb_in nb_keys nb_eps nb_momentum nb_batches nb_var nb_weight]. split; [|destruct affine; auto 10]. split; [split; [|split]|].
  - cbn. apply map_id.
  - cbn. intros k Hk. apply in_map_iff in Hk as (r & <- & Hr). specialize (SP r Hr). split; [auto|]. split; [auto|]. apply Nat.mod_same. lia.
  - cbn. apply group_index_good in GI. rewrite (map_map _ fst) in GI. cbn [fst] in GI. exact GI.
  - split; [split; cbn; [intros; apply repeat_length|intros w E k Hk; destruct affine; [|discriminate]; injection E as <-; apply repeat_length]|].
    split; [intros k v _; cbn; apply ones_len|]. cbn. auto.
Qed.
Lemma induced_bn_wf (t : ftype) eps mo affine m : induced_bn_make t eps mo affine = Ok m -> size_pos t -> 0 < eps -> momentum_ok mo ->
  nb_wf pair_eqb pair_str (fun i => fst i) (fun i => snd i) m /\ nb_in m = t /\ rmap (field_id "induced_norm") (ft_reps t) = Ok (nb_keys m) /\ nb_eps m = eps /\ nb_momentum m = mo /\ nb_batches m = 0%nat /\
  nb_var m = (fun k => repeat 1 (nfields pair_eqb (nb_keys m) k)) /\ nb_weight m = if affine then Some (nb_var m) else None.
Proof.
  intros MK SP E0 MO. unfold induced_bn_make in MK. apply assert_ok in MK as [_ MK]. apply assert_ok in MK as [_ MK]. apply rbind_ok in MK as (ids & ID & MK).
  unfold nbn_build in MK. apply rbind_ok in MK as (idx & GI & MK). injection MK as <-. destruct (ids_sizes _ _ _ ID) as [I1 I2].
  cbn [nb_in nb_keys nb_eps nb_momentum nb_batches nb_var nb_weight]. split; [|destruct affine; auto 10]. split; [split; [|split]|].
  - cbn. exact I1.
  - cbn. intros k Hk. destruct (I2 k Hk) as [H1 H2]. assert (H3 : In (fst k) (map rp_size (ft_reps t))) by (rewrite <- I1; apply in_map; auto).
    apply in_map_iff in H3 as (r & H3 & Hr). specialize (SP r Hr). split; [lia|]. split; [lia|auto].
  - cbn. apply group_index_good in GI. rewrite (map_map _ fst) in GI. cbn [fst] in GI. exact GI.
  - split; [split; cbn; [intros; apply repeat_length|intros w E k Hk; destruct affine; [|discriminate]; injection E as <-; apply repeat_length]|].
    split; [intros k v _; cbn; apply ones_len|]. cbn. auto.
Qed.
End Make.
