(** The loops of the batch-normalisation modules, and transformed batches. *)
From Coq Require Import Reals ZArith String Ascii Decimal DecimalString List Bool Lia Lra Permutation Sorted FunctionalExtensionality.
From Verif Require Import Base LinAlg Spec Spec_Fields Model_Groups Model_Rep Model_FieldType Model_Tensor Model_Utils Model_Modules Model_Fieldwise Model_BatchNorm Spec_Fieldwise Spec_Fieldwise2 Spec_Dropout Spec_BatchNorm
  Proofs_FieldType Proofs_FieldType2 Proofs_Tensor Proofs_Utils Proofs_Modules Proofs_Modules2 Proofs_Modules3 Proofs_Fieldwise Proofs_Fieldwise2 Proofs_Fieldwise3 Proofs_Fieldwise4 Proofs_Fieldwise5 Proofs_Fieldwise8 Proofs_Dropout.
Import ListNotations.
Open Scope nat_scope.

Lemma set_at_same {K S} eqb (st : K -> S) k s : (forall a b, reflect (a = b) (eqb a b)) -> set_at eqb st k s k = s.
Proof. intros E. unfold set_at. destruct (E k k); [auto|congruence]. Qed.
Lemma set_at_other {K S} eqb (st : K -> S) k s k' : (forall a b, reflect (a = b) (eqb a b)) -> k <> k' -> set_at eqb st k s k' = st k'.
Proof. intros E N. unfold set_at. destruct (E k k'); [congruence|auto]. Qed.

(** * Groups *)
Section Groups.
Context {K G A : Type} (eqb : K -> K -> bool) (key : K -> string) (size : K -> nat) (ks : list K) (reps : list (rep G)) (idx : list (string * chan_set)).
Hypothesis EP : forall a b, reflect (a = b) (eqb a b).
Hypothesis KI : forall a b, key a = key b -> a = b.
Hypothesis SZ : map size ks = map rp_size reps.
Hypothesis POS : forall k, In k ks -> 0 < size k.
Hypothesis GI : good_index (map (fun k => (key k, size k)) ks) (map key ks) idx.
Let fs := map (fun k => (key k, size k)) ks.

(** the positions of the fields of a group *)
Definition places (k : K) : list nat := label_fields (key k) 0 fs.
Lemma fs_of : fs = map (fun p => (key (fst p), snd p)) (kf_of size ks).
Proof. rewrite kf_of_fs. reflexivity. Qed.
Lemma ks_len : length ks = length reps.
Proof. rewrite <- (map_length size ks), SZ, map_length. auto. Qed.
Lemma places_len k : length (places k) = nfields eqb ks k.
Proof.
  unfold places, nfields, fs. rewrite <- count_label_fields. rewrite <- (kf_of_fst size ks) at 2. rewrite (count_label_fields _ _ 0), <- count_label_fields with (c := 0).
  rewrite <- (kf_of_fs size key ks). apply (label_fields_keys eqb EP key KI).
Qed.
Lemma places_in k f : In f (places k) <-> nth_error ks f = Some k.
Proof.
  unfold places, fs. rewrite label_fields_spec, Nat.sub_0_r. split.
  - intros [_ [n H]]. rewrite nth_error_map in H. destruct (nth_error ks f) as [k'|]; [|discriminate]. injection H as H _. apply KI in H. congruence.
  - intros H. split; [lia|]. exists (size k). rewrite nth_error_map, H. reflexivity.
Qed.
Lemma places_rank k f : nth_error ks f = Some k -> nth_error (places k) (rank_of eqb ks f) = Some f.
Proof.
  intros H. unfold places. assert (H' : nth_error fs f = Some (key k, size k)) by (unfold fs; rewrite nth_error_map, H; reflexivity).
  rewrite <- (label_fields_rank (key k) fs 0 f _ H') at 1. f_equal. unfold rank_of. rewrite H. unfold fs. rewrite firstn_map.
  rewrite (count_label_fields _ _ 0). rewrite <- (kf_of_fs size key (firstn f ks)). rewrite <- (kf_of_fst size (firstn f ks)) at 1.
  symmetry. rewrite <- (count_label_fields _ _ 0). apply (label_fields_keys eqb EP key KI).
Qed.
Lemma rank_bound k f : nth_error ks f = Some k -> rank_of eqb ks f < nfields eqb ks k.
Proof. intros H. rewrite <- places_len. apply nth_error_Some. rewrite (places_rank k f H). discriminate. Qed.
(** reading a group *)
Definition read (x : list A) (k : K) (fm : list A) : Prop := exists ci, attr_of idx (key k) = Ok ci /\ gather ci x = Ok fm.
Definition group_of (x : list A) (k : K) : list (list A) := map (fun f => nth f (fields reps x) []) (places k).
Lemma group_at x k f : nth_error ks f = Some k -> nth_error (group_of x k) (rank_of eqb ks f) = Some (nth f (fields reps x) []).
Proof. intros H. unfold group_of. rewrite nth_error_map, (places_rank k f H). reflexivity. Qed.
Lemma group_len x k : length (group_of x k) = nfields eqb ks k.
Proof. unfold group_of. rewrite map_length. apply places_len. Qed.
Lemma field_at (x : list A) f k : nth_error ks f = Some k -> nth_error (fields reps x) f = Some (nth f (fields reps x) []).
Proof.
  intros H. apply nth_error_nth'. unfold fields. rewrite cut_len, map_length, <- ks_len. apply nth_error_Some. congruence.
Qed.
Lemma field_size (x : list A) f k : length x = nsum (map rp_size reps) -> nth_error ks f = Some k -> length (nth f (fields reps x) []) = size k.
Proof.
  intros LX H. assert (L : f < length reps). { rewrite <- ks_len. apply nth_error_Some. congruence. }
  pose proof (field_at x f k H) as E. rewrite (fs_fields _ (kf_of size ks) key) in E; auto; [|rewrite kf_of_snd; auto]. injection E as <-.
  eapply field_length; [|rewrite nth_error_map; unfold kf_of; rewrite nth_error_map, H; reflexivity].
  rewrite map_map. change (map (fun p => snd (key (fst p), snd p)) (kf_of size ks)) with (map snd (kf_of size ks)). rewrite kf_of_snd. congruence.
Qed.
Lemma group_blocks x k b : length x = nsum (map rp_size reps) -> In b (group_of x k) -> length b = size k.
Proof.
  intros LX H. unfold group_of in H. apply in_map_iff in H as (f & <- & Hf). apply places_in in Hf. apply field_size; auto.
Qed.
Lemma group_ok x k : length x = nsum (map rp_size reps) -> In k ks -> exists fm, read x k fm /\ view_fields (size k) fm = Ok (group_of x k).
Proof.
  intros LX Hk. destruct (GI (key k)) as (ci & E1 & OK1 & CL). { apply in_map. auto. }
  assert (LS : nsum (map snd fs) = length x). { unfold fs. rewrite map_map, LX, <- SZ. reflexivity. }
  destruct (gather_ok ci x OK1) as (fm & F1 & F2). { rewrite CL, <- LS. apply ind_bound. }
  exists fm. split. { exists ci. split; [unfold attr_of; rewrite E1; auto|auto]. }
  rewrite CL in F2. rewrite (view_group fs x fm (key k) (size k)); auto.
  - f_equal. unfold group_of, places. apply map_ext_in. intros f Hf. fold (places k) in Hf. apply places_in in Hf.
    pose proof (field_at x f k Hf) as E. rewrite (fs_fields _ (kf_of size ks) key) in E; [|rewrite kf_of_snd; auto|rewrite <- ks_len; apply nth_error_Some; congruence].
    rewrite <- fs_of in E. congruence.
  - intros m Hm. apply in_map_iff in Hm as (k' & E & _). injection E as E <-. apply KI in E. congruence.
Qed.
Lemma read_fun x k fm fm' : read x k fm -> read x k fm' -> fm = fm'.
Proof. intros (c & E & H) (c' & E' & H'). congruence. Qed.

(** * The loops *)
Lemma stat_loop_ok {S} (upd : K -> S -> list A -> result S) x : forall order st, NoDup order ->
  (forall k, In k order -> exists fm s, read x k fm /\ upd k (st k) fm = Ok s) ->
  exists st', stat_loop eqb key idx upd x order st = Ok st' /\
    (forall k fm, In k order -> read x k fm -> upd k (st k) fm = Ok (st' k)) /\ (forall k, ~ In k order -> st' k = st k).
Proof.
  induction order as [|k order IH]; intros st ND H.
  { exists st. split; [reflexivity|]. split; [intros ? ? []|auto]. }
  inversion ND as [|? ? NI ND']; subst. destruct (H k) as (fm & s & (ci & R1 & R2) & U); [cbn; auto|]. cbn [stat_loop]. rewrite R1. cbn [rbind]. rewrite R2. cbn [rbind]. rewrite U. cbn [rbind].
  destruct (IH (set_at eqb st k s) ND') as (st' & E1 & E2 & E3).
  { intros k' Hk'. rewrite set_at_other by (auto; intros ->; auto). apply H. cbn; auto. }
  exists st'. split; [auto|]. split.
  - intros k' fm' [->|Hk'] Hr.
    + rewrite E3 by auto. rewrite set_at_same by auto. assert (fm' = fm); [|congruence]. eapply read_fun; [exact Hr|]. exists ci. auto.
    + rewrite <- (E2 k' fm' Hk' Hr). rewrite set_at_other by (auto; intros ->; auto). auto.
  - intros k' Hk'. cbn in Hk'. rewrite E3 by tauto. apply set_at_other; [auto|]. intros ->. tauto.
Qed.
(** writing each group in turn *)
Lemma state_loop_group {S} (step : K -> S -> list A -> result (S * list A)) (op : K -> list A -> result (list A)) x : forall order st out y, NoDup order ->
  (forall k, In k order -> exists fm s vals, read x k fm /\ step k (st k) fm = Ok (s, vals) /\ op k fm = Ok vals) ->
  group_loop key idx idx (fun _ => 0) (fun k _ fm => op k fm) x order 0 out = Ok y ->
  exists st', state_loop eqb key idx step x order st out = Ok (st', y) /\
    (forall k fm, In k order -> read x k fm -> exists vals, step k (st k) fm = Ok (st' k, vals)) /\ (forall k, ~ In k order -> st' k = st k).
Proof.
  induction order as [|k order IH]; intros st out y ND H HG.
  { injection HG as <-. exists st. split; [reflexivity|]. split; [intros ? ? []|auto]. }
  inversion ND as [|? ? NI ND']; subst. destruct (H k) as (fm & s & vals & (ci & R1 & R2) & U & O); [cbn; auto|].
  cbn [group_loop] in HG. rewrite R1 in HG. cbn [rbind] in HG. rewrite R2 in HG. cbn [rbind] in HG. rewrite O in HG. cbn [rbind] in HG.
  apply rbind_ok in HG as (out' & HS & HG).
  cbn [state_loop]. rewrite R1. cbn [rbind]. rewrite R2. cbn [rbind]. rewrite U. cbn [rbind snd fst]. rewrite HS. cbn [rbind].
  destruct (IH (set_at eqb st k s) out' y ND') as (st' & E1 & E2 & E3); auto.
  { intros k' Hk'. rewrite set_at_other by (auto; intros ->; auto). apply H. cbn; auto. }
  exists st'. split; [auto|]. split.
  - intros k' fm' [->|Hk'] Hr.
    + rewrite E3 by auto. rewrite set_at_same by auto. exists vals. assert (fm' = fm); [|congruence]. eapply read_fun; [exact Hr|]. exists ci. auto.
    + destruct (E2 k' fm' Hk' Hr) as [v Hv]. exists v. rewrite set_at_other in Hv by (auto; intros ->; auto). auto.
  - intros k' Hk'. cbn in Hk'. rewrite E3 by tauto. apply set_at_other; [auto|]. intros ->. tauto.
Qed.
(** reading and writing the same tensor *)
Lemma self_as_group (op : K -> list A -> result (list A)) x : length x = nsum (map rp_size reps) -> (forall k fm vals, In k ks -> op k fm = Ok vals -> length vals = length fm) ->
  forall order cur, NoDup order -> (forall k, In k order -> In k ks) -> length cur = length x ->
    (forall k, In k order -> forall i, In i (label_indices (key k) 0 fs) -> nth_error cur i = nth_error x i) ->
  self_loop key idx op order cur = group_loop key idx idx (fun _ => 0) (fun k _ fm => op k fm) x order 0 cur.
Proof.
  intros LX LV. assert (LS : nsum (map snd fs) = length x). { unfold fs. rewrite map_map, LX, <- SZ. reflexivity. }
  induction order as [|k order IH]; intros cur ND SUB LC AG; [reflexivity|]. cbn [self_loop group_loop].
  destruct (GI (key k)) as (ci & E1 & OK1 & CL). { apply in_map. apply SUB. cbn; auto. } fold fs in CL.
  unfold attr_of. rewrite E1. cbn [rbind]. assert (BD : Forall (fun i => i < length x) (chan_list ci)) by (rewrite CL, <- LS; apply ind_bound).
  destruct (gather_ok ci x OK1 BD) as (fm & F1 & F2). destruct (gather_ok ci cur OK1) as (fm' & F1' & F2'). { rewrite LC. auto. }
  assert (fm' = fm). { eapply picks_fun; [|exact F2]. eapply agree_picks; [|exact F2']. rewrite CL. apply AG. cbn; auto. } subst fm'.
  rewrite F1, F1'. cbn [rbind]. destruct (op k fm) as [vals|e] eqn:EV; cbn [rbind]; [|reflexivity].
  assert (LVs : length vals = length (chan_list ci)). { rewrite (LV k fm vals); auto; [eapply picks_length; eauto|apply SUB; cbn; auto]. }
  destruct (scatter_ok ci cur vals OK1) as (cur' & C1 & C2 & C3 & C4); auto. { rewrite CL. apply sorted_nodup, label_indices_sorted. } { rewrite LC. auto. }
  rewrite C1. cbn [rbind]. inversion ND; subst. apply IH; auto; [intros ? ?; apply SUB; cbn; auto|congruence|].
  intros k' Hk' i Hi. rewrite C4; [apply (AG k'); cbn; auto|]. rewrite CL. intros Hi'. pose proof (ind_disjoint _ _ _ _ Hi Hi') as E. apply KI in E. congruence.
Qed.
End Groups.
