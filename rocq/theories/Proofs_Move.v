(** For C58: the layers that act on every pixel separately give equal fibers for equal fibers. *)
From Coq Require Import Reals ZArith String List Bool Lia Lra FunctionalExtensionality.
From Verif Require Import Base LinAlg Spec Spec_Fields Model_Groups Model_Rep Proofs_Rep Proofs_Restrict Model_FieldType Proofs_FieldType Model_GSpace Spec_GSpace Proofs_GSpace Model_Tensor Model_Utils Model_Modules Model_Conv Spec_Conv
  Proofs_Conv Proofs_Conv2 Proofs_Conv3 Proofs_Conv4 Proofs_Conv5 Proofs_Conv6 Proofs_Tensor Model_Fieldwise Spec_Fieldwise Spec_Fieldwise2 Proofs_Utils Proofs_Modules Proofs_Fieldwise Proofs_Fieldwise2 Proofs_Fieldwise3 Proofs_Fieldwise5 Proofs_Fieldwise8 Model_BatchNorm Spec_BatchNorm Proofs_BatchNorm Proofs_BatchNorm2 Proofs_BatchNorm3
  Proofs_BatchNorm4 Proofs_BatchNorm5 Proofs_BatchNorm7 Proofs_BatchNorm8 Proofs_BatchNorm9 Spec_Dropout Model_NormMax Model_Support Spec_Support Model_Net Spec_Net Proofs_Net Proofs_Net2 Proofs_Net3 Proofs_Net5.
Import ListNotations.
Open Scope R_scope.

(** ** the identity of the group *)
Lemma identity_rep G (sp : space G) isrep g r : planar_space G sp isrep -> sp_prj sp (fg_identity (sp_group (sp_obj sp))) = Some g -> isrep r -> meq (rp_size r) (rp_size r) (rp_mat r g) mid.
Proof.
  intros PS. destruct PS as [N HN|B HB|N axis HN|B axis HB|axis|]; cbn; intros E Hr; injection E as <-.
  - apply (cyc_rep_is N r); auto; lia.
  - apply (so2_rep_is r); auto.
  - apply (dih_rep_is N r); auto; lia.
  - apply (o2_rep_is r); auto.
  - apply (cyc_rep_is 2 r); auto; lia.
  - apply (cyc_rep_is 1 r); auto; lia.
Qed.

Section Pix.
Context {G B : Type} (g : G).
Notation tensor := (arr (B -> vec) * ctype G)%type.
Notation teqb := (ft_eqb space_eqb rep_eqb).
Notation X := (B * (nat * nat))%type.

(** the first n channels of x at the pixel p are those of x' at the pixel p' *)
Definition alike (n : nat) (x : arr (B -> vec)) (p : nat * nat) (x' : arr (B -> vec)) (p' : nat * nat) : Prop :=
  forall b c, (c < n)%nat -> a_px x (fst p) (snd p) b c = a_px x' (fst p') (snd p') b c.
(** g acts as the identity *)
Definition still (t : ctype G) : Prop := forall r, In r (ft_reps t) -> meq (rp_size r) (rp_size r) (rp_mat r g) mid.
Definition pix (fwd fwd' : tensor -> result tensor) (tin tout : ctype G) (ok : arr (B -> vec) -> arr (B -> vec) -> Prop) : Prop :=
  still tin -> still tout -> forall tt x x' y t', teqb tt tin = true -> ct_size tt = ct_size tin -> (forall z, ok x z) -> (forall z, ok x' z) -> fwd (x, tt) = Ok (y, t') ->
  t' = tout /\ a_h y = a_h x /\ a_w y = a_w x /\
  exists y', fwd' (x', tt) = Ok (y', tout) /\ a_h y' = a_h x' /\ a_w y' = a_w x' /\
    forall p p', in_image x p = true -> in_image x' p' = true -> alike (ct_size tin) x p x' p' -> alike (ct_size tout) y p y' p'.

Lemma still_trep t : still t -> meq (ct_size t) (ct_size t) (trep (ft_reps t) g) mid.
Proof.
  intros H. unfold trep. assert (E : ct_size t = bsize (map (fun s : rep G => (rp_size s, rp_mat s g)) (ft_reps t))) by (unfold bsize, ct_size; rewrite map_map; reflexivity).
  rewrite E. apply bdiag_mid. apply Forall_forall. intros p Hp. apply in_map_iff in Hp as (r & <- & Hr). apply H; auto.
Qed.
Lemma still_acts (t : ctype G) (pi : X -> X) d d' : ft_reps t <> [] -> still t -> length d = ct_size t ->
  acts (ft_reps t) g pi d d' <-> length d' = length d /\ forall p i, (i < length d)%nat -> val d' i p = val d i (pi p).
Proof.
  intros N S L. rewrite acts_iff by auto. rewrite L. assert (M : forall (v : vec) i, (i < ct_size t)%nat -> mvec (ct_size t) (trep (ft_reps t) g) v i = v i).
  { intros v i Hi. transitivity (mvec (ct_size t) mid v i); [|apply mvec_id; auto]. unfold mvec. apply rsum_ext. intros a Ha. rewrite (still_trep t S i a Hi Ha). reflexivity. }
  split; intros [L' V]; (split; [exact L'|]); intros p i Hi; rewrite V by auto; [|symmetry]; apply (M (fun a => val d a (pi p)) i Hi).
Qed.

Lemma channels_pix : channels_give g pix.
Proof.
  intros fwd fwd' tin tout ok N1 N2 LEN H S1 S2 tt x x' y t' E SZ OK OK' F. unfold on_channels in F |- *. cbn [fst snd] in F |- *. rewrite SZ in F |- *. set (n := ct_size tin) in *.
  assert (T : forall z : arr (B -> vec), typed space_eqb rep_eqb tin (MkGT (channels n z) tt)) by (intros z; split; [exact E|apply channels_len]).
  assert (ID : forall z, acts (ft_reps tin) g (fun q => q) (channels n z) (channels (B := B) n z)) by (intros z; apply still_acts; auto; apply channels_len).
  destruct (H (fun q => q) (MkGT (channels n x) tt) (MkGT (channels n x) tt) x y eq_refl (OK y) (T x) (T x) (ID x)) as (Y & Y0 & F1 & _ & T1 & _). destruct (H (fun q => q) (MkGT (channels n x') tt) (MkGT (channels n x') tt) x' y eq_refl (OK' y) (T x') (T x') (ID x')) as (Y2 & Y' & F2 & F2' & T2 & T2' & A2).
  rewrite F1 in F. cbn [rbind] in F. injection F as <- <-. split; [exact T1|]. split; [reflexivity|]. split; [reflexivity|]. rewrite F2'. cbn [rbind]. rewrite T2'. eexists. split; [reflexivity|]. split; [reflexivity|]. split; [reflexivity|].
  intros p p' I I' AL b c Hc. cbn [image a_px].
  apply still_acts in A2 as [_ V2]; auto; [|eapply LEN; eauto].
  set (Z := map (fun c (q : X) => a_px x (fst p) (snd p) (fst q) c) (seq 0 n)).
  assert (LZ : length Z = n) by (unfold Z; rewrite map_length, seq_length; reflexivity).
  assert (VZ : forall i q, (i < n)%nat -> val Z i q = a_px x (fst p) (snd p) (fst q) i).
  { intros i q Hi. unfold val, Z. rewrite (nth_indep _ _ ((fun c (q : X) => a_px x (fst p) (snd p) (fst q) c) 0%nat)) by (rewrite map_length, seq_length; auto).
    rewrite (map_nth (fun c (q : X) => a_px x (fst p) (snd p) (fst q) c)). rewrite seq_nth by auto. reflexivity. }
  assert (TZ : typed space_eqb rep_eqb tin (MkGT Z tt)) by (split; [exact E|exact LZ]).
  destruct (H (fun q => (fst q, p)) (MkGT (channels n x) tt) (MkGT Z tt) x x eq_refl (OK x) (T x) TZ) as (Y3 & W & F3 & F3' & T3 & T3' & A3).
  { apply still_acts; auto; [apply channels_len|]. cbn [gt_data]. rewrite channels_len. split; [exact LZ|]. intros q i Hi. rewrite VZ, channels_val by auto. cbn [fst snd]. rewrite I. reflexivity. }
  destruct (H (fun q => (fst q, p')) (MkGT (channels n x') tt) (MkGT Z tt) x' x eq_refl (OK' x) (T x') TZ) as (Y4 & W4 & F4 & F4' & T4 & T4' & A4).
  { apply still_acts; auto; [apply channels_len|]. cbn [gt_data]. rewrite channels_len. split; [exact LZ|]. intros q i Hi. rewrite VZ, channels_val by auto. cbn [fst snd]. rewrite I'. apply AL; auto. }
  rewrite F1 in F3. injection F3 as <-. rewrite F2 in F4. injection F4 as <-. rewrite F3' in F4'. injection F4' as <-.
  apply still_acts in A3 as [_ V3]; auto; [|eapply LEN; eauto]. apply still_acts in A4 as [_ V4]; auto; [|eapply LEN; eauto].
  pose proof (LEN _ _ F1 T1) as L1. pose proof (LEN _ _ F2 T2) as L2.
  transitivity (val (gt_data Y) c (b, p)); [destruct p; reflexivity|]. transitivity (val (gt_data Y') c (b, p')); [|destruct p'; reflexivity].
  transitivity (val (gt_data W) c (b, p)); [symmetry; apply (V3 (b, p) c); rewrite L1; auto|]. transitivity (val (gt_data Y2) c (b, p')); [apply (V4 (b, p) c); rewrite L2; auto|].
  symmetry. apply (V2 (b, p') c). rewrite L2. auto.
Qed.
End Pix.

(** ** batch normalisation in evaluation mode *)
Section Entries.
Context {G B : Type} (g : G) (bt : batch B) (NB : numbered bt).
Notation gtensor := (gtensor (space G) (rep G) (nat -> R)).
Notation is_typed := (typed space_eqb rep_eqb).
Notation pix := (@pix G B g).

(** two lists of channels with the same entries at the places p and p' *)
Definition peq (n : nat) (b : list (nat -> R)) (p : nat) (c : list (nat -> R)) (p' : nat) : Prop := length b = n /\ length c = n /\ forall a, (a < n)%nat -> val b a p = val c a p'.
Lemma fields_peq (reps : list (rep G)) d d' e e' p p' :
  length d = nsum (map rp_size reps) -> length e = nsum (map rp_size reps) -> length d' = nsum (map rp_size reps) -> length e' = nsum (map rp_size reps) ->
  (forall f r b c, nth_error reps f = Some r -> nth_error (fields reps d) f = Some b -> nth_error (fields reps e) f = Some c -> peq (rp_size r) b p c p' ->
     exists b' c', nth_error (fields reps d') f = Some b' /\ nth_error (fields reps e') f = Some c' /\ peq (rp_size r) b' p c' p') ->
  (forall a, (a < nsum (map rp_size reps))%nat -> val d a p = val e a p') -> forall a, (a < nsum (map rp_size reps))%nat -> val d' a p = val e' a p'.
Proof.
  intros L1 L2 L3 L4 H E i Hi. destruct (channel_in_field reps i Hi) as (f & r & a & Hr & Ha & ->).
  destruct (fields_at reps d f r Hr) as [b Hb]. destruct (fields_at reps e f r Hr) as [c Hc].
  destruct (fields_val _ _ _ _ _ L1 Hr Hb) as [B1 B2]. destruct (fields_val _ _ _ _ _ L2 Hr Hc) as [C1 C2].
  destruct (H f r b c Hr Hb Hc) as (b' & c' & Hb' & Hc' & _ & _ & V).
  { split; [exact B1|]. split; [exact C1|]. intros a' Ha'. rewrite B2, C2 by auto. apply E. clear - Hr Ha'.
    unfold field_offset. apply nth_error_split in Hr as (l1 & l2 & -> & <-). rewrite firstn_app, Nat.sub_diag, firstn_all. cbn [firstn]. rewrite app_nil_r, map_app, nsum_app. cbn [map].
    change (nsum (rp_size r :: map rp_size l2)) with (rp_size r + nsum (map rp_size l2))%nat. lia. }
  destruct (fields_val _ _ _ _ _ L3 Hr Hb') as [_ B3]. destruct (fields_val _ _ _ _ _ L4 Hr Hc') as [_ C3]. rewrite <- B3, <- C3 by auto. auto.
Qed.
Lemma entries_pix S (fwd fwd' : nat -> gtensor -> result (gtensor * S)) t (ok : arr (B -> vec) -> arr (B -> vec) -> Prop) :
  (forall n X, is_typed t X -> exists Y s, fwd n X = Ok (Y, s) /\ gt_type Y = t /\ length (gt_data Y) = ct_size t) ->
  (forall n X, is_typed t X -> exists Y s, fwd' n X = Ok (Y, s) /\ gt_type Y = t /\ length (gt_data Y) = ct_size t) ->
  (forall n n' X X' Y Y' s s' p p', is_typed t X -> is_typed t X' -> fwd n X = Ok (Y, s) -> fwd' n' X' = Ok (Y', s') ->
     (forall c, (c < ct_size t)%nat -> val (gt_data X) c p = val (gt_data X') c p') -> forall c, (c < ct_size t)%nat -> val (gt_data Y) c p = val (gt_data Y') c p') ->
  pix (on_entries bt fwd) (on_entries bt fwd') t t ok.
Proof.
  intros H H' V _ _ tt x x' y t' E SZ _ _ F. unfold on_entries in F |- *. cbn [fst snd] in F |- *. rewrite SZ in F |- *. set (n := ct_size t) in *.
  assert (T : forall z : arr (B -> vec), is_typed t (MkGT (flat_channels bt n z) tt)) by (intros z; split; [exact E|apply flat_channels_len]).
  destruct (H (bt_n bt * (a_h x * a_w x))%nat _ (T x)) as (Y & s & F1 & T1 & L1). destruct (H' (bt_n bt * (a_h x' * a_w x'))%nat _ (T x')) as (Y' & s' & F2 & T2 & L2).
  rewrite F1 in F. cbn [rbind fst snd] in F. injection F as <- <-. split; [exact T1|]. split; [reflexivity|]. split; [reflexivity|]. rewrite F2. cbn [rbind fst snd]. rewrite T2.
  eexists. split; [reflexivity|]. split; [reflexivity|]. split; [reflexivity|]. intros [i j] [i' j'] I I' AL b c Hc. cbn [fst snd flat_image a_px].
  unfold in_image in I, I'. cbn [fst snd] in I, I'. apply andb_true_iff in I as [I1 I2]. apply andb_true_iff in I' as [I3 I4]. apply Nat.ltb_lt in I1, I2, I3, I4.
  destruct (flat_in bt NB (a_h x) (a_w x) b i j I1 I2) as [Q1 Q2]. destruct (flat_in bt NB (a_h x') (a_w x') b i' j' I3 I4) as [Q3 Q4].
  apply (V _ _ _ _ _ _ _ _ (flat bt (a_h x) (a_w x) (b, (i, j))) (flat bt (a_h x') (a_w x') (b, (i', j'))) (T x) (T x') F1 F2); [|exact Hc].
  intros a Ha. cbn [gt_data]. rewrite !flat_channels_val by auto. cbv zeta. rewrite Q2, Q4. cbn [fst snd]. apply AL. auto.
Qed.

(** what the normalisations do to one field *)
Lemma peq_map n h b p c p' : peq n b p c p' -> peq n (map (fun u : nat -> R => fun q => h (u q)) b) p (map (fun u : nat -> R => fun q => h (u q)) c) p'.
Proof. intros (L1 & L2 & V). split; [rewrite map_length; auto|]. split; [rewrite map_length; auto|]. intros a Ha. rewrite !val_map by lia. rewrite V by auto. reflexivity. Qed.
Lemma peq_apply n s M b p c p' : peq s b p c p' -> n = s -> peq n (apply_mat s M b) p (apply_mat s M c) p'.
Proof.
  intros (L1 & L2 & V) ->. unfold apply_mat. split; [rewrite map_length, seq_length; auto|]. split; [rewrite map_length, seq_length; auto|]. intros a Ha.
  assert (E : forall (l : list (nat -> R)) q, val (map (fun d => fun p => rsum s (fun e => M d e * nth e l (fun _ => 0) p)) (seq 0 s)) a q = rsum s (fun e => M a e * nth e l (fun _ => 0) q)).
  { intros l q. unfold val. rewrite (nth_error_nth _ _ (fun _ => 0) (map_nth_error _ _ _ (nth_error_nth' (seq 0 s) 0%nat (eq_ind_r (fun k => (a < k)%nat) Ha (seq_length s 0))))). rewrite seq_nth by auto. reflexivity. }
  rewrite !E. apply rsum_ext. intros e He. specialize (V e He). unfold val in V. rewrite V. reflexivity.
Qed.
Lemma peq_shift n (r : rep G) v b p c p' : peq n b p c p' -> peq n (gn_shift r v b) p (gn_shift r v c) p'.
Proof. intros (L1 & L2 & V). split; [rewrite shift_len; auto|]. split; [rewrite shift_len; auto|]. intros a Ha. rewrite !val_shift by lia. rewrite V by auto. reflexivity. Qed.
Lemma val_scale_any (r : rep G) v t a p : (a < length t)%nat -> val (gn_scale r v t) a p = val t a p * rsum (length (rp_irreps r)) (fun i => propagator r a i * nth i v 0).
Proof.
  intros H. unfold val. pose proof (enumerate_at t a _ (nth_error_nth' _ (fun _ => 0) H)) as E. unfold gn_scale. erewrite (nth_error_nth _ a); [|rewrite nth_error_map, E; reflexivity]. reflexivity.
Qed.
Lemma peq_scale n (r : rep G) v b p c p' : peq n b p c p' -> peq n (gn_scale r v b) p (gn_scale r v c) p'.
Proof. intros (L1 & L2 & V). split; [rewrite scale_len; auto|]. split; [rewrite scale_len; auto|]. intros a Ha. rewrite !val_scale_any by lia. rewrite V by auto. reflexivity. Qed.

Lemma nbn_pix {K} (keqb : K -> K -> bool) key ksize ksub (EP : forall a b, reflect (a = b) (keqb a b)) (KI : forall a b : K, key a = key b -> a = b) (m : nbn (GS := space G) (G := G) (K := K)) ok :
  nb_wf keqb key ksize ksub m -> pix (on_entries bt (fun n => nbn_forward space_eqb rep_eqb keqb key ksize ksub false n m)) (on_entries bt (fun n => nbn_forward space_eqb rep_eqb keqb key ksize ksub false n m)) (nb_in m) (nb_in m) ok.
Proof.
  intros W. assert (N0 : forall n : nat, false = true -> (0 < n)%nat) by discriminate.
  assert (T : forall n X, is_typed (nb_in m) X -> exists Y s, nbn_forward space_eqb rep_eqb keqb key ksize ksub false n m X = Ok (Y, s) /\ gt_type Y = nb_in m /\ length (gt_data Y) = ct_size (nb_in m)).
  { intros n X TX. destruct (nbn_value space_eqb rep_eqb keqb key ksize ksub EP KI false n m X W TX (N0 n)) as (Y & m1 & F & _ & Y1 & Y2 & _). exists Y, m1. auto. }
  apply entries_pix; auto. intros n n' X X' Y Y' s s' p p' TX TX' F F' V.
  destruct (nbn_value space_eqb rep_eqb keqb key ksize ksub EP KI false n m X W TX (N0 n)) as (Z & m1 & F1 & _ & _ & L & _ & _ & VV & C). rewrite F in F1. injection F1 as <- <-.
  destruct (nbn_value space_eqb rep_eqb keqb key ksize ksub EP KI false n' m X' W TX' (N0 n')) as (Z & m2 & F2 & _ & _ & L' & _ & _ & VV' & C'). rewrite F' in F2. injection F2 as <- <-.
  apply (fields_peq (ft_reps (nb_in m)) (gt_data X) (gt_data Y) (gt_data X') (gt_data Y') p p'); auto; try apply TX; try apply TX'.
  intros f r b c Hr Hb Hc PE.
  assert (exists k, nth_error (nb_keys m) f = Some k) as [k Hk].
  { destruct (nth_error (nb_keys m) f) as [k|] eqn:E; [eauto|]. apply nth_error_None in E. destruct W as ((SZ & _) & _). apply (f_equal (@length nat)) in SZ. rewrite !map_length in SZ.
    assert (f < length (ft_reps (nb_in m)))%nat by (apply nth_error_Some; congruence). lia. }
  assert (IK : In k (nb_keys m)) by (eapply nth_error_In; eauto).
  rewrite (C f k b Hk Hb), (C' f k c Hk Hc). eexists. eexists. split; [reflexivity|]. split; [reflexivity|]. rewrite (VV k IK), (VV' k IK). exact (peq_map _ (fun u => u * _) _ _ _ _ PE).
Qed.
Lemma inner_pix junk junk' (m : ibn) ok : ib_wf m -> ib_track m = true ->
  pix (on_entries bt (fun n => inner_forward space_eqb rep_eqb false n junk m)) (on_entries bt (fun n => inner_forward space_eqb rep_eqb false n junk' m)) (ib_in m) (ib_in m) ok.
Proof.
  intros W TR. assert (N0 : forall n : nat, inner_enough false n m) by (intros n H; rewrite TR in H; discriminate).
  assert (T : forall jk n X, is_typed (ib_in m) X -> exists Y s, inner_forward space_eqb rep_eqb false n jk m X = Ok (Y, s) /\ gt_type Y = ib_in m /\ length (gt_data Y) = ct_size (ib_in m)).
  { intros jk n X TX. destruct (inner_value space_eqb rep_eqb false n jk m X W TX (N0 n)) as (Y & m1 & F & _ & Y1 & Y2 & _). exists Y, m1. auto. }
  apply entries_pix; auto. intros n n' X X' Y Y' s s' p p' TX TX' F F' V.
  destruct (inner_value space_eqb rep_eqb false n junk m X W TX (N0 n)) as (Z & m1 & F1 & _ & _ & L & _ & _ & C). rewrite F in F1. injection F1 as <- <-.
  destruct (inner_value space_eqb rep_eqb false n' junk' m X' W TX' (N0 n')) as (Z & m2 & F2 & _ & _ & L' & _ & _ & C'). rewrite F' in F2. injection F2 as <- <-.
  apply (fields_peq (ft_reps (ib_in m)) (gt_data X) (gt_data Y) (gt_data X') (gt_data Y') p p'); auto; try apply TX; try apply TX'.
  intros f r b c Hr Hb Hc PE. assert (Hk : nth_error (ib_sizes m) f = Some (rp_size r)) by (unfold ib_sizes; rewrite nth_error_map, Hr; reflexivity).
  rewrite (C f _ b Hk Hb), (C' f _ c Hk Hc). eexists. eexists. split; [reflexivity|]. split; [reflexivity|].
  destruct W as (_ & _ & _ & _ & BW). destruct (BW (rp_size r) (nth_error_In _ _ Hk)) as (_ & B2 & _). rewrite TR in B2.
  set (st := bn_used false n (ib_bn m (rp_size r)) (rank_of Nat.eqb (ib_sizes m) f) b). set (st' := bn_used false n' (ib_bn m (rp_size r)) (rank_of Nat.eqb (ib_sizes m) f) c).
  assert (ES : st = st') by (unfold st, st', bn_used; unfold bn_tracks in B2; destruct (bn_stats (ib_bn m (rp_size r))); [reflexivity|discriminate]). rewrite <- ES.
  exact (peq_map _ (fun u => (u - fst st) / sqrt (snd st + ib_eps m) * fst _ + snd _) _ _ _ _ PE).
Qed.
Lemma gnorm_pix cob_id junk junk' (m : gbn) ok : gb_wf cob_id m ->
  pix (on_entries bt (fun n => gnorm_forward space_eqb rep_eqb cob_id false n junk m)) (on_entries bt (fun n => gnorm_forward space_eqb rep_eqb cob_id false n junk' m)) (gb_in m) (gb_in m) ok.
Proof.
  intros W. assert (N0 : forall n : nat, false = true -> (0 < n)%nat) by discriminate.
  assert (T : forall jk n X, is_typed (gb_in m) X -> exists Y s, gnorm_forward space_eqb rep_eqb cob_id false n jk m X = Ok (Y, s) /\ gt_type Y = gb_in m /\ length (gt_data Y) = ct_size (gb_in m)).
  { intros jk n X TX. destruct (gnorm_value space_eqb rep_eqb cob_id false n jk m X W TX (N0 n)) as (Y & m1 & F & _ & Y1 & Y2 & _). exists Y, m1. auto. }
  apply entries_pix; auto. intros n n' X X' Y Y' s s' p p' TX TX' F F' V.
  destruct (gnorm_value space_eqb rep_eqb cob_id false n junk m X W TX (N0 n)) as (Z & m1 & F1 & _ & _ & L & _ & _ & C). rewrite F in F1. injection F1 as <- <-.
  destruct (gnorm_value space_eqb rep_eqb cob_id false n' junk' m X' W TX' (N0 n')) as (Z & m2 & F2 & _ & _ & L' & _ & _ & C'). rewrite F' in F2. injection F2 as <- <-.
  apply (fields_peq (ft_reps (gb_in m)) (gt_data X) (gt_data Y) (gt_data X') (gt_data Y') p p'); auto; try apply TX; try apply TX'.
  intros f r b c Hr Hb Hc PE. rewrite (C f _ b Hr Hb), (C' f _ c Hr Hc). eexists. eexists. split; [reflexivity|]. split; [reflexivity|].
  unfold gn_out, gn_used. assert (P1 : peq (rp_size r) (gto cob_id r b) p (gto cob_id r c) p') by (unfold gto; destruct (cob_id r); [exact PE|apply peq_apply; auto]).
  match goal with |- peq _ (gback _ _ ?a) _ (gback _ _ ?b') _ => assert (P2 : peq (rp_size r) a p b' p') end.
  { unfold gn_val. destruct (gn_pars _ _); repeat first [apply peq_shift | apply peq_scale]; exact P1. }
  unfold gback. destruct (cob_id r); [exact P2|apply peq_apply; auto].
Qed.
End Entries.
