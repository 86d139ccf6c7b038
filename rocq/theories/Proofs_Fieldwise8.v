(** Fieldwise operations and the group action. *)
From Coq Require Import Reals ZArith String List Bool Lia Lra FunctionalExtensionality.
From Verif Require Import Base Spec_Fields Model_Groups Model_Rep Model_FieldType Model_Tensor Model_Utils Model_Fieldwise Spec_Fieldwise Spec_Fieldwise2
  Proofs_FieldType Proofs_Tensor Proofs_Utils Proofs_Fieldwise Proofs_Fieldwise2 Proofs_Fieldwise3 Proofs_Fieldwise4.
Import ListNotations.
Open Scope R_scope.

(** the field b' is the field b transformed by the matrix A *)
Definition moved {X} (n : nat) (A : mat) (pi : X -> X) (b b' : list (X -> R)) : Prop :=
  length b = n /\ length b' = n /\
  forall p a, (a < n)%nat -> val b' a p = rsum n (fun c => A a c * val b c (pi p)).

Section Acts.
Context {G X : Type}.
Notation chan := (X -> R).
Implicit Types (reps : list (rep G)) (d : list chan) (pi : X -> X).

Lemma fields_val reps d f r b : length d = nsum (map rp_size reps) -> nth_error reps f = Some r -> nth_error (fields reps d) f = Some b ->
  length b = rp_size r /\ forall a p, (a < rp_size r)%nat -> val b a p = val d (field_offset reps f + a) p.
Proof.
  intros L Hr Hb. set (fs := map (fun r => (""%string, rp_size r)) reps).
  assert (SZ : map snd fs = map rp_size reps) by (unfold fs; rewrite map_map; reflexivity).
  assert (Hf : nth_error fs f = Some (""%string, rp_size r)) by (unfold fs; rewrite nth_error_map, Hr; reflexivity).
  assert (Hl : (f < length fs)%nat) by (apply nth_error_Some; congruence).
  unfold fields in Hb. rewrite <- SZ, cut_field in Hb by auto. injection Hb as <-.
  assert (LF : length (field fs d f) = rp_size r) by (eapply field_length; [rewrite SZ; auto|exact Hf]).
  split; [auto|]. intros a p Ha. unfold val.
  assert (E : nth_error (field fs d f) a = nth_error d (foff fs f + a)) by (eapply field_nth; eauto).
  assert (EO : foff fs f = field_offset reps f). { unfold foff, field_offset, fs. rewrite firstn_map, map_map. reflexivity. }
  rewrite EO in E. rewrite (nth_error_nth' _ (fun _ => 0)) in E by lia. symmetry in E. rewrite (nth_error_nth _ _ _ E). reflexivity.
Qed.
Lemma fields_at reps d f r : nth_error reps f = Some r -> exists b, nth_error (fields reps d) f = Some b.
Proof.
  intros H. destruct (nth_error (fields reps d) f) as [b|] eqn:E; [eauto|]. apply nth_error_None in E. unfold fields in E. rewrite cut_len, map_length in E.
  assert (f < length reps)%nat by (apply nth_error_Some; congruence). lia.
Qed.
Lemma acts_moved reps g pi d d' : length d = nsum (map rp_size reps) -> acts reps g pi d d' ->
  forall f r b b', nth_error reps f = Some r -> nth_error (fields reps d) f = Some b -> nth_error (fields reps d') f = Some b' ->
  moved (rp_size r) (rp_mat r g) pi b b'.
Proof.
  intros L (L' & t' & T & V) f r b b' Hr Hb Hb'. destruct (fields_val _ _ _ _ _ L Hr Hb) as [B1 B2].
  destruct (fields_val reps d' f r b' ltac:(congruence) Hr Hb') as [B1' B2']. split; [auto|]. split; [auto|]. intros p a Ha.
  rewrite B2' by auto. assert (FO : (field_offset reps f + a < length d)%nat).
  { rewrite L. unfold field_offset. apply nth_error_split in Hr as (l1 & l2 & -> & <-).
    rewrite firstn_app, Nat.sub_diag, firstn_all. cbn [firstn]. rewrite app_nil_r, map_app, nsum_app. cbn [map].
    change (nsum (rp_size r :: map rp_size l2)) with (rp_size r + nsum (map rp_size l2))%nat. lia. }
  rewrite V by auto. rewrite (transform_fieldwise _ _ _ _ T p f r a Hr Ha). apply rsum_ext. intros c Hc. rewrite B2 by auto. reflexivity.
Qed.
Lemma moved_acts reps g pi d d' : reps <> [] -> length d = nsum (map rp_size reps) -> length d' = nsum (map rp_size reps) ->
  (forall f r b b', nth_error reps f = Some r -> nth_error (fields reps d) f = Some b -> nth_error (fields reps d') f = Some b' ->
     moved (rp_size r) (rp_mat r g) pi b b') -> acts reps g pi d d'.
Proof.
  intros NE L L' H. split; [congruence|]. destruct (transform_total reps g (fun p i => val d i (pi p)) NE) as [t' T]. exists t'. split; [auto|].
  intros p i Hi. rewrite L in Hi. destruct (channel_in_field reps i Hi) as (f & r & a & Hr & Ha & ->).
  destruct (fields_at reps d f r Hr) as [b Hb]. destruct (fields_at reps d' f r Hr) as [b' Hb'].
  destruct (H f r b b' Hr Hb Hb') as (_ & _ & M). destruct (fields_val _ _ _ _ _ L Hr Hb) as [B1 B2]. destruct (fields_val _ _ _ _ _ L' Hr Hb') as [B1' B2'].
  rewrite <- B2' by auto. rewrite M by auto. rewrite (transform_fieldwise _ _ _ _ T p f r a Hr Ha). apply rsum_ext. intros c Hc. rewrite B2 by auto. reflexivity.
Qed.

Lemma moved_same n A pi (b b' c c' : list chan) : same_chans c b -> same_chans c' b' -> moved n A pi b b' -> moved n A pi c c'.
Proof.
  intros [L1 S1] [L2 S2] (M1 & M2 & M3). split; [congruence|]. split; [congruence|]. intros p a Ha. rewrite S2 by lia. rewrite M3 by auto. apply rsum_ext. intros e He.
  rewrite S1 by lia. reflexivity.
Qed.

(** fieldwise operations that commute with the matrices of the fields are equivariant *)
Lemma fieldwise_acts reps reps' g pi op op' d d' y y' : reps <> [] -> length d = nsum (map rp_size reps) -> acts reps g pi d d' ->
  fieldwise reps reps' op d y -> fieldwise reps reps' op' d' y' ->
  (forall f r r' b b', nth_error reps f = Some r -> nth_error reps' f = Some r' -> nth_error (fields reps d) f = Some b -> nth_error (fields reps d') f = Some b' ->
     moved (rp_size r) (rp_mat r g) pi b b' -> moved (rp_size r') (rp_mat r' g) pi (op f b) (op' f b')) ->
  acts reps' g pi y y'.
Proof.
  intros NE L A (LR & LY & F) (_ & LY' & F') H.
  apply moved_acts; auto. { destruct reps'; [|discriminate]. destruct reps; [congruence|discriminate]. }
  intros f r' c c' Hr' Hc Hc'. assert (Hf : (f < length reps)%nat) by (rewrite LR; apply nth_error_Some; congruence).
  destruct (nth_error reps f) as [r|] eqn:Hr; [|apply nth_error_None in Hr; lia].
  destruct (fields_at reps d f r Hr) as [b Hb]. destruct (fields_at reps d' f r Hr) as [b' Hb'].
  destruct (F f b Hb) as (c0 & E & S). destruct (F' f b' Hb') as (c0' & E' & S'). rewrite E in Hc. rewrite E' in Hc'. injection Hc as ->. injection Hc' as ->.
  eapply moved_same; [exact S|exact S'|]. apply (H f r r'); auto. eapply acts_moved; [exact L|exact A|exact Hr|exact Hb|exact Hb'].
Qed.

Lemma rsum_at n k (u : nat -> R) : (k < n)%nat -> rsum n (fun e => if Nat.eqb e k then u k else 0) = u k.
Proof. intros H. rewrite (rsum_single n k); [rewrite Nat.eqb_refl; reflexivity|auto|]. intros i _ N. apply Nat.eqb_neq in N. rewrite N. reflexivity. Qed.
Lemma rsum_at' n k (u : nat -> R) : (k < n)%nat -> rsum n (fun e => if Nat.eqb e k then u e else 0) = u k.
Proof. intros H. rewrite (rsum_single n k); [rewrite Nat.eqb_refl; reflexivity|auto|]. intros i _ N. apply Nat.eqb_neq in N. rewrite N. reflexivity. Qed.

(** * What the matrices do *)
Lemma val_scaled m (b : list chan) a p : (a < length b)%nat -> val (scaled m b) a p = val b a p * m p.
Proof.
  intros H. unfold val, scaled. rewrite (nth_indep _ _ ((fun c : chan => fun p => c p * m p) (fun _ => 0))) by (rewrite map_length; auto).
  rewrite (map_nth (fun c : chan => fun p => c p * m p)). reflexivity.
Qed.
Lemma moved_scaled n A pi (m m' : chan) b b' : moved n A pi b b' -> (forall p, m' p = m (pi p)) -> moved n A pi (scaled m b) (scaled m' b').
Proof.
  intros (L & L' & M) H. unfold scaled. split; [rewrite map_length; auto|]. split; [rewrite map_length; auto|]. intros p a Ha.
  change (map (fun c : chan => fun q => c q * m' q) b') with (scaled m' b'). change (map (fun c : chan => fun q => c q * m q) b) with (scaled m b).
  rewrite val_scaled by lia. rewrite M by auto. rewrite H, <- rsum_scal_r. apply rsum_ext. intros c Hc. rewrite val_scaled by lia. ring.
Qed.
Lemma norm_moved n A pi (b b' : list chan) : orthogonal n A -> moved n A pi b b' -> forall p, norm_of b' p = norm_of b (pi p).
Proof.
  intros [_ O] (L & L' & M) p. unfold norm_of. f_equal. rewrite L, L'.
  rewrite (rsum_ext n _ (fun a => rsum n (fun c => rsum n (fun e => A a c * A a e * (val b c (pi p) * val b e (pi p)))))).
  2:{ intros a Ha. rewrite M by auto. rewrite <- rsum_scal_r. apply rsum_ext. intros c Hc. rewrite <- rsum_scal. apply rsum_ext. intros e He. ring. }
  rewrite rsum_swap. apply rsum_ext. intros c Hc. rewrite rsum_swap.
  rewrite (rsum_ext n _ (fun e => (if Nat.eqb c e then 1 else 0) * (val b c (pi p) * val b e (pi p)))).
  - rewrite (rsum_ext n _ (fun e => if Nat.eqb c e then val b c (pi p) * val b e (pi p) else 0)) by (intros e _; destruct (Nat.eqb c e); ring).
    rewrite (rsum_ext n _ (fun e => if Nat.eqb e c then val b c (pi p) * val b c (pi p) else 0)).
    + apply (rsum_at n c (fun e => val b e (pi p) * val b e (pi p))). auto.
    + intros e _. rewrite Nat.eqb_sym. destruct (Nat.eqb_spec e c); subst; auto.
  - intros e He. rewrite rsum_scal_r. f_equal. specialize (O c e Hc He). unfold mmul, mtr, mid in O. exact O.
Qed.
Lemma moved_norm_act n A pi eps f c (b b' : list chan) : orthogonal n A -> moved n A pi b b' -> moved n A pi (norm_act eps f c b) (norm_act eps f c b').
Proof.
  intros O M. apply moved_scaled; auto. intros p. rewrite (norm_moved _ _ _ _ _ O M). reflexivity.
Qed.
Lemma rsum_perm n s A v a : bij n s -> (forall i j, (i < n)%nat -> (j < n)%nat -> A i j = if (j =? s i)%nat then v i else 0) -> (a < n)%nat ->
  forall u, rsum n (fun c => A a c * u c) = v a * u (s a).
Proof.
  intros [B1 B2] H Ha u. rewrite (rsum_ext n _ (fun c => if Nat.eqb c (s a) then v a * u c else 0)).
  - apply (rsum_at' n (s a) (fun c => v a * u c)). apply B1. auto.
  - intros c Hc. rewrite H by auto. destruct (Nat.eqb c (s a)); ring.
Qed.
Lemma val_map h (b : list chan) a p : (a < length b)%nat -> val (map (fun c : chan => fun q => h (c q)) b) a p = h (val b a p).
Proof.
  intros H. unfold val. rewrite (nth_indep _ _ ((fun c : chan => fun q => h (c q)) (fun _ => 0))) by (rewrite map_length; auto).
  rewrite (map_nth (fun c : chan => fun q => h (c q))). reflexivity.
Qed.
Lemma moved_pointwise n A pi h (b b' : list chan) : is_perm n A -> moved n A pi b b' ->
  moved n A pi (map (fun c : chan => fun q => h (c q)) b) (map (fun c : chan => fun q => h (c q)) b').
Proof.
  intros (s & B & P) (L & L' & M). split; [rewrite map_length; auto|]. split; [rewrite map_length; auto|]. intros p a Ha.
  rewrite val_map by lia. rewrite M by auto. rewrite (rsum_perm n s A (fun _ => 1) a B P Ha (fun c => val b c (pi p))).
  rewrite (rsum_perm n s A (fun _ => 1) a B P Ha (fun c => val (map (fun c0 : chan => fun q => h (c0 q)) b) c (pi p))).
  rewrite val_map by (rewrite L; apply B; auto). rewrite !Rmult_1_l. reflexivity.
Qed.

(** the maximum of a field *)
Lemma vmax_spec (b : list chan) p : b <> [] -> is_max b p (vmax b p).
Proof.
  destruct b as [|c b]; [congruence|]. intros _. unfold vmax.
  assert (H : forall l m, m <= fold_left (fun a c' => Rmax a (c' p)) l m /\ (forall e, In e l -> e p <= fold_left (fun a c' => Rmax a (c' p)) l m) /\
     (fold_left (fun a c' => Rmax a (c' p)) l m = m \/ exists e, In e l /\ fold_left (fun a c' => Rmax a (c' p)) l m = e p)).
  { induction l as [|e l IH]; intros m; cbn [fold_left]. { split; [lra|]. split; [intros ? []|auto]. }
    destruct (IH (Rmax m (e p))) as (I1 & I2 & I3). pose proof (Rmax_l m (e p)). pose proof (Rmax_r m (e p)). split; [lra|]. split.
    - intros e' [->|He]; [lra|auto].
    - destruct I3 as [I3|(e' & He & I3)]; [|right; exists e'; split; [right; auto|auto]]. rewrite I3. unfold Rmax. destruct (Rle_dec m (e p)); [right; exists e; split; [left; auto|auto]|auto]. }
  destruct (H b (c p)) as (H1 & H2 & H3). split.
  - destruct H3 as [->|(e & He & ->)]; [exists O; split; [cbn; lia|reflexivity]|]. apply In_nth_error in He as [i Hi]. exists (S i).
    assert (i < length b)%nat by (apply nth_error_Some; congruence). split; [cbn; lia|]. unfold val. cbn [nth]. rewrite (nth_error_nth _ _ _ Hi). reflexivity.
  - intros i Hi. destruct i as [|i]; [exact H1|]. cbn in Hi. unfold val. cbn [nth]. apply H2. apply nth_In. lia.
Qed.
Lemma is_max_unique (b : list chan) p m m' : is_max b p m -> is_max b p m' -> m = m'.
Proof. intros [(i & Hi & ->) H] [(j & Hj & ->) H']. apply Rle_antisym; auto. Qed.
Lemma bij_surj n s j : bij n s -> (j < n)%nat -> exists i, (i < n)%nat /\ s i = j.
Proof.
  intros B H. pose proof (bij_perm n s B) as P. assert (In j (map s (seq 0 n))) as Hj.
  { eapply Permutation.Permutation_in; [symmetry; exact P|]. apply in_seq. lia. }
  apply in_map_iff in Hj as (i & E & Hi). apply in_seq in Hi. exists i. split; [lia|auto].
Qed.
Lemma max_moved n A pi (b b' : list chan) : (0 < n)%nat -> is_perm n A -> moved n A pi b b' -> forall p, vmax b' p = vmax b (pi p).
Proof.
  intros N (s & B & P) (L & L' & M) p.
  assert (V : forall a, (a < n)%nat -> val b' a p = val b (s a) (pi p)).
  { intros a Ha. rewrite M by auto. rewrite (rsum_perm n s A (fun _ => 1) a B P Ha (fun c => val b c (pi p))). ring. }
  apply (is_max_unique b' p); [apply vmax_spec; intros ->; cbn in L'; lia|].
  assert (Mx : is_max b (pi p) (vmax b (pi p))) by (apply vmax_spec; intros ->; cbn in L; lia).
  destruct Mx as [(j & Hj & Ej) Hm]. split.
  - rewrite L in Hj. destruct (bij_surj n s j B Hj) as (i & Hi & Es). exists i. split; [lia|]. rewrite V by auto. congruence.
  - intros i Hi. rewrite V by lia. apply Hm. rewrite L. apply B. lia.
Qed.
Lemma moved_trivial A pi (c c' : chan) : A 0%nat 0%nat = 1 -> (forall p, c' p = c (pi p)) -> moved 1 A pi [c] [c'].
Proof.
  intros E H. split; [reflexivity|]. split; [reflexivity|]. intros p a Ha. assert (a = 0)%nat by lia. subst a. unfold val. cbn. rewrite E, H. ring.
Qed.
Lemma trivial_moved A pi (b b' : list chan) : A 0%nat 0%nat = 1 -> moved 1 A pi b b' -> forall p, val b' 0 p = val b 0 (pi p).
Proof. intros E (L & L' & M) p. rewrite M by lia. cbn. rewrite E. ring. Qed.

(** * Sub-fields *)
Lemma blocks_val s k (b : list chan) q a p : s <> 0%nat -> length b = (k * s)%nat -> (q < k)%nat -> (a < s)%nat ->
  exists c, nth_error (blocks s b) q = Some c /\ length c = s /\ val c a p = val b (q * s + a) p.
Proof.
  intros S0 L Hq Ha. unfold blocks. assert (LQ : (length b / s)%nat = k) by (rewrite L; apply Nat.div_mul; auto). rewrite LQ.
  exists (sub_list b (q * s) (q * s + s)). rewrite nth_error_map, (nth_error_nth' _ 0%nat) by (rewrite seq_length; auto). rewrite seq_nth by auto. cbn [option_map Nat.add].
  split; [reflexivity|]. assert (LS : length (sub_list b (q * s) (q * s + s)) = s). { rewrite sub_list_length; [lia| |lia]. rewrite L. nia. }
  split; [auto|]. unfold val.
  assert (E : nth_error (sub_list b (q * s) (q * s + s)) a = nth_error b (q * s + a)). { rewrite sub_list_nth. destruct (Nat.ltb_spec a (q * s + s - q * s)); [reflexivity|lia]. }
  rewrite (nth_error_nth' _ (fun _ => 0)) in E by lia. symmetry in E. rewrite (nth_error_nth _ _ _ E). reflexivity.
Qed.
Lemma rsum_blocks k m u : rsum (k * m) u = rsum k (fun q => rsum m (fun j => u (q * m + j)%nat)).
Proof.
  induction k as [|k IH]; [reflexivity|]. replace (S k * m)%nat with (k * m + m)%nat by lia. rewrite rsum_split, IH. cbn [rsum]. f_equal.
Qed.
(** block number q of the moved field is block s(q) of the field, moved by the orthogonal block *)
Lemma block_moved k m s O A pi (b b' : list chan) : m <> 0%nat -> bij k s ->
  (forall q q' i j, (q < k)%nat -> (q' < k)%nat -> (i < m)%nat -> (j < m)%nat -> A (q * m + i)%nat (q' * m + j)%nat = if (q' =? s q)%nat then O q i j else 0) ->
  moved (k * m) A pi b b' -> forall q, (q < k)%nat ->
  exists c c', nth_error (blocks m b) (s q) = Some c /\ nth_error (blocks m b') q = Some c' /\ moved m (O q) pi c c'.
Proof.
  intros M0 B H (L & L' & M) q Hq. pose proof (proj1 B q Hq) as Hs.
  assert (Xs : exists c, nth_error (blocks m b) (s q) = Some c /\ length c = m /\ forall a p, (a < m)%nat -> val c a p = val b (s q * m + a) p).
  { destruct (nth_error (blocks m b) (s q)) as [c|] eqn:E.
    - exists c. split; [auto|]. split; [eapply blocks_len, nth_error_In; eauto|]. intros a p Ha.
      destruct (blocks_val m k b (s q) a p M0 L Hs Ha) as (c0 & E0 & _ & V). congruence.
    - apply nth_error_None in E. rewrite blocks_len2, L, Nat.div_mul in E by auto. lia. }
  assert (Xs' : exists c, nth_error (blocks m b') q = Some c /\ length c = m /\ forall a p, (a < m)%nat -> val c a p = val b' (q * m + a) p).
  { destruct (nth_error (blocks m b') q) as [c|] eqn:E.
    - exists c. split; [auto|]. split; [eapply blocks_len, nth_error_In; eauto|]. intros a p Ha.
      destruct (blocks_val m k b' q a p M0 L' Hq Ha) as (c0 & E0 & _ & V). congruence.
    - apply nth_error_None in E. rewrite blocks_len2, L', Nat.div_mul in E by auto. lia. }
  destruct Xs as (c & E & Lc & Vc). destruct Xs' as (c' & E' & Lc' & Vc'). exists c, c'. split; [auto|]. split; [auto|]. split; [auto|]. split; [auto|].
  intros p a Ha. rewrite Vc' by auto. rewrite M by nia. rewrite rsum_blocks.
  rewrite (rsum_ext k _ (fun q' => if Nat.eqb q' (s q) then rsum m (fun j => O q a j * val b (q' * m + j) (pi p)) else 0)).
  - rewrite (rsum_at' k (s q) (fun q' => rsum m (fun j => O q a j * val b (q' * m + j) (pi p)))) by auto. apply rsum_ext. intros j Hj. rewrite Vc by auto. reflexivity.
  - intros q' Hq'. destruct (Nat.eqb_spec q' (s q)) as [->|N].
    + apply rsum_ext. intros j Hj. rewrite H by auto. rewrite Nat.eqb_refl. reflexivity.
    + apply rsum_0. intros j Hj. rewrite H by auto. destruct (Nat.eqb_spec q' (s q)); [congruence|ring].
Qed.
Lemma val_concat m (B : list (list chan)) q a c p : (forall e, In e B -> length e = m) -> nth_error B q = Some c -> (a < m)%nat -> val (concat B) (q * m + a) p = val c a p.
Proof.
  intros H E Ha. unfold val. assert (X0 := nth_error_concat_map (fun e : list chan => e) m B q a c H E Ha). rewrite map_id in X0.
  assert (Lc : length c = m) by (apply H; eapply nth_error_In; eauto).
  rewrite (nth_error_nth' c (fun _ => 0)) in X0 by lia. rewrite (nth_error_nth _ _ _ X0). reflexivity.
Qed.
Lemma moved_induced k m A pi eps f c (b b' : list chan) : m <> 0%nat -> is_block_perm k m A -> moved (k * m) A pi b b' ->
  moved (k * m) A pi (induced_norm_act eps f c m b) (induced_norm_act eps f c m b').
Proof.
  intros M0 (s & O & B & OO & H) MV. pose proof MV as (L & L' & _).
  assert (LN : forall v : list chan, length (norm_act eps f c v) = length v) by (intros v; unfold norm_act, scaled; apply map_length).
  assert (LL : forall v : list chan, length v = (k * m)%nat -> induced_norm_act eps f c m v = concat (map (norm_act eps f c) (blocks m v)) /\
     length (induced_norm_act eps f c m v) = (k * m)%nat /\ (forall e, In e (map (norm_act eps f c) (blocks m v)) -> length e = m)).
  { intros v Lv. unfold induced_norm_act. rewrite Lv, Nat.div_mul by auto. rewrite <- (blocks_cut m k) by auto.
    assert (X0 : forall e, In e (map (norm_act eps f c) (blocks m v)) -> length e = m). { intros e He. apply in_map_iff in He as (w & <- & Hw). rewrite LN. eapply blocks_len; eauto. }
    split; [reflexivity|]. split; [|auto]. rewrite (concat_blocks_length m) by auto. rewrite map_length, blocks_len2, Lv, Nat.div_mul; auto. }
  destruct (LL b L) as (E1 & E2 & E3). destruct (LL b' L') as (E1' & E2' & E3'). split; [auto|]. split; [auto|].
  intros p i Hi. set (q := (i / m)%nat). set (a := (i mod m)%nat). assert (Ei : i = (q * m + a)%nat) by (unfold q, a; pose proof (Nat.div_mod i m M0); lia).
  assert (Ha : (a < m)%nat) by (apply Nat.mod_upper_bound; auto). assert (Hq : (q < k)%nat) by (apply Nat.div_lt_upper_bound; lia).
  destruct (block_moved k m s O A pi b b' M0 B H MV q Hq) as (e & e' & Ee & Ee' & ME).
  rewrite Ei, E1', E1. rewrite (val_concat m _ q a (norm_act eps f c e')); auto; [|rewrite nth_error_map, Ee'; reflexivity].
  destruct (moved_norm_act m (O q) pi eps f c e e' (OO q Hq) ME) as (_ & _ & V). rewrite V by auto.
  rewrite rsum_blocks. symmetry. rewrite (rsum_ext k _ (fun q' => if Nat.eqb q' (s q) then rsum m (fun j => O q a j * val (norm_act eps f c e) j (pi p)) else 0)).
  - apply (rsum_at' k (s q) (fun _ => rsum m (fun j => O q a j * val (norm_act eps f c e) j (pi p)))). apply B. auto.
  - intros q' Hq'. destruct (Nat.eqb_spec q' (s q)) as [->|N].
    + apply rsum_ext. intros j Hj. rewrite H by auto. rewrite Nat.eqb_refl. f_equal. rewrite (val_concat m _ (s q) j (norm_act eps f c e)); auto. rewrite nth_error_map, Ee; reflexivity.
    + apply rsum_0. intros j Hj. rewrite H by auto. destruct (Nat.eqb_spec q' (s q)); [congruence|ring].
Qed.
Lemma induced_max_moved k m A pi (b b' : list chan) : (0 < k)%nat -> m <> 0%nat -> is_block_perm k m A -> moved (k * m) A pi b b' ->
  forall p, vmax (map norm_of (blocks m b')) p = vmax (map norm_of (blocks m b)) (pi p).
Proof.
  intros K0 M0 (s & O & B & OO & H) MV p. pose proof MV as (L & L' & _).
  assert (LB : forall v : list chan, length v = (k * m)%nat -> length (map norm_of (blocks m v)) = k) by (intros v Lv; rewrite map_length, blocks_len2, Lv, Nat.div_mul; auto).
  apply (max_moved k (fun i j => if Nat.eqb j (s i) then 1 else 0) pi); auto.
  - exists s. split; auto.
  - split; [auto|]. split; [auto|]. intros p0 q Hq. destruct (block_moved k m s O A pi b b' M0 B H MV q Hq) as (e & e' & Ee & Ee' & ME).
    rewrite (rsum_perm k s _ (fun _ => 1) q B (fun i j _ _ => eq_refl) Hq (fun c => val (map norm_of (blocks m b)) c (pi p0))).
    unfold val. rewrite (nth_error_nth _ _ _ (map_nth_error (@norm_of X) _ _ Ee')), (nth_error_nth _ _ _ (map_nth_error (@norm_of X) _ _ Ee)).
    rewrite (norm_moved m (O q) pi e e' (OO q Hq) ME). ring.
Qed.
End Acts.
