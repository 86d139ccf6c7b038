(** GNormBatchNorm on one field: irreps, statistics, normalisation. *)
From Coq Require Import Reals ZArith String Ascii Decimal DecimalString List Bool Lia Lra Permutation Sorted FunctionalExtensionality.
From Verif Require Import Base LinAlg Spec Spec_Fields Model_Groups Model_Rep Model_FieldType Model_Tensor Model_Utils Model_Modules Model_Fieldwise Model_BatchNorm Spec_Fieldwise Spec_Fieldwise2 Spec_Dropout Spec_BatchNorm
  Proofs_Rep Proofs_FieldType Proofs_FieldType2 Proofs_Tensor Proofs_Utils Proofs_Modules Proofs_Modules2 Proofs_Modules3 Proofs_Fieldwise Proofs_Fieldwise2 Proofs_Fieldwise3 Proofs_Fieldwise4 Proofs_Fieldwise5 Proofs_Fieldwise8 Proofs_Dropout Proofs_BatchNorm Proofs_BatchNorm2 Proofs_BatchNorm3 Proofs_BatchNorm4 Proofs_BatchNorm5.
Import ListNotations.
Open Scope R_scope.

Lemma rsum_window s o d (h : nat -> R) : (o + d <= s)%nat -> rsum s (fun a => if ((o <=? a) && (a <? o + d))%nat%bool then h a else 0) = rsum d (fun e => h (o + e)%nat).
Proof.
  intros L. replace s with (o + (d + (s - o - d)))%nat by lia. rewrite !rsum_split. rewrite (rsum_0 o), (rsum_0 (s - o - d)).
  - rewrite Rplus_0_l, Rplus_0_r. apply rsum_ext. intros e He. destruct (Nat.leb_spec o (o + e)), (Nat.ltb_spec (o + e) (o + d)); try lia. reflexivity.
  - intros i Hi. destruct (Nat.ltb_spec (o + (d + i)) (o + d)); [lia|]. rewrite andb_false_r. reflexivity.
  - intros i Hi. destruct (Nat.leb_spec o i); [lia|]. reflexivity.
Qed.

Lemma mvec_one n (v : vec) a : (a < n)%nat -> mvec n mid v a = v a.
Proof. intros H. apply mvec_id. auto. Qed.

Section Field.
Context {G : Type}.
Implicit Types (r : rep G) (l : list (irrep G)).
(** first channel of irrep number i *)
Definition ioff l (i : nat) : nat := nsum (map ir_size (firstn i l)).
Lemma ioff_S l i ir : nth_error l i = Some ir -> ioff l (S i) = (ioff l i + ir_size ir)%nat.
Proof.
  revert i. induction l as [|a l IH]; intros [|i] H; try discriminate.
  - injection H as ->. unfold ioff, nsum. cbn. lia.
  - cbn [nth_error] in H. specialize (IH i H). unfold ioff in *. change (firstn (S (S i)) (a :: l)) with (a :: firstn (S i) l). change (firstn (S i) (a :: l)) with (a :: firstn i l).
    cbn [map]. unfold nsum in *. cbn [fold_right]. lia.
Qed.
Lemma ioff_mono l i j : (i <= j)%nat -> (ioff l i <= ioff l j)%nat.
Proof.
  intros L. unfold ioff. replace j with (i + (j - i))%nat by lia. generalize (j - i)%nat. intros k. revert i L. induction l as [|a l IH]; intros i L; [destruct i, k; cbn; lia|].
  destruct i; [cbn; lia|]. cbn [Nat.add firstn map]. unfold nsum in *. cbn [fold_right]. destruct (Nat.le_gt_cases i j) as [H|H]; [specialize (IH i H)|]; [lia|lia].
Qed.
Lemma ioff_le l i ir : nth_error l i = Some ir -> (ioff l i + ir_size ir <= isizes l)%nat.
Proof.
  intros H. rewrite <- (ioff_S _ _ _ H). unfold isizes. rewrite <- (firstn_all l) at 2. apply ioff_mono. assert (i < length l)%nat by (apply nth_error_Some; congruence). lia.
Qed.
Lemma ir_offsets_at l : forall p i ir, nth_error l i = Some ir -> nth_error (ir_offsets p l) i = Some ((p + ioff l i)%nat, ir).
Proof.
  induction l as [|a l IH]; intros p [|i] ir H; try discriminate.
  - injection H as ->. cbn. f_equal. f_equal. unfold ioff. cbn. lia.
  - cbn [ir_offsets nth_error]. rewrite (IH _ _ ir H). do 2 f_equal. unfold ioff. cbn [firstn map]. unfold nsum. cbn [fold_right]. lia.
Qed.
Lemma ir_offsets_len l : forall p, length (ir_offsets p l) = length l.
Proof. induction l; intros p; cbn; auto. Qed.
Lemma belongs_at r i ir e j : nth_error (rp_irreps r) i = Some ir -> (e < ir_size ir)%nat -> belongs r (ioff (rp_irreps r) i + e)%nat j = (j =? i)%nat.
Proof.
  intros Hi He. unfold belongs. destruct (nth_error (rp_irreps r) j) as [jr|] eqn:Hj.
  - rewrite (ir_offsets_at _ 0 _ _ Hj). cbn [Nat.add]. destruct (Nat.eqb_spec j i) as [->|N].
    + assert (jr = ir) by congruence. subst jr. destruct (Nat.leb_spec (ioff (rp_irreps r) i) (ioff (rp_irreps r) i + e)%nat), (Nat.ltb_spec (ioff (rp_irreps r) i + e)%nat (ioff (rp_irreps r) i + ir_size ir)); try lia; reflexivity.
    + destruct (Nat.lt_ge_cases j i) as [L|L].
      * pose proof (ioff_mono (rp_irreps r) (S j) i L) as M. rewrite (ioff_S _ _ _ Hj) in M. destruct (Nat.ltb_spec (ioff (rp_irreps r) i + e)%nat (ioff (rp_irreps r) j + ir_size jr)); [lia|]. apply andb_false_r.
      * pose proof (ioff_mono (rp_irreps r) (S i) j ltac:(lia)) as M. rewrite (ioff_S _ _ _ Hi) in M. destruct (Nat.leb_spec (ioff (rp_irreps r) j) (ioff (rp_irreps r) i + e)%nat); [lia|]. reflexivity.
  - apply nth_error_None in Hj. assert (i < length (rp_irreps r))%nat by (apply nth_error_Some; congruence).
    rewrite (proj2 (nth_error_None (ir_offsets 0 (rp_irreps r)) j)) by (rewrite ir_offsets_len; auto). symmetry. apply Nat.eqb_neq. lia.
Qed.
Lemma agg_sum r i ir (v : nat -> R) : nth_error (rp_irreps r) i = Some ir ->
  rsum (rp_size r) (fun a => aggregator r a i * v a) = rsum (ir_size ir) (fun e => v (ioff (rp_irreps r) i + e)%nat) / INR (ir_size ir).
Proof.
  intros Hi. rewrite <- (rsum_window (rp_size r) (ioff (rp_irreps r) i) (ir_size ir)) by (apply ioff_le; auto). unfold Rdiv. rewrite <- rsum_scal_r. apply rsum_ext. intros a Ha.
  unfold aggregator, belongs. rewrite Hi, (ir_offsets_at _ 0 _ _ Hi). cbn [Nat.add]. destruct ((ioff (rp_irreps r) i <=? a) && (a <? ioff (rp_irreps r) i + ir_size ir))%nat%bool; unfold Rdiv; ring.
Qed.
Lemma prop_sum r i ir e (v : list R) : nth_error (rp_irreps r) i = Some ir -> (e < ir_size ir)%nat ->
  rsum (length (rp_irreps r)) (fun j => propagator r (ioff (rp_irreps r) i + e)%nat j * nth j v 0) = nth i v 0.
Proof.
  intros Hi He. rewrite (rsum_ext _ _ (fun j => if (j =? i)%nat then nth j v 0 else 0)).
  - apply (rsum_at' _ i (fun j => nth j v 0)). apply nth_error_Some. congruence.
  - intros j Hj. unfold propagator. rewrite (belongs_at r i ir e j Hi He). destruct (j =? i)%nat; ring.
Qed.
(** number of trivial irreps before irrep number i *)
Definition tcount l (i : nat) : nat := length (filter ir_trivial (firstn i l)).
Definition irs_ok l : Prop := forall ir, In ir l -> (0 < ir_size ir)%nat /\ (ir_trivial ir = true -> ir_size ir = 1%nat).
Lemma pos_in_none a ps : (forall b, In b ps -> (a < b)%nat) -> pos_in a ps = None.
Proof. induction ps as [|b ps IH]; intros H; [reflexivity|]. cbn [pos_in]. destruct (Nat.eqb_spec a b) as [->|]; [specialize (H b (or_introl eq_refl)); lia|]. rewrite IH; [reflexivity|]. intros; apply H; cbn; auto. Qed.
Lemma ir_offsets_ge l : forall p q ir, In (q, ir) (ir_offsets p l) -> (p <= q)%nat.
Proof. induction l as [|a l IH]; intros p q ir H; [destruct H|]. cbn [ir_offsets] in H. destruct H as [H|H]; [injection H as <- <-; lia|]. apply IH in H. lia. Qed.
Lemma pos_in_at l : irs_ok l -> forall p i ir e, nth_error l i = Some ir -> (e < ir_size ir)%nat ->
  pos_in (p + ioff l i + e) (map fst (filter (fun pi => ir_trivial (snd pi)) (ir_offsets p l))) = if ir_trivial ir then Some (tcount l i) else None.
Proof.
  induction l as [|a l IH]; intros OK p i ir e Hi He; [destruct i; discriminate|].
  assert (OK' : irs_ok l) by (intros x Hx; apply OK; cbn; auto). destruct (OK a (or_introl eq_refl)) as [A1 A2]. destruct i as [|i].
  - injection Hi as ->. replace (p + ioff (ir :: l) 0 + e)%nat with (p + e)%nat by (unfold ioff; cbn; lia). cbn [ir_offsets filter snd]. destruct (ir_trivial ir) eqn:T.
    + rewrite (A2 eq_refl) in He. assert (e = 0)%nat by lia. subst e. rewrite Nat.add_0_r. cbn [map fst pos_in]. rewrite Nat.eqb_refl. reflexivity.
    + apply pos_in_none. intros b Hb. apply in_map_iff in Hb as ([q x] & <- & Hq). apply filter_In in Hq as [Hq _]. apply ir_offsets_ge in Hq. cbn. lia.
  - cbn [nth_error] in Hi. specialize (IH OK' (p + ir_size a)%nat i ir e Hi He).
    replace (p + ioff (a :: l) (S i) + e)%nat with (p + ir_size a + ioff l i + e)%nat by (unfold ioff, nsum; cbn [firstn map fold_right]; lia).
    cbn [ir_offsets filter snd]. unfold tcount. cbn [firstn filter]. destruct (ir_trivial a) eqn:T.
    + cbn [map fst pos_in]. destruct (Nat.eqb_spec (p + ir_size a + ioff l i + e) p) as [E|_]; [lia|]. rewrite IH. destruct (ir_trivial ir); reflexivity.
    + exact IH.
Qed.
Lemma pos_trivial r i ir e : irs_ok (rp_irreps r) -> nth_error (rp_irreps r) i = Some ir -> (e < ir_size ir)%nat ->
  pos_in (ioff (rp_irreps r) i + e)%nat (trivials r) = if ir_trivial ir then Some (tcount (rp_irreps r) i) else None.
Proof. intros OK Hi He. apply (pos_in_at (rp_irreps r) OK 0 i ir e Hi He). Qed.
Lemma trivials_at r i ir : irs_ok (rp_irreps r) -> nth_error (rp_irreps r) i = Some ir -> ir_trivial ir = true -> nth_error (trivials r) (tcount (rp_irreps r) i) = Some (ioff (rp_irreps r) i).
Proof.
  intros OK Hi T. destruct (OK ir (nth_error_In _ _ Hi)) as [S0 _]. pose proof (pos_trivial r i ir 0 OK Hi S0) as H. rewrite T, Nat.add_0_r in H.
  assert (Q : forall ps a q, pos_in a ps = Some q -> nth_error ps q = Some a).
  { induction ps as [|b ps IH]; intros a q E; [discriminate|]. cbn [pos_in] in E. destruct (Nat.eqb_spec a b) as [->|]; [injection E as <-; reflexivity|].
    destruct (pos_in a ps) as [q'|] eqn:EP; [|discriminate]. cbn in E. injection E as <-. cbn. apply IH. auto. }
  apply Q. auto.
Qed.
Lemma trivials_len r : length (trivials r) = length (filter ir_trivial (rp_irreps r)).
Proof.
  unfold trivials. rewrite map_length. assert (Q : forall l p, length (filter (fun pi => ir_trivial (snd pi)) (ir_offsets p l)) = length (filter ir_trivial l)); [|apply Q].
  induction l as [|a l IH]; intros p; [reflexivity|]. cbn [ir_offsets filter snd]. destruct (ir_trivial a); cbn; rewrite IH; reflexivity.
Qed.
Lemma trivials_in r a : In a (trivials r) -> exists i ir, nth_error (rp_irreps r) i = Some ir /\ ir_trivial ir = true /\ a = ioff (rp_irreps r) i.
Proof.
  unfold trivials. intros H. apply in_map_iff in H as ([q ir] & <- & H). apply filter_In in H as [H T]. cbn [fst snd] in *. apply In_nth_error in H as [i Hi].
  destruct (nth_error (rp_irreps r) i) as [ir'|] eqn:E. 2:{ apply nth_error_None in E. assert (nth_error (ir_offsets 0 (rp_irreps r)) i = None) by (apply nth_error_None; rewrite ir_offsets_len; auto). congruence. }
  rewrite (ir_offsets_at _ 0 _ _ E) in Hi. cbn [Nat.add] in Hi. injection Hi as <- <-. exists i, ir'. auto.
Qed.
Lemma tcount_lt l i ir : nth_error l i = Some ir -> ir_trivial ir = true -> (tcount l i < length (filter ir_trivial l))%nat.
Proof.
  intros H T. unfold tcount. rewrite <- (firstn_skipn i l) at 2. rewrite filter_app, app_length. apply nth_error_split in H as (l1 & l2 & -> & <-).
  rewrite skipn_app, Nat.sub_diag, skipn_all. cbn [app skipn filter]. rewrite T. cbn. lia.
Qed.
(** every channel belongs to an irrep *)
Lemma channel_irrep l : forall c, (c < isizes l)%nat -> exists i ir e, nth_error l i = Some ir /\ (e < ir_size ir)%nat /\ c = (ioff l i + e)%nat.
Proof.
  induction l as [|a l IH]; intros c H; [cbn in H; lia|]. unfold isizes in *. cbn [map] in H. unfold nsum in H. cbn [fold_right] in H. destruct (Nat.lt_ge_cases c (ir_size a)) as [L|L].
  - exists 0%nat, a, c. auto.
  - destruct (IH (c - ir_size a)%nat) as (i & ir & e & E1 & E2 & E3); [unfold nsum; lia|]. exists (S i), ir, e. split; [auto|]. split; [auto|]. unfold ioff, nsum in *. cbn [firstn map fold_right]. lia.
Qed.

(** * In the basis of the irreps, every irrep transforms for itself *)
Definition moved_irr (n : nat) r (gs : nat -> G) (pi : nat -> nat) (t t' : list chan) : Prop :=
  length t = rp_size r /\ length t' = rp_size r /\
  forall i ir e p, nth_error (rp_irreps r) i = Some ir -> (e < ir_size ir)%nat -> (p < n)%nat ->
    val t' (ioff (rp_irreps r) i + e)%nat p = rsum (ir_size ir) (fun c => ir_mat ir (gs p) e c * val t (ioff (rp_irreps r) i + c) (pi p)).
Lemma val_apply s M b a p : (a < s)%nat -> val (apply_mat s M b) a p = mvec s M (fun e => val b e p) a.
Proof.
  intros H. unfold val, apply_mat. set (h := fun d : nat => (fun p0 : nat => rsum s (fun e => M d e * nth e b (fun _ => 0) p0)) : chan).
  rewrite (nth_indep (map h (seq 0 s)) (fun _ => 0) (h 0%nat)) by (rewrite map_length, seq_length; auto). rewrite (map_nth h), seq_nth by auto. reflexivity.
Qed.
Lemma apply_len s M b : length (apply_mat s M b) = s.
Proof. unfold apply_mat. rewrite map_length, seq_length. auto. Qed.
Section Cob.
Variable cob_id : rep G -> bool.
Definition gto r (b : list chan) : list chan := if cob_id r then b else apply_mat (rp_size r) (rp_inv r) b.
Definition gback r (t : list chan) : list chan := if cob_id r then t else apply_mat (rp_size r) (rp_cob r) t.
Definition cob_ok r : Prop := rep_accepted r /\ (cob_id r = true -> meq (rp_size r) (rp_size r) (rp_cob r) mid).
Lemma gto_len r b : length b = rp_size r -> length (gto r b) = rp_size r.
Proof. intros H. unfold gto. destruct (cob_id r); [auto|apply apply_len]. Qed.
Lemma gback_len r b : length b = rp_size r -> length (gback r b) = rp_size r.
Proof. intros H. unfold gback. destruct (cob_id r); [auto|apply apply_len]. Qed.
Lemma inv_id r : cob_ok r -> cob_id r = true -> meq (rp_size r) (rp_size r) (rp_inv r) mid.
Proof.
  intros [[_ A] C] E. specialize (C E). intros i j Hi Hj. rewrite <- (A i j Hi Hj). unfold mmul.
  rewrite (rsum_ext _ _ (fun k => if (k =? j)%nat then rp_inv r i k else 0)).
  - symmetry. apply (rsum_at' _ j (fun k => rp_inv r i k)). auto.
  - intros k Hk. rewrite (C k j Hk Hj). unfold mid. destruct (k =? j)%nat; ring.
Qed.
Lemma gto_val r b a p : cob_ok r -> (a < rp_size r)%nat -> val (gto r b) a p = mvec (rp_size r) (rp_inv r) (fun e => val b e p) a.
Proof.
  intros C H. unfold gto. destruct (cob_id r) eqn:E; [|apply val_apply; auto].
  rewrite (mvec_compat (rp_size r) (rp_size r) (rp_inv r) mid _ (fun e => val b e p) (inv_id r C E)); auto; [|intros i Hi; reflexivity]. symmetry. apply (mvec_one (rp_size r) (fun e => val b e p) a H).
Qed.
Lemma gback_val r b a p : cob_ok r -> (a < rp_size r)%nat -> val (gback r b) a p = mvec (rp_size r) (rp_cob r) (fun e => val b e p) a.
Proof.
  intros C H. unfold gback. destruct (cob_id r) eqn:E; [|apply val_apply; auto]. destruct C as [_ C]. specialize (C E).
  rewrite (mvec_compat (rp_size r) (rp_size r) (rp_cob r) mid _ (fun e => val b e p) C); auto; [|intros i Hi; reflexivity]. symmetry. apply (mvec_one (rp_size r) (fun e => val b e p) a H).
Qed.
Lemma bdiag_irr r g (v : vec) i ir e : nth_error (rp_irreps r) i = Some ir -> (e < ir_size ir)%nat ->
  mvec (rp_size r) (bdiag (Model_Rep.blocks (rp_irreps r) g)) v (ioff (rp_irreps r) i + e)%nat = mvec (ir_size ir) (ir_mat ir g) (fun c => v (ioff (rp_irreps r) i + c)%nat) e.
Proof.
  intros Hi He. pose proof (mvec_bdiag (Model_Rep.blocks (rp_irreps r) g) i (ir_size ir) (ir_mat ir g) v e) as M.
  rewrite bsize_blocks in M. unfold Model_Rep.blocks in M. rewrite firstn_map, map_map in M. cbn [fst] in M. apply M; auto. rewrite nth_error_map, Hi. reflexivity.
Qed.
Lemma to_irr n r gs pi b b' : cob_ok r -> moved_each n (rp_size r) (fun p => rp_mat r (gs p)) pi b b' -> moved_irr n r gs pi (gto r b) (gto r b').
Proof.
  intros C (L & L' & M). split; [apply gto_len; auto|]. split; [apply gto_len; auto|]. intros i ir e p Hi He Hp.
  assert (HA : (ioff (rp_irreps r) i + e < rp_size r)%nat) by (pose proof (ioff_le _ _ _ Hi); unfold rp_size; lia). rewrite gto_val by auto.
  set (s := rp_size r) in *. set (D := bdiag (Model_Rep.blocks (rp_irreps r) (gs p))).
  transitivity (mvec s D (fun c => val (gto r b) c (pi p)) (ioff (rp_irreps r) i + e)%nat).
  - transitivity (mvec s (rp_inv r) (mvec s (rp_cob r) (mvec s D (mvec s (rp_inv r) (fun c => val b c (pi p))))) (ioff (rp_irreps r) i + e)%nat).
    + apply (mvec_compat s s); [intros x y _ _; reflexivity| |auto]. intros a Ha. rewrite (M p a Hp Ha). fold (mvec s (rp_mat r (gs p)) (fun c => val b c (pi p)) a).
      unfold rp_mat. fold s D. rewrite !mvec_mmul. reflexivity.
    + rewrite <- mvec_mmul. rewrite (mvec_compat s s (mmul s (rp_inv r) (rp_cob r)) mid _ _ (proj2 (proj1 C)) (fun x _ => eq_refl)) by auto. rewrite mvec_one by auto.
      apply (mvec_compat s s); [intros x y _ _; reflexivity| |auto]. intros a Ha. rewrite gto_val by auto. reflexivity.
  - unfold D, s. rewrite (bdiag_irr r (gs p) _ i ir e Hi He). reflexivity.
Qed.
Lemma from_irr n r gs pi t t' : cob_ok r -> moved_irr n r gs pi t t' -> moved_each n (rp_size r) (fun p => rp_mat r (gs p)) pi (gback r t) (gback r t').
Proof.
  intros C (L & L' & M). split; [apply gback_len; auto|]. split; [apply gback_len; auto|]. intros p a Hp Ha. rewrite gback_val by auto.
  set (s := rp_size r) in *. set (D := bdiag (Model_Rep.blocks (rp_irreps r) (gs p))). fold (mvec s (rp_mat r (gs p)) (fun c => val (gback r t) c (pi p)) a).
  unfold rp_mat. fold s D. rewrite !mvec_mmul.
  apply (mvec_compat s s); [intros x y _ _; reflexivity| |auto]. intros c Hc.
  transitivity (mvec s D (fun e => val t e (pi p)) c).
  - destruct (channel_irrep (rp_irreps r) c Hc) as (i & ir & e & Hi & He & ->). rewrite (M i ir e p Hi He Hp). unfold D, s. rewrite (bdiag_irr r (gs p) _ i ir e Hi He). reflexivity.
  - apply (mvec_compat s s); [intros x y _ _; reflexivity| |auto]. intros e He.
    transitivity (mvec s (rp_inv r) (mvec s (rp_cob r) (fun c0 => val t c0 (pi p))) e).
    + rewrite <- mvec_mmul. rewrite (mvec_compat s s (mmul s (rp_inv r) (rp_cob r)) mid _ _ (proj2 (proj1 C)) (fun x _ => eq_refl)) by auto. rewrite mvec_one by auto. reflexivity.
    + apply (mvec_compat s s); [intros x y _ _; reflexivity| |auto]. intros x Hx. rewrite gback_val by auto. reflexivity.
Qed.
End Cob.

(** * Statistics *)
(** the channels of irrep number i *)
Definition part r (t : list chan) (i : nat) : list chan :=
  match nth_error (rp_irreps r) i with Some ir => map (fun e => fun p => val t (ioff (rp_irreps r) i + e)%nat p) (seq 0 (ir_size ir)) | None => [] end.
Lemma part_len r t i ir : nth_error (rp_irreps r) i = Some ir -> length (part r t i) = ir_size ir.
Proof. intros H. unfold part. rewrite H, map_length, seq_length. auto. Qed.
Lemma part_val r t i ir e p : nth_error (rp_irreps r) i = Some ir -> (e < ir_size ir)%nat -> val (part r t i) e p = val t (ioff (rp_irreps r) i + e)%nat p.
Proof.
  intros H He. unfold part. rewrite H. unfold val at 1. set (h := fun e0 : nat => (fun p0 : nat => val t (ioff (rp_irreps r) i + e0) p0) : chan).
  rewrite (nth_indep (map h (seq 0 (ir_size ir))) (fun _ => 0) (h 0%nat)) by (rewrite map_length, seq_length; auto). rewrite (map_nth h), seq_nth by auto. reflexivity.
Qed.
Lemma var_expand n (c : nat -> R) : (0 < n)%nat -> rsum n (fun p => (c p - rsum n c / INR n) ^ 2) / INR n = rsum n (fun p => c p * c p) / INR n - rsum n c / INR n * (rsum n c / INR n).
Proof.
  intros N. assert (NZ : INR n <> 0) by (apply not_0_INR; lia). set (mu := rsum n c / INR n).
  rewrite (rsum_ext n _ (fun p => (c p * c p - 2 * mu * c p) + mu * mu)) by (intros; ring). rewrite rsum_plus, rsum_minus, rsum_scal, rsum_const.
  assert (E : rsum n c = mu * INR n) by (unfold mu; field; auto). rewrite E. field. auto.
Qed.
Lemma mean_single n b : length b = 1%nat -> mean_of n b = rsum n (fun p => val b 0 p) / INR n.
Proof. intros L. unfold mean_of. rewrite L. cbn [INR]. rewrite Rmult_1_r. f_equal. apply rsum_ext. intros p _. cbn. ring. Qed.
Lemma var_single n b : (0 < n)%nat -> length b = 1%nat -> var_of n b = rsum n (fun p => val b 0 p * val b 0 p) / INR n - mean_of n b * mean_of n b.
Proof.
  intros N L. unfold var_of. rewrite (mean_single n b L). rewrite L. cbn [INR]. rewrite Rmult_1_r. rewrite <- var_expand by auto. f_equal. apply rsum_ext. intros p _. cbn [rsum]. ring.
Qed.
Definition part_mean n r t i : R := mean_of n (part r t i).
Definition part_var n r t i : R :=
  match nth_error (rp_irreps r) i with Some ir => (if ir_trivial ir then var_of n (part r t i) else mean_square n (part r t i)) * unbias n | None => 0 end.
Lemma gn_means n r t i ir : irs_ok (rp_irreps r) -> nth_error (rp_irreps r) i = Some ir -> ir_trivial ir = true ->
  nth (tcount (rp_irreps r) i) (fst (gn_stats n r t)) 0 = part_mean n r t i.
Proof.
  intros OK Hi T. unfold gn_stats. cbn [fst]. destruct (OK ir (nth_error_In _ _ Hi)) as [_ S1]. specialize (S1 T).
  rewrite (nth_error_nth _ _ 0 (map_nth_error _ _ _ (trivials_at r i ir OK Hi T))). unfold part_mean. rewrite mean_single by (rewrite (part_len _ _ _ _ Hi); auto).
  f_equal. apply rsum_ext. intros p _. rewrite (part_val _ _ _ _ _ _ Hi) by lia. rewrite Nat.add_0_r. reflexivity.
Qed.
Lemma gn_vars n r t i ir : (0 < n)%nat -> irs_ok (rp_irreps r) -> nth_error (rp_irreps r) i = Some ir -> nth i (snd (gn_stats n r t)) 0 = part_var n r t i.
Proof.
  intros N OK Hi. pose proof (OK ir (nth_error_In _ _ Hi)) as [S0 S1]. assert (L : (i < length (rp_irreps r))%nat) by (apply nth_error_Some; congruence).
  unfold part_var. rewrite Hi. transitivity (nth i (snd (gn_stats n r t)) 0); [reflexivity|]. unfold gn_stats. cbv zeta. cbn [snd].
  match goal with |- nth i (map ?h _) 0 = _ => set (hh := h) end.
  rewrite (nth_error_nth (map hh (seq 0 (length (rp_irreps r)))) i 0 (x := hh i)).
  2:{ rewrite nth_error_map. rewrite (nth_error_nth' _ 0%nat) by (rewrite seq_length; auto). rewrite seq_nth by auto. reflexivity. }
  unfold hh. rewrite (agg_sum r i ir _ Hi), bessel_unbias. f_equal.
  assert (SQ : forall e, (e < ir_size ir)%nat -> rsum n (fun p => nth (ioff (rp_irreps r) i + e)%nat t (fun _ => 0) p * nth (ioff (rp_irreps r) i + e)%nat t (fun _ => 0) p) = rsum n (fun p => val (part r t i) e p * val (part r t i) e p)).
  { intros e He. apply rsum_ext. intros p _. rewrite (part_val _ _ _ _ _ _ Hi He). reflexivity. }
  destruct (ir_trivial ir) eqn:T.
  - assert (S1' : ir_size ir = 1%nat) by auto. rewrite S1'. cbn [rsum INR]. rewrite (pos_trivial r i ir 0 OK Hi S0), T. rewrite SQ by auto.
    pose proof (gn_means n r t i ir OK Hi T) as GM. unfold gn_stats in GM. cbn [fst] in GM. rewrite GM. rewrite var_single by (auto; rewrite (part_len _ _ _ _ Hi); auto). unfold part_mean. field. apply not_0_INR. lia.
  - unfold mean_square. rewrite (part_len _ _ _ _ Hi). rewrite rsum_swap.
    rewrite (rsum_ext (ir_size ir) _ (fun e => rsum n (fun p => val (part r t i) e p * val (part r t i) e p) * / INR n)).
    + rewrite rsum_scal_r. field. split; apply not_0_INR; lia.
    + intros e He. rewrite (pos_trivial r i ir e OK Hi He), T, SQ by auto. reflexivity.
Qed.
Definition stat_ok r (st : list R * list R) : Prop := length (fst st) = length (trivials r) /\ length (snd st) = length (rp_irreps r) /\ forall v, In v (snd st) -> 0 <= v.
Definition par_ok r (bw : list R * list R) : Prop := length (fst bw) = length (trivials r) /\ length (snd bw) = length (rp_irreps r).
Lemma gn_stats_len n r t : length (fst (gn_stats n r t)) = length (trivials r) /\ length (snd (gn_stats n r t)) = length (rp_irreps r).
Proof. unfold gn_stats. cbn [fst snd]. rewrite !map_length, seq_length. auto. Qed.
Lemma gn_stats_ok n r t : (0 < n)%nat -> irs_ok (rp_irreps r) -> stat_ok r (gn_stats n r t).
Proof.
  intros N OK. destruct (gn_stats_len n r t) as [L1 L2]. split; [auto|]. split; [auto|]. intros v Hv. apply In_nth_error in Hv as [i Hi].
  assert (L : (i < length (rp_irreps r))%nat) by (rewrite <- L2; apply nth_error_Some; congruence). destruct (nth_error (rp_irreps r) i) as [ir|] eqn:E; [|apply nth_error_None in E; lia].
  pose proof (gn_vars n r t i ir N OK E) as V. rewrite (nth_error_nth _ _ 0 Hi) in V. subst v. unfold part_var. rewrite E. apply Rmult_le_pos; [|apply unbias_pos]. destruct (ir_trivial ir); [apply var_of_pos|apply mean_square_pos].
Qed.
(** invariance *)
Definition irs_rep (el : G -> Prop) l : Prop := forall ir g, In ir l -> el g -> orthogonal (ir_size ir) (ir_mat ir g) /\ (ir_trivial ir = true -> ir_mat ir g 0%nat 0%nat = 1).
Lemma gn_stats_moved n r (el : G -> Prop) gs pi t t' : (0 < n)%nat -> irs_ok (rp_irreps r) -> irs_rep el (rp_irreps r) -> (forall p, (p < n)%nat -> el (gs p)) -> bij n pi ->
  moved_irr n r gs pi t t' -> gn_stats n r t' = gn_stats n r t.
Proof.
  intros N OK IR EL B (L & L' & M). destruct (gn_stats_len n r t) as [L1 L2]. destruct (gn_stats_len n r t') as [L1' L2'].
  assert (PT : forall i ir, nth_error (rp_irreps r) i = Some ir -> ir_trivial ir = true -> forall p, (p < n)%nat -> val (part r t' i) 0 p = val (part r t i) 0 (pi p)).
  { intros i ir Hi T p Hp. destruct (OK ir (nth_error_In _ _ Hi)) as [S0 S1]. specialize (S1 T). rewrite !(part_val _ _ _ _ _ _ Hi) by lia. rewrite (M i ir 0%nat p Hi ltac:(lia) Hp). rewrite S1. cbn [rsum].
    destruct (IR ir (gs p) (nth_error_In _ _ Hi) (EL p Hp)) as [_ I1]. rewrite I1 by auto. ring. }
  assert (PM : forall i ir, nth_error (rp_irreps r) i = Some ir -> ir_trivial ir = true -> part_mean n r t' i = part_mean n r t i).
  { intros i ir Hi T. destruct (OK ir (nth_error_In _ _ Hi)) as [S0 S1]. specialize (S1 T). unfold part_mean. rewrite !mean_single by (rewrite (part_len _ _ _ _ Hi); auto). f_equal.
    rewrite <- (rsum_bij n pi (fun p => val (part r t i) 0 p) B). apply rsum_ext. intros p Hp. apply (PT i ir); auto. }
  assert (E1 : fst (gn_stats n r t') = fst (gn_stats n r t)).
  { apply (nth_ext _ _ 0 0); [congruence|]. intros q Hq. rewrite L1' in Hq. destruct (nth_error (trivials r) q) as [a|] eqn:Ea; [|apply nth_error_None in Ea; lia].
    unfold gn_stats. cbn [fst]. rewrite !(nth_error_nth _ _ 0 (map_nth_error _ _ _ Ea)). apply nth_error_In in Ea. apply trivials_in in Ea as (i & ir & Hi & T & ->).
    pose proof (PM i ir Hi T) as H. unfold part_mean in H. destruct (OK ir (nth_error_In _ _ Hi)) as [S0 S1]. specialize (S1 T). rewrite !mean_single in H by (rewrite (part_len _ _ _ _ Hi); auto).
    assert (V : forall x : list chan, rsum n (fun p => val (part r x i) 0 p) = rsum n (nth (ioff (rp_irreps r) i) x (fun _ => 0))).
    { intros x. apply rsum_ext. intros p _. rewrite (part_val _ _ _ _ _ _ Hi) by lia. rewrite Nat.add_0_r. reflexivity. }
    rewrite !V in H. exact H. }
  assert (E2 : snd (gn_stats n r t') = snd (gn_stats n r t)).
  { apply (nth_ext _ _ 0 0); [congruence|]. intros i Hi'. rewrite L2' in Hi'. destruct (nth_error (rp_irreps r) i) as [ir|] eqn:Hi; [|apply nth_error_None in Hi; lia].
    rewrite !(gn_vars n r _ i ir N OK Hi). unfold part_var. rewrite Hi. f_equal. destruct (ir_trivial ir) eqn:T.
    - destruct (OK ir (nth_error_In _ _ Hi)) as [S0 S1]. specialize (S1 T). rewrite !var_single by (auto; rewrite (part_len _ _ _ _ Hi); auto).
      pose proof (PM i ir Hi T) as H. unfold part_mean in H. rewrite H. do 2 f_equal. rewrite <- (rsum_bij n pi (fun p => val (part r t i) 0 p * val (part r t i) 0 p) B). apply rsum_ext. intros p Hp. rewrite (PT i ir) by auto. reflexivity.
    - apply (mean_square_moved n (ir_size ir) (fun p => ir_mat ir (gs p)) pi); [auto| |].
      + intros p Hp. apply IR; [eapply nth_error_In; eauto|auto].
      + split; [apply part_len; auto|]. split; [apply part_len; auto|]. intros p a Hp Ha. rewrite (part_val _ _ _ _ _ _ Hi) by auto. rewrite (M i ir a p Hi Ha Hp). apply rsum_ext. intros c Hc. rewrite (part_val _ _ _ _ _ _ Hi) by auto. reflexivity. }
  destruct (gn_stats n r t'), (gn_stats n r t). cbn in *. congruence.
Qed.

(** * Normalisation *)
Definition gn_val (eps : R) r (stat : list R * list R) (par : option (list R * list R)) (t : list chan) : list chan :=
  let scales := map (fun wv => fst wv / sqrt (snd wv + eps)) (combine (match par with Some bw => snd bw | None => map (fun _ => 1) (snd stat) end) (snd stat)) in
  let normalized := gn_scale r scales (gn_shift r (map (fun v => -1 * v) (fst stat)) t) in
  match par with Some bw => gn_shift r (fst bw) normalized | None => normalized end.
Lemma gn_field_ok eps r stat par t : 0 < eps -> stat_ok r stat -> gn_field eps r stat par t = Ok (gn_val eps r stat par t).
Proof.
  intros E (_ & _ & P). unfold gn_field. rewrite (rmap_pure _ (fun wv => fst wv / sqrt (snd wv + eps))); [reflexivity|].
  intros [w v] H. cbn [fst snd]. destruct (Rle_dec (v + eps) 0) as [C|]; [|reflexivity]. apply in_combine_r in H. specialize (P v H). lra.
Qed.
Lemma enumerate_len {A} (l : list A) : length (enumerate l) = length l.
Proof. unfold enumerate. rewrite combine_length, seq_length. lia. Qed.
Lemma shift_len r v t : length (gn_shift r v t) = length t.
Proof. unfold gn_shift. rewrite map_length. apply enumerate_len. Qed.
Lemma scale_len r v t : length (gn_scale r v t) = length t.
Proof. unfold gn_scale. rewrite map_length. apply enumerate_len. Qed.
Lemma gn_val_len eps r stat par t : length (gn_val eps r stat par t) = length t.
Proof. unfold gn_val. cbv zeta. destruct par; rewrite ?shift_len, scale_len, shift_len; reflexivity. Qed.
Lemma val_shift r v t a p : (a < length t)%nat -> val (gn_shift r v t) a p = val t a p + match pos_in a (trivials r) with Some q => nth q v 0 | None => 0 end.
Proof.
  intros H. unfold val. pose proof (enumerate_at t a _ (nth_error_nth' _ (fun _ => 0) H)) as E. unfold gn_shift. erewrite (nth_error_nth _ a); [|rewrite nth_error_map, E; reflexivity]. cbn [fst snd].
  destruct (pos_in a (trivials r)); [reflexivity|ring].
Qed.
Lemma val_scale r i ir e v t p : length t = rp_size r -> nth_error (rp_irreps r) i = Some ir -> (e < ir_size ir)%nat ->
  val (gn_scale r v t) (ioff (rp_irreps r) i + e)%nat p = val t (ioff (rp_irreps r) i + e)%nat p * nth i v 0.
Proof.
  intros L Hi He. assert (H : (ioff (rp_irreps r) i + e < length t)%nat) by (pose proof (ioff_le _ _ _ Hi); rewrite L; unfold rp_size; lia). unfold val.
  pose proof (enumerate_at t _ _ (nth_error_nth' _ (fun _ => 0) H)) as E. unfold gn_scale. erewrite (nth_error_nth _ (ioff (rp_irreps r) i + e)%nat); [|rewrite nth_error_map, E; reflexivity]. cbn [fst snd].
  rewrite (prop_sum r i ir e v Hi He). reflexivity.
Qed.
(** weight and bias of irrep number i *)
Definition par_w (par : option (list R * list R)) (i : nat) : R := match par with Some bw => nth i (snd bw) 0 | None => 1 end.
Definition par_b (par : option (list R * list R)) (q : nat) : R := match par with Some bw => nth q (fst bw) 0 | None => 0 end.
Lemma val_gn eps r stat par t i ir e p : stat_ok r stat -> (forall bw, par = Some bw -> par_ok r bw) -> irs_ok (rp_irreps r) -> length t = rp_size r -> nth_error (rp_irreps r) i = Some ir -> (e < ir_size ir)%nat ->
  val (gn_val eps r stat par t) (ioff (rp_irreps r) i + e)%nat p =
  if ir_trivial ir then (val t (ioff (rp_irreps r) i + e)%nat p - nth (tcount (rp_irreps r) i) (fst stat) 0) * (par_w par i / sqrt (nth i (snd stat) 0 + eps)) + par_b par (tcount (rp_irreps r) i)
  else val t (ioff (rp_irreps r) i + e)%nat p * (par_w par i / sqrt (nth i (snd stat) 0 + eps)).
Proof.
  intros (S1 & S2 & _) PO OK L Hi He. assert (HI : (i < length (rp_irreps r))%nat) by (apply nth_error_Some; congruence).
  assert (H : (ioff (rp_irreps r) i + e < length t)%nat) by (pose proof (ioff_le _ _ _ Hi); rewrite L; unfold rp_size; lia).
  set (scales := map (fun wv => fst wv / sqrt (snd wv + eps)) (combine (match par with Some bw => snd bw | None => map (fun _ => 1) (snd stat) end) (snd stat))).
  assert (SC : nth i scales 0 = par_w par i / sqrt (nth i (snd stat) 0 + eps)).
  { assert (E : nth_error (combine (match par with Some bw => snd bw | None => map (fun _ => 1) (snd stat) end) (snd stat)) i = Some (par_w par i, nth i (snd stat) 0)).
    { assert (E2 : nth_error (snd stat) i = Some (nth i (snd stat) 0)) by (apply nth_error_nth'; lia).
      assert (E1 : nth_error (match par with Some bw => snd bw | None => map (fun _ => 1) (snd stat) end) i = Some (par_w par i)).
      { destruct par as [bw|]; cbn [par_w]; [apply nth_error_nth'; rewrite (proj2 (PO bw eq_refl)); auto|]. rewrite nth_error_map, E2. reflexivity. }
      revert E1 E2. generalize (match par with Some bw => snd bw | None => map (fun _ => 1) (snd stat) end) (nth i (snd stat) 0) (par_w par i). generalize (snd stat). clear. intros l' l v w. revert l l'.
      induction i as [|i IH]; intros [|x l] [|y l'] E1 E2; cbn in *; try discriminate; [congruence|]. apply IH; auto. }
    unfold scales. rewrite (nth_error_nth _ _ 0 (map_nth_error _ _ _ E)). reflexivity. }
  assert (NV : val (gn_scale r scales (gn_shift r (map (fun v => -1 * v) (fst stat)) t)) (ioff (rp_irreps r) i + e)%nat p =
     (val t (ioff (rp_irreps r) i + e)%nat p + match (if ir_trivial ir then Some (tcount (rp_irreps r) i) else None) with Some q => nth q (map (fun v => -1 * v) (fst stat)) 0 | None => 0 end) * (par_w par i / sqrt (nth i (snd stat) 0 + eps))).
  { rewrite (val_scale r i ir e) by (auto; rewrite shift_len; auto). rewrite SC, val_shift by auto. rewrite (pos_trivial r i ir e OK Hi He). reflexivity. }
  assert (MN : nth (tcount (rp_irreps r) i) (map (fun v => -1 * v) (fst stat)) 0 = - nth (tcount (rp_irreps r) i) (fst stat) 0).
  { replace 0 with ((fun v => -1 * v) 0) at 1 by ring. rewrite (map_nth (fun v => -1 * v)). ring. }
  unfold gn_val. cbv zeta. fold scales. destruct par as [bw|].
  - rewrite val_shift by (rewrite scale_len, shift_len; auto). rewrite NV, (pos_trivial r i ir e OK Hi He). destruct (ir_trivial ir); [rewrite MN; cbn [par_b]; ring|ring].
  - rewrite NV. destruct (ir_trivial ir); [rewrite MN; cbn [par_b]; ring|ring].
Qed.
Lemma gn_val_moved eps n r (el : G -> Prop) gs pi stat par t t' : stat_ok r stat -> (forall bw, par = Some bw -> par_ok r bw) -> irs_ok (rp_irreps r) -> irs_rep el (rp_irreps r) -> (forall p, (p < n)%nat -> el (gs p)) ->
  moved_irr n r gs pi t t' -> moved_irr n r gs pi (gn_val eps r stat par t) (gn_val eps r stat par t').
Proof.
  intros SO PO OK IR EL (L & L' & M). split; [rewrite gn_val_len; auto|]. split; [rewrite gn_val_len; auto|]. intros i ir e p Hi He Hp.
  rewrite (val_gn eps r stat par t' i ir e p) by auto. rewrite (M i ir e p Hi He Hp). destruct (ir_trivial ir) eqn:T.
  - destruct (OK ir (nth_error_In _ _ Hi)) as [S0 S1]. specialize (S1 T). destruct (IR ir (gs p) (nth_error_In _ _ Hi) (EL p Hp)) as [_ I1]. specialize (I1 T).
    assert (e = 0)%nat by lia. subst e. rewrite S1. cbn [rsum]. rewrite I1, (val_gn eps r stat par t i ir 0 (pi p)) by auto. rewrite T. ring.
  - rewrite <- rsum_scal_r. apply rsum_ext. intros c Hc. rewrite (val_gn eps r stat par t i ir c (pi p)) by auto. rewrite T. ring.
Qed.
End Field.
