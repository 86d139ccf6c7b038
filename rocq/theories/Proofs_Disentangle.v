(** Proofs about the connected components computed in [disentangle]. *)
From Coq Require Import Reals ZArith String List Bool Lia.
From Verif Require Import Base Model_Groups Model_Rep Model_Disentangle.
Import ListNotations.
Open Scope nat_scope.

Section Walk.
Variable adj : nat -> nat -> bool.
Definition edge (u v : nat) : Prop := u = v \/ adj u v = true \/ adj v u = true.
Inductive walk (k : nat) : nat -> nat -> Prop :=
| w_edge u v : edge u v -> walk k u v
| w_step u w v : w < k -> edge u w -> walk k w v -> walk k u v.
Lemma edge_sym u v : edge u v -> edge v u.
Proof. unfold edge. intuition. Qed.
Lemma walk_trans k u w v : w < k -> walk k u w -> walk k w v -> walk k u v.
Proof. intros Hw H1 H2. induction H1 as [u w' E|u x w' Hx E H IH]; [eapply w_step; eauto|]. eapply w_step; eauto. Qed.
Lemma walk_S k u v : walk k u v -> walk (S k) u v.
Proof. induction 1 as [u v E|u w v Hw E H IH]; [apply w_edge; auto|apply (w_step _ u w v); auto]. Qed.
Lemma walk_split k u v : walk (S k) u v -> walk k u v \/ (walk k u k /\ walk k k v).
Proof.
  induction 1 as [u v E|u w v Hw E H IH]; [left; apply w_edge; auto|].
  destruct (Nat.eq_dec w k) as [->|N].
  - right. split; [apply w_edge; auto|]. destruct IH as [IH|[_ IH]]; auto.
  - assert (w < k) by lia. destruct IH as [IH|[I1 I2]]; [left; eapply w_step; eauto|]. right. split; [eapply w_step; eauto|auto].
Qed.
Lemma reach_walk k : forall u v, reach adj k u v = true <-> walk k u v.
Proof.
  induction k as [|k IH]; intros u v; cbn [reach].
  - rewrite !orb_true_iff, Nat.eqb_eq. split; [intros H; apply w_edge; unfold edge; intuition|].
    intros H; inversion H; subst; [unfold edge in *; intuition|lia].
  - rewrite orb_true_iff, andb_true_iff, !IH. split.
    + intros [H|[H1 H2]]; [apply walk_S; auto|]. apply (walk_trans (S k) u k v); [lia| |]; apply walk_S; auto.
    + apply walk_split.
Qed.
Lemma walk_sym k u v : v < k -> u < k -> walk k u v -> walk k v u.
Proof.
  intros Hv Hu H. revert Hu. induction H as [u v E|u w v Hw E H IH]; intros Hu; [apply w_edge, edge_sym; auto|].
  apply (walk_trans k v w u); auto. apply w_edge, edge_sym; auto.
Qed.
Variable n : nat.
Notation reach := (reach adj n).
Lemma reach_refl u : reach u u = true.
Proof. apply reach_walk, w_edge. left. auto. Qed.
Lemma reach_sym u v : u < n -> v < n -> reach u v = true -> reach v u = true.
Proof. rewrite !reach_walk. intros; apply walk_sym; auto. Qed.
Lemma reach_trans u w v : w < n -> reach u w = true -> reach w v = true -> reach u v = true.
Proof. rewrite !reach_walk. intros; eapply walk_trans; eauto. Qed.
Lemma reach_edge u v : adj u v = true -> reach u v = true.
Proof. intros H. apply reach_walk, w_edge. right; left; auto. Qed.

Notation first := (first_node adj n).
Lemma find_least (p : nat -> bool) s m : forall u, find p (seq s m) = Some u -> p u = true /\ s <= u < s + m /\ forall v, s <= v < u -> p v = false.
Proof.
  revert s. induction m as [|m IH]; intros s u H; [discriminate|]. cbn [seq find] in H. destruct (p s) eqn:E.
  - injection H as <-. split; [auto|]. split; [lia|]. intros; lia.
  - apply IH in H as (H1 & H2 & H3). split; [auto|]. split; [lia|]. intros v Hv. destruct (Nat.eq_dec v s) as [->|]; [auto|]. apply H3. lia.
Qed.
Lemma first_spec v : v < n -> reach (first v) v = true /\ first v <= v /\ first v < n /\ forall u, u < first v -> reach u v = false.
Proof.
  intros Hv. unfold first_node. destruct (find (fun u => reach u v) (seq 0 n)) as [u|] eqn:E.
  - apply find_least in E as (H1 & H2 & H3). split; [auto|]. split; [|split; [lia|intros; apply H3; lia]].
    destruct (Nat.le_gt_cases u v) as [|L]; [auto|]. assert (reach v v = false) by (apply H3; lia). rewrite reach_refl in *. discriminate.
  - exfalso. assert (reach v v = false) by (apply (find_none _ _ E); apply in_seq; lia). rewrite reach_refl in *. discriminate.
Qed.
Lemma first_le u v : u < n -> v < n -> reach u v = true -> first v <= first u.
Proof.
  intros Hu Hv H. destruct (first_spec u Hu) as (A & B & C & D), (first_spec v Hv) as (A' & B' & C' & D').
  destruct (Nat.le_gt_cases (first v) (first u)) as [|L]; [auto|]. specialize (D' _ L). rewrite (reach_trans (first u) u v Hu A H) in D'. discriminate.
Qed.
Lemma first_same u v : u < n -> v < n -> (first u = first v <-> reach u v = true).
Proof.
  intros Hu Hv. split; intros H.
  - destruct (first_spec u Hu) as (A & B & C & D), (first_spec v Hv) as (A' & _). apply (reach_trans u (first u) v C); [apply reach_sym; auto|]. rewrite H. auto.
  - pose proof (first_le u v Hu Hv H). pose proof (first_le v u Hv Hu (reach_sym u v Hu Hv H)). lia.
Qed.
Lemma first_in v : v < n -> In (first v) (first_nodes adj n).
Proof.
  intros Hv. destruct (first_spec v Hv) as (A & B & C & D). unfold first_nodes. apply filter_In. split; [apply in_seq; lia|]. apply Nat.eqb_eq.
  apply first_same; auto.
Qed.
Lemma filter_lt_len (l : list nat) a b : a < b -> In a l -> length (filter (fun u => u <? a) l) < length (filter (fun u => u <? b) l).
Proof.
  intros L. assert (Q : forall l, length (filter (fun u => u <? a) l) <= length (filter (fun u => u <? b) l)).
  { intros l'. induction l' as [|c l' IH]; [auto|]. cbn [filter]. destruct (Nat.ltb_spec c a), (Nat.ltb_spec c b); cbn [length]; lia. }
  induction l as [|c l IH]; intros H; [destruct H|]. cbn [filter]. destruct H as [->|H].
  - destruct (Nat.ltb_spec a a), (Nat.ltb_spec a b); try lia. cbn [length]. specialize (Q l). lia.
  - specialize (IH H). destruct (Nat.ltb_spec c a), (Nat.ltb_spec c b); cbn [length]; lia.
Qed.
Lemma filter_len {A} (p : A -> bool) l : length (filter p l) <= length l.
Proof. induction l as [|c l IH]; [auto|]. cbn [filter]. destruct (p c); cbn [length]; lia. Qed.
Lemma filter_lt_all (l : list nat) a : In a l -> length (filter (fun u => u <? a) l) < length l.
Proof.
  induction l as [|c l IH]; intros H; [destruct H|]. cbn [filter]. destruct H as [->|H].
  - destruct (Nat.ltb_spec a a); [lia|]. pose proof (filter_len (fun u => u <? a) l). cbn [length]. lia.
  - specialize (IH H). destruct (c <? a); cbn [length]; lia.
Qed.
Notation label := (snd (connected_components adj n)).
Notation count := (fst (connected_components adj n)).
Lemma label_same u v : u < n -> v < n -> (label u = label v <-> reach u v = true).
Proof.
  intros Hu Hv. rewrite <- first_same by auto. unfold connected_components. cbn [snd]. split; [|intros ->; auto]. intros H.
  destruct (Nat.lt_total (first u) (first v)) as [L|[E|L]]; [|auto|].
  - pose proof (filter_lt_len _ _ _ L (first_in u Hu)). lia.
  - pose proof (filter_lt_len _ _ _ L (first_in v Hv)). lia.
Qed.
Lemma label_lt v : v < n -> label v < count.
Proof. intros Hv. unfold connected_components. cbn [snd fst]. apply filter_lt_all, first_in; auto. Qed.
Lemma filter_lt_seq p s m : forall b, b < length (filter p (seq s m)) -> length (filter (fun u => u <? nth b (filter p (seq s m)) 0) (filter p (seq s m))) = b.
Proof.
  assert (Q : forall m s x, In x (filter p (seq s m)) -> s <= x) by (intros m' s' x H; apply filter_In in H as [H _]; apply in_seq in H; lia).
  revert s. induction m as [|m IH]; intros s b H; [cbn in H; lia|]. cbn [seq filter] in *. destruct (p s) eqn:E; [|apply IH; auto].
  destruct b as [|b]; cbn [nth filter].
  - destruct (Nat.ltb_spec s s); [lia|]. rewrite (proj2 (length_zero_iff_nil _)); [auto|].
    assert (W : forall l, (forall x, In x l -> s <= x) -> filter (fun u => u <? s) l = []).
    { intros l. induction l as [|c l IHl]; intros W; [auto|]. cbn [filter]. destruct (Nat.ltb_spec c s); [specialize (W c (or_introl eq_refl)); lia|]. apply IHl. intros; apply W; cbn; auto. }
    apply W. intros x Hx. apply Q in Hx. lia.
  - cbn [length] in H. assert (H' : b < length (filter p (seq (S s) m))) by lia. pose proof (Q m (S s) _ (nth_In _ 0 H')). destruct (Nat.ltb_spec s (nth b (filter p (seq (S s) m)) 0)); [|lia].
    cbn [length]. rewrite IH; auto.
Qed.
Lemma label_onto b : b < count -> exists v, v < n /\ label v = b.
Proof.
  unfold connected_components. cbn [fst snd]. intros H. exists (nth b (first_nodes adj n) 0). pose proof (nth_In _ 0 H) as I. unfold first_nodes in I at 2. apply filter_In in I as [I1 I2].
  apply in_seq in I1. apply Nat.eqb_eq in I2. split; [lia|]. rewrite I2. apply filter_lt_seq. auto.
Qed.
End Walk.
