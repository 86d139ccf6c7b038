(** Gathering the fields of a group, processing them and writing them back is the same as processing each field. *)
From Coq Require Import ZArith String Ascii List Bool Lia Permutation Sorted.
From Verif Require Import Base Spec_Fields Model_Groups Model_Rep Model_FieldType Model_Utils Model_Modules Model_Fieldwise
  Proofs_FieldType Proofs_FieldType2 Proofs_Utils Proofs_Modules2 Proofs_Modules3.
Import ListNotations.
Open Scope nat_scope.

Lemma sub_list_nth {A} (l : list A) a b i : nth_error (sub_list l a b) i = if i <? b - a then nth_error l (a + i) else None.
Proof.
  unfold sub_list. revert l i. assert (F : forall n (l : list A) i, nth_error (firstn n l) i = if i <? n then nth_error l i else None).
  { induction n as [|n IH]; intros l i; [destruct i; reflexivity|]. destruct l; [destruct i; cbn [firstn nth_error]; [reflexivity|match goal with |- context[if ?b then _ else _] => destruct b end; reflexivity]|].
    destruct i; [reflexivity|]. cbn [firstn nth_error]. rewrite IH. reflexivity. }
  assert (K : forall a (l : list A) i, nth_error (skipn a l) i = nth_error l (a + i)).
  { clear. induction a as [|a IH]; intros l i; [reflexivity|]. destruct l; [destruct i; reflexivity|]. apply IH. }
  intros l i. rewrite F, K. reflexivity.
Qed.

(** the channels a chan_set stands for *)
Definition chan_list (c : chan_set) : list nat := match c with CSlice a b => seq a (b - a) | CList idx => idx end.
Definition chan_ok (c : chan_set) : Prop := match c with CSlice a b => a <= b | CList idx => True end.

Lemma gather_ok {A} c (d : list A) : chan_ok c -> Forall (fun i => i < length d) (chan_list c) ->
  exists fm, gather c d = Ok fm /\ picks d (chan_list c) fm.
Proof.
  destruct c as [a b|idx]; cbn [gather chan_list chan_ok]; intros O F.
  - eexists. split; [reflexivity|]. destruct (Nat.eq_dec a b) as [->|N].
    + rewrite Nat.sub_diag, sub_list_nil. reflexivity.
    + apply picks_seq; [auto|]. rewrite Forall_forall in F. specialize (F (b - 1)). rewrite in_seq in F. lia.
  - destruct (picks_exists d idx F) as [y Hy]. exists y. split; auto. apply torch_index_ok; auto.
Qed.

Lemma put_nth {A} i (v : A) out j : i < length out -> nth_error (firstn i out ++ v :: skipn (S i) out) j = if j =? i then Some v else nth_error out j.
Proof.
  revert i j. induction out as [|a out IH]; intros i j H; [cbn in H; lia|]. destruct i.
  - cbn. destruct j; reflexivity.
  - cbn [firstn skipn app]. destruct j; [reflexivity|]. cbn [nth_error]. rewrite IH by (cbn in H; lia). reflexivity.
Qed.
Lemma put_length {A} i (v : A) out : i < length out -> length (firstn i out ++ v :: skipn (S i) out) = length out.
Proof. intros H. rewrite app_length, firstn_length_le by lia. cbn [length]. rewrite skipn_length. lia. Qed.
Lemma put_all_ok {A} idx : forall (out vals : list A), NoDup idx -> Forall (fun i => i < length out) idx -> length vals = length idx ->
  exists out', put_all idx out vals = Ok out' /\ length out' = length out /\ picks out' idx vals /\
    (forall i, ~ In i idx -> nth_error out' i = nth_error out i).
Proof.
  induction idx as [|i idx IH]; intros out [|v vals] ND F L; try discriminate.
  - exists out. repeat (split; auto).
  - inversion ND as [|? ? NI ND']; inversion F as [|? ? Fi F']; subst. cbn [put_all].
    destruct (Nat.ltb_spec i (length out)); [|lia].
    destruct (IH (firstn i out ++ v :: skipn (S i) out) vals) as (o & E & EL & EP & EO); auto.
    { rewrite put_length by auto. auto. }
    exists o. split; [auto|]. split; [rewrite EL, put_length; auto|]. split.
    + unfold picks. cbn [map]. rewrite EP. f_equal. rewrite EO by auto. rewrite put_nth, Nat.eqb_refl by auto. reflexivity.
    + intros j Hj. rewrite EO by (intros X; apply Hj; cbn; auto). rewrite put_nth by auto.
      destruct (Nat.eqb_spec j i); [exfalso; apply Hj; cbn; auto|reflexivity].
Qed.
Lemma scatter_ok {A} c (out vals : list A) : chan_ok c -> NoDup (chan_list c) -> Forall (fun i => i < length out) (chan_list c) ->
  length vals = length (chan_list c) ->
  exists out', scatter c out vals = Ok out' /\ length out' = length out /\ picks out' (chan_list c) vals /\
    (forall i, ~ In i (chan_list c) -> nth_error out' i = nth_error out i).
Proof.
  destruct c as [a b|idx]; cbn [scatter chan_list chan_ok]; intros O ND F L; [|apply put_all_ok; auto].
  rewrite seq_length in L.
  destruct (Nat.eq_dec a b) as [->|N].
  - rewrite Nat.sub_diag in *. destruct vals; [|discriminate]. rewrite sub_list_nil. cbn [length]. rewrite Nat.eqb_refl. cbn [app].
    rewrite firstn_skipn. exists out. repeat (split; auto).
  - assert (B : b <= length out). { rewrite Forall_forall in F. specialize (F (b - 1)). rewrite in_seq in F. lia. }
    rewrite sub_list_length by lia. rewrite L, Nat.eqb_refl. eexists. split; [reflexivity|].
    assert (LA : length (firstn a out) = a) by (apply firstn_length_le; lia).
    split; [|split].
    + rewrite !app_length, LA, skipn_length. lia.
    + apply picks_intro; [|rewrite seq_length; auto]. intros i.
      destruct (Nat.lt_ge_cases i (b - a)) as [Hi|Hi].
      * rewrite (nth_error_nth' (seq a (b - a)) 0) by (rewrite seq_length; lia). rewrite seq_nth by lia.
        rewrite nth_error_app2 by lia. rewrite LA. replace (a + i - a) with i by lia. rewrite nth_error_app1 by lia. reflexivity.
      * assert (nth_error vals i = None) as -> by (apply nth_error_None; lia).
        assert (nth_error (seq a (b - a)) i = None) as -> by (apply nth_error_None; rewrite seq_length; lia). reflexivity.
    + intros i Hi. rewrite in_seq in Hi. destruct (Nat.lt_ge_cases i a).
      * rewrite nth_error_app1 by lia. rewrite <- (firstn_skipn a out) at 2. rewrite nth_error_app1 by lia. reflexivity.
      * rewrite nth_error_app2 by lia. rewrite nth_error_app2 by lia. rewrite LA, L.
        rewrite <- (firstn_skipn b out) at 2. rewrite nth_error_app2 by (rewrite firstn_length_le by lia; lia). f_equal.
        rewrite firstn_length_le by lia. lia.
Qed.

(** * The dict of the channels *)
(** every label of [L] has an entry, standing for the channels of the fields of [fs] with this label *)
Definition good_index (fs : list (string * nat)) (L : list string) (d : list (string * chan_set)) : Prop :=
  forall l, In l L -> exists c, kget String.eqb d l = Some c /\ chan_ok c /\ chan_list c = label_indices l 0 fs.

Lemma combine_split_eq (fs : list (string * nat)) : combine (map fst fs) (map (fun n => n) (map snd fs)) = fs.
Proof. rewrite map_id. induction fs as [|[a b] fs IH]; cbn; congruence. Qed.

Lemma rmap_index fs (flags : list (string * bool)) d : rmap (branch_index fs) flags = Ok d -> NoDup (map fst flags) ->
  forall l b, kget String.eqb flags l = Some b -> exists c, branch_index fs (l, b) = Ok (l, c) /\ kget String.eqb d l = Some c.
Proof.
  intros H ND l b Hb. apply rmap_all in H. induction H as [|p q ps qs H _ IH]; [discriminate|]. destruct p as [l0 b0].
  pose proof H as H'. unfold branch_index in H. cbn [fst snd] in H. cbn in Hb. inversion ND; subst. destruct (String.eqb_spec l0 l) as [->|NE].
  - injection Hb as ->. apply rbind_ok in H as (c & _ & H).
    destruct (has_dot l); [discriminate|]. injection H as <-. exists c. split; auto. cbn. rewrite String.eqb_refl. auto.
  - destruct IH as (c & E1 & E2); auto. exists c. split; auto. apply rbind_ok in H as (c' & _ & H).
    destruct (has_dot l0); [discriminate|]. injection H as <-. cbn. destruct (String.eqb_spec l0 l); [congruence|auto].
Qed.
Lemma branch_index_good fs l b c : branch_index fs (l, b) = Ok (l, c) ->
  (b = true -> exists a k, pos_of (map fst fs) l = seq a k) -> chan_ok c /\ chan_list c = label_indices l 0 fs.
Proof.
  unfold branch_index. cbn [fst snd]. intros H C. apply rbind_ok in H as (c' & H & H2). destruct (has_dot l); [discriminate|].
  injection H2 as ->. destruct b.
  - destruct (C eq_refl) as (a & k & E).
    assert (X : exists o n, label_indices l 0 fs = seq o n).
    { rewrite <- (combine_split_eq fs). rewrite (label_chans (fun n => n)) by (rewrite !map_length; auto). rewrite E, chans_seq. eauto. }
    destruct X as (o & n & X). rewrite X in *. destruct n as [|n]; [discriminate|]. cbn [seq] in H. injection H as <-.
    rewrite fold_min_seq, fold_max_seq. cbn [chan_ok chan_list]. split; [lia|]. f_equal. lia.
  - injection H as <-. split; [exact I|reflexivity].
Qed.
Lemma branch_index_fwd fs l b : has_dot l = false -> (forall n, In (l, n) fs -> 0 < n) -> In l (map fst fs) ->
  exists c, branch_index fs (l, b) = Ok (l, c).
Proof.
  intros HD HS Hl. unfold branch_index. cbn [fst snd]. rewrite HD. destruct b; [|eexists; reflexivity].
  destruct (label_indices l 0 fs) as [|i idx] eqn:E; [|eexists; reflexivity]. exfalso.
  apply in_map_iff in Hl as ([l' n] & El & Hin). cbn in El. subst l'. pose proof (HS _ Hin). apply In_nth_error in Hin as [q Hq].
  assert (In (foff fs q + 0) (label_indices l 0 fs)) by (apply label_indices_in; exists q, n, 0; auto). rewrite E in *. destruct H0.
Qed.
Definition flags_of (labels : list string) : list (string * bool) := contiguous_loop None [] labels.
Lemma flags_spec labels : NoDup (map fst (flags_of labels)) /\ (forall l, In l (map fst (flags_of labels)) <-> In l labels) /\
  (forall l, kget String.eqb (flags_of labels) l = Some true -> exists a k, pos_of labels l = seq a k).
Proof.
  destruct (contiguous_loop_spec labels [] None []) as (ND & K & C).
  { split; [constructor|]. split; [reflexivity|]. split; discriminate. }
  cbn [app] in *. auto.
Qed.
Lemma group_index_good fs d : group_index fs = Ok d -> good_index fs (map fst fs) d.
Proof.
  intros H l Hl. destruct (flags_spec (map fst fs)) as (ND & K & C). unfold group_index in H. fold (flags_of (map fst fs)) in H.
  apply K, (kget_keys _ String.eqb_spec) in Hl as [b Hb].
  destruct (rmap_index _ _ _ H ND l b Hb) as (c & E1 & E2). exists c. split; auto. apply (branch_index_good _ _ _ _ E1).
  intros ->. auto.
Qed.
Lemma rmap_branch_fwd fs (flags : list (string * bool)) : (forall l, In l (map fst flags) -> has_dot l = false /\ In l (map fst fs)) ->
  (forall l n, In (l, n) fs -> 0 < n) -> exists d, rmap (branch_index fs) flags = Ok d.
Proof.
  intros H HS. induction flags as [|[l b] flags IH]; [eexists; reflexivity|].
  destruct IH as [d E]. { intros l' Hl'. apply H. cbn; auto. }
  destruct (H l) as [H1 H2]; [cbn; auto|]. destruct (branch_index_fwd fs l b) as [c Ec]; auto. { intros n Hn. eapply HS; eauto. }
  cbn [rmap]. rewrite Ec. cbn [rbind]. rewrite E. cbn [rbind]. eauto.
Qed.
Lemma group_index_total fs : (forall l n, In (l, n) fs -> 0 < n) -> (forall l, In l (map fst fs) -> has_dot l = false) ->
  exists d, group_index fs = Ok d.
Proof.
  intros HS HD. apply rmap_branch_fwd; auto. intros l Hl. apply (proj1 (proj2 (flags_spec (map fst fs)))) in Hl. auto.
Qed.

(** * The loop *)
Lemma foff_le fs c : foff fs c <= nsum (map snd fs).
Proof. unfold foff. rewrite <- (firstn_skipn c fs) at 2. rewrite map_app, nsum_app. lia. Qed.
Lemma ind_bound fs l : Forall (fun i => i < nsum (map snd fs)) (label_indices l 0 fs).
Proof.
  apply Forall_forall. intros i Hi. apply label_indices_in in Hi as (c & n & r & Hc & Hr & ->).
  pose proof (foff_le fs (S c)) as X.
  rewrite (foff_S _ _ _ Hc) in X. cbn in X. lia.
Qed.
Lemma ind_disjoint fs l l' i : In i (label_indices l 0 fs) -> In i (label_indices l' 0 fs) -> l = l'.
Proof.
  intros H H'. apply label_indices_in in H as (c & n & r & Hc & Hr & ->). apply label_indices_in in H' as (c' & n' & r' & Hc' & Hr' & E).
  destruct (foff_inj _ _ _ _ _ _ _ Hc Hc' Hr Hr' E) as [-> ->]. congruence.
Qed.
Section Loop.
Context {K A B : Type} (key : K -> string) (cin cout : list (string * chan_set)) (nf : K -> nat)
        (op : K -> nat -> list A -> result (list B)) (x : list A) (fs fs' : list (string * nat)).
Lemma group_loop_ok order : forall next (out : list B), NoDup (map key order) ->
  good_index fs (map key order) cin -> good_index fs' (map key order) cout ->
  length x = nsum (map snd fs) -> length out = nsum (map snd fs') ->
  (forall pre k post fm, order = pre ++ k :: post -> picks x (label_indices (key k) 0 fs) fm ->
     exists vals, op k (next + nsum (map nf pre)) fm = Ok vals /\ length vals = length (label_indices (key k) 0 fs')) ->
  exists y, group_loop key cin cout nf op x order next out = Ok y /\ length y = length out /\
    (forall pre k post, order = pre ++ k :: post -> exists fm vals, picks x (label_indices (key k) 0 fs) fm /\
       op k (next + nsum (map nf pre)) fm = Ok vals /\ picks y (label_indices (key k) 0 fs') vals) /\
    (forall i, (forall k, In k order -> ~ In i (label_indices (key k) 0 fs')) -> nth_error y i = nth_error out i).
Proof.
  induction order as [|k order IH]; intros next out ND GI GO LX LO HOP.
  - exists out. split; [reflexivity|]. split; [auto|]. split; [|auto]. intros pre k post E. destruct pre; discriminate.
  - cbn [map] in ND, GI, GO. inversion ND as [|? ? NI ND']; subst.
    destruct (GI (key k)) as (ci & Ei & Oi & Li); [cbn; auto|]. destruct (GO (key k)) as (co & Eo & Oo & Lo); [cbn; auto|].
    cbn [group_loop]. unfold attr_of at 1. rewrite Ei. cbn [rbind].
    destruct (gather_ok ci x Oi) as (fm & G1 & G2). { rewrite Li, LX. apply ind_bound. }
    rewrite G1. cbn [rbind]. rewrite Li in G2.
    destruct (HOP [] k order fm eq_refl G2) as (vals & V1 & V2). cbn [map nsum fold_right] in V1. rewrite Nat.add_0_r in V1.
    rewrite V1. cbn [rbind]. unfold attr_of at 1. rewrite Eo. cbn [rbind].
    destruct (scatter_ok co out vals Oo) as (out' & S1 & S2 & S3 & S4).
    { rewrite Lo. apply sorted_nodup, label_indices_sorted. } { rewrite Lo, LO. apply ind_bound. } { rewrite Lo. auto. }
    rewrite S1. cbn [rbind].
    destruct (IH (next + nf k) out') as (y & Y1 & Y2 & Y3 & Y4); auto.
    { intros l Hl. apply GI. cbn; auto. } { intros l Hl. apply GO. cbn; auto. } { congruence. }
    { intros pre k0 post fm0 E P. destruct (HOP (k :: pre) k0 post fm0) as (v & E1 & E2); [cbn; congruence|auto|].
      exists v. split; auto. cbn [map] in E1. change (nsum (nf k :: map nf pre)) with (nf k + nsum (map nf pre)) in E1. rewrite <- E1. f_equal. lia. }
    exists y. split; [auto|]. split; [congruence|]. rewrite Lo in *. split.
    + intros pre k0 post E. destruct pre as [|p pre]; cbn in E; injection E as -> E.
      * cbn [map nsum fold_right]. rewrite Nat.add_0_r. exists fm, vals. split; [auto|]. split; [auto|]. subst order.
        apply picks_intro; [|apply picks_length in S3; auto]. intros i. rewrite (picks_of _ _ _ i S3).
        destruct (nth_error (label_indices (key k0) 0 fs') i) as [j|] eqn:Ej; auto. symmetry. apply Y4. intros k1 Hk1 Hj.
        apply nth_error_In in Ej. assert (key k0 = key k1) by (eapply ind_disjoint; eauto). apply NI. rewrite H. apply in_map. auto.
      * destruct (Y3 pre k0 post E) as (fm0 & v0 & P1 & P2 & P3). exists fm0, v0. split; [auto|]. split; [|auto].
        cbn [map]. change (nsum (nf p :: map nf pre)) with (nf p + nsum (map nf pre)). rewrite <- P2. f_equal. lia.
    + intros i Hi. rewrite Y4. * apply S4. apply Hi. cbn; auto. * intros k0 Hk0. apply Hi. cbn; auto.
Qed.
End Loop.

(** * Blocks *)
(** field number f of a list of channels *)
Definition field {A} (fs : list (string * nat)) (d : list A) (f : nat) : list A := sub_list d (foff fs f) (foff fs (S f)).
Lemma field_length {A} fs (d : list A) f l n : length d = nsum (map snd fs) -> nth_error fs f = Some (l, n) -> length (field fs d f) = n.
Proof.
  intros L H. unfold field. rewrite (foff_S _ _ _ H). cbn [snd]. rewrite sub_list_length; [lia| |lia].
  rewrite L. pose proof (foff_S _ _ _ H) as E. cbn [snd] in E. rewrite <- E. apply foff_le.
Qed.
Lemma field_nth {A} fs (d : list A) f l n i : nth_error fs f = Some (l, n) -> i < n -> nth_error (field fs d f) i = nth_error d (foff fs f + i).
Proof. intros H Hi. unfold field. rewrite (foff_S _ _ _ H), sub_list_nth. cbn [snd]. destruct (Nat.ltb_spec i (foff fs f + n - foff fs f)); [reflexivity|lia]. Qed.

Lemma view_group {A} fs (x fm : list A) l n : length x = nsum (map snd fs) -> (forall m, In (l, m) fs -> m = n) -> 0 < n ->
  picks x (label_indices l 0 fs) fm -> view_fields n fm = Ok (map (field fs x) (label_fields l 0 fs)).
Proof.
  intros LX Hn Pn P. unfold view_fields. assert (L := picks_length _ _ _ P). rewrite (label_indices_length _ _ _ Hn) in L.
  rewrite L. rewrite Nat.mod_mul by lia. destruct (Nat.eqb_spec n 0); [lia|]. cbn [orb negb Nat.eqb]. rewrite Nat.div_mul by lia. f_equal.
  apply nth_error_ext. intros q. rewrite !nth_error_map. destruct (nth_error (label_fields l 0 fs) q) as [f|] eqn:Ef.
  - assert (Hq : q < length (label_fields l 0 fs)) by (apply nth_error_Some; congruence).
    rewrite (nth_error_nth' _ 0) by (rewrite seq_length; auto). rewrite seq_nth by auto. cbn [option_map Nat.add]. f_equal.
    apply nth_error_ext. intros i. rewrite sub_list_nth. replace (q * n + n - q * n) with n by lia.
    assert (Hf := nth_error_In _ _ Ef). apply label_fields_spec in Hf as [_ [m Hm]]. rewrite Nat.sub_0_r in Hm.
    assert (m = n) by (apply Hn; eapply nth_error_In; eauto). subst m. destruct (Nat.ltb_spec i n).
    + rewrite (picks_of _ _ _ _ P), (label_indices_nth l fs n q i f) by auto. rewrite (field_nth _ _ _ _ _ _ Hm) by auto. reflexivity.
    + symmetry. apply nth_error_None. rewrite (field_length _ _ _ _ _ LX Hm). auto.
  - assert (nth_error (seq 0 (length (label_fields l 0 fs))) q = None) as ->; [|reflexivity].
    apply nth_error_None. rewrite seq_length. apply nth_error_None. auto.
Qed.
(** writing a group of blocks: each field gets its block *)
Lemma write_group {A} fs (y : list A) l n (bs : list (list A)) : length y = nsum (map snd fs) -> (forall m, In (l, m) fs -> m = n) ->
  length bs = length (label_fields l 0 fs) -> (forall b, In b bs -> length b = n) ->
  picks y (label_indices l 0 fs) (concat bs) -> forall q f b, nth_error (label_fields l 0 fs) q = Some f -> nth_error bs q = Some b -> field fs y f = b.
Proof.
  intros LY Hn LB HB P q f b Ef Eb.
  assert (Hf := nth_error_In _ _ Ef). apply label_fields_spec in Hf as [_ [m Hm]]. rewrite Nat.sub_0_r in Hm.
  assert (m = n) by (apply Hn; eapply nth_error_In; eauto). subst m.
  apply nth_error_ext. intros i. destruct (Nat.lt_ge_cases i n).
  - rewrite (field_nth _ _ _ _ _ _ Hm) by auto.
    assert (X := picks_of _ _ _ (q * n + i) P). rewrite (label_indices_nth l fs n q i f) in X by auto. rewrite <- X.
    rewrite <- (map_id bs) at 1. rewrite (nth_error_concat_map _ n _ q i b); auto.
  - transitivity (@None A). + apply nth_error_None. rewrite (field_length _ _ _ _ _ LY Hm). auto.
    + symmetry. apply nth_error_None. rewrite (HB b) by (eapply nth_error_In; eauto). auto.
Qed.
Lemma enumerate_at {A} (l : list A) q a : nth_error l q = Some a -> nth_error (enumerate l) q = Some (q, a).
Proof.
  unfold enumerate. intros H. assert (X : forall k, nth_error (combine (seq k (length l)) l) q = Some (k + q, a)); [|apply X].
  revert q H. induction l as [|b l IH]; intros q H k; [destruct q; discriminate|]. cbn [length seq combine]. destruct q.
  - cbn in *. injection H as ->. do 2 f_equal. lia.
  - cbn [nth_error] in *. rewrite (IH q H (S k)). do 2 f_equal. lia.
Qed.
Lemma concat_blocks_length {A} n (bs : list (list A)) : (forall b, In b bs -> length b = n) -> length (concat bs) = length bs * n.
Proof. intros H. rewrite <- (map_id bs) at 1. apply length_concat_map. auto. Qed.
Lemma label_fields_same l : forall fs fs' c, map fst fs = map fst fs' -> label_fields l c fs = label_fields l c fs'.
Proof.
  induction fs as [|[a n] fs IH]; intros [|[b m] fs'] c H; try discriminate; [reflexivity|]. cbn in H. injection H as <- H.
  cbn [label_fields]. rewrite (IH fs') by auto. reflexivity.
Qed.
Lemma count_label_fields l fs c : count_label l fs = length (label_fields l c fs).
Proof.
  unfold count_label. revert c. induction fs as [|[a n] fs IH]; intros c; [reflexivity|]. cbn [filter label_fields fst].
  destruct (String.eqb a l); cbn [length app]; rewrite (IH (S c)); reflexivity.
Qed.
(** the position of a field among those with its label *)
Lemma label_fields_rank l : forall fs c f n, nth_error fs f = Some (l, n) ->
  nth_error (label_fields l c fs) (count_label l (firstn f fs)) = Some (c + f).
Proof.
  induction fs as [|[a m] fs IH]; intros c f n H; [destruct f; discriminate|]. destruct f.
  - cbn in H. injection H as -> ->. cbn. rewrite String.eqb_refl. cbn. f_equal. lia.
  - cbn [nth_error] in H. cbn [firstn label_fields]. unfold count_label. cbn [filter fst]. destruct (String.eqb a l).
    + cbn [length app nth_error]. fold (count_label l (firstn f fs)). rewrite (IH (S c) f n H). f_equal. lia.
    + cbn [app]. fold (count_label l (firstn f fs)). rewrite (IH (S c) f n H). f_equal. lia.
Qed.

(** * Field by field *)
Section Fieldwise.
Context {K A B : Type} (key : K -> string) (cin cout : list (string * chan_set)) (nf : K -> nat)
        (op : K -> nat -> list A -> result (list B)) (x : list A) (fs fs' : list (string * nat)).
(** [n k], [n' k]: the sizes of the fields of group k before and after; [g k j b]: what happens to the block b of the field
    with counter j *)
Context (n n' : K -> nat) (g : K -> nat -> list A -> list B) (order : list K).
Hypothesis Hsz : forall k m, In k order -> In (key k, m) fs -> m = n k.
Hypothesis Hsz' : forall k m, In k order -> In (key k, m) fs' -> m = n' k.
Hypothesis Hpos : forall k, In k order -> 0 < n k.
Hypothesis Hcount : forall k, In k order -> length (label_fields (key k) 0 fs) = length (label_fields (key k) 0 fs').
Hypothesis Hglen : forall k j b, In k order -> length b = n k -> length (g k j b) = n' k.
Hypothesis LX : length x = nsum (map snd fs).

Lemma fieldwise_loop next (out : list B) : NoDup (map key order) ->
  good_index fs (map key order) cin -> good_index fs' (map key order) cout -> length out = nsum (map snd fs') ->
  (forall pre k post fm bl, order = pre ++ k :: post -> view_fields (n k) fm = Ok bl -> length bl = length (label_fields (key k) 0 fs) ->
     op k (next + nsum (map nf pre)) fm = Ok (concat (map (fun p => g k (next + nsum (map nf pre) + fst p) (snd p)) (enumerate bl)))) ->
  exists y, group_loop key cin cout nf op x order next out = Ok y /\ length y = length out /\
    (forall pre k post q f f', order = pre ++ k :: post -> nth_error (label_fields (key k) 0 fs) q = Some f ->
       nth_error (label_fields (key k) 0 fs') q = Some f' -> field fs' y f' = g k (next + nsum (map nf pre) + q) (field fs x f)) /\
    (forall f l m, nth_error fs' f = Some (l, m) -> ~ In l (map key order) -> field fs' y f = field fs' out f).
Proof.
  intros ND GI GO LO HOP.
  assert (BL : forall k fm, In k order -> picks x (label_indices (key k) 0 fs) fm ->
    view_fields (n k) fm = Ok (map (field fs x) (label_fields (key k) 0 fs))).
  { intros k fm Hk P. apply view_group; auto. }
  assert (FL : forall k f, In k order -> In f (label_fields (key k) 0 fs) -> length (field fs x f) = n k).
  { intros k f Hk Hf. apply label_fields_spec in Hf as [_ [m Hm]]. rewrite Nat.sub_0_r in Hm. rewrite (field_length _ _ _ _ _ LX Hm).
    apply Hsz; auto. eapply nth_error_In; eauto. }
  assert (CB : forall k j b, In k order ->
    In b (map (fun p => g k (j + fst p) (snd p)) (enumerate (map (field fs x) (label_fields (key k) 0 fs)))) -> length b = n' k).
  { intros k j b Hk Hb. apply in_map_iff in Hb as ([i b'] & <- & Hb). cbn [fst snd]. apply Hglen; auto.
    assert (E := enumerate_snd (map (field fs x) (label_fields (key k) 0 fs))).
    assert (Hb' : In b' (map (field fs x) (label_fields (key k) 0 fs))). { rewrite <- E. apply in_map_iff. exists (i, b'). auto. }
    apply in_map_iff in Hb' as (f & <- & Hf). apply FL; auto. }
  assert (LB : forall k j, length (map (fun p => g k (j + fst p) (snd p)) (enumerate (map (field fs x) (label_fields (key k) 0 fs)))) = length (label_fields (key k) 0 fs)).
  { intros k j. rewrite map_length. rewrite <- (map_length snd), enumerate_snd, map_length. reflexivity. }
  destruct (group_loop_ok key cin cout nf op x fs fs' order next out ND GI GO LX LO) as (y & Y1 & Y2 & Y3 & Y4).
  { intros pre k post fm E P. assert (Hk : In k order) by (rewrite E; apply in_elt).
    eexists. split; [apply (HOP pre k post fm _ E (BL k fm Hk P)); rewrite map_length; reflexivity|].
    rewrite (concat_blocks_length (n' k)) by (intros b Hb; exact (CB k _ b Hk Hb)). rewrite LB, (label_indices_length _ _ (n' k)) by auto. rewrite Hcount by auto. reflexivity. }
  exists y. split; [auto|]. split; [auto|]. split.
  - intros pre k post q f f' E Ef Ef'. assert (Hk : In k order) by (rewrite E; apply in_elt).
    destruct (Y3 pre k post E) as (fm & vals & P1 & P2 & P3).
    rewrite (HOP pre k post fm _ E (BL k fm Hk P1) ltac:(rewrite map_length; reflexivity)) in P2. injection P2 as <-.
    refine (write_group fs' y (key k) (n' k) _ _ _ _ _ P3 q f' _ Ef' _).
    + congruence.
    + intros m Hm. auto.
    + rewrite LB. apply Hcount; auto.
    + intros b Hb. exact (CB k _ b Hk Hb).
    + rewrite nth_error_map. rewrite (enumerate_at _ q (field fs x f)). * reflexivity. * rewrite nth_error_map, Ef. reflexivity.
  - intros f l m Hf NI. apply nth_error_ext. intros i. assert (LY : length y = nsum (map snd fs')) by congruence.
    destruct (Nat.lt_ge_cases i m).
    + rewrite !(field_nth _ _ _ _ _ _ Hf) by auto. apply Y4. intros k Hk Hin. apply NI.
      assert (In (foff fs' f + i) (label_indices l 0 fs')) by (apply label_indices_in; exists f, m, i; auto).
      rewrite (ind_disjoint _ _ _ _ H0 Hin). apply in_map. auto.
    + transitivity (@None B); [|symmetry]; apply nth_error_None; [rewrite (field_length _ _ _ _ _ LY Hf)|rewrite (field_length _ _ _ _ _ LO Hf)]; auto.
Qed.
End Fieldwise.
