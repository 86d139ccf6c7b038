(** Proofs about BranchingModule, MergeModule and MultipleModule. *)
From Coq Require Import ZArith String Ascii List Bool Lia Permutation Sorted.
From Verif Require Import Base Spec_Fields Model_Groups Model_Rep Model_FieldType Model_Utils Model_Modules
  Proofs_FieldType Proofs_FieldType2 Proofs_Utils Prop_Field Proofs_Modules2.
Import ListNotations.
Open Scope nat_scope.

(** * order on strings *)
Lemma ascii_compare_lt a b c : Ascii.compare a b = Lt -> Ascii.compare b c = Lt -> Ascii.compare a c = Lt.
Proof. unfold Ascii.compare. rewrite !N.compare_lt_iff. lia. Qed.
Lemma ascii_compare_eq a b : Ascii.compare a b = Eq -> a = b.
Proof.
  unfold Ascii.compare. rewrite N.compare_eq_iff. intros H. rewrite <- (Ascii.ascii_N_embedding a), <- (Ascii.ascii_N_embedding b), H. reflexivity.
Qed.
Lemma ascii_compare_refl a : Ascii.compare a a = Eq.
Proof. unfold Ascii.compare. apply N.compare_refl. Qed.
Lemma string_compare_refl s : String.compare s s = Eq.
Proof. induction s; cbn; auto. rewrite ascii_compare_refl. auto. Qed.
Lemma string_compare_trans a : forall b c, String.compare a b = Lt -> String.compare b c = Lt -> String.compare a c = Lt.
Proof.
  induction a as [|x a IH]; intros [|y b] [|z c] H1 H2; cbn in *; auto; try discriminate.
  destruct (Ascii.compare x y) eqn:E1; [| |discriminate].
  - apply ascii_compare_eq in E1. subst y. destruct (Ascii.compare x z); auto. eapply IH; eauto.
  - destruct (Ascii.compare y z) eqn:E2; [| |discriminate].
    + apply ascii_compare_eq in E2. subst z. rewrite E1. auto.
    + rewrite (ascii_compare_lt _ _ _ E1 E2). auto.
Qed.
Lemma string_compare_gt a b : String.compare a b = Gt -> String.compare b a = Lt.
Proof. intros H. rewrite String.compare_antisym, H. reflexivity. Qed.

(** * the sort *)
Section Sort.
Variable level : nat.
Definition klt (a b : string * nat * nat) : Prop :=
  let '(la, na, ia) := a in
  let '(lb, nb, ib) := b in
  String.compare la lb = Lt \/
  (la = lb /\ match level with 1 => ia < ib | _ => na < nb \/ (na = nb /\ ia < ib) end).
Lemma klt_trans a b c : klt a b -> klt b c -> klt a c.
Proof.
  destruct a as [[la na] ia], b as [[lb nb] ib], c as [[lc nc] ic]. cbn. intros [H1|[E1 H1]] [H2|[E2 H2]].
  - left. eapply string_compare_trans; eauto.
  - subst. auto.
  - subst. auto.
  - subst. right. split; auto. destruct level as [|[|]]; lia.
Qed.
Lemma branch_insert_perm a l : Permutation (a :: l) (branch_insert level a l).
Proof.
  induction l as [|b l IH]; cbn; auto. destruct (branch_key_le level a b); auto.
  eapply perm_trans; [apply perm_swap|]. constructor. auto.
Qed.
Lemma branch_sort_perm l : Permutation l (branch_sort level l).
Proof. induction l as [|a l IH]; cbn; auto. eapply perm_trans; [|apply branch_insert_perm]. constructor; auto. Qed.
Lemma branch_insert_sorted a l : StronglySorted klt l -> Forall (fun b => snd a < snd b) l -> StronglySorted klt (branch_insert level a l).
Proof.
  induction l as [|b l IH]; intros S F; cbn; [repeat constructor|].
  inversion S as [|? ? S1 S2]; subst. inversion F as [|? ? F1 F2]; subst.
  destruct (branch_key_le level a b) eqn:E.
  - assert (K : klt a b).
    { destruct a as [[la na] ia], b as [[lb nb] ib]. cbn in *. destruct (String.compare la lb) eqn:EC; [|auto|discriminate].
      apply String.compare_eq_iff in EC. right. split; auto. destruct level as [|[|]]; auto; apply Nat.leb_le in E; lia. }
    constructor; [auto|]. constructor; auto. eapply Forall_impl; [|exact S2]. intros c Hc. eapply klt_trans; eauto.
  - assert (K : klt b a).
    { destruct a as [[la na] ia], b as [[lb nb] ib]. cbn in *. destruct (String.compare la lb) eqn:EC; [|discriminate|].
      - apply String.compare_eq_iff in EC. right. split; auto. destruct level as [|[|]]; try discriminate; apply Nat.leb_gt in E; lia.
      - left. apply string_compare_gt; auto. }
    constructor; auto. rewrite Forall_forall in *. intros c Hc. apply (Permutation_in _ (Permutation_sym (branch_insert_perm a l))) in Hc.
    destruct Hc as [<-|Hc]; auto.
Qed.
Lemma branch_sort_sorted l : StronglySorted (fun a b => snd a < snd b) l -> StronglySorted klt (branch_sort level l).
Proof.
  induction l as [|a l IH]; intros S; cbn; [constructor|]. inversion S as [|? ? S1 S2]; subst. apply branch_insert_sorted; auto.
  rewrite Forall_forall in *. intros b Hb. apply S2. eapply Permutation_in; [apply Permutation_sym, branch_sort_perm|auto].
Qed.
End Sort.

Section M.
Context {GS Rp : Type} (sz : Rp -> nat) (fits : GS -> Rp -> bool) (gs_eqb : GS -> GS -> bool) (rp_eqb : Rp -> Rp -> bool).
Context (gs_refl : forall g, gs_eqb g g = true) (rp_refl : forall r, rp_eqb r r = true).
Notation ftype := (ftype GS Rp).
Notation type_eqb := (ft_eqb gs_eqb rp_eqb).
Notation off := (off Rp sz).
Notation chans := (chans sz).
Notation wf_ft := (wf_ft GS Rp fits).

(** the permutation: which fields precede which *)
Definition branch_order (level : nat) (t : ftype) (a b : nat) : Prop :=
  match level with
  | 1 => a < b
  | _ => forall ra rb, nth_error (ft_reps t) a = Some ra -> nth_error (ft_reps t) b = Some rb ->
           sz ra < sz rb \/ (sz ra = sz rb /\ a < b)
  end.
Lemma branch_perm_spec level (t : ftype) labels : length (ft_reps t) = length labels ->
  Permutation (branch_perm sz level t labels) (seq 0 (length (ft_reps t))) /\
  forall i j a b l, i < j -> nth_error (branch_perm sz level t labels) i = Some a -> nth_error (branch_perm sz level t labels) j = Some b ->
    nth_error labels a = Some l -> nth_error labels b = Some l -> branch_order level t a b.
Proof.
  intros HL. unfold branch_perm.
  set (f := fun p : nat * (string * nat) => (fst (snd p), snd (snd p), fst p)).
  set (e := enumerate (combine labels (map sz (ft_reps t)))).
  assert (LC : length (combine labels (map sz (ft_reps t))) = length (ft_reps t)) by (rewrite combine_length, map_length; lia).
  split.
  - eapply perm_trans; [apply Permutation_map, Permutation_sym, branch_sort_perm|]. rewrite map_map.
    replace (map (fun x => snd (f x)) e) with (map fst e) by (apply map_ext; reflexivity).
    unfold e. rewrite enumerate_fst, LC. apply Permutation_refl.
  - intros i j a b l Lij Ha Hb La Lb.
    assert (S : StronglySorted (klt level) (branch_sort level (map f e))).
    { apply branch_sort_sorted. assert (SS : StronglySorted lt (map fst e)) by (unfold e; rewrite enumerate_fst; apply sorted_seq).
      clear - SS. induction e as [|p e' IH]; cbn in *; constructor; inversion SS; subst; auto.
      apply Forall_map. rewrite Forall_forall in *. intros q Hq. exact (H2 (fst q) (in_map fst _ _ Hq)). }
    rewrite nth_error_map in Ha, Hb.
    destruct (nth_error (branch_sort level (map f e)) i) as [ka|] eqn:Ka; [|discriminate].
    destruct (nth_error (branch_sort level (map f e)) j) as [kb|] eqn:Kb; [|discriminate].
    cbn in Ha, Hb. injection Ha as Ha. injection Hb as Hb.
    pose proof (StronglySorted_nth _ _ S i j ka kb Lij Ka Kb) as KL.
    assert (KI : forall k c, In k (branch_sort level (map f e)) -> snd k = c -> forall l r, nth_error labels c = Some l -> nth_error (ft_reps t) c = Some r -> k = (l, sz r, c)).
    { intros k c Hk Ec l0 r Hl Hr. apply (Permutation_in _ (Permutation_sym (branch_sort_perm level _))) in Hk.
      apply in_map_iff in Hk as ([i0 [l1 n1]] & Ek & Hk). unfold f in Ek. cbn in Ek. subst k. cbn in Ec. subst i0.
      unfold e in Hk. apply enumerate_nth in Hk.
      assert (nth_error (combine labels (map sz (ft_reps t))) c = Some (l0, sz r)) as E.
      { clear - HL Hl Hr. revert c Hl Hr HL. generalize (ft_reps t). induction labels as [|x labels IH]; intros [|y rs] c Hl Hr HL; destruct c; cbn in *; try discriminate.
        - congruence. - apply IH; auto. }
      congruence. }
    assert (LT : forall c l0, nth_error labels c = Some l0 -> exists r, nth_error (ft_reps t) c = Some r).
    { intros c l0 H. assert (c < length (ft_reps t)) by (rewrite HL; apply nth_error_Some; congruence).
      destruct (nth_error (ft_reps t) c) eqn:E; eauto. apply nth_error_None in E. lia. }
    destruct (LT a l La) as [ra Hra]. destruct (LT b l Lb) as [rb Hrb].
    rewrite (KI ka a (nth_error_In _ _ Ka) Ha l ra La Hra), (KI kb b (nth_error_In _ _ Kb) Hb l rb Lb Hrb) in KL.
    cbn in KL. destruct KL as [KL|[_ KL]].
    { rewrite string_compare_refl in KL. discriminate. }
    unfold branch_order. destruct level as [|[|]]; auto; intros ra' rb' E1 E2; rewrite Hra in E1; rewrite Hrb in E2; injection E1 as <-; injection E2 as <-; auto.
Qed.

(** * after the reshuffling *)
Lemma fold_min_seq s n : fold_left Nat.min (seq (S s) n) s = s.
Proof.
  assert (G : forall l, Forall (fun x => s <= x) l -> fold_left Nat.min l s = s).
  { induction l as [|a l IH]; intros H; cbn; auto. inversion H; subst. rewrite Nat.min_l by auto. auto. }
  apply G. apply Forall_forall. intros x Hx. apply in_seq in Hx. lia.
Qed.
Lemma fold_max_seq n : forall s, fold_left Nat.max (seq (S s) n) s = s + n.
Proof. induction n as [|n IH]; intros s; cbn; [lia|]. rewrite Nat.max_r by lia. rewrite IH. lia. Qed.

Definition good_out (t : ftype) (labels : list string) (out : list (string * ftype)) : Prop :=
  forall l, In l labels -> exists u, kget String.eqb out l = Some u /\ ft_gs u = ft_gs t /\ picks (ft_reps t) (pos_of labels l) (ft_reps u).
Lemma group_good (t : ftype) labels out : wf_ft t -> length labels = length (ft_reps t) -> group_by_labels fits t labels = Ok out -> good_out t labels out.
Proof.
  intros W HL H. destruct (group_by_labels_spec GS Rp fits t labels W) as [_ G]. destruct (G HL) as (ts & E & ND & K & P).
  rewrite H in E. injection E as <-. intros l Hl. apply K in Hl. apply (kget_keys _ String.eqb_spec) in Hl as [u Hu].
  exists u. split; auto. apply (kget_in _ String.eqb_spec) in Hu. destruct (P _ _ Hu) as (HG & F & S & HF & PF). split; auto.
  replace (pos_of labels l) with F; auto. apply sorted_ext; auto. apply pos_of_sorted. intros i. rewrite HF, pos_of_spec. tauto.
Qed.
Lemma retrieve_spec {A} (t : ftype) labels out idx m (x : gtensor GS Rp A) l :
  length labels = length (ft_reps t) -> good_out t labels out ->
  rmap (branch_index (combine labels (map sz (ft_reps t)))) (contiguous_loop None [] labels) = Ok idx ->
  br_out m = out -> br_idx m = idx -> gt_type x = t -> length (gt_data x) = ft_size sz t -> In l labels ->
  exists y, retrieve sz m x l = Ok y /\ kget String.eqb out l = Some (gt_type y) /\ holds_fields sz x (pos_of labels l) y.
Proof.
  intros HL GO HI <- EI ET L Hl. destruct (GO l Hl) as (u & Hu & HG & P). unfold retrieve. rewrite EI, Hu.
  destruct (contiguous_loop_spec labels [] None []) as (ND & K & C).
  { split; [constructor|]. split; [reflexivity|]. split; discriminate. }
  cbn [app] in K, C. pose proof (proj2 (K l) Hl) as Hk. apply (kget_keys _ String.eqb_spec) in Hk as [b Hb].
  assert (EX : exists c, branch_index (combine labels (map sz (ft_reps t))) (l, b) = Ok (l, c) /\ kget String.eqb idx l = Some c).
  { clear - HI Hb. apply rmap_all in HI. induction HI as [|p q ps qs H _ IH]; [discriminate|]. destruct p as [l0 b0].
    unfold branch_index in H. cbn [fst snd] in H. cbn in Hb. destruct (String.eqb_spec l0 l) as [->|NE].
    - injection Hb as ->. unfold branch_index. cbn [fst snd]. rewrite H. apply rbind_ok in H as (c & _ & H).
      destruct (has_dot l); [discriminate|]. injection H as <-. exists c. split; auto. cbn. rewrite String.eqb_refl. auto.
    - destruct (IH Hb) as (c & E1 & E2). exists c. split; auto. apply rbind_ok in H as (c' & _ & H).
      destruct (has_dot l0); [discriminate|]. injection H as <-. cbn. destruct (String.eqb_spec l0 l); [congruence|auto]. }
  destruct EX as (c & E1 & ->). unfold branch_index in E1. cbn [fst snd] in E1. rewrite label_chans in E1 by auto.
  apply rbind_ok in E1 as (c' & E1 & E2). destruct (has_dot l); [discriminate|]. injection E2 as ->.
  subst t. destruct (holds_total sz x (pos_of labels l) u) as (d & D1 & D2 & D3); auto.
  destruct b.
  - destruct (C l Hb) as (a & k & Es). rewrite Es in E1, D1. rewrite chans_seq in E1, D1.
    set (s := off (ft_reps (gt_type x)) a) in *. remember (off (ft_reps (gt_type x)) (a + k) - s) as n0 eqn:En.
    destruct n0 as [|n]; [discriminate|]. cbn [seq] in E1. injection E1 as <-. rewrite fold_min_seq, fold_max_seq.
    cbn [rbind]. apply torch_index_ok in D1.
    assert (Q : sub_list (gt_data x) s (s + n + 1) = d).
    { eapply picks_fun; [|exact D1]. replace (S n) with (s + n + 1 - s) by lia. apply picks_seq; [lia|].
      rewrite L. unfold ft_size. pose proof (off_le Rp sz (ft_reps (gt_type x)) (a + k)). lia. }
    rewrite Q. rewrite D2. eexists. split; [reflexivity|]. split; [reflexivity|exact D3].
  - injection E1 as <-. rewrite D1. cbn [rbind]. rewrite D2. eexists. split; [reflexivity|]. split; [reflexivity|exact D3].
Qed.
Lemma branch_index_total (t : ftype) labels : length labels = length (ft_reps t) -> (forall r, In r (ft_reps t) -> 0 < sz r) ->
  Forall (fun l => has_dot l = false) labels ->
  exists idx, rmap (branch_index (combine labels (map sz (ft_reps t)))) (contiguous_loop None [] labels) = Ok idx.
Proof.
  intros HL HS HD. destruct (contiguous_loop_spec labels [] None []) as (ND & K & _).
  { split; [constructor|]. split; [reflexivity|]. split; discriminate. }
  cbn [app] in K. assert (G : forall d, incl (map fst d) labels -> exists idx, rmap (branch_index (combine labels (map sz (ft_reps t)))) d = Ok idx).
  { induction d as [|[l b] d IH]; intros I; [eexists; reflexivity|].
    destruct IH as [idx E]. { intros y Hy. apply I. cbn; auto. }
    cbn [rmap]. unfold branch_index at 1. cbn [fst snd]. rewrite label_chans by auto.
    assert (Hl : In l labels) by (apply I; cbn; auto).
    rewrite Forall_forall in HD. rewrite (HD l Hl).
    assert (NE : chans (ft_reps t) (pos_of labels l) <> []).
    { apply In_nth_error in Hl as [i Hi]. pose proof Hi as Hi'. apply pos_of_spec in Hi. intros E0.
      assert (i < length (ft_reps t)) by (rewrite <- HL; apply nth_error_Some; congruence).
      destruct (nth_error (ft_reps t) i) as [r|] eqn:Er; [|apply nth_error_None in Er; lia].
      assert (X : In (off (ft_reps t) i) (chans (ft_reps t) (pos_of labels l))).
      { unfold Proofs_Modules2.chans. apply in_concat. eexists. split; [apply in_map_iff; exists i; split; [reflexivity|auto]|].
        apply in_seq. rewrite (off_S _ _ _ _ r) by auto. specialize (HS r (nth_error_In _ _ Er)). lia. }
      rewrite E0 in X. destruct X. }
    destruct b; [destruct (chans (ft_reps t) (pos_of labels l)) as [|z zs]; [congruence|]|]; cbn [rbind]; rewrite E; cbn [rbind]; eauto. }
  apply G. intros l Hl. apply K; auto.
Qed.

(** * BranchingModule *)
Lemma sorted_map {X Y} (R : X -> X -> Prop) (R' : Y -> Y -> Prop) (f : X -> Y) l : StronglySorted R l ->
  (forall a b, In a l -> In b l -> R a b -> R' (f a) (f b)) -> StronglySorted R' (map f l).
Proof.
  induction 1 as [|a l S IH F]; intros H; cbn; constructor.
  - apply IH. intros; apply H; cbn; auto.
  - apply Forall_map. rewrite Forall_forall in *. intros b Hb. apply H; cbn; auto.
Qed.
(** the order of the fields of one label *)
Definition level_order (level : Z) (t : ftype) (a b : nat) : Prop :=
  if (level =? 2)%Z
  then forall ra rb, nth_error (ft_reps t) a = Some ra -> nth_error (ft_reps t) b = Some rb -> sz ra < sz rb \/ (sz ra = sz rb /\ a < b)
  else a < b.
Lemma list_eqb_nat l1 : forall l2, list_eqb Nat.eqb l1 l2 = true -> l1 = l2.
Proof. induction l1 as [|a l1 IH]; intros [|b l2] H; cbn in *; try discriminate; auto. apply andb_prop in H as [H1 H2]. apply Nat.eqb_eq in H1. f_equal; auto. Qed.

Lemma branching_spec {A} (t : ftype) labels level m (x : gtensor GS Rp A) : wf_ft t ->
  branching_make sz fits t labels level = Ok m -> gt_type x = t -> length (gt_data x) = ft_size sz t ->
  length labels = length (ft_reps t) /\
  exists ys, branching_forward sz gs_eqb rp_eqb m x = Ok ys /\ map fst ys = dedup labels /\
    forall l y, In (l, y) ys -> kget String.eqb (br_out m) l = Some (gt_type y) /\
      exists F, holds_fields sz x F y /\ (forall i, In i F <-> nth_error labels i = Some l) /\ NoDup F /\
        StronglySorted (level_order level t) F.
Proof.
  intros W H ET L. unfold branching_make in H. apply assert_ok in H as [Hl H]. apply assert_ok in H as [HL H].
  apply Nat.eqb_eq in HL. split; [auto|]. apply rbind_ok in H as ([[rs t'] labels'] & H1 & H). apply rbind_ok in H as (out & Ho & H).
  apply rbind_ok in H as (idx & Hi & H). injection H as <-.
  apply andb_prop in Hl as [Hl1 Hl2]. apply Z.leb_le in Hl1. apply Z.ltb_lt in Hl2.
  set (m := MkBR t (dedup labels) rs out idx).
  (* what the reshuffling stage provides *)
  assert (ST : exists x', match rs with Some r => reshuffle_forward sz gs_eqb rp_eqb r x | None => Ok x end = Ok x' /\ gt_type x' = t' /\
     length (gt_data x') = ft_size sz t' /\ wf_ft t' /\ length labels' = length (ft_reps t') /\ (forall l, In l labels' <-> In l labels) /\
     forall l y, holds_fields sz x' (pos_of labels' l) y ->
       exists F, holds_fields sz x F y /\ (forall i, In i F <-> nth_error labels i = Some l) /\ NoDup F /\ StronglySorted (level_order level t) F).
  { assert (ID : (level = 0%Z \/ branch_perm sz (Z.to_nat level) t labels = seq 0 (length (ft_reps t))) -> forall l y, holds_fields sz x (pos_of labels l) y ->
       exists F, holds_fields sz x F y /\ (forall i, In i F <-> nth_error labels i = Some l) /\ NoDup F /\ StronglySorted (level_order level t) F).
    { intros HP l y Hy. exists (pos_of labels l). split; [auto|]. split; [apply pos_of_spec|]. split; [apply sorted_nodup, pos_of_sorted|].
      rewrite <- (map_id (pos_of labels l)). apply (sorted_map lt); [apply pos_of_sorted|]. intros a b Ha Hb Lab. unfold level_order.
      destruct (level =? 2)%Z eqn:E2; [|exact Lab]. apply Z.eqb_eq in E2. subst level. destruct HP as [HP|HP]; [discriminate|].
      destruct (branch_perm_spec 2 t labels) as [_ BO]; [auto|]. apply pos_of_spec in Ha, Hb. change (Z.to_nat 2) with 2 in HP. rewrite HP in BO.
      assert (a < length (ft_reps t)) by (rewrite HL; apply nth_error_Some; congruence).
      assert (b < length (ft_reps t)) by (rewrite HL; apply nth_error_Some; congruence).
      apply (BO a b a b l Lab); auto; rewrite (nth_error_nth' _ 0) by (rewrite seq_length; auto); rewrite seq_nth by auto; reflexivity. }
    destruct (0 <? level)%Z eqn:EL.
    2:{ injection H1 as <- <- <-. exists x. split; [reflexivity|]. split; [auto|]. split; [auto|]. split; [auto|]. split; [auto|]. split; [tauto|].
        apply ID. left. apply Z.ltb_ge in EL. lia. }
    apply Z.ltb_lt in EL. set (P := branch_perm sz (Z.to_nat level) t labels) in *.
    destruct (list_eqb Nat.eqb P (seq 0 (length (ft_reps t)))) eqn:EP.
    { injection H1 as <- <- <-. exists x. split; [reflexivity|]. split; [auto|]. split; [auto|]. split; [auto|]. split; [auto|]. split; [tauto|].
      apply ID. right. apply list_eqb_nat. auto. }
    apply rbind_ok in H1 as (r & Hr & H1). injection H1 as <- <- <-.
    destruct (branch_perm_spec (Z.to_nat level) t labels) as [PP BO]; [auto|]. fold P in PP, BO.
    destruct (reshuffle_forward_spec sz fits gs_eqb rp_eqb gs_refl rp_refl t P r x Hr ET L) as (x' & E1 & E2 & E3).
    apply reshuffle_spec in Hr as (_ & P' & EP' & HP & HG & PK & W' & _). apply map_of_nat_inj in EP'. subst P'.
    exists x'. split; [exact E1|]. split; [auto|]. split; [rewrite <- E2; eapply holds_length; eauto; congruence|]. split; [auto|].
    assert (NL : forall i, nth_error (map (fun p => nth p labels ""%string) P) i = match nth_error P i with Some p => nth_error labels p | None => None end).
    { intros i. rewrite nth_error_map. destruct (nth_error P i) as [p|] eqn:Ep; [|reflexivity]. cbn.
      symmetry. apply nth_error_nth'. rewrite <- HL. apply HP. eapply nth_error_In; eauto. }
    split; [rewrite map_length, (picks_length _ _ _ PK); reflexivity|]. split.
    { intros l. split; intros Hi'.
      - apply In_nth_error in Hi' as [i Hi']. rewrite NL in Hi'. destruct (nth_error P i); [|discriminate]. eapply nth_error_In; eauto.
      - apply In_nth_error in Hi' as [p Hp]. assert (Hpp : In p P) by (apply HP; rewrite HL; apply nth_error_Some; congruence).
        apply In_nth_error in Hpp as [i Hpi]. apply (nth_error_In _ i). rewrite NL, Hpi. auto. }
    intros l y Hy. set (F' := pos_of (map (fun p => nth p labels ""%string) P) l) in *.
    assert (HF' : forall j, In j F' <-> exists p, nth_error P j = Some p /\ nth_error labels p = Some l).
    { intros j. unfold F'. rewrite pos_of_spec, NL. destruct (nth_error P j) as [p|]; split.
      - eauto. - intros (q & E & Eq). congruence. - discriminate. - intros (q & E & _). discriminate. }
    destruct (picks_exists P F') as [F PF].
    { apply Forall_forall. intros j Hj. apply HF' in Hj as (p & E & _). apply nth_error_Some. congruence. }
    assert (NP : NoDup P) by (eapply Permutation_NoDup; [apply Permutation_sym; exact PP|apply seq_NoDup]).
    assert (EF : F = map (fun j => nth j P 0) F').
    { apply nth_error_ext. intros i. rewrite (picks_of _ _ _ i PF), nth_error_map. destruct (nth_error F' i) as [j|] eqn:Ej; [|reflexivity].
      cbn. apply nth_error_nth'. apply nth_error_In, HF' in Ej as (p & E & _). apply nth_error_Some. congruence. }
    assert (SF : StronglySorted (level_order level t) F).
    { rewrite EF. apply (sorted_map lt); [apply pos_of_sorted|]. intros i j Hi' Hj Lij. apply HF' in Hi' as (a & Ea & La). apply HF' in Hj as (b & Eb & Lb).
      rewrite (nth_error_nth _ _ _ Ea), (nth_error_nth _ _ _ Eb). pose proof (BO i j a b l Lij Ea Eb La Lb) as O.
      unfold level_order. unfold branch_order in O. assert (HH : level = 1%Z \/ level = 2%Z) by lia. destruct HH; subst level; exact O. }
    exists F. split; [eapply holds_compose; eauto; congruence|]. split; [|split; auto].
    - intros i. rewrite EF, in_map_iff. split.
      + intros (j & <- & Hj). apply HF' in Hj as (p & E & El). rewrite (nth_error_nth _ _ _ E). auto.
      + intros Hi'. assert (In i P) as Hip by (apply HP; rewrite HL; apply nth_error_Some; congruence). apply In_nth_error in Hip as [j Hj].
        exists j. split; [apply nth_error_nth; auto|]. apply HF'. eauto.
    - rewrite EF. assert (NF' : NoDup F') by (apply sorted_nodup, pos_of_sorted). clear - NF' NP HF'.
      assert (I : forall j, In j F' -> j < length P). { intros j Hj. apply HF' in Hj as (p & E & _). apply nth_error_Some. congruence. }
      clear HF'. induction F' as [|j F' IH]; cbn; constructor; inversion NF'; subst.
      + intros Hc. apply in_map_iff in Hc as (j' & E & Hj'). rewrite NoDup_nth in NP. apply NP in E; [subst; auto| |]; apply I; cbn; auto.
      + apply IH; auto. intros; apply I; cbn; auto. }
  destruct ST as (x' & E1 & E2 & E3 & W' & HL' & KL & HF).
  pose proof (group_good t' labels' out W' HL' Ho) as GO.
  unfold branching_forward. cbn [br_in m br_reshuffle br_labels]. rewrite ET, type_refl by auto. cbn [assert_].
  unfold m at 1. cbn [br_reshuffle]. rewrite E1. cbn [rbind].
  assert (G : forall ls, incl ls labels -> exists ys, rmap (fun l => rbind (retrieve sz m x' l) (fun y => Ok (l, y))) ls = Ok ys /\ map fst ys = ls /\
     forall l y, In (l, y) ys -> kget String.eqb out l = Some (gt_type y) /\ holds_fields sz x' (pos_of labels' l) y).
  { induction ls as [|l ls IH]; intros I.
    - exists []. split; [reflexivity|]. split; [reflexivity|]. intros l y [].
    - destruct IH as (ys & R1 & R2 & R3). { intros z Hz. apply I. cbn; auto. }
      destruct (retrieve_spec t' labels' out idx m x' l) as (y & Q1 & Q2 & Q3); auto. { apply KL, I. cbn; auto. }
      exists ((l, y) :: ys). cbn [rmap]. rewrite Q1. cbn [rbind]. rewrite R1. cbn [rbind]. split; [reflexivity|]. split; [cbn; congruence|].
      intros l0 y0 [E|Hin]; [injection E as <- <-; auto|auto]. }
  destruct (G (dedup labels)) as (ys & R1 & R2 & R3). { intros z Hz. apply dedup_in; auto. }
  exists ys. split; [exact R1|]. split; [exact R2|]. intros l y Hy. destruct (R3 l y Hy) as [Q1 Q2]. split; [exact Q1|]. apply HF. exact Q2.
Qed.

Lemma branching_total (t : ftype) labels level : wf_ft t -> length labels = length (ft_reps t) -> (0 <= level < 3)%Z ->
  (forall r, In r (ft_reps t) -> 0 < sz r) -> Forall (fun l => has_dot l = false) labels ->
  exists m, branching_make sz fits t labels level = Ok m.
Proof.
  intros W HL Hl HS HD. unfold branching_make.
  replace ((0 <=? level) && (level <? 3))%Z with true by (symmetry; apply andb_true_intro; split; [apply Z.leb_le|apply Z.ltb_lt]; lia).
  rewrite HL, Nat.eqb_refl. cbn [assert_].
  assert (ST : exists rs t' labels', (if (0 <? level)%Z
          then let perm := branch_perm sz (Z.to_nat level) t labels in
               if list_eqb Nat.eqb perm (seq 0 (length (ft_reps t))) then Ok (None, t, labels)
               else rbind (reshuffle_make sz fits t (map Z.of_nat perm)) (fun rs =>
                    Ok (Some rs, rs_out rs, map (fun p => nth p labels ""%string) perm))
          else Ok (None, t, labels)) = Ok (rs, t', labels') /\ wf_ft t' /\ length labels' = length (ft_reps t') /\
          (forall r, In r (ft_reps t') -> 0 < sz r) /\ Forall (fun l => has_dot l = false) labels').
  { destruct (0 <? level)%Z; [|do 3 eexists; eauto]. cbv zeta.
    destruct (list_eqb Nat.eqb (branch_perm sz (Z.to_nat level) t labels) (seq 0 (length (ft_reps t)))); [do 3 eexists; eauto|].
    destruct (branch_perm_spec (Z.to_nat level) t labels) as [PP _]; [auto|]. set (P := branch_perm sz (Z.to_nat level) t labels) in *.
    destruct (reshuffle_total sz fits t P W) as [r Hr].
    { intros i. split; intros Hi. - apply (Permutation_in _ PP), in_seq in Hi. lia. - apply (Permutation_in _ (Permutation_sym PP)), in_seq. lia. }
    rewrite Hr. cbn [rbind]. do 3 eexists. split; [reflexivity|]. apply reshuffle_spec in Hr as (_ & P' & EP' & HP & _ & PK & W' & _).
    apply map_of_nat_inj in EP'. subst P'. split; [auto|]. split; [rewrite map_length, (picks_length _ _ _ PK); reflexivity|]. split.
    - intros r0 Hr0. apply In_nth_error in Hr0 as [i Hi]. rewrite (picks_of _ _ _ i PK) in Hi. destruct (nth_error P i); [|discriminate].
      apply HS. eapply nth_error_In; eauto.
    - apply Forall_map, Forall_forall. intros p Hp. rewrite Forall_forall in HD. apply HD, nth_In. rewrite HL. apply HP; auto. }
  destruct ST as (rs & t' & labels' & E & W' & HL' & HS' & HD'). cbv zeta in E |- *. rewrite E. cbn [rbind].
  destruct (group_by_labels_spec GS Rp fits t' labels' W') as [_ G]. destruct (G HL') as (ts & -> & _). cbn [rbind].
  destruct (branch_index_total t' labels' HL' HS' HD') as [idx ->]. cbn [rbind]. eauto.
Qed.
End M.
