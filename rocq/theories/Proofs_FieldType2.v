From Coq Require Import Reals ZArith String List Bool Lia Permutation Sorted.
From Verif Require Import Base Spec_Fields Model_Groups Model_Rep Model_FieldType Proofs_FieldType.
Import ListNotations.
Open Scope nat_scope.

Section S.
Variables (GS Rp : Type) (sz : Rp -> nat) (fits : GS -> Rp -> bool)
          (gs_eqb : GS -> GS -> bool) (rp_eqb : Rp -> Rp -> bool).
Notation ftype := (ftype GS Rp).
Notation off := (off Rp sz).
Notation wf_ft := (wf_ft GS Rp fits).

Lemma map_of_nat_inj F F' : map Z.of_nat F = map Z.of_nat F' -> F = F'.
Proof.
  revert F'; induction F as [|a F IH]; intros [|b F'] E; cbn [map] in E; try discriminate; auto.
  f_equal. apply Nat2Z.inj. congruence. apply IH. congruence.
Qed.
(** * index_select *)
Lemma fold_max_ge l m : (m <= fold_left Z.max l m)%Z /\ Forall (fun i => (i <= fold_left Z.max l m)%Z) l.
Proof.
  revert m; induction l as [|a l IH]; cbn; intros m. split; [lia|constructor].
  destruct (IH (Z.max m a)). split; [lia|]. constructor; [lia|auto].
Qed.
Lemma fold_min_le l m : (fold_left Z.min l m <= m)%Z /\ Forall (fun i => (fold_left Z.min l m <= i)%Z) l.
Proof.
  revert m; induction l as [|a l IH]; cbn; intros m. split; [lia|constructor].
  destruct (IH (Z.min m a)). split; [lia|]. constructor; [lia|auto].
Qed.
Lemma fold_max_in l m : In (fold_left Z.max l m) (m :: l).
Proof.
  revert m; induction l as [|a l IH]; cbn; intros m; auto. destruct (IH (Z.max m a)) as [E|E]; auto.
  rewrite <- E. destruct (Z.max_spec m a) as [[_ ->]|[_ ->]]; auto.
Qed.
Lemma fold_min_in l m : In (fold_left Z.min l m) (m :: l).
Proof.
  revert m; induction l as [|a l IH]; cbn; intros m; auto. destruct (IH (Z.min m a)) as [E|E]; auto.
  rewrite <- E. destruct (Z.min_spec m a) as [[_ ->]|[_ ->]]; auto.
Qed.
Lemma py_indices (l : list Rp) F : Forall (fun f => f < length l) F ->
  exists ys, rmap (py_index l) (map Z.of_nat F) = Ok ys /\ picks l F ys.
Proof.
  intros H. destruct (picks_exists l F H) as [ys P]. exists ys. split; auto. apply rmap_ok_fwd.
  unfold picks in P. clear H. revert ys P. induction F as [|f F IH]; intros [|y ys] P; cbn in *; try discriminate; constructor.
  - apply py_index_fwd with (j := f). congruence. destruct (Z.ltb_spec (Z.of_nat f) 0); lia.
  - apply IH. congruence.
Qed.

Lemma index_select_spec (t t' : ftype) idx : index_select fits t idx = Ok t' ->
  exists F, idx = map Z.of_nat F /\ F <> [] /\ Forall (fun f => f < length (ft_reps t)) F /\
    ft_gs t' = ft_gs t /\ picks (ft_reps t) F (ft_reps t') /\ wf_ft t'.
Proof.
  unfold index_select. intros H. destruct idx as [|z idx]; [discriminate|]. cbn [py_max py_min rbind] in H.
  apply assert_ok in H as [H1 H]. apply assert_ok in H as [H2 H]. apply rbind_ok in H as (reps & Hr & H).
  apply mk_ftype_ok in H as [-> W]. apply Z.ltb_lt in H1. apply Z.leb_le in H2. unfold ft_len in H1.
  destruct (fold_max_ge idx z) as [M1 M2]. destruct (fold_min_le idx z) as [m1 m2].
  assert (R : Forall (fun i => (0 <= i < Z.of_nat (length (ft_reps t)))%Z) (z :: idx)).
  { constructor; [lia|]. rewrite Forall_forall in *. intros i Hi. specialize (M2 i Hi). specialize (m2 i Hi). cbn in *. lia. }
  exists (map Z.to_nat (z :: idx)).
  assert (E : z :: idx = map Z.of_nat (map Z.to_nat (z :: idx))).
  { rewrite map_map. rewrite <- (map_id (z :: idx)) at 1. apply map_ext_in. intros i Hi.
    rewrite Forall_forall in R. specialize (R i Hi). lia. }
  assert (RF : Forall (fun f => f < length (ft_reps t)) (map Z.to_nat (z :: idx))).
  { apply Forall_map. eapply Forall_impl; [|exact R]. cbn. intros; lia. }
  split; [exact E|]. split; [discriminate|]. split; [exact RF|]. split; [reflexivity|]. split; [|exact W].
  destruct (py_indices (ft_reps t) _ RF) as (ys & Hy & P). rewrite <- E in Hy. rewrite Hr in Hy. injection Hy as <-. exact P.
Qed.
Lemma index_select_fwd (t : ftype) F : wf_ft t -> F <> [] -> Forall (fun f => f < length (ft_reps t)) F ->
  exists t', index_select fits t (map Z.of_nat F) = Ok t'.
Proof.
  intros W NE RF. unfold index_select. destruct F as [|f F]; [congruence|]. cbn [map py_max py_min rbind].
  assert (R : Forall (fun i => (0 <= i < Z.of_nat (length (ft_reps t)))%Z) (map Z.of_nat (f :: F))).
  { apply Forall_map. eapply Forall_impl; [|exact RF]. cbn; intros; lia. }
  rewrite Forall_forall in R. cbn [map] in R.
  pose proof (R _ (fold_max_in (map Z.of_nat F) (Z.of_nat f))).
  pose proof (R _ (fold_min_in (map Z.of_nat F) (Z.of_nat f))).
  unfold ft_len.
  replace (_ <? _)%Z with true by (symmetry; apply Z.ltb_lt; lia). cbn [assert_].
  replace (_ <=? _)%Z with true by (symmetry; apply Z.leb_le; lia). cbn [assert_].
  destruct (py_indices _ _ RF) as (ys & Hy & P). cbn [map] in Hy. rewrite Hy. cbn [rbind].
  rewrite mk_ftype_fwd; [eauto| |].
  - intros ->. discriminate.
  - eapply fits_picks; eauto. apply W.
Qed.

(** * sorted *)
Lemma insert_perm a l : Permutation (a :: l) (insert_key a l).
Proof.
  induction l as [|b l IH]; cbn; auto. destruct (key_le a b); auto.
  etransitivity; [apply perm_swap|]. constructor; auto.
Qed.
Lemma sort_perm l : Permutation l (sort_keys l).
Proof. induction l; cbn; auto. etransitivity; [constructor; exact IHl|apply insert_perm]. Qed.
Definition kle (a b : nat * nat) : Prop := fst a < fst b \/ (fst a = fst b /\ snd a <= snd b).
Lemma key_le_spec a b : key_le a b = true <-> kle a b.
Proof.
  unfold key_le, kle. rewrite orb_true_iff, andb_true_iff, Nat.ltb_lt, Nat.eqb_eq, Nat.leb_le. reflexivity.
Qed.
Lemma kle_trans a b c : kle a b -> kle b c -> kle a c.
Proof. unfold kle. lia. Qed.
Lemma insert_sorted a l : StronglySorted kle l -> StronglySorted kle (insert_key a l).
Proof.
  induction 1 as [|b l HS IH HF]; cbn. repeat constructor.
  destruct (key_le a b) eqn:E.
  - apply key_le_spec in E. constructor; [constructor; auto|]. constructor; auto.
    eapply Forall_impl; [|exact HF]. intros c Hc. eapply kle_trans; eauto.
  - constructor; auto. assert (kle b a).
    { destruct (key_le b a) eqn:E'; [apply key_le_spec; auto|]. exfalso.
      assert (~ kle a b) by (rewrite <- key_le_spec; congruence). assert (~ kle b a) by (rewrite <- key_le_spec; congruence).
      unfold kle in *. lia. }
    apply (Permutation_Forall (insert_perm a l)). constructor; auto.
Qed.
Lemma sort_sorted l : StronglySorted kle (sort_keys l).
Proof. induction l; cbn. constructor. apply insert_sorted; auto. Qed.

Lemma enumerate_nth {A} (l : list A) i a : In (i, a) (enumerate l) <-> nth_error l i = Some a.
Proof.
  unfold enumerate. assert (forall k, In (i, a) (combine (seq k (length l)) l) <-> (k <= i /\ nth_error l (i - k) = Some a)) as G.
  { induction l as [|b l IH]; intros k; cbn [length seq combine In].
    - split; [tauto|]. intros [_ H]. destruct (i - k); discriminate.
    - rewrite IH. split.
      + intros [E|[H1 H2]]. injection E as -> ->. split; [lia|]. rewrite Nat.sub_diag. reflexivity.
        split; [lia|]. replace (i - k) with (S (i - S k)) by lia. exact H2.
      + intros [H1 H2]. destruct (Nat.eq_dec i k) as [->|NE].
        * left. rewrite Nat.sub_diag in H2. cbn in H2. congruence.
        * right. split; [lia|]. replace (i - k) with (S (i - S k)) in H2 by lia. exact H2. }
  rewrite (G 0). rewrite Nat.sub_0_r. split; [tauto|]. split; [lia|auto].
Qed.
Lemma map_fst_combine {A B} (l : list A) (l' : list B) : length l = length l' -> map fst (combine l l') = l.
Proof. revert l'; induction l; intros [|b l'] H; cbn in *; try discriminate; auto. f_equal; auto. Qed.
Lemma map_snd_combine {A B} (l : list A) (l' : list B) : length l = length l' -> map snd (combine l l') = l'.
Proof. revert l'; induction l; intros [|b l'] H; cbn in *; try discriminate; auto. f_equal; auto. Qed.
Lemma enumerate_fst {A} (l : list A) : map fst (enumerate l) = seq 0 (length l).
Proof. unfold enumerate. apply map_fst_combine. apply seq_length. Qed.
Lemma enumerate_snd {A} (l : list A) : map snd (enumerate l) = l.
Proof. unfold enumerate. apply map_snd_combine. apply seq_length. Qed.

(** stable, by size: earlier in the output means smaller, or equal size and earlier in the input *)
Definition stable_by_size (rs : list Rp) (F : list nat) : Prop :=
  forall i j a b, i < j -> nth_error F i = Some a -> nth_error F j = Some b ->
  forall ra rb, nth_error rs a = Some ra -> nth_error rs b = Some rb ->
  sz ra < sz rb \/ (sz ra = sz rb /\ a < b).

Lemma StronglySorted_nth {T} (R : T -> T -> Prop) l : StronglySorted R l ->
  forall i j a b, i < j -> nth_error l i = Some a -> nth_error l j = Some b -> R a b.
Proof.
  induction 1 as [|x l HS IH HF]; intros i j a b Hij Ha Hb. destruct i; discriminate.
  destruct j; [lia|]. cbn in Hb. destruct i; cbn in Ha.
  - injection Ha as ->. rewrite Forall_forall in HF. apply HF. eapply nth_error_In; eauto.
  - apply (IH i j); auto; lia.
Qed.

Lemma ft_sorted_spec (t : ftype) : wf_ft t ->
  exists t' F, ft_sorted sz fits t = Ok t' /\ ft_gs t' = ft_gs t /\
    Permutation F (seq 0 (length (ft_reps t))) /\ picks (ft_reps t) F (ft_reps t') /\ stable_by_size (ft_reps t) F.
Proof.
  intros W. set (rs := ft_reps t). set (keys := map (fun p => (sz (snd p), fst p)) (enumerate rs)).
  set (F := map snd (sort_keys keys)).
  assert (PF : Permutation F (seq 0 (length rs))).
  { unfold F. rewrite <- (sort_perm keys). unfold keys. rewrite map_map. cbn [snd]. rewrite <- enumerate_fst. reflexivity. }
  assert (RF : Forall (fun f => f < length rs) F).
  { apply (Permutation_Forall (Permutation_sym PF)). apply Forall_forall. intros f Hf. apply in_seq in Hf. lia. }
  assert (NE : F <> []).
  { intros E. rewrite E in PF. apply Permutation_nil in PF. destruct W as [W _]. fold rs in W. destruct rs; [auto|discriminate]. }
  destruct (index_select_fwd t F W NE RF) as [t' Ht].
  exists t', F. assert (Ht' := Ht). apply index_select_spec in Ht' as (F' & EF & _ & _ & Hgs & P & _).
  assert (F' = F).
  { symmetry. apply map_of_nat_inj; auto. }
  subst F'. split.
  { unfold ft_sorted. fold rs keys. unfold F in Ht. rewrite map_map in Ht. exact Ht. }
  split; [auto|]. split; [auto|]. split; [auto|].
  intros i j a b Hij Ha Hb ra rb Hra Hrb. unfold F in Ha, Hb. rewrite nth_error_map in Ha, Hb.
  destruct (nth_error (sort_keys keys) i) as [ka|] eqn:Ka; [|discriminate].
  destruct (nth_error (sort_keys keys) j) as [kb|] eqn:Kb; [|discriminate].
  cbn in Ha, Hb. injection Ha as <-. injection Hb as <-.
  assert (forall k r, In k (sort_keys keys) -> nth_error rs (snd k) = Some r -> fst k = sz r) as KS.
  { intros k r Hk Hr. apply (Permutation_in _ (Permutation_sym (sort_perm keys))) in Hk. unfold keys in Hk.
    apply in_map_iff in Hk as ([p q] & <- & Hk). cbn in *. apply enumerate_nth in Hk. congruence. }
  pose proof (StronglySorted_nth _ _ (sort_sorted keys) _ _ _ _ Hij Ka Kb) as KL.
  assert (snd ka <> snd kb).
  { intros E. assert (ND : NoDup F) by (eapply Permutation_NoDup; [apply Permutation_sym, PF|apply seq_NoDup]).
    rewrite NoDup_nth_error in ND. specialize (ND i j). 
    assert (i < length F). { unfold F. rewrite map_length. apply nth_error_Some. congruence. }
    unfold F in ND at 2 3. rewrite !nth_error_map, Ka, Kb in ND. cbn in ND. rewrite E in ND. specialize (ND H eq_refl). lia. }
  rewrite <- (KS ka ra), <- (KS kb rb); eauto using nth_error_In.
  unfold kle in KL. lia.
Qed.

(** * group_by_labels *)
Lemma dedup_in l x : In x (dedup l) <-> In x l.
Proof.
  induction l as [|a l IH]; cbn; [tauto|]. rewrite filter_In, IH, negb_true_iff, String.eqb_neq.
  destruct (String.eqb_spec x a); [subst; tauto|]. split; [intros [|[]]; auto|]. intros [|]; auto.
Qed.
Lemma dedup_nodup l : NoDup (dedup l).
Proof.
  induction l as [|a l IH]; cbn; constructor.
  - rewrite filter_In, negb_true_iff, String.eqb_neq. tauto.
  - apply NoDup_filter; auto.
Qed.
Definition pos_of (labels : list string) (l : string) : list nat :=
  filter (fun i => match nth_error labels i with Some l' => String.eqb l' l | None => false end) (seq 0 (length labels)).
Lemma positions_of_eq labels l : positions_of labels l = map Z.of_nat (pos_of labels l).
Proof.
  unfold positions_of, pos_of. rewrite <- enumerate_fst.
  assert (forall e, incl e (enumerate labels) ->
    map (fun p => Z.of_nat (fst p)) (filter (fun p => String.eqb (snd p) l) e) =
    map Z.of_nat (filter (fun i => match nth_error labels i with Some l' => String.eqb l' l | None => false end) (map fst e))) as G.
  { induction e as [|[i a] e IH]; intros I; cbn [map filter fst snd]; auto.
    assert (nth_error labels i = Some a) as -> by (apply enumerate_nth, I; cbn; auto).
    assert (I' : incl e (enumerate labels)) by (intros x Hx; apply I; cbn; auto).
    destruct (String.eqb a l); cbn [map fst]; rewrite IH by auto; auto. }
  apply G. apply incl_refl.
Qed.
Lemma pos_of_spec labels l i : In i (pos_of labels l) <-> nth_error labels i = Some l.
Proof.
  unfold pos_of. rewrite filter_In, in_seq. destruct (nth_error labels i) eqn:E.
  - rewrite String.eqb_eq. split; [intros [_ ->]; auto|]. intros H; injection H as ->.
    split; auto. split; [lia|]. cbn. apply nth_error_Some. congruence.
  - split; [intros [_ H]; discriminate|discriminate].
Qed.
Lemma pos_of_sorted labels l : StronglySorted lt (pos_of labels l).
Proof.
  unfold pos_of. assert (forall (f : nat -> bool) k n, StronglySorted lt (filter f (seq k n))) as G; [|apply G].
  intros f k n; revert k; induction n as [|n IH]; intros k; cbn. constructor.
  destruct (f k); [|apply IH]. constructor; [apply IH|]. apply Forall_forall. intros x Hx. apply filter_In in Hx as [Hx _].
  apply in_seq in Hx. lia.
Qed.

Lemma group_by_labels_spec (t : ftype) labels : wf_ft t ->
  (length labels <> length (ft_reps t) -> group_by_labels fits t labels = Err "AssertionError") /\
  (length labels = length (ft_reps t) ->
   exists ts, group_by_labels fits t labels = Ok ts /\ NoDup (map fst ts) /\
    (forall l, In l (map fst ts) <-> In l labels) /\
    (forall l t', In (l, t') ts -> ft_gs t' = ft_gs t /\
       exists F, StronglySorted lt F /\ (forall i, In i F <-> nth_error labels i = Some l) /\
                 picks (ft_reps t) F (ft_reps t'))).
Proof.
  intros W. unfold group_by_labels, ft_len. split; intros HL.
  - replace (_ =? _)%Z with false. reflexivity. symmetry. apply Z.eqb_neq. lia.
  - replace (_ =? _)%Z with true by (symmetry; apply Z.eqb_eq; lia). cbn [assert_].
    assert (forall ls, incl ls labels -> exists ts,
      Forall2 (fun l y => rbind (index_select fits t (positions_of labels l)) (fun t' => Ok (l, t')) = Ok y) ls ts) as G.
    { induction ls as [|l ls IH]; intros I. eexists; constructor.
      destruct IH as [ts Hts]. intros x Hx; apply I; cbn; auto.
      destruct (index_select_fwd t (pos_of labels l) W) as [t' Ht'].
      - assert (In l labels) as Hl by (apply I; cbn; auto). apply In_nth_error in Hl as [i Hi].
        apply pos_of_spec in Hi. intros E; rewrite E in Hi; auto.
      - apply Forall_forall. intros i Hi. apply pos_of_spec in Hi. rewrite <- HL. apply nth_error_Some. congruence.
      - exists ((l, t') :: ts). constructor; auto. rewrite positions_of_eq, Ht'. reflexivity. }
    destruct (G (dedup labels)) as [ts Hts]. intros x Hx. apply dedup_in; auto.
    exists ts. split. apply rmap_ok_fwd; auto.
    assert (E : map fst ts = dedup labels).
    { clear G. induction Hts as [|l y ls ts' H _ IH]; cbn; auto. apply rbind_ok in H as (u & _ & H). injection H as <-.
      cbn. f_equal; auto. }
    rewrite E. split. apply dedup_nodup. split. apply dedup_in.
    intros l t' Hin. clear G E. induction Hts as [|l0 y ls ts' H _ IH]; [destruct Hin|].
    destruct Hin as [->|Hin]; [|auto]. apply rbind_ok in H as (u & H & H'). injection H' as -> ->.
    apply index_select_spec in H as (F & EF & _ & _ & Hgs & P & _). split; auto.
    assert (F = pos_of labels l) as ->.
    { rewrite positions_of_eq in EF. symmetry. apply map_of_nat_inj; auto. }
    eexists. split; [apply pos_of_sorted|]. split; [apply pos_of_spec|auto].
Qed.

(** * split / tensor_directsum *)
Context {A : Type}.
Notation gtensor := (gtensor GS Rp A).
Notation wf := (wf GS Rp sz fits).
Notation picks_fields := (picks_fields GS Rp sz).

(** consecutive pieces: fields [last, b1), [b1, b2), ... *)
Fixpoint pieces (x : gtensor) (last : nat) (breaks : list nat) (ys : list gtensor) : Prop :=
  match breaks, ys with
  | [], [] => True
  | b :: bs, y :: ys' => last < b <= length (ft_reps (gt_type x)) /\
      picks_fields x (seq last (b - last)) y /\ pieces x b bs ys'
  | _, _ => False
  end.
Lemma positions_nth (rs : list Rp) j : j <= length rs ->
  nth_error (starts_from sz 0 rs ++ [nsum (map sz rs)]) j = Some (off rs j).
Proof.
  intros H. destruct (Nat.eq_dec j (length rs)) as [->|].
  - rewrite nth_error_app2; rewrite starts_length; auto. rewrite Nat.sub_diag. cbn. rewrite off_all. reflexivity.
  - rewrite nth_error_app1 by (rewrite starts_length; lia). rewrite starts_nth by lia. reflexivity.
Qed.
Lemma positions_index (rs : list Rp) z p : (0 <= z)%Z ->
  py_index (starts_from sz 0 rs ++ [nsum (map sz rs)]) z = Ok p ->
  exists j, z = Z.of_nat j /\ j <= length rs /\ p = off rs j.
Proof.
  intros Hz H. apply py_index_ok in H as (j & Hj & E & Ej). rewrite app_length, starts_length in Hj. cbn in Hj.
  destruct (Z.ltb_spec z 0); [lia|]. exists j. split; [lia|]. split; [lia|].
  rewrite positions_nth in E by lia. congruence.
Qed.
Lemma py_slice_unit_fwd n s e : s <= n -> e <= n ->
  py_slice (Z.of_nat n) (Some (Z.of_nat s)) (Some (Z.of_nat e)) None = Ok (map Z.of_nat (seq s (e - s))).
Proof.
  intros. assert (exists idx, py_slice (Z.of_nat n) (Some (Z.of_nat s)) (Some (Z.of_nat e)) None = Ok idx) as [idx E].
  { unfold py_slice. cbn. eauto. }
  rewrite E. f_equal. apply (py_slice_unit n (Some (Z.of_nat s)) (Some (Z.of_nat e)) None idx s e); auto; unfold bound.
  destruct (Z.ltb_spec (Z.of_nat s) 0); lia. destruct (Z.ltb_spec (Z.of_nat e) 0); lia.
Qed.

Lemma split_loop_spec (x : gtensor) last breaks ys : wf x -> last <= length (ft_reps (gt_type x)) ->
  split_loop sz fits x (starts_from sz 0 (ft_reps (gt_type x)) ++ [ft_size sz (gt_type x)]) (Z.of_nat last) breaks = Ok ys ->
  exists bs, breaks = map Z.of_nat bs /\ pieces x last bs ys.
Proof.
  intros W. revert last ys. induction breaks as [|b bs IH]; intros last ys Hlast H; cbn [split_loop] in H.
  - injection H as <-. exists []. cbn; auto.
  - apply assert_ok in H as [H1 H]. apply Z.ltb_lt in H1.
    apply rbind_ok in H as (idx & Hidx & H). apply rbind_ok in H as (t' & Ht & H).
    apply rbind_ok in H as (p & Hp & H). apply rbind_ok in H as (q & Hq & H).
    apply rbind_ok in H as (y & Hy & H). apply rbind_ok in H as (ys' & Hys & H). injection H as <-.
    apply positions_index in Hp as (j & Ej & Hj & ->); [|lia]. assert (j = last) by lia; subst j.
    apply positions_index in Hq as (c & -> & Hc & ->); [|lia].
    apply mk_ftype_ok in Ht as [-> Wt]. apply mk_gt_ok in Hy as [-> HL].
    destruct (IH c ys' Hc Hys) as (bs' & -> & P). exists (c :: bs'). split; [reflexivity|]. cbn [pieces].
    split; [lia|]. split; [|exact P].
    unfold ft_len in *. rewrite py_slice_unit_fwd in Hidx by lia. injection Hidx as <-.
    eapply (contiguous_picks GS Rp sz fits x last (c - last) _ (MkFT (ft_gs (gt_type x))
            (take_at (ft_reps (gt_type x)) (map Z.of_nat (seq last (c - last)))))); try lia; auto.
    + apply take_at_picks. apply Forall_forall. intros f Hf. apply in_seq in Hf. lia.
    + replace (last + (c - last)) with c by lia. reflexivity.
Qed.

Lemma last_indep {T} (l : list T) d d' : l <> [] -> List.last l d = List.last l d'.
Proof. induction l as [|a [|b l] IH]; intros H; [congruence|reflexivity|]. apply IH. discriminate. Qed.
Lemma last_cons {T} (b : T) l d : List.last (b :: l) d = List.last l b.
Proof. destruct l as [|c l]; [reflexivity|]. apply (last_indep (c :: l)). discriminate. Qed.
Lemma pieces_concat (x : gtensor) last bs ys : wf x -> last <= length (ft_reps (gt_type x)) -> pieces x last bs ys ->
  let m := List.last bs last in
  concat (map (fun y => ft_reps (gt_type y)) ys) = sub_list (ft_reps (gt_type x)) last m /\
  concat (map gt_data ys) = sub_list (gt_data x) (off (ft_reps (gt_type x)) last) (off (ft_reps (gt_type x)) m) /\
  Forall (fun y => ft_gs (gt_type y) = ft_gs (gt_type x)) ys /\ last <= m <= length (ft_reps (gt_type x)).
Proof.
  intros W. revert last ys. induction bs as [|b bs IH]; intros last ys Hl P; destruct ys as [|y ys]; cbn [pieces] in P; try tauto.
  - cbn [List.last map concat]. rewrite !sub_list_nil. split; [auto|]. split; [auto|]. split; [constructor|lia].
  - destruct P as (Hb & (Hgs & HR & cs & Hcs & HD) & P). destruct (IH b ys ltac:(lia) P) as (E1 & E2 & E3 & E4).
    assert (EM : List.last (b :: bs) last = List.last bs b).
    { apply last_cons. }
    cbn zeta. rewrite EM. cbn [map concat]. rewrite E1, E2.
    assert (HR' : ft_reps (gt_type y) = sub_list (ft_reps (gt_type x)) last b).
    { eapply picks_fun; [exact HR|]. apply picks_seq; lia. }
    assert (HD' : gt_data y = sub_list (gt_data x) (off (ft_reps (gt_type x)) last) (off (ft_reps (gt_type x)) b)).
    { rewrite HD. rewrite (concat_range Rp sz (ft_reps (gt_type x)) (gt_data x) (b - last) last) with (bs := cs); auto.
      - repeat f_equal. lia.
      - apply W.
      - lia. }
    rewrite HR', HD'. split; [|split; [|split]].
    + apply sub_list_app; lia.
    + apply sub_list_app; try (apply off_mono; lia). destruct W as [_ ->]. apply off_le.
    + constructor; auto.
    + lia.
Qed.

Lemma sub_list_all {T} (l : list T) : sub_list l 0 (length l) = l.
Proof. unfold sub_list. rewrite Nat.sub_0_r. cbn. apply firstn_all. Qed.

Hypothesis gs_refl : forall g, gs_eqb g g = true.

Lemma directsum_pieces (x : gtensor) bs ys : wf x -> pieces x 0 bs ys -> List.last bs 0 = length (ft_reps (gt_type x)) ->
  tensor_directsum sz fits gs_eqb ys = Ok x.
Proof.
  intros W P HL. destruct (pieces_concat x 0 bs ys W ltac:(lia) P) as (E1 & E2 & E3 & _).
  rewrite HL in E1, E2. rewrite sub_list_all in E1. rewrite off_all in E2.
  replace (off (ft_reps (gt_type x)) 0) with 0 in E2 by reflexivity.
  destruct W as [[W1 W2] W3]. unfold ft_size in W3. rewrite <- W3, sub_list_all in E2.
  destruct ys as [|y ys]. { cbn in E1. congruence. }
  unfold tensor_directsum. inversion E3 as [|? ? G1 G2]; subst.
  replace (forallb _ ys) with true.
  2:{ symmetry. apply forallb_forall. intros z Hz. rewrite Forall_forall in G2. rewrite G1, (G2 z Hz). apply gs_refl. }
  cbn [assert_]. rewrite E1, E2, G1. rewrite mk_ftype_fwd by auto. cbn [rbind]. rewrite mk_gt_fwd.
  destruct x as [d [g r]]; reflexivity. exact W3.
Qed.

(** valid breaks: strictly increasing from [last], at most n *)
Fixpoint chain (last : nat) (bs : list nat) (n : nat) : Prop :=
  match bs with [] => True | b :: bs' => last < b <= n /\ chain b bs' n end.
Lemma split_loop_fwd (x : gtensor) last bs : wf x -> chain last bs (length (ft_reps (gt_type x))) ->
  exists ys, split_loop sz fits x (starts_from sz 0 (ft_reps (gt_type x)) ++ [ft_size sz (gt_type x)])
     (Z.of_nat last) (map Z.of_nat bs) = Ok ys.
Proof.
  intros W. revert last. induction bs as [|b bs IH]; intros last C; cbn [map split_loop chain] in *. eauto.
  destruct C as [C1 C2]. replace (_ <? _)%Z with true by (symmetry; apply Z.ltb_lt; lia). cbn [assert_].
  unfold ft_len. rewrite py_slice_unit_fwd by lia. cbn [rbind].
  set (rs := ft_reps (gt_type x)) in *.
  assert (PK : picks rs (seq last (b - last)) (take_at rs (map Z.of_nat (seq last (b - last))))).
  { apply take_at_picks. apply Forall_forall. intros f Hf. apply in_seq in Hf. lia. }
  rewrite mk_ftype_fwd; cycle 1.
  { intros E. apply picks_length in PK. rewrite E, seq_length in PK. cbn in PK. lia. }
  { eapply fits_picks; [|exact PK]. apply W. }
  cbn [rbind]. unfold ft_size. fold rs.
  rewrite (py_index_fwd _ _ last (off rs last)); [|apply positions_nth; lia|destruct (Z.ltb_spec (Z.of_nat last) 0); lia].
  cbn [rbind].
  rewrite (py_index_fwd _ _ b (off rs b)); [|apply positions_nth; lia|destruct (Z.ltb_spec (Z.of_nat b) 0); lia].
  cbn [rbind]. rewrite mk_gt_fwd.
  2:{ destruct W as [_ W]. unfold ft_size in W. fold rs in W.
      assert (exists cs, picks (cut (map sz rs) (gt_data x)) (seq last (b - last)) cs) as [cs Hcs].
      { apply picks_exists. rewrite cut_length, map_length. apply Forall_forall. intros f Hf. apply in_seq in Hf. lia. }
      unfold ft_size. cbn [ft_reps].
      rewrite <- (picks_blocks_length Rp sz rs (gt_data x) (seq last (b - last)) _ cs W PK Hcs).
      rewrite (concat_range Rp sz rs (gt_data x) (b - last) last cs W ltac:(lia) Hcs).
      repeat f_equal. lia. }
  cbn [rbind]. destruct (IH b C2) as [ys Hys]. fold rs in Hys. unfold ft_size in Hys. fold rs in Hys. rewrite Hys. cbn [rbind]. eauto.
Qed.

Lemma last_app_one {T} (l : list T) a d : List.last (l ++ [a]) d = a.
Proof. induction l as [|b [|c l] IH]; auto. Qed.

(** everything about one call of split *)
Lemma split_spec (x : gtensor) breaks ys l' : wf x -> split sz fits x breaks = (Ok ys, l') ->
  exists bs, (match breaks with None => seq 1 (length (ft_reps (gt_type x)) - 1) | Some l => bs end) = bs /\
    (match breaks with None => True | Some l => l = map Z.of_nat bs end) /\
    pieces x 0 (bs ++ [length (ft_reps (gt_type x))]) ys /\ tensor_directsum sz fits gs_eqb ys = Ok x.
Proof.
  intros W H. unfold split in H. injection H as H _.
  set (n := length (ft_reps (gt_type x))) in *.
  change 0%Z with (Z.of_nat 0) in H. apply split_loop_spec in H as (bs & E & P); [|auto|lia].
  assert (exists bs', bs = bs' ++ [n] /\ (match breaks with None => map Z.of_nat (seq 1 (n - 1)) | Some l => l end) = map Z.of_nat bs') as (bs' & -> & E').
  { destruct (exists_last (l := bs)) as (b1 & b2 & ->).
    { intros ->. apply (f_equal (@length _)) in E. rewrite app_length in E. cbn in E. lia. }
    rewrite map_app in E. cbn [map] in E. apply app_inj_tail in E as [E1 E2]. exists b1. split; auto.
    unfold ft_len in E2. fold n in E2. apply Nat2Z.inj in E2. subst; auto. }
  exists bs'. split; [|split; [|split]].
  - destruct breaks; auto. apply map_of_nat_inj; auto.
  - destruct breaks; auto.
  - auto.
  - eapply directsum_pieces; eauto. rewrite last_app_one. reflexivity.
Qed.

(** the boundaries between the tensors of a list *)
Fixpoint boundaries (p : nat) (l : list gtensor) : list nat :=
  match l with [] => [] | y :: l' => (p + length (ft_reps (gt_type y))) :: boundaries (p + length (ft_reps (gt_type y))) l' end.
Lemma tensor_directsum_spec (l : list gtensor) x : Forall wf l -> tensor_directsum sz fits gs_eqb l = Ok x ->
  wf x /\ ft_reps (gt_type x) = concat (map (fun y => ft_reps (gt_type y)) l) /\ gt_data x = concat (map gt_data l) /\
  (forall y0 r, l = y0 :: r -> ft_gs (gt_type x) = ft_gs (gt_type y0) /\ Forall (fun y => gs_eqb (ft_gs (gt_type y0)) (ft_gs (gt_type y)) = true) r).
Proof.
  intros WL H. destruct l as [|y0 r]; [discriminate|]. unfold tensor_directsum in H. apply assert_ok in H as [H1 H].
  apply rbind_ok in H as (t & Ht & H). apply mk_ftype_ok in Ht as [-> Wt]. apply mk_gt_ok in H as [-> HL].
  split; [split; auto|]. split; [reflexivity|]. split; [reflexivity|]. intros ? ? E; injection E as <- <-. split; [reflexivity|].
  rewrite forallb_forall in H1. apply Forall_forall. auto.
Qed.
Lemma cut_app {T} s1 s2 (l1 l2 : list T) : length l1 = nsum s1 -> cut (s1 ++ s2) (l1 ++ l2) = cut s1 l1 ++ cut s2 l2.
Proof.
  revert l1. induction s1 as [|s s1 IH]; intros l1 H; cbn [app cut].
  - destruct l1; [reflexivity|discriminate].
  - change (nsum (s :: s1)) with (s + nsum s1) in H.
    rewrite firstn_app, skipn_app. replace (s - length l1) with 0 by lia. cbn [firstn skipn]. rewrite app_nil_r.
    cbn [app]. f_equal. apply IH. rewrite skipn_length. lia.
Qed.
Lemma sub_list_mid {T} (a b c : list T) : sub_list (a ++ b ++ c) (length a) (length a + length b) = b.
Proof.
  unfold sub_list. rewrite skipn_app, skipn_all, Nat.sub_diag. cbn [skipn app].
  replace (length a + length b - length a) with (length b) by lia.
  rewrite firstn_app, Nat.sub_diag, firstn_all. cbn. apply app_nil_r.
Qed.
Lemma off_app (a b : list Rp) k : off (a ++ b) (length a + k) = nsum (map sz a) + off b k.
Proof. unfold off, Proofs_FieldType.off. rewrite firstn_app_2, map_app, nsum_app. reflexivity. Qed.
Lemma pieces_unique (x : gtensor) (l ys : list gtensor) pr pd : wf x -> Forall wf l ->
  ft_reps (gt_type x) = pr ++ concat (map (fun y => ft_reps (gt_type y)) l) ->
  gt_data x = pd ++ concat (map gt_data l) -> length pd = nsum (map sz pr) ->
  pieces x (length pr) (boundaries (length pr) l) ys ->
  map gt_data ys = map gt_data l /\ map (fun y => ft_reps (gt_type y)) ys = map (fun y => ft_reps (gt_type y)) l.
Proof.
  intros W WL. revert ys pr pd. induction WL as [|y l Wy WL IH]; intros ys pr pd ER ED HL P.
  - destruct ys; [auto|destruct P].
  - destruct ys as [|z ys]; [destruct P|]. cbn [boundaries pieces] in P. destruct P as (Hb & (Hgs & HR & cs & Hcs & HD) & P).
    replace (length pr + length (ft_reps (gt_type y)) - length pr) with (length (ft_reps (gt_type y))) in * by lia.
    cbn [map concat] in ER, ED.
    assert (E1 : ft_reps (gt_type z) = ft_reps (gt_type y)).
    { eapply picks_fun; [exact HR|]. rewrite ER.
      pose proof (picks_seq (pr ++ ft_reps (gt_type y) ++ concat (map (fun y => ft_reps (gt_type y)) l)) (length pr) (length pr + length (ft_reps (gt_type y)))) as Q.
      replace (length pr + length (ft_reps (gt_type y)) - length pr) with (length (ft_reps (gt_type y))) in Q by lia.
      rewrite sub_list_mid in Q. apply Q; [lia|]. rewrite !app_length; lia. }
    assert (E2 : gt_data z = gt_data y).
    { rewrite HD. rewrite (concat_range Rp sz (ft_reps (gt_type x)) (gt_data x) (length (ft_reps (gt_type y))) (length pr) cs);
        [|apply W|lia|exact Hcs].
      rewrite ER, ED. rewrite off_app. replace (length pr) with (length pr + 0) at 1 by lia. rewrite off_app.
      replace (off (ft_reps (gt_type y) ++ concat (map (fun y0 : gtensor => ft_reps (gt_type y0)) l)) 0) with 0 by reflexivity.
      replace (length (ft_reps (gt_type y))) with (length (ft_reps (gt_type y)) + 0) by lia. rewrite off_app.
      replace (off (concat (map (fun y0 : gtensor => ft_reps (gt_type y0)) l)) 0) with 0 by reflexivity.
      rewrite !Nat.add_0_r, <- HL. destruct Wy as [_ Wy]. unfold ft_size in Wy. rewrite <- Wy. apply sub_list_mid. }
    destruct (IH ys (pr ++ ft_reps (gt_type y)) (pd ++ gt_data y)) as [I1 I2].
    + rewrite <- app_assoc. exact ER.
    + rewrite <- app_assoc. exact ED.
    + rewrite app_length, map_app, nsum_app, HL. destruct Wy as [_ Wy]. unfold ft_size in Wy. lia.
    + rewrite app_length. exact P.
    + cbn [map]. rewrite I1, I2, E1, E2. auto.
Qed.
Lemma boundaries_last p l : l <> [] ->
  boundaries p l = removelast (boundaries p l) ++ [p + length (concat (map (fun y => ft_reps (gt_type y)) l))].
Proof.
  intros NE. assert (NE' : boundaries p l <> []) by (destruct l; [congruence|discriminate]).
  rewrite (app_removelast_last 0 NE') at 1. f_equal. f_equal. clear NE'.
  revert p NE. induction l as [|y [|z l] IH]; intros p NE; [congruence| |].
  - cbn. rewrite app_nil_r. reflexivity.
  - change (List.last (boundaries p (y :: z :: l)) 0) with (List.last (boundaries (p + length (ft_reps (gt_type y))) (z :: l)) 0).
    rewrite IH by discriminate. cbn [map concat]. rewrite !app_length. lia.
Qed.
Lemma boundaries_chain (l : list gtensor) p n : Forall wf l ->
  p + length (concat (map (fun y => ft_reps (gt_type y)) l)) <= n -> chain p (boundaries p l) n.
Proof.
  intros WL. revert p. induction WL as [|y l Wy WL IH]; intros p H; cbn [boundaries chain map concat] in *; auto.
  rewrite app_length in H. assert (0 < length (ft_reps (gt_type y))).
  { destruct Wy as [[Wy _] _]. destruct (ft_reps (gt_type y)); [congruence|cbn; lia]. }
  split; [lia|]. apply IH. lia.
Qed.
Lemma split_of_directsum (l : list gtensor) x : Forall wf l -> tensor_directsum sz fits gs_eqb l = Ok x ->
  exists ys, fst (split sz fits x (Some (map Z.of_nat (removelast (boundaries 0 l))))) = Ok ys /\
    map gt_data ys = map gt_data l /\ map (fun y => ft_reps (gt_type y)) ys = map (fun y => ft_reps (gt_type y)) l.
Proof.
  intros WL H. assert (NE : l <> []) by (intros ->; discriminate).
  apply tensor_directsum_spec in H as (W & ER & ED & _); auto.
  assert (EB : map Z.of_nat (removelast (boundaries 0 l)) ++ [ft_len (gt_type x)] = map Z.of_nat (boundaries 0 l)).
  { rewrite (boundaries_last 0 l NE) at 2. rewrite map_app. cbn [map]. unfold ft_len. rewrite ER. reflexivity. }
  destruct (split_loop_fwd x 0 (boundaries 0 l) W) as [ys Hys].
  { apply boundaries_chain; auto. rewrite ER. lia. }
  exists ys. split.
  { unfold split. cbn [fst]. rewrite EB. exact Hys. }
  apply split_loop_spec in Hys as (bs & E & P); [|auto|lia]. apply map_of_nat_inj in E. subst bs.
  apply (pieces_unique x l ys [] []); auto.
Qed.
End S.
