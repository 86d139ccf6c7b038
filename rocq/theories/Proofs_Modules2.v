(** Proofs about ReshuffleModule, BranchingModule, MergeModule. *)
From Coq Require Import ZArith String Ascii List Bool Lia Permutation Sorted.
From Verif Require Import Base Spec_Fields Model_Groups Model_Rep Model_FieldType Model_Utils Model_Modules
  Proofs_FieldType Proofs_FieldType2 Proofs_Utils Prop_Field.
Import ListNotations.
Open Scope nat_scope.

Lemma sorted_ext l1 : forall l2, StronglySorted lt l1 -> StronglySorted lt l2 -> (forall x, In x l1 <-> In x l2) -> l1 = l2.
Proof.
  induction l1 as [|a l1 IH]; intros [|b l2] H1 H2 E; auto.
  - destruct (proj2 (E b)); cbn; auto.
  - destruct (proj1 (E a)); cbn; auto.
  - inversion H1 as [|? ? S1 F1]; inversion H2 as [|? ? S2 F2]; subst. rewrite Forall_forall in F1, F2.
    assert (a = b).
    { destruct (proj1 (E a)) as [H|H]; cbn; auto. destruct (proj2 (E b)) as [H'|H']; cbn; auto.
      specialize (F1 _ H'). specialize (F2 _ H). lia. }
    subst b. f_equal. apply IH; auto. intros x. split; intros Hx.
    + destruct (proj1 (E x)) as [H|H]; cbn; auto. subst. specialize (F1 _ Hx). lia.
    + destruct (proj2 (E x)) as [H|H]; cbn; auto. subst. specialize (F2 _ Hx). lia.
Qed.

Lemma picks_of {A} (l : list A) F y i : picks l F y -> nth_error y i = match nth_error F i with Some f => nth_error l f | None => None end.
Proof.
  unfold picks. intros H. apply (f_equal (fun z => nth_error z i)) in H. rewrite !nth_error_map in H.
  destruct (nth_error y i), (nth_error F i); cbn in *; congruence.
Qed.
Lemma picks_intro {A} (l : list A) F y : (forall i, nth_error y i = match nth_error F i with Some f => nth_error l f | None => None end) ->
  length y = length F -> picks l F y.
Proof.
  intros H E. apply nth_error_ext. intros i. rewrite !nth_error_map, H. destruct (nth_error F i) eqn:EF; cbn; auto.
  assert (i < length y). { rewrite E. apply nth_error_Some. congruence. }
  destruct (nth_error y i) eqn:Ey. - rewrite H, EF in Ey. rewrite Ey. reflexivity. - apply nth_error_None in Ey. lia.
Qed.
Lemma picks_trans {A} (l : list A) P l' F' y F : picks l P l' -> picks l' F' y -> picks P F' F -> picks l F y.
Proof.
  intros H1 H2 H3. apply picks_intro.
  - intros i. rewrite (picks_of _ _ _ i H2), (picks_of _ _ _ i H3). destruct (nth_error F' i) as [f|]; auto.
    rewrite (picks_of _ _ _ f H1). reflexivity.
  - rewrite (picks_length _ _ _ H2), (picks_length _ _ _ H3). reflexivity.
Qed.
Lemma picks_bound {A} (l : list A) F y : picks l F y -> Forall (fun f => f < length l) F.
Proof.
  unfold picks. revert y. induction F as [|f F IH]; intros [|a y] H; try discriminate; constructor.
  - cbn in H. injection H as H _. apply nth_error_Some. congruence.
  - cbn in H. injection H as _ H. eapply IH; eauto.
Qed.
Lemma torch_index_ok {A} (l : list A) idx d : torch_index l idx = Ok d <-> picks l idx d.
Proof.
  unfold torch_index, picks. revert d. induction idx as [|i idx IH]; intros d.
  - cbn. split; intros H. + injection H as <-. reflexivity. + destruct d; [reflexivity|discriminate].
  - cbn [rmap map]. split; intros H.
    + apply rbind_ok in H as (a & Ha & H). apply rbind_ok in H as (d' & Hd & H). injection H as <-. apply IH in Hd.
      cbn. rewrite Hd. destruct (nth_error l i); [injection Ha as ->; reflexivity|discriminate].
    + destruct d as [|a d]; [discriminate|]. cbn in H. injection H as H1 H2. rewrite <- H1. cbn [rbind].
      apply IH in H2. rewrite H2. reflexivity.
Qed.

Section M.
Context {GS Rp : Type} (sz : Rp -> nat) (fits : GS -> Rp -> bool) (gs_eqb : GS -> GS -> bool) (rp_eqb : Rp -> Rp -> bool).
Context (gs_refl : forall g, gs_eqb g g = true) (rp_refl : forall r, rp_eqb r r = true).
Notation ftype := (ftype GS Rp).
Notation type_eqb := (ft_eqb gs_eqb rp_eqb).
Notation off := (off Rp sz).

Lemma type_refl (t : ftype) : type_eqb t t = true.
Proof.
  unfold ft_eqb. rewrite gs_refl. cbn. induction (ft_reps t); cbn; auto. rewrite rp_refl. auto.
Qed.

(** the channels of the fields F *)
Definition chans (rs : list Rp) (F : list nat) : list nat := concat (map (fun f => seq (off rs f) (off rs (S f) - off rs f)) F).
Lemma gather_fields {A} (rs : list Rp) (l : list A) F bs : length l = nsum (map sz rs) ->
  picks (cut (map sz rs) l) F bs -> picks l (chans rs F) (concat bs).
Proof.
  intros Hl. revert bs. induction F as [|f F IH]; intros [|b bs] H; try discriminate.
  - reflexivity.
  - unfold picks in H. cbn [map] in H. injection H as H1 H2. unfold chans. cbn [map concat]. apply picks_app.
    + assert (f < length rs). { rewrite <- (map_length sz rs), <- (cut_length (map sz rs) l). apply nth_error_Some. congruence. }
      rewrite (cut_nth Rp sz rs l) in H1 by auto. injection H1 as ->. apply picks_seq.
      * apply off_mono. lia.
      * rewrite Hl. apply off_le.
    + apply IH. exact H2.
Qed.
Lemma cut_concat {A} (rs : list Rp) (bs : list (list A)) : Forall2 (fun r b => length b = sz r) rs bs -> cut (map sz rs) (concat bs) = bs.
Proof.
  induction 1 as [|r b rs bs H _ IH]; cbn; auto. rewrite <- H, firstn_app, Nat.sub_diag, firstn_all, skipn_app, Nat.sub_diag, skipn_all.
  cbn. rewrite app_nil_r, IH. reflexivity.
Qed.
Lemma picks_blocks {A} (rs : list Rp) (l : list A) F reps bs : length l = nsum (map sz rs) ->
  picks rs F reps -> picks (cut (map sz rs) l) F bs -> Forall2 (fun r b => length b = sz r) reps bs.
Proof.
  intros Hl. revert reps bs. induction F as [|f F IH]; intros [|r reps] [|b bs] H1 H2; try discriminate; constructor.
  - unfold picks in *. cbn [map] in *. injection H1 as E1 H1. injection H2 as E2 H2.
    assert (f < length rs) by (apply nth_error_Some; congruence). rewrite (cut_nth Rp sz rs l) in E2 by auto. injection E2 as ->.
    rewrite sub_list_length. + rewrite (off_S _ _ _ _ r) by auto. lia. + rewrite Hl. apply off_le. + apply off_mono. lia.
  - unfold picks in *. cbn [map] in *. injection H1 as E1 H1. injection H2 as E2 H2. apply IH; auto.
Qed.

Section Data.
Context {A : Type}.
Notation gtensor := (gtensor GS Rp A).
Lemma holds_total (x : gtensor) F t' : length (gt_data x) = ft_size sz (gt_type x) ->
  ft_gs t' = ft_gs (gt_type x) -> picks (ft_reps (gt_type x)) F (ft_reps t') ->
  exists d, torch_index (gt_data x) (chans (ft_reps (gt_type x)) F) = Ok d /\ mk_gt sz d t' = Ok (MkGT d t') /\
    holds_fields sz x F (MkGT d t').
Proof.
  intros L G P. destruct (picks_exists (cut (map sz (ft_reps (gt_type x))) (gt_data x)) F) as [bs Hb].
  { rewrite cut_length, map_length. eapply picks_bound; eauto. }
  exists (concat bs). split; [|split].
  - apply torch_index_ok. apply gather_fields; auto.
  - apply mk_gt_fwd. unfold ft_size. eapply picks_blocks_length; eauto.
  - split; [exact G|]. split; [exact P|]. exists bs. auto.
Qed.
Lemma holds_compose (x x' y : gtensor) P F' F : length (gt_data x) = ft_size sz (gt_type x) ->
  holds_fields sz x P x' -> holds_fields sz x' F' y -> picks P F' F -> holds_fields sz x F y.
Proof.
  intros L (G1 & R1 & bs1 & B1 & D1) (G2 & R2 & bs2 & B2 & D2) PF. split; [congruence|]. split; [eapply picks_trans; eauto|].
  exists bs2. split; auto. rewrite D1, cut_concat in B2 by (eapply picks_blocks; eauto). eapply picks_trans; eauto.
Qed.
Lemma holds_length (x y : gtensor) F : length (gt_data x) = ft_size sz (gt_type x) -> holds_fields sz x F y ->
  length (gt_data y) = ft_size sz (gt_type y).
Proof. intros L (G & R & bs & B & D). rewrite D. eapply picks_blocks_length; eauto. Qed.
End Data.

(** * Reshuffle *)
Lemma reshuffle_spec (t : ftype) perm m : reshuffle_make sz fits t perm = Ok m ->
  rs_in m = t /\ exists F, perm = map Z.of_nat F /\ (forall i, In i F <-> i < length (ft_reps t)) /\   ft_gs (rs_out m) = ft_gs t /\ picks (ft_reps t) F (ft_reps (rs_out m)) /\ wf_ft GS Rp fits (rs_out m) /\   rs_indices m = chans (ft_reps t) F.
Proof.
  unfold reshuffle_make. intros H. apply assert_ok in H as [H1 H]. apply rbind_ok in H as (out & Ho & H).
  apply rbind_ok in H as (idx & Hi & H). injection H as <-. split; [reflexivity|]. cbn [rs_out rs_indices].
  apply andb_prop in H1 as [H1 H2]. rewrite forallb_forall in H1, H2.
  apply index_select_spec in Ho as (F & -> & NE & RF & G & P & W). exists F. split; [reflexivity|]. split.
  - intros i. split; intros Hi'.
    + rewrite Forall_forall in RF. auto.
    + specialize (H2 i). rewrite in_seq in H2. specialize (H2 ltac:(lia)). apply existsb_exists in H2 as (z & Hz & E).
      apply in_map_iff in Hz as (j & <- & Hj). apply Z.eqb_eq in E. assert (i = j) by lia. subst; auto.
  - split; [exact G|]. split; [exact P|]. split; [exact W|]. unfold chans. f_equal.
    clear H1 H2 NE P W G. apply rmap_all in Hi. revert idx Hi. induction F as [|f F IH]; intros idx Hi; inversion Hi as [|? a ? idx' E1 E2]; subst; auto.
    cbn [map]. inversion RF; subst. f_equal; [|apply IH; auto].
    apply rbind_ok in E1 as (p & Ep & E1). apply rbind_ok in E1 as (r & Er & E1). injection E1 as <-.
    apply py_index_ok in Ep as (s & Hs & Ep & Es). apply py_index_ok in Er as (s' & Hs' & Er & Es').
    destruct (Z.ltb_spec (Z.of_nat f) 0); [lia|]. assert (s = f) by lia. assert (s' = f) by lia. subst.
    rewrite starts_nth in Ep by auto. injection Ep as <-. rewrite (off_S _ _ _ _ r) by auto. cbn [Nat.add].
    f_equal. lia.
Qed.
Lemma reshuffle_total (t : ftype) F : wf_ft GS Rp fits t -> (forall i, In i F <-> i < length (ft_reps t)) ->
  exists m, reshuffle_make sz fits t (map Z.of_nat F) = Ok m.
Proof.
  intros W HF. unfold reshuffle_make.
  assert (RF : Forall (fun f => f < length (ft_reps t)) F) by (apply Forall_forall; intros f Hf; apply HF; auto).
  assert (NE : F <> []).
  { destruct W as [W _]. destruct (ft_reps t); [congruence|]. intros ->. apply (HF 0). cbn; lia. }
  replace (forallb (fun p => (0 <=? p)%Z && (p <? Z.of_nat (length (ft_reps t)))%Z) (map Z.of_nat F)) with true.
  2:{ symmetry. apply forallb_forall. intros z Hz. apply in_map_iff in Hz as (f & <- & Hf). apply HF in Hf. lia. }
  replace (forallb (fun i => existsb (Z.eqb (Z.of_nat i)) (map Z.of_nat F)) (seq 0 (length (ft_reps t)))) with true.
  2:{ symmetry. apply forallb_forall. intros i Hi. apply in_seq in Hi. apply existsb_exists. exists (Z.of_nat i).
      split; [|apply Z.eqb_refl]. apply in_map, HF. lia. }
  cbn [andb assert_]. destruct (index_select_fwd GS Rp fits t F W NE RF) as [t' ->]. cbn [rbind].
  assert (E : exists idx, Forall2 (fun c y => rbind (py_index (starts_from sz 0 (ft_reps t)) c) (fun p =>
             rbind (py_index (ft_reps t) c) (fun r => Ok (seq p (sz r)))) = Ok y) (map Z.of_nat F) idx).
  { clear HF NE. induction F as [|f F IH]; [exists []; constructor|]. inversion RF; subst. destruct IH as [idx Hi]; auto.
    destruct (nth_error (ft_reps t) f) as [r|] eqn:Er; [|apply nth_error_None in Er; lia].
    exists (seq (off (ft_reps t) f) (sz r) :: idx). constructor; auto.
    rewrite (py_index_fwd _ _ f (off (ft_reps t) f)); [|rewrite starts_nth by auto; reflexivity|destruct (Z.ltb_spec (Z.of_nat f) 0); lia].
    cbn [rbind]. rewrite (py_index_fwd _ _ f r); [reflexivity|auto|destruct (Z.ltb_spec (Z.of_nat f) 0); lia]. }
  destruct E as [idx E]. rewrite (rmap_ok_fwd _ _ _ E). cbn [rbind]. eauto.
Qed.
Lemma reshuffle_forward_spec {A} (t : ftype) F m (x : gtensor GS Rp A) : reshuffle_make sz fits t (map Z.of_nat F) = Ok m ->
  gt_type x = t -> length (gt_data x) = ft_size sz t ->
  exists y, reshuffle_forward sz gs_eqb rp_eqb m x = Ok y /\ gt_type y = rs_out m /\ holds_fields sz x F y.
Proof.
  intros H E L. apply reshuffle_spec in H as (Hin & F' & EF & HF & G & P & W & HI). apply map_of_nat_inj in EF. subst F'.
  unfold reshuffle_forward. rewrite E, Hin, type_refl. cbn [assert_]. rewrite HI. clear Hin. subst t.
  destruct (holds_total x F (rs_out m)) as (d & E1 & E2 & H); auto. rewrite E1. cbn [rbind]. rewrite E2. eauto.
Qed.

(** * Branching: contiguity *)
Lemma combine_fields (labels : list string) (rs : list Rp) l : length labels = length rs ->
  label_fields l 0 (combine labels (map sz rs)) = pos_of labels l.
Proof.
  intros HL. apply sorted_ext; [apply label_fields_sorted|apply pos_of_sorted|]. intros x.
  rewrite label_fields_spec, pos_of_spec, Nat.sub_0_r. split.
  - intros [_ [n H]]. revert rs HL x H. clear. induction labels as [|a labels IH]; intros [|r rs] HL x H; try discriminate; destruct x; cbn in *; try discriminate.
    + congruence. + eapply IH; eauto.
  - intros H. split; [lia|]. revert rs HL x H. clear. induction labels as [|a labels IH]; intros [|r rs] HL x H; try discriminate; destruct x; cbn in *; try discriminate.
    + injection H as ->. eauto. + eapply IH; eauto.
Qed.
Lemma combine_foff (labels : list string) (rs : list Rp) c : length labels = length rs -> foff (combine labels (map sz rs)) c = off rs c.
Proof.
  revert rs c. induction labels as [|a labels IH]; intros [|r rs] c HL; try discriminate.
  - unfold foff, Proofs_FieldType.off. rewrite !firstn_nil. reflexivity.
  - destruct c; [reflexivity|]. cbn [combine map]. rewrite foff_cons. cbn [snd]. rewrite (IH rs) by (cbn in HL; lia). reflexivity.
Qed.
Lemma label_chans (labels : list string) (rs : list Rp) l : length labels = length rs ->
  label_indices l 0 (combine labels (map sz rs)) = chans rs (pos_of labels l).
Proof.
  intros HL. rewrite (label_indices_concat l _ 0 0), combine_fields by auto. unfold chans. f_equal. apply map_ext_in.
  intros x Hx. rewrite Nat.sub_0_r, combine_foff by auto. cbn [Nat.add]. f_equal.
  apply pos_of_spec in Hx. assert (x < length rs) by (rewrite <- HL; apply nth_error_Some; congruence).
  destruct (nth_error rs x) as [r|] eqn:Er; [|apply nth_error_None in Er; lia]. rewrite (off_S _ _ _ _ r) by auto.
  assert (nth_error (combine labels (map sz rs)) x = Some (l, sz r)) as E.
  { revert rs HL x Hx Er H. clear. induction labels as [|a labels IH]; intros [|r' rs] HL x Hx Er H; try discriminate; destruct x; cbn in *; try discriminate.
    - congruence. - apply IH; auto; lia. }
  rewrite (nth_error_nth _ _ _ E). cbn. lia.
Qed.
Lemma chans_seq rs a k : chans rs (seq a k) = seq (off rs a) (off rs (a + k) - off rs a).
Proof.
  revert a. induction k as [|k IH]; intros a.
  - cbn. rewrite Nat.add_0_r, Nat.sub_diag. reflexivity.
  - cbn [seq]. unfold chans. cbn [map concat]. fold (chans rs (seq (S a) k)). rewrite IH.
    pose proof (off_mono Rp sz rs a (S a) ltac:(lia)). pose proof (off_mono Rp sz rs (S a) (S a + k) ltac:(lia)).
    replace (a + S k) with (S a + k) by lia.
    replace (off rs (S a + k) - off rs a) with ((off rs (S a) - off rs a) + (off rs (S a + k) - off rs (S a))) by lia.
    rewrite seq_app. f_equal. f_equal. lia.
Qed.
Lemma pos_of_app l1 l2 l : pos_of (l1 ++ l2) l = pos_of l1 l ++ map (fun i => length l1 + i) (pos_of l2 l).
Proof.
  apply sorted_ext; [apply pos_of_sorted| |].
  - apply sorted_app; [apply pos_of_sorted| |].
    + pose proof (pos_of_sorted l2 l) as H. induction H; cbn; constructor; auto. apply Forall_map. eapply Forall_impl; [|eauto]. cbn; intros; lia.
    + intros x y Hx Hy. apply pos_of_spec in Hx. apply in_map_iff in Hy as (j & <- & _).
      assert (x < length l1) by (apply nth_error_Some; congruence). lia.
  - intros x. rewrite in_app_iff, !pos_of_spec, in_map_iff. destruct (Nat.lt_ge_cases x (length l1)) as [L|L].
    + rewrite nth_error_app1 by auto. split; [auto|]. intros [H|(j & <- & Hj)]; auto. lia.
    + rewrite nth_error_app2 by auto. split.
      * intros H. right. exists (x - length l1). split; [lia|]. apply pos_of_spec. auto.
      * intros [H|(j & <- & Hj)]. { assert (x < length l1) by (apply nth_error_Some; congruence). lia. }
        apply pos_of_spec in Hj. replace (length l1 + j - length l1) with j by lia. auto.
Qed.
Definition loop_inv (done : list string) (last : option string) (d : list (string * bool)) : Prop :=
  NoDup (map fst d) /\ (forall l, In l (map fst d) <-> In l done) /\ (forall l, kget String.eqb d l = Some true -> exists a k, pos_of done l = seq a k /\ (last = Some l -> a + k = length done)) /\ (forall l, last = Some l -> In l done).
Lemma contiguous_loop_spec labels : forall done last d, loop_inv done last d ->
  let d' := contiguous_loop last d labels in
  NoDup (map fst d') /\ (forall l, In l (map fst d') <-> In l (done ++ labels)) /\ (forall l, kget String.eqb d' l = Some true -> exists a k, pos_of (done ++ labels) l = seq a k).
Proof.
  induction labels as [|l labels IH]; intros done last d (N & K & I & LA).
  { rewrite app_nil_r. cbn. split; [auto|]. split; [auto|]. intros l Hl. destruct (I l Hl) as (a & k & E & _). eauto. }
  cbn [contiguous_loop]. replace (done ++ l :: labels) with ((done ++ [l]) ++ labels) by (rewrite <- app_assoc; reflexivity).
  apply IH. clear IH.
  set (same := match last with Some l' => String.eqb l l' | None => false end).
  assert (P1 : forall l', l' <> l -> pos_of (done ++ [l]) l' = pos_of done l').
  { intros l' NE. rewrite pos_of_app. replace (pos_of [l] l') with (@nil nat). apply app_nil_r.
    unfold pos_of. cbn. destruct (String.eqb_spec l l'); [congruence|reflexivity]. }
  assert (P2 : pos_of (done ++ [l]) l = pos_of done l ++ [length done]).
  { rewrite pos_of_app. f_equal. unfold pos_of. cbn. rewrite String.eqb_refl. cbn. now rewrite Nat.add_0_r. }
  assert (KS : forall v, (forall x, In x (map fst (kset String.eqb d l v)) <-> In x (done ++ [l]))).
  { intros v x. rewrite (kset_keys _ String.eqb_spec), in_app_iff, K. cbn. intuition auto. }
  assert (LL : length (done ++ [l]) = S (length done)) by (rewrite app_length; cbn; lia).
  destruct same eqn:ES.
  - unfold same in ES. destruct last as [l'|]; [|discriminate]. apply String.eqb_eq in ES. subst l'.
    split; [auto|]. split; [|split].
    + intros x. rewrite K, in_app_iff. cbn. pose proof (LA l eq_refl). intuition (subst; auto).
    + intros x Hx. destruct (String.eqb_spec x l) as [->|NE].
      * destruct (I l Hx) as (a & k & E & EE). specialize (EE eq_refl). exists a, (S k). split; [|intros _; lia].
        rewrite P2, E, seq_S, EE. reflexivity.
      * destruct (I x Hx) as (a & k & E & EE). exists a, k. split; [rewrite P1; auto|]. intros X. injection X as ->. congruence.
    + intros x X. injection X as ->. rewrite in_app_iff. cbn; auto.
  - destruct (kget String.eqb d l) eqn:EK.
    + split; [apply (kset_nodup _ String.eqb_spec); auto|]. split; [apply KS|]. split.
      * intros x. rewrite (kget_kset _ String.eqb_spec). destruct (String.eqb_spec l x); [discriminate|]. intros Hx.
        destruct (I x Hx) as (a & k & E & EE). exists a, k. split; [rewrite P1; auto|]. intros X. injection X as ->. congruence.
      * intros x X. injection X as ->. rewrite in_app_iff. cbn; auto.
    + assert (ND : ~ In l done).
      { rewrite <- K, (kget_keys _ String.eqb_spec). intros [v H]. congruence. }
      split; [apply (kset_nodup _ String.eqb_spec); auto|]. split; [apply KS|]. split.
      * intros x. rewrite (kget_kset _ String.eqb_spec). destruct (String.eqb_spec l x) as [<-|NE].
        -- intros _. exists (length done), 1. split; [|intros _; lia]. rewrite P2.
           replace (pos_of done l) with (@nil nat); [reflexivity|]. destruct (pos_of done l) as [|i r] eqn:EP; auto.
           elim ND. assert (In i (pos_of done l)) as Hi by (rewrite EP; cbn; auto). apply pos_of_spec in Hi. eapply nth_error_In; eauto.
        -- intros Hx. destruct (I x Hx) as (a & k & E & EE). exists a, k. split; [rewrite P1; auto|]. intros X. injection X as ->. congruence.
      * intros x X. injection X as ->. rewrite in_app_iff. cbn; auto.
Qed.
End M.
