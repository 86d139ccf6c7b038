(** C11-C18: field types and geometric tensors. *)
From Coq Require Import Reals ZArith String List Bool Lia Lra Permutation Sorted.
From Verif Require Import Base Spec Spec_Fields Model_Groups Model_Rep Proofs_Groups Proofs_Cont Proofs_Irreps Proofs_Rep
  Proofs_Restrict Model_FieldType Proofs_FieldType Proofs_FieldType2 Model_Tensor Proofs_Tensor.
Import ListNotations.
Open Scope nat_scope.

(** In C11-C15 gspaces, representations and channels are of arbitrary types. *)

(** ** C11 *)
(** fields_start/fields_end: one entry per field; the first block starts at 0, each block has the size of
    its representation and starts where the previous one ends, the last one ends at the size of the type.
    [+] concatenates (and only accepts equal gspaces); index_select returns exactly the requested
    representations and rejects everything else. *)
Theorem C11_field_bookkeeping : forall (GS Rp : Type) (sz : Rp -> nat) (fits : GS -> Rp -> bool) (gs_eqb : GS -> GS -> bool)
   (t : ftype GS Rp),
  let n := length (ft_reps t) in
  (length (fields_start sz t) = n /\ length (fields_end sz t) = n) /\
  (0 < n -> nth_error (fields_start sz t) 0 = Some 0) /\
  (forall i r a b, nth_error (ft_reps t) i = Some r -> nth_error (fields_start sz t) i = Some a ->
     nth_error (fields_end sz t) i = Some b -> b = a + sz r) /\
  (forall i, S i < n -> nth_error (fields_start sz t) (S i) = nth_error (fields_end sz t) i) /\
  (0 < n -> nth_error (fields_end sz t) (n - 1) = Some (ft_size sz t)) /\
  (forall u v, ft_add fits gs_eqb t u = Ok v ->
     gs_eqb (ft_gs t) (ft_gs u) = true /\ ft_gs v = ft_gs t /\ ft_reps v = ft_reps t ++ ft_reps u) /\
  (forall idx v, index_select fits t idx = Ok v ->
     exists F, idx = map Z.of_nat F /\ ft_gs v = ft_gs t /\ picks (ft_reps t) F (ft_reps v)) /\
  (forall F, ft_reps t <> [] -> forallb (fits (ft_gs t)) (ft_reps t) = true -> F <> [] ->
     Forall (fun f => f < n) F -> exists v, index_select fits t (map Z.of_nat F) = Ok v).
Proof.
  intros GS Rp sz fits gs_eqb t n. unfold fields_start, fields_end.
  split; [split; [apply starts_length|apply ends_length]|].
  split. { intros H. rewrite starts_nth by auto. reflexivity. }
  split. { intros i r a b Hr Ha Hb. assert (i < n) by (apply nth_error_Some; congruence).
    rewrite starts_nth in Ha by auto. rewrite ends_nth in Hb by auto. injection Ha as <-. injection Hb as <-.
    rewrite (off_S _ _ _ _ r) by auto. lia. }
  split. { intros i Hi. rewrite starts_nth by auto. rewrite ends_nth by (fold n; lia). reflexivity. }
  split. { intros H. rewrite ends_nth by (fold n; lia). replace (S (n - 1)) with n by lia. unfold n. rewrite off_all. reflexivity. }
  split. { intros u v H. unfold ft_add in H. apply assert_ok in H as [H1 H]. apply mk_ftype_ok in H as [-> _]. auto. }
  split. { intros idx v H. apply index_select_spec in H as (F & E & _ & _ & Hg & P & _). exists F; auto. }
  intros F H1 H2 H3 H4. apply index_select_fwd; auto. split; auto.
Qed.
Print Assumptions C11_field_bookkeeping.
Example C11_ex : index_select (fun (_ : unit) (_ : nat) => true) (MkFT tt [3; 1; 2]) [2%Z; 0%Z; 2%Z] = Ok (MkFT tt [2; 3; 2]).
Proof. reflexivity. Qed.

(** ** C12 *)
(** [sorted] is a permutation F of the fields; fields come in non-decreasing size, equal sizes in the original
    order.  [group_by_labels] rejects label lists of the wrong length; otherwise it returns one entry per
    occurring label, holding exactly the fields with that label in increasing position. *)
Theorem C12_sorting_grouping : forall (GS Rp : Type) (sz : Rp -> nat) (fits : GS -> Rp -> bool) (t : ftype GS Rp),
  ft_reps t <> [] -> forallb (fits (ft_gs t)) (ft_reps t) = true ->
  (exists t' F, ft_sorted sz fits t = Ok t' /\ ft_gs t' = ft_gs t /\
    Permutation F (seq 0 (length (ft_reps t))) /\ picks (ft_reps t) F (ft_reps t') /\
    forall i j a b, i < j -> nth_error F i = Some a -> nth_error F j = Some b ->
    forall ra rb, nth_error (ft_reps t) a = Some ra -> nth_error (ft_reps t) b = Some rb ->
    sz ra < sz rb \/ (sz ra = sz rb /\ a < b)) /\
  forall labels : list string,
  (length labels <> length (ft_reps t) -> group_by_labels fits t labels = Err "AssertionError") /\
  (length labels = length (ft_reps t) ->
   exists ts, group_by_labels fits t labels = Ok ts /\ NoDup (map fst ts) /\
    (forall l, In l (map fst ts) <-> In l labels) /\
    (forall l t', In (l, t') ts -> ft_gs t' = ft_gs t /\
       exists F, StronglySorted lt F /\ (forall i, In i F <-> nth_error labels i = Some l) /\
                 picks (ft_reps t) F (ft_reps t'))).
Proof.
  intros GS Rp sz fits t H1 H2. split.
  - exact (ft_sorted_spec GS Rp sz fits t (conj H1 H2)).
  - intros labels. exact (group_by_labels_spec GS Rp fits t labels (conj H1 H2)).
Qed.
Print Assumptions C12_sorting_grouping.
Example C12_ex : ft_sorted (fun x : nat => x) (fun (_ : unit) _ => true) (MkFT tt [3; 1; 2; 1]) = Ok (MkFT tt [1; 1; 2; 3]).
Proof. reflexivity. Qed.
Example C12_ex2 : group_by_labels (fun (_ : unit) (_ : nat) => true) (MkFT tt [3; 1; 2]) ["a"; "b"; "a"]%string
  = Ok [("a", MkFT tt [3; 2]); ("b", MkFT tt [1])]%string.
Proof. reflexivity. Qed.

(** ** C13 *)
(** The tensor [y] consists of exactly the fields number [F] of [x], in that order. *)
Definition holds_fields {GS Rp A} (sz : Rp -> nat) (x : gtensor GS Rp A) (F : list nat) (y : gtensor GS Rp A) : Prop :=
  ft_gs (gt_type y) = ft_gs (gt_type x) /\
  picks (ft_reps (gt_type x)) F (ft_reps (gt_type y)) /\
  exists bs, picks (cut (map sz (ft_reps (gt_type x))) (gt_data x)) F bs /\ gt_data y = concat bs.
(** a tensor the constructors accept *)
Definition valid_tensor {GS Rp A} (sz : Rp -> nat) (fits : GS -> Rp -> bool) (x : gtensor GS Rp A) : Prop :=
  (ft_reps (gt_type x) <> [] /\ forallb (fits (ft_gs (gt_type x))) (ft_reps (gt_type x)) = true) /\
  length (gt_data x) = ft_size sz (gt_type x).

(** Partial: ints below -(number of fields)-1 are excluded (see the refutation). *)
Theorem C13_slicing_partial : forall (GS Rp A : Type) (sz : Rp -> nat) (fits : GS -> Rp -> bool) (x y : gtensor GS Rp A) (i : chan_idx),
  let n := length (ft_reps (gt_type x)) in
  valid_tensor sz fits x ->
  (forall z, i = IInt z -> (- Z.of_nat n - 1 <= z)%Z) ->
  getitem sz fits x i = Ok y ->
  exists F, F <> [] /\ holds_fields sz x F y /\
    match i with
    | IInt z => int_selects n z F
    | ISlice start stop step => slice_selects n start stop step F
    end.
Proof.
  intros GS Rp A sz fits x y i n W NW H. destruct (getitem_spec GS Rp sz fits x i y W) as (F & HS & NE & P); auto.
  { destruct i; cbn; auto. }
  exists F. split; [auto|]. split; [exact P|]. exact HS.
Qed.
Print Assumptions C13_slicing_partial.

(** Valid selections are never refused: ints that a list would accept; slices with non-unit step selecting at least
    one field; slices with unit step and bounds s < e <= n. *)
Theorem C13_slicing_succeeds : forall (GS Rp A : Type) (sz : Rp -> nat) (fits : GS -> Rp -> bool) (x : gtensor GS Rp A),
  let n := length (ft_reps (gt_type x)) in
  valid_tensor sz fits x ->
  (forall z F, int_selects n z F -> exists y, getitem sz fits x (IInt z) = Ok y) /\
  (forall start stop c F, c <> 1%Z -> slice_selects n start stop (Some c) F -> F <> [] ->
     exists y, getitem sz fits x (ISlice start stop (Some c)) = Ok y) /\
  (forall s e, s < e -> e <= n -> exists y, getitem sz fits x (ISlice (Some (Z.of_nat s)) (Some (Z.of_nat e)) None) = Ok y).
Proof.
  intros GS Rp A sz fits x n W. split; [|split].
  - intros z F. apply getitem_int_fwd; auto.
  - intros. eapply getitem_step_fwd; eauto.
  - intros s e H1 H2. apply (getitem_unit_fwd GS Rp sz fits A x _ _ _ s e); auto; unfold bound.
    destruct (Z.ltb_spec (Z.of_nat s) 0); lia. destruct (Z.ltb_spec (Z.of_nat e) 0); lia.
Qed.
Print Assumptions C13_slicing_succeeds.

(** The full statement fails: with 7 fields, index -10 is out of range for a list, but the tensor returns field 4. *)
Theorem C13_slicing_refuted : exists (x y : gtensor unit nat nat),
  valid_tensor (fun k => k) (fun _ _ => true) x /\
  getitem (fun k => k) (fun _ _ => true) x (IInt (-10)) = Ok y /\
  holds_fields (fun k => k) x [4] y /\
  forall F, ~ int_selects (length (ft_reps (gt_type x))) (-10) F.
Proof.
  exists (MkGT [10; 20; 21; 30; 40; 50; 51; 60; 70] (MkFT tt [1; 2; 1; 1; 2; 1; 1])). eexists. split; [|split; [reflexivity|split]].
  - split; [split; [discriminate|reflexivity]|reflexivity].
  - split; [reflexivity|]. split; [reflexivity|]. exists [[50; 51]]. split; reflexivity || (unfold picks; reflexivity).
  - intros F [[H _]|[H _]]; cbn in H; lia.
Qed.
Print Assumptions C13_slicing_refuted.
(** non-vacuity: reversed order with step -2 *)
Example C13_ex : getitem (fun k => k) (fun _ _ => true) (MkGT [10; 20; 21; 30] (MkFT tt [1; 2; 1])) (ISlice None None (Some (-2)%Z))
  = Ok (MkGT [30; 10] (MkFT tt [1; 1])).
Proof. reflexivity. Qed.
Example C13_ex2 : getitem (fun k => k) (fun _ _ => true) (MkGT [10; 20; 21; 30] (MkFT tt [1; 2; 1])) (ISlice (Some (-2)%Z) None None)
  = Ok (MkGT [20; 21; 30] (MkFT tt [2; 1])).
Proof. reflexivity. Qed.

(** ** C14 *)
(** the pieces cover the field ranges [last,b1), [b1,b2), ... *)
Fixpoint consecutive {GS Rp A} (sz : Rp -> nat) (x : gtensor GS Rp A) (last : nat) (breaks : list nat) (ys : list (gtensor GS Rp A)) : Prop :=
  match breaks, ys with
  | [], [] => True
  | b :: bs, y :: ys' => last < b <= length (ft_reps (gt_type x)) /\
      holds_fields sz x (seq last (b - last)) y /\ consecutive sz x b bs ys'
  | _, _ => False
  end.
Lemma consecutive_iff {GS Rp A} sz (x : gtensor GS Rp A) bs : forall last ys, pieces GS Rp sz x last bs ys -> consecutive sz x last bs ys.
Proof. induction bs; intros last [|y ys]; cbn; auto. intros (H1 & H2 & H3). auto. Qed.

(** strictly increasing break points inside the type *)
Fixpoint increasing (last : nat) (bs : list nat) (n : nat) : Prop :=
  match bs with [] => last < n | b :: bs' => last < b /\ increasing b bs' n end.

Theorem C14_split_directsum : forall (GS Rp A : Type) (sz : Rp -> nat) (fits : GS -> Rp -> bool) (gs_eqb : GS -> GS -> bool),
  (forall g, gs_eqb g g = true) ->
  (* every accepted call of split cuts the tensor at the breaks, and tensor_directsum undoes it *)
  (forall (x : gtensor GS Rp A) breaks ys, valid_tensor sz fits x -> fst (split sz fits x (Some breaks)) = Ok ys ->
    exists bs, breaks = map Z.of_nat bs /\ consecutive sz x 0 (bs ++ [length (ft_reps (gt_type x))]) ys /\
      tensor_directsum sz fits gs_eqb ys = Ok x) /\
  (* without breaks: one piece per field *)
  (forall (x : gtensor GS Rp A) ys, valid_tensor sz fits x -> fst (split sz fits x None) = Ok ys ->
      consecutive sz x 0 (seq 1 (length (ft_reps (gt_type x)) - 1) ++ [length (ft_reps (gt_type x))]) ys /\
      tensor_directsum sz fits gs_eqb ys = Ok x) /\
  (* increasing breaks are always accepted *)
  (forall (x : gtensor GS Rp A) bs, valid_tensor sz fits x -> increasing 0 bs (length (ft_reps (gt_type x))) ->
      exists ys, fst (split sz fits x (Some (map Z.of_nat bs))) = Ok ys) /\
  (forall (x : gtensor GS Rp A), valid_tensor sz fits x -> exists ys, fst (split sz fits x None) = Ok ys) /\
  (* conversely, splitting a direct sum at the boundaries of its summands gives the summands back *)
  (forall (l : list (gtensor GS Rp A)) x, Forall (valid_tensor sz fits) l -> tensor_directsum sz fits gs_eqb l = Ok x ->
    exists bs ys, fst (split sz fits x (Some bs)) = Ok ys /\ map gt_data ys = map gt_data l /\
      map (fun y => ft_reps (gt_type y)) ys = map (fun y => ft_reps (gt_type y)) l).
Proof.
  intros GS Rp A sz fits gs_eqb RF.
  assert (FW : forall (x : gtensor GS Rp A) bs, valid_tensor sz fits x -> increasing 0 bs (length (ft_reps (gt_type x))) ->
      exists ys, split_loop sz fits x (starts_from sz 0 (ft_reps (gt_type x)) ++ [ft_size sz (gt_type x)]) 0
         (map Z.of_nat bs ++ [ft_len (gt_type x)]) = Ok ys).
  { intros x bs W I. destruct (split_loop_fwd GS Rp sz fits x 0 (bs ++ [length (ft_reps (gt_type x))]) W) as [ys Hys].
    - revert I. generalize 0 as last. set (n := length (ft_reps (gt_type x))). induction bs as [|b bs IH]; intros last I; cbn in *.
      + lia.
      + destruct I as [I1 I2]. split; auto. split; [auto|].
        clear -I2. revert b I2. induction bs as [|c bs IH]; cbn; intros b I2; [lia|]. destruct I2 as [I1 I2]. specialize (IH c I2). lia.
    - exists ys. rewrite map_app in Hys. exact Hys. }
  split; [|split; [|split; [|split]]].
  - intros x breaks ys W H. destruct (split_spec GS Rp sz fits gs_eqb RF x (Some breaks) ys (snd (split sz fits x (Some breaks))) W) as (bs & _ & E & P & D).
    { rewrite <- H. apply surjective_pairing. }
    exists bs. split; [auto|]. split; [apply consecutive_iff; auto|auto].
  - intros x ys W H. destruct (split_spec GS Rp sz fits gs_eqb RF x None ys (snd (split sz fits x None)) W) as (bs & E & _ & P & D).
    { rewrite <- H. apply surjective_pairing. }
    rewrite E. split; [apply consecutive_iff; auto|auto].
  - intros x bs W I. apply FW; auto.
  - intros x W. apply (FW x (seq 1 (length (ft_reps (gt_type x)) - 1)) W).
    destruct W as [[W _] _]. destruct (length (ft_reps (gt_type x))) as [|m] eqn:E; [destruct (ft_reps (gt_type x)); [congruence|discriminate]|].
    replace (S m - 1) with m by lia. clear. assert (forall a, increasing a (seq (S a) m) (S m + a)) as G.
    { induction m as [|m IH]; intros a; cbn; [lia|]. split; [lia|]. specialize (IH (S a)). replace (S (S (m + a))) with (S m + S a) by lia. exact IH. }
    specialize (G 0). rewrite Nat.add_0_r in G. exact G.
  - intros l x WL H. destruct (split_of_directsum GS Rp sz fits gs_eqb l x WL H) as (ys & H1 & H2 & H3). eauto.
Qed.
Print Assumptions C14_split_directsum.
Example C14_ex : fst (split (fun k => k) (fun (_ : unit) _ => true) (MkGT [10; 20; 21; 30] (MkFT tt [1; 2; 1])) (Some [2%Z]))
  = Ok [MkGT [10; 20; 21] (MkFT tt [1; 2]); MkGT [30] (MkFT tt [1])].
Proof. reflexivity. Qed.

(** ** C15 *)
(** Refuted, for every tensor and every break list: after a successful call the caller's list has changed, and the
    same call with the same list object fails. *)
Lemma split_loop_last {GS Rp A} sz fits (x : gtensor GS Rp A) pos last l n :
  split_loop sz fits x pos last (l ++ [n]) <> Err "AssertionError" ->
  forall ys, split_loop sz fits x pos last (l ++ [n]) = Ok ys ->
  split_loop sz fits x pos last (l ++ [n; n]) = Err "AssertionError".
Proof.
  revert last. induction l as [|b l IH]; intros last _ ys H.
  - cbn [app split_loop] in *. apply assert_ok in H as [H1 H]. rewrite H1. cbn [assert_].
    apply rbind_ok in H as (? & -> & H). cbn [rbind]. apply rbind_ok in H as (? & -> & H). cbn [rbind].
    apply rbind_ok in H as (? & -> & H). cbn [rbind]. apply rbind_ok in H as (? & -> & H). cbn [rbind].
    apply rbind_ok in H as (? & -> & H). cbn [rbind]. rewrite Z.ltb_irrefl. reflexivity.
  - cbn [app split_loop] in *. apply assert_ok in H as [H1 H]. rewrite H1. cbn [assert_].
    apply rbind_ok in H as (? & -> & H). cbn [rbind]. apply rbind_ok in H as (? & -> & H). cbn [rbind].
    apply rbind_ok in H as (? & -> & H). cbn [rbind]. apply rbind_ok in H as (? & -> & H). cbn [rbind].
    apply rbind_ok in H as (? & -> & H). cbn [rbind]. apply rbind_ok in H as (ys' & H & _).
    rewrite (IH b) with (ys := ys'); auto. rewrite H. discriminate.
Qed.
Theorem C15_split_history_refuted : forall (GS Rp A : Type) (sz : Rp -> nat) (fits : GS -> Rp -> bool) (x : gtensor GS Rp A) breaks ys l',
  split sz fits x (Some breaks) = (Ok ys, Some l') ->
  l' <> breaks /\ fst (split sz fits x (Some l')) = Err "AssertionError".
Proof.
  intros GS Rp A sz fits x breaks ys l' H. unfold split in H. injection H as H <-. split.
  - intros E. apply (f_equal (@length _)) in E. rewrite app_length in E. cbn in E. lia.
  - unfold split. cbn [fst]. rewrite <- app_assoc. cbn [app]. apply (split_loop_last sz fits x _ 0 breaks _) with (ys := ys); auto.
    rewrite H. discriminate.
Qed.
Print Assumptions C15_split_history_refuted.
Example C15_ex : exists ys, split (fun k => k) (fun (_ : unit) _ => true) (MkGT [10; 20; 21; 30] (MkFT tt [1; 2; 1])) (Some [2%Z])
  = (Ok ys, Some [2; 3]%Z).
Proof. eexists. reflexivity. Qed.
(** What does hold: repeated calls in which every call gets its own list (or None) agree; a history is a list of break
    arguments passed by value. *)
Theorem C15_split_fresh_lists_partial : forall (GS Rp A : Type) (sz : Rp -> nat) (fits : GS -> Rp -> bool) (x : gtensor GS Rp A) history b,
  nth_error (map (fun b => fst (split sz fits x b)) (history ++ [b])) (length history) = Some (fst (split sz fits x b)) /\
  snd (split sz fits x None) = None.
Proof.
  intros. split; [|reflexivity]. rewrite map_app, nth_error_app2; rewrite map_length; auto. rewrite Nat.sub_diag. reflexivity.
Qed.
Print Assumptions C15_split_fresh_lists_partial.

(** ** C16 *)
Open Scope R_scope.
(** transform_fibers never fails on a non-empty type; on the channels of field i (which start at the sum of the previous
    sizes) it is exactly the matrix-vector product with that field's representation; and if every field's representation is a
    representation of the group, it is an action. *)
Theorem C16_fiber_action : forall (G X : Type) (el : G -> Prop) (op : G -> G -> G) (e : G) (reps : list (rep G)),
  reps <> [] ->
  (forall g (t : X -> vec), exists t', transform_fibers reps g t = Ok t') /\
  (forall g (t t' : X -> vec), transform_fibers reps g t = Ok t' ->
    forall x pre r post a, reps = pre ++ r :: post -> (a < rp_size r)%nat ->
    let o := nsum (map rp_size pre) in
    t' x (o + a)%nat = rsum (rp_size r) (fun b => rp_mat r g a b * t x (o + b)%nat)) /\
  (Forall (fun r => is_representation el op e (rp_size r) (rp_mat r)) reps ->
   forall t : X -> vec,
   (forall t', transform_fibers reps e t = Ok t' -> forall x c, (c < nsum (map rp_size reps))%nat -> t' x c = t x c) /\
   (forall g h t1 t2 t3, el g -> el h -> transform_fibers reps h t = Ok t1 -> transform_fibers reps g t1 = Ok t2 ->
      transform_fibers reps (op g h) t = Ok t3 -> forall x c, (c < nsum (map rp_size reps))%nat -> t2 x c = t3 x c)).
Proof.
  intros G X el op e reps NE. split; [|split].
  - intros g t. apply transform_total; auto.
  - intros g t t' H x pre r post a E Ha o.
    assert (EO : o = field_offset reps (length pre)).
    { unfold o, field_offset. rewrite E, firstn_app, Nat.sub_diag, firstn_all. cbn [firstn]. rewrite app_nil_r. reflexivity. }
    rewrite EO. apply transform_fieldwise; auto. rewrite E, nth_error_app2, Nat.sub_diag; auto.
  - intros HR t. split.
    + intros t' H x c Hc. exact (transform_id el op e reps t t' HR H x c Hc).
    + intros g h t1 t2 t3 Hg Hh H1 H2 H3 x c Hc. exact (transform_comp el op e reps g h t t1 t2 t3 HR Hg Hh H1 H2 H3 x c Hc).
Qed.
Print Assumptions C16_fiber_action.
(** the hypothesis is met by the representations of C07, e.g. irrep 1 of C_4 together with irrep 0 *)
Example C16_ex : exists i0 i1, cyc_irrep 4 0 = Ok i0 /\ cyc_irrep 4 1 = Ok i1 /\
  Forall (fun r => is_representation (cyc_el 4) (cyc_combine 4) cyc_identity (rp_size r) (rp_mat r))
    [rep_of_irrep "irrep_1" i1; rep_of_irrep "irrep_0" i0].
Proof.
  assert (A : exists i, cyc_irrep 4 0 = Ok i) by (eexists; reflexivity).
  assert (B : exists i, cyc_irrep 4 1 = Ok i) by (eexists; reflexivity).
  destruct A as [i0 A]. destruct B as [i1 B]. exists i0, i1. split; [auto|]. split; [auto|].
  constructor; [|constructor; [|constructor]]; apply cyc_rep_is; try lia; split; try apply inverse_pair_mid;
    cbn [rp_irreps rep_of_irrep]; constructor; eauto; exists 1%Z; auto.
Qed.

(** ** C17 *)
(** [tens]: data and type; [==] of types is [type_eqb]; types comparing equal are taken to be the same (the comparison of
    change-of-basis matrices by np.allclose is idealised to equality). *)
Theorem C17_arithmetic : forall (GS G X : Type) (type_eqb : ftype GS (rep G) -> ftype GS (rep G) -> bool) (a b : tens GS G X),
  let n := nsum (map rp_size (ft_reps (te_type a))) in
  (* rejected when the types differ *)
  (type_eqb (te_type a) (te_type b) = false ->
     te_add type_eqb a b = Err "AssertionError" /\ te_sub type_eqb a b = Err "AssertionError" /\
     te_iadd type_eqb a b = (a, Err "AssertionError") /\ te_isub type_eqb a b = (a, Err "AssertionError")) /\
  (* accepted otherwise, with the type of the operands; equality of types means they are the same *)
  (type_eqb (te_type a) (te_type b) = true -> te_type a = te_type b ->
     forall g, ft_reps (te_type a) <> [] ->
     exists s d ga gb gs gd, te_add type_eqb a b = Ok s /\ te_sub type_eqb a b = Ok d /\
       te_transform g a = Ok ga /\ te_transform g b = Ok gb /\ te_transform g s = Ok gs /\ te_transform g d = Ok gd /\
       te_type s = te_type a /\ te_type d = te_type a /\ te_type ga = te_type a /\
       (forall x i, te_data s x i = te_data a x i + te_data b x i) /\
       (forall x i, te_data d x i = te_data a x i - te_data b x i) /\
       (* g.(a + b) = g.a + g.b and g.(a - b) = g.a - g.b *)
       (exists gs', te_add type_eqb ga gb = Ok gs' /\ te_type gs' = te_type gs /\ forall x i, te_data gs x i = te_data gs' x i) /\
       (exists gd', te_sub type_eqb ga gb = Ok gd' /\ te_type gd' = te_type gd /\ forall x i, te_data gd x i = te_data gd' x i) /\
       te_iadd type_eqb a b = (s, Ok s) /\ te_isub type_eqb a b = (d, Ok d)) /\
  (* scalars *)
  (forall g c, ft_reps (te_type a) <> [] -> forall sc, (sc = SFloat c \/ sc = STensor [c]) ->
     exists m ga gm gm', te_mul a sc = Ok m /\ te_transform g a = Ok ga /\ te_transform g m = Ok gm /\ te_mul ga sc = Ok gm' /\
       te_type m = te_type a /\ (forall x i, te_data m x i = te_data a x i * c) /\ te_type gm = te_type gm' /\
       forall x i, te_data gm x i = te_data gm' x i) /\
  (forall l, length l <> 1%nat -> te_mul a (STensor l) = Err "AssertionError").
Proof.
  intros GS G X type_eqb a b n. split; [|split; [|split]].
  - intros E. unfold te_add, te_sub, te_iadd, te_isub. rewrite E. auto.
  - intros E ET g NE. destruct a as [da ta], b as [db tb]. cbn [te_type te_data] in *. subst tb. destruct (transform_total (ft_reps ta) g da NE) as [ga Hga].
    destruct (transform_total (ft_reps ta) g db NE) as [gb Hgb].
    destruct (transform_total (ft_reps ta) g (fun x i => da x i + db x i) NE) as [gs Hgs].
    destruct (transform_total (ft_reps ta) g (fun x i => da x i - db x i) NE) as [gd Hgd].
    exists (MkT (fun x i => da x i + db x i) ta), (MkT (fun x i => da x i - db x i) ta),
      (MkT ga ta), (MkT gb ta), (MkT gs ta), (MkT gd ta).
    unfold te_add, te_sub, te_iadd, te_isub, te_transform. cbn [te_type te_data]. rewrite E, Hga, Hgb, Hgs, Hgd. cbn [assert_ rbind].
    do 11 (split; [reflexivity|]). split; [|split; [|split; reflexivity]].
    + eexists; split; [reflexivity|]. split; [reflexivity|]. cbn [te_data]. intros x i.
      rewrite (transform_linear (ft_reps ta) g da db (fun x i => da x i + db x i) ga gb gs 1 1 ltac:(intros; cbn beta; ring) Hga Hgb Hgs). ring.
    + eexists; split; [reflexivity|]. split; [reflexivity|]. cbn [te_data]. intros x i.
      rewrite (transform_linear (ft_reps ta) g da db (fun x i => da x i - db x i) ga gb gd 1 (-1) ltac:(intros; cbn beta; ring) Hga Hgb Hgd). ring.
  - intros g c NE sc Hsc. destruct (transform_total (ft_reps (te_type a)) g (te_data a) NE) as [ga Hga].
    destruct (transform_total (ft_reps (te_type a)) g (fun x i => te_data a x i * c) NE) as [gm Hgm].
    exists (MkT (fun x i => te_data a x i * c) (te_type a)), (MkT ga (te_type a)), (MkT gm (te_type a)), (MkT (fun x i => ga x i * c) (te_type a)).
    unfold te_transform. cbn [te_type te_data]. rewrite Hga, Hgm. cbn [rbind].
    split; [destruct Hsc as [-> | ->]; reflexivity|]. split; [reflexivity|]. split; [reflexivity|].
    split; [destruct Hsc as [-> | ->]; reflexivity|]. split; [reflexivity|]. split; [reflexivity|]. split; [reflexivity|].
    intros x i. rewrite (transform_linear (ft_reps (te_type a)) g (te_data a) (te_data a) (fun x i => te_data a x i * c) ga ga gm c 0 ltac:(intros; cbn beta; ring) Hga Hga Hgm). ring.
  - intros l Hl. destruct l as [|c [|c' l]]; auto. cbn in Hl; lia.
Qed.
Print Assumptions C17_arithmetic.
(** ** C18 *)
(** [f r] stands for fibergroup.restrict_representation(id, r): for every group of the library it satisfies the premise on
    [f] by C08.  [uniq] is the set of the type's representations in any iteration order.
    Partial: field types in which two different representations share a name are excluded (they are refuted below). *)
Theorem C18_restriction_partial : forall (GS GS' G H X : Type) (fits : GS' -> rep H -> bool) (sub : GS') (elH : H -> Prop)
    (parent : H -> G) (f : rep G -> result (rep H)) (uniq : list (rep G)) (a : tens GS G X) (a' : tens GS' H X),
  (forall r, In r uniq <-> In r (ft_reps (te_type a))) ->
  (forall r s, In r (ft_reps (te_type a)) -> In s (ft_reps (te_type a)) -> rp_name r = rp_name s -> r = s) ->
  (forall r r', In r (ft_reps (te_type a)) -> f r = Ok r' ->
      rp_size r' = rp_size r /\ restricts_to elH parent (rp_size r) (rp_mat r) (rp_mat r')) ->
  te_restrict fits sub f uniq a = Ok a' ->
  te_data a' = te_data a /\ ft_gs (te_type a') = sub /\
  Forall2 (fun r r' => f r = Ok r') (ft_reps (te_type a)) (ft_reps (te_type a')) /\
  forall h t1 t2, elH h -> te_transform h a' = Ok t1 -> te_transform (parent h) a = Ok t2 ->
    forall x c, (c < nsum (map rp_size (ft_reps (te_type a))))%nat -> te_data t1 x c = te_data t2 x c.
Proof.
  intros GS GS' G H X fits sub elH parent f uniq a a' U N FS E. unfold te_restrict in E. apply rbind_ok in E as (t & Ht & E). injection E as <-.
  cbn [te_data te_type]. destruct (ft_restrict_spec fits sub f uniq (te_type a) t U N Ht) as [E1 E2].
  split; [reflexivity|]. split; [auto|]. split; [auto|]. intros h t1 t2 Hh H1 H2 x c Hc.
  unfold te_transform in *. cbn [te_type te_data] in H1. apply rbind_ok in H1 as (d1 & H1 & E'). injection E' as <-.
  apply rbind_ok in H2 as (d2 & H2 & E'). injection E' as <-. cbn [te_data].
  refine (restricted_transform elH parent (ft_reps (te_type a)) (ft_reps t) (te_data a) d1 d2 h _ Hh H1 H2 x c Hc).
  assert (IN : forall r, In r (ft_reps (te_type a)) -> In r (ft_reps (te_type a))) by auto. revert E2 IN.
  clear H1. generalize (ft_reps (te_type a)) at 1 2 4. intros l E2. induction E2; intros IN; constructor; auto.
  - apply FS; auto. apply IN; cbn; auto.
  - apply IHE2. intros; apply IN; cbn; auto.
Qed.
Print Assumptions C18_restriction_partial.

(** and the restriction exists whenever the representations can be restricted *)
Theorem C18_restriction_exists : forall (GS GS' G H X : Type) (fits : GS' -> rep H -> bool) (sub : GS') (f : rep G -> result (rep H))
    (uniq : list (rep G)) (a : tens GS G X),
  (forall r, In r uniq <-> In r (ft_reps (te_type a))) -> ft_reps (te_type a) <> [] ->
  (forall r, In r (ft_reps (te_type a)) -> exists r', f r = Ok r') -> (forall r', fits sub r' = true) ->
  exists a', te_restrict fits sub f uniq a = Ok a'.
Proof.
  intros GS GS' G H X fits sub f uniq a U NE E F. destruct (ft_restrict_total fits sub f uniq (te_type a) U NE E F) as [t Ht].
  unfold te_restrict. rewrite Ht. cbn. eauto.
Qed.

(** C18 for C_N -> C_M, with [f] the model of restrict_representation itself (given inverse matrices) *)
Theorem C18_cyclic : forall N M sg parent child prefix (invs : rep Z -> mat) (X : Type) (uniq : list (rep Z)) (a : tens Z Z X) a',
  (0 < N)%Z -> cyc_subgroup N M = Ok (sg, parent, child) ->
  Forall (cyc_rep N) (ft_reps (te_type a)) ->
  (forall r, In r uniq <-> In r (ft_reps (te_type a))) ->
  (forall r s, In r (ft_reps (te_type a)) -> In s (ft_reps (te_type a)) -> rp_name r = rp_name s -> r = s) ->
  (forall r r', In r (ft_reps (te_type a)) -> restrict_representation prefix (cyc_restrict_one N M) r (invs r) = Ok r' -> rep_accepted r') ->
  te_restrict (fun _ _ => true) M (fun r => restrict_representation prefix (cyc_restrict_one N M) r (invs r)) uniq a = Ok a' ->
  te_data a' = te_data a /\
  forall h t1 t2, cyc_el M h -> te_transform h a' = Ok t1 -> te_transform (parent h) a = Ok t2 ->
    forall x c, (c < nsum (map rp_size (ft_reps (te_type a))))%nat -> te_data t1 x c = te_data t2 x c.
Proof.
  intros N M sg parent child prefix invs X uniq a a' HN HS HR U NM AC E.
  assert (FS : forall r r', In r (ft_reps (te_type a)) -> restrict_representation prefix (cyc_restrict_one N M) r (invs r) = Ok r' ->
      rp_size r' = rp_size r /\ restricts_to (cyc_el M) parent (rp_size r) (rp_mat r) (rp_mat r')).
  { intros r r' Hr Hf. rewrite Forall_forall in HR.
    destruct (cyc_restriction N M prefix r sg parent child HN HS (HR r Hr)) as [_ GR].
    destruct (GR (invs r) r' Hf (AC r r' Hr Hf)) as (A1 & _ & A3). auto. }
  destruct (C18_restriction_partial _ _ _ _ _ _ _ (cyc_el M) parent _ uniq a a' U NM FS E) as (E1 & _ & _ & E2). auto.
Qed.
Print Assumptions C18_cyclic.

(** Refuted in general: two different representations of C_2 with the same name ("r") and size; whatever the order in
    which the set is iterated, one of the two fields is restricted (to C_2 itself) with the other one's representation. *)
Theorem C18_same_name_refuted : exists (r1 r2 : rep Z) i0 i1, cyc_irrep 2 0 = Ok i0 /\ cyc_irrep 2 1 = Ok i1 /\
  r1 = rep_of_irrep "r" i0 /\ r2 = rep_of_irrep "r" i1 /\ r1 <> r2 /\ cyc_rep 2 r1 /\ cyc_rep 2 r2 /\
  let a := MkT (fun (_ : unit) (_ : nat) => 1) (MkFT 2%Z [r1; r2]) in
  forall uniq, (uniq = [r1; r2] \/ uniq = [r2; r1]) ->
  exists a' : tens Z Z unit, te_restrict (fun _ _ => true) 2%Z (fun r => restrict_representation "C2" (cyc_restrict_one 2 2) r mid) uniq a = Ok a' /\
  exists t1 t2 x c, te_transform 1%Z a' = Ok t1 /\ te_transform 1%Z a = Ok t2 /\ (c < 2)%nat /\ te_data t1 x c <> te_data t2 x c.
Proof.
  do 4 eexists. split; [reflexivity|]. split; [reflexivity|]. split; [reflexivity|]. split; [reflexivity|].
  split. { intros E. apply (f_equal rp_irreps) in E. cbn in E. discriminate. }
  split. { split; [apply inverse_pair_mid|]. constructor; [exists 0%Z; auto|constructor]. }
  split. { split; [apply inverse_pair_mid|]. constructor; [exists 1%Z; auto|constructor]. }
  assert (C : cos (1 * 1 * (2 * PI / 2)) = -1). { replace (1 * 1 * (2 * PI / 2)) with PI by field. apply cos_PI. }
  intros a uniq [-> | ->]; (eexists; split; [reflexivity|]); do 2 eexists; exists tt.
  - exists O. split; [reflexivity|]. split; [reflexivity|]. split; [lia|].
    unfold te_data, mvec, rp_mat, rp_size, isizes, mmul; cbn. unfold mid, mat1; cbn. rewrite C. lra.
  - exists 1%nat. split; [reflexivity|]. split; [reflexivity|]. split; [lia|].
    unfold te_data, mvec, rp_mat, rp_size, isizes, mmul; cbn. unfold mid, mat1; cbn. rewrite C. lra.
Qed.
Print Assumptions C18_same_name_refuted.
