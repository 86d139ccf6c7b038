(** For C56: non-linearities, invariant maps, disentanglement and dropout obey the law. *)
From Coq Require Import Reals ZArith String List Bool Lia Lra FunctionalExtensionality.
From Verif Require Import Base LinAlg Spec Spec_Fields Model_Groups Model_Rep Proofs_Rep Proofs_Restrict Model_FieldType Proofs_FieldType Model_GSpace Spec_GSpace Proofs_GSpace Model_Tensor Model_Conv Spec_Conv
  Proofs_Conv Proofs_Conv2 Proofs_Conv3 Proofs_Conv4 Proofs_Conv5 Proofs_Conv6 Proofs_Tensor Proofs_Induced Model_Fieldwise Spec_Fieldwise Spec_Fieldwise2 Proofs_Fieldwise4 Proofs_Fieldwise8 Prop_Fieldwise2 Model_Disentangle Prop_Disentangle
  Model_Dropout Prop_Dropout Model_NormMax Model_Support Spec_Support Proofs_Support2 Model_Net Spec_Net Proofs_Net Proofs_Net2 Proofs_Net3.
Import ListNotations.
Open Scope R_scope.

(** the last step of every forward checks the number of channels *)
Ltac gt_len :=
  repeat match goal with
  | H : assert_ _ _ = Ok _ |- _ => apply assert_ok in H as [_ H]
  | H : rbind _ _ = Ok _ |- _ => apply rbind_ok in H as (? & _ & H)
  | H : (if ?c then _ else _) = Ok _ |- _ => destruct c; [|discriminate]
  | H : mk_gt _ _ _ = Ok _ |- _ => apply mk_gt_ok in H as [-> H]
  end.

Section Layers.
Context {G B : Type} (sp : space G) (isrep : rep G -> Prop) (PS : planar_space G sp isrep) (e : gelt) (g : G).
Hypothesis He : fg_is_element (sp_group (sp_obj sp)) e = true.
Hypothesis Hg : sp_prj sp e = Some g.
Notation tensor := (arr (B -> vec) * ctype G)%type.
Notation chan := (B * (nat * nat) -> R).
(** any law that follows for modules that work on channels, such as Proofs_Net2.law (Proofs_Net3.channel_law) *)
Context (law : (tensor -> result tensor) -> (tensor -> result tensor) -> ctype G -> ctype G -> (arr (B -> vec) -> arr (B -> vec) -> Prop) -> Prop).
Hypothesis channel_law : channels_give g law.
Notation good := (fun t : ctype G => forall r, In r (ft_reps t) -> isrep r /\ (0 < rp_size r)%nat /\ compatible (rp_nonlin r) (rp_size r) (rp_mat r g)).
Notation any := (fun _ _ : arr (B -> vec) => True).

Lemma good_pos t : good t -> size_pos t.
Proof. intros H r Hr. apply (H r Hr). Qed.
Lemma trivial_facts r : isrep r -> is_trivial r = true -> rp_size r = 1%nat /\ rp_mat r g 0%nat 0%nat = 1.
Proof.
  intros I T. destruct (space_ok _ _ _ PS) as [code [el [inv SF]]]. destruct (sf_elt _ _ _ _ _ SF e He) as (g' & E1 & _ & E2). rewrite Hg in E2. injection E2 as <-.
  pose proof (sf_acc _ _ _ _ _ SF r I) as A. unfold is_trivial in T. destruct (rp_irreps r) as [|ir [|? ?]] eqn:EI; try discriminate. apply andb_true_iff in T as [T1 T2].
  destruct (sf_triv _ _ _ _ _ SF r ir I) as [S M]; [rewrite EI; left; reflexivity|exact T2|]. specialize (M g E1). apply meqb_true in T1.
  unfold rep_accepted in A. assert (SZ : rp_size r = 1%nat) by (unfold rp_size; rewrite EI, isizes_one; exact S). split; [exact SZ|]. rewrite SZ in A.
  unfold rp_mat. rewrite SZ, EI. cbn [blocks map]. rewrite S in T1 |- *.
  destruct A as [A _]. specialize (A 0%nat 0%nat ltac:(lia) ltac:(lia)). specialize (T1 0%nat 0%nat ltac:(lia) ltac:(lia)). unfold mmul in A |- *. cbn [rsum] in A |- *.
  change (mid 0%nat 0%nat) with 1 in T1. rewrite T1 in *. change (mid 0%nat 0%nat) with 1 in A.
  assert (BD : bdiag [(ir_size ir, ir_mat ir g)] 0%nat 0%nat = 1) by (rewrite S; cbn; exact M).
  rewrite S in BD. rewrite BD. lra.
Qed.

Lemma pointwise_law t m : (exists fn, pointwise_make t fn = Ok m) \/ relu_make t = Ok m \/ (exists alpha, elu_make t alpha = Ok m) -> ft_reps t <> [] -> good t -> pw_in m = t /\
  law (on_channels (pointwise_forward space_eqb rep_eqb m)) (on_channels (pointwise_forward space_eqb rep_eqb m)) t t any.
Proof.
  intros M N OK.
  assert (A : all_support "pointwise" t = true /\ pw_in m = t).
  { destruct M as [[fn M]|[M|[al M]]].
    - unfold pointwise_make in M. apply assert_ok in M as [A M]. apply rbind_ok in M as (f & _ & M). injection M as <-. auto.
    - unfold relu_make in M. apply assert_ok in M as [A M]. injection M as <-. auto.
    - unfold elu_make in M. apply assert_ok in M as [A M]. injection M as <-. auto. }
  destruct A as [A EI]. split; [exact EI|]. apply channel_law; auto.
  - intros X Y F T. unfold pointwise_forward in F. gt_len. rewrite EI in F. exact F.
  - intros pi X X' x y _ _ TX TX' AC. apply (C42_pointwise _ _ t m g pi X X' M N TX TX'); auto. apply (perms isrep g); auto.
Qed.
Lemma norm_law t fn bias m lb junk junk' : norm_make t fn bias = Ok m -> same_shape (nn_logb m) lb -> ft_reps t <> [] -> good t -> nn_in m = t /\
  law (on_channels (norm_forward space_eqb rep_eqb junk (set_logb m lb))) (on_channels (norm_forward space_eqb rep_eqb junk' (set_logb m lb))) t t any.
Proof.
  intros M S N OK. assert (A : all_support "norm" t = true /\ nn_in m = t).
  { pose proof M as M'. unfold norm_make in M'. apply assert_ok in M' as [A M']. split; [exact A|]. clear -M'.
    repeat match goal with H : rbind _ _ = Ok _ |- _ => apply rbind_ok in H as (? & _ & H) end. injection M' as <-. reflexivity. }
  destruct A as [A EI]. split; [exact EI|]. apply channel_law; auto.
  - intros X Y F T. unfold norm_forward in F. gt_len. cbn [set_logb nn_in] in F. rewrite EI in F. exact F.
  - intros pi X X' x y _ _ TX TX' AC. apply (C42_norm _ _ t fn bias m lb g pi junk junk' X X' M N (good_pos t OK) S TX TX'); auto. apply (orths isrep g); auto.
Qed.
Lemma inorm_law t fn bias m lb junk junk' : inorm_make t fn bias = Ok m -> same_shape (in_logb m) lb -> permutes_subfields g t -> ft_reps t <> [] -> good t -> in_in m = t /\
  law (on_channels (inorm_forward space_eqb rep_eqb junk (set_ilogb m lb))) (on_channels (inorm_forward space_eqb rep_eqb junk' (set_ilogb m lb))) t t any.
Proof.
  intros M S P N OK. assert (EI : in_in m = t).
  { clear -M. unfold inorm_make in M. repeat match goal with H : assert_ _ _ = Ok _ |- _ => apply assert_ok in H as [_ H] | H : rbind _ _ = Ok _ |- _ => apply rbind_ok in H as (? & _ & H) end. injection M as <-. reflexivity. }
  split; [exact EI|]. apply channel_law; auto.
  - intros X Y F T. unfold inorm_forward in F. gt_len. cbn [set_ilogb in_in] in F. rewrite EI in F. exact F.
  - intros pi X X' x y _ _ TX TX' AC. apply (C42_induced_norm _ _ t fn bias m lb g pi junk junk' X X' M N (good_pos t OK) S TX TX'); auto.
Qed.
(** is_trivial is used by the constructor on the representations of the type only *)
Lemma gated_triv fits (T1 T2 : rep G -> bool) (t : ctype G) gates drop bias : (forall r, In r (ft_reps t) -> T1 r = T2 r) -> gated1_make fits T1 t gates drop bias = gated1_make fits T2 t gates drop bias.
Proof.
  intros H. unfold gated1_make. destruct (gate_labels gates (length (ft_reps t))) as [gs|]; [|reflexivity]. cbn [rbind].
  match goal with |- rbind (rmap ?f ?l) _ = rbind (rmap ?f' ?l) _ => assert (E : rmap f l = rmap f' l) end.
  { assert (S : forall p, In p (combine gs (ft_reps t)) -> In (snd p) (ft_reps t)) by (intros [a b] Hp; eapply in_combine_r; eauto).
    induction (combine gs (ft_reps t)) as [|p l IH]; [reflexivity|]. cbn [rmap]. rewrite (H (snd p)) by (apply S; left; reflexivity). rewrite IH; [reflexivity|]. intros q Hq. apply S. right. exact Hq. }
  rewrite E. reflexivity.
Qed.
Lemma gated_law fits t gates drop bias m b junk junk' : gated1_make fits is_trivial t gates drop bias = Ok m -> length b = length (g1_bias m) -> ft_reps t <> [] -> good t -> ft_reps (g1_out m) <> [] ->
  g1_in m = t /\ law (on_channels (gated1_forward space_eqb rep_eqb junk (set_bias1 m b))) (on_channels (gated1_forward space_eqb rep_eqb junk' (set_bias1 m b))) t (g1_out m) any.
Proof.
  intros M S N OK N2. assert (EI : g1_in m = t).
  { clear -M. unfold gated1_make in M. repeat match goal with H : assert_ _ _ = Ok _ |- _ => apply assert_ok in H as [_ H] | H : rbind _ _ = Ok _ |- _ => apply rbind_ok in H as (? & _ & H) end. injection M as <-. reflexivity. }
  set (T2 := fun r : rep G => (is_trivial r && ((rp_size r =? 1)%nat && if Req_EM_T (rp_mat r g 0%nat 0%nat) 1 then true else false))%bool).
  rewrite (gated_triv fits is_trivial T2) in M.
  2:{ intros r Hr. unfold T2. destruct (is_trivial r) eqn:T; [|reflexivity]. destruct (trivial_facts r (proj1 (OK r Hr)) T) as [-> ->]. cbn. destruct (Req_EM_T 1 1); [reflexivity|lra]. }
  split; [exact EI|]. apply channel_law; auto.
  - intros X Y F T. unfold gated1_forward in F. gt_len. exact F.
  - intros pi X X' x y _ _ TX TX' AC. apply (C42_gated1 fits _ _ T2 t gates drop bias m b g pi junk junk' X X'); auto; [|apply good_pos; auto].
    intros r T. unfold T2 in T. rewrite !andb_true_iff, Nat.eqb_eq in T. destruct T as (_ & T1 & T3). split; [exact T1|]. destruct (Req_EM_T (rp_mat r g 0%nat 0%nat) 1); [auto|discriminate].
Qed.
Lemma conc_law fits elements build t fn m :
  (forall name s M nl r, build name s M nl = Ok r -> rp_size r = s /\ forall g, In g elements -> meq s s (rp_mat r g) (M g)) -> In g elements ->
  conc_make fits elements build t fn = Ok m -> ft_reps t <> [] -> good t -> ft_reps (cc_out m) <> [] ->
  cc_in m = t /\ law (on_channels (conc_forward space_eqb rep_eqb m)) (on_channels (conc_forward space_eqb rep_eqb m)) t (cc_out m) any.
Proof.
  intros HB Hgel M N OK N2. assert (EI : cc_in m = t).
  { clear -M. unfold conc_make in M. repeat match goal with H : assert_ _ _ = Ok _ |- _ => apply assert_ok in H as [_ H] | H : rbind _ _ = Ok _ |- _ => apply rbind_ok in H as (? & _ & H) end. injection M as <-. reflexivity. }
  split; [exact EI|]. apply channel_law; auto.
  - intros X Y F T. unfold conc_forward in F. gt_len. exact F.
  - intros pi X X' x y _ _ TX TX' AC. apply (C42_concatenated fits _ _ elements build t fn m g pi X X' HB M N Hgel); auto.
    intros r Hr. destruct (space_ok _ _ _ PS) as [code [el [inv SF]]]. destruct (sf_elt _ _ _ _ _ SF e He) as (g' & E1 & _ & E2). rewrite Hg in E2. injection E2 as <-.
    exists (rp_mat r (inv g)). apply square_inverse. apply (sf_inv _ _ _ _ _ SF); auto. apply (OK r Hr).
Qed.
Lemma vfield_law fits argmax order r1 k t m : argmax_ok argmax -> vfield_make fits order (Some r1) t = Ok m -> rp_size r1 = 2%nat -> (k < order)%nat ->
  each g (fun _ => is_shift order k) t -> is_rotation (INR k * (2 * PI / INR order)) (rp_mat r1 g) -> ft_reps t <> [] -> good t -> ft_reps (vf_out m) <> [] ->
  vf_in m = t /\ law (on_channels (vfield_forward space_eqb rep_eqb argmax m)) (on_channels (vfield_forward space_eqb rep_eqb argmax m)) t (vf_out m)
    (fun x _ => forall f i j b, (f < length (ft_reps t))%nat -> (i < a_h x)%nat -> (j < a_w x)%nat ->
      let v := fun a => a_px x i j b (f * vf_n m + a)%nat in
      (forall a a', (a < vf_n m)%nat -> (a' < vf_n m)%nat -> (forall c, (c < vf_n m)%nat -> v c <= v a) -> (forall c, (c < vf_n m)%nat -> v c <= v a') -> a = a') \/
      (forall a, (a < vf_n m)%nat -> v a <= 0)).
Proof.
  intros AM M S1 K SH RO N OK N2.
  assert (EI : vf_in m = t /\ vf_n m = order /\ forall r, In r (ft_reps t) -> rp_size r = order).
  { pose proof M as M'. unfold vfield_make in M'. apply assert_ok in M' as [_ M']. apply assert_ok in M' as [Z M']. apply rbind_ok in M' as (out & _ & M'). injection M' as <-. split; [reflexivity|]. split; [reflexivity|].
    intros r Hr. rewrite forallb_forall in Z. specialize (Z r Hr). rewrite !andb_true_iff, Nat.eqb_eq in Z. apply Z. }
  destruct EI as (EI & EN & SZ). split; [exact EI|]. apply channel_law; auto.
  - intros X Y F T. unfold vfield_forward in F. gt_len. exact F.
  - intros pi X X' x y EX SU TX TX' AC. apply (C42_vectorfield_partial fits _ _ argmax order r1 k t m g pi X X' AM M S1 N K SH RO TX TX' AC).
    intros b p Hb. apply In_nth_error in Hb as [f Hf].
    assert (LF : (f < length (ft_reps t))%nat) by exact (fields_len (ft_reps t) (gt_data X) f b Hf).
    destruct (nth_error (ft_reps t) f) as [r|] eqn:Hr; [|apply nth_error_None in Hr; lia]. destruct (fields_val _ _ _ _ _ (proj2 TX) Hr Hf) as [LB VB]. rewrite (SZ r) in LB, VB by (eapply nth_error_In; eauto).
    assert (OF : Proofs_Tensor.field_offset (ft_reps t) f = (f * order)%nat).
    { clear -LF SZ. revert f LF. induction (ft_reps t) as [|r l IH]; intros f LF; [cbn in LF; lia|]. destruct f as [|f]; [reflexivity|]. unfold field_offset in *. cbn [firstn map]. unfold nsum. cbn [fold_right].
      rewrite (SZ r (or_introl eq_refl)). cbn [length] in LF. specialize (IH (fun r' H' => SZ r' (or_intror H')) f ltac:(lia)). unfold nsum in IH. rewrite IH. lia. }
    assert (CS : ct_size t = (length (ft_reps t) * order)%nat).
    { unfold ct_size. clear -SZ. induction (ft_reps t) as [|r l IH]; [reflexivity|]. cbn [map length]. unfold nsum in *. cbn [fold_right]. rewrite (SZ r (or_introl eq_refl)), IH; [lia|]. intros; apply SZ; right; auto. }
    assert (VV : forall a, (a < order)%nat -> val b a p = if in_image x (snd p) then a_px x (fst (snd p)) (snd (snd p)) (fst p) (f * order + a)%nat else 0).
    { intros a Ha. rewrite VB, OF, EX by auto. apply channels_val. rewrite CS.
      assert (f * order + a < (f + 1) * order)%nat by lia. assert ((f + 1) * order <= length (ft_reps t) * order)%nat by (apply Nat.mul_le_mono_r; lia). lia. }
    destruct p as [bb [i j]]. cbn [fst snd] in VV. unfold in_image in VV. cbn [fst snd] in VV. destruct ((i <? a_h x)%nat && (j <? a_w x)%nat)%bool eqn:I.
    + apply andb_true_iff in I as [I1 I2]. apply Nat.ltb_lt in I1, I2. specialize (SU f i j bb LF I1 I2). cbv zeta in SU. rewrite EN in SU. destruct SU as [SU|SU].
      * left. intros a a' Ha Ha' [_ M1] [_ M2]. rewrite LB in *. apply SU; auto; intros c Hc; specialize (M1 c Hc); specialize (M2 c Hc); rewrite !VV in M1, M2 by auto; auto.
      * right. intros a Ha. rewrite VV by auto. apply SU; auto.
    + right. intros a Ha. rewrite VV by auto. lra.
Qed.

(** invariant maps: the new fields transform trivially *)
Lemma follows_acts (r : rep G) n pi (d d' : list chan) : rp_size r = 1%nat -> rp_mat r g 0%nat 0%nat = 1 -> n <> 0%nat -> length d = n -> follows pi d d' -> acts (repeat r n) g pi d d'.
Proof.
  intros SZ1 M N L [L' V].
  assert (SZ : nsum (map rp_size (repeat r n)) = n).
  { clear -SZ1. induction n as [|n IH]; [reflexivity|]. cbn [repeat map]. unfold nsum in *. cbn [fold_right]. rewrite IH, SZ1. reflexivity. }
  apply acts_iff; [destruct n; [lia|discriminate]|rewrite SZ; exact L|]. split; [auto|]. intros p i Hi. rewrite V.
  assert (T : forall i j, (i < n)%nat -> (j < n)%nat -> trep (repeat r n) g i j = mid i j).
  { unfold trep. clear -SZ1 M. induction n as [|n IH]; intros i j Hi Hj; [lia|]. cbn [repeat map bdiag]. rewrite SZ1. destruct i as [|i], j as [|j]; cbn [Nat.ltb Nat.leb].
    - cbn. exact M.
    - cbn. reflexivity.
    - cbn. reflexivity.
    - replace (S i - 1)%nat with i by lia. replace (S j - 1)%nat with j by lia. cbn. rewrite ?Nat.sub_0_r. rewrite IH by lia. unfold mid. reflexivity. }
  rewrite L in *. rewrite (mvec_compat n n (trep (repeat r n) g) mid _ _ T (fun _ _ => eq_refl) i Hi). symmetry. apply mvec_id. exact Hi.
Qed.
Lemma pool_out_type fits triv t (m : pool (GS := space G) (G := G)) : ft_gs t = sp -> npool_make fits triv t = Ok m -> po_in m = t /\ po_out m = MkFT sp (repeat (triv sp) (length (ft_reps t))).
Proof.
  intros S M. unfold npool_make, pool_make_with in M. apply rbind_ok in M as (out & O & M). apply rbind_ok in M as (x & _ & M). injection M as <-. apply mk_ftype_ok in O as [-> _]. rewrite S. auto.
Qed.
Lemma pool_law fits triv t m (fwd fwd' : gtensor (space G) (rep G) chan -> result (gtensor (space G) (rep G) chan)) : ft_gs t = sp -> npool_make fits triv t = Ok m -> is_trivial (triv sp) = true ->
  ft_reps t <> [] -> ft_reps (po_out m) <> [] -> good (po_out m) ->
  (forall X Y, fwd X = Ok Y -> length (gt_data Y) = ct_size (po_out m)) ->
  (rp_size (triv (ft_gs t)) = 1%nat -> rp_mat (triv (ft_gs t)) g 0%nat 0%nat = 1 -> forall pi X X', typed space_eqb rep_eqb t X -> typed space_eqb rep_eqb t X' -> acts (ft_reps t) g pi (gt_data X) (gt_data X') ->
     exists Y Y', fwd X = Ok Y /\ fwd' X' = Ok Y' /\ gt_type Y = MkFT (ft_gs t) (repeat (triv (ft_gs t)) (length (ft_reps t))) /\ gt_type Y' = gt_type Y /\
       length (gt_data Y) = length (ft_reps t) /\ follows pi (gt_data Y) (gt_data Y')) ->
  po_in m = t /\ law (on_channels fwd) (on_channels fwd') t (po_out m) any.
Proof.
  intros HS M T N N2 OK LEN H. destruct (pool_out_type fits triv t m HS M) as [E1 E2]. split; [exact E1|].
  assert (L0 : length (ft_reps t) <> 0%nat) by (destruct (ft_reps t); [congruence|discriminate]).
  assert (TF : rp_size (triv sp) = 1%nat /\ rp_mat (triv sp) g 0%nat 0%nat = 1).
  { apply trivial_facts; [|exact T]. apply (OK (triv sp)). rewrite E2. cbn. destruct (length (ft_reps t)); [lia|left; reflexivity]. }
  destruct TF as [T1 T2]. rewrite HS in H. specialize (H T1 T2). apply channel_law; auto.
  - intros X Y F _. apply (LEN X Y F).
  - intros pi X X' x y _ _ TX TX' AC. destruct (H pi X X' TX TX' AC) as (Y & Y' & F1 & F2 & TY & TY' & L & FO). exists Y, Y'. rewrite E2. split; [exact F1|]. split; [exact F2|].
    split; [congruence|]. split; [congruence|]. apply follows_acts; auto.
Qed.
Lemma gpool_law fits triv t m junk junk' : ft_gs t = sp -> gpool_make fits triv t = Ok m -> is_trivial (triv sp) = true -> ft_reps t <> [] -> good t -> ft_reps (po_out m) <> [] -> good (po_out m) ->
  po_in m = t /\ law (on_channels (gpool_forward space_eqb rep_eqb junk m)) (on_channels (gpool_forward space_eqb rep_eqb junk' m)) t (po_out m) any.
Proof.
  intros HS M T N OK N2 OK2. pose proof M as M'. unfold gpool_make in M'. apply assert_ok in M' as [A M'].
  apply (pool_law fits triv t m); auto.
  - intros X Y F. unfold gpool_forward, pool_forward in F. gt_len. exact F.
  - intros T1 T2 pi X X' TX TX' AC. apply (C43_group_pool fits _ _ triv t m g pi junk junk' X X' T1 T2 M N (good_pos t OK) TX TX'); auto. apply (perms isrep g); auto.
Qed.
Lemma npool_law fits triv t m junk junk' : ft_gs t = sp -> npool_make fits triv t = Ok m -> is_trivial (triv sp) = true -> each g orthogonal t -> ft_reps t <> [] -> good t -> ft_reps (po_out m) <> [] -> good (po_out m) ->
  po_in m = t /\ law (on_channels (npool_forward space_eqb rep_eqb junk m)) (on_channels (npool_forward space_eqb rep_eqb junk' m)) t (po_out m) any.
Proof.
  intros HS M T O N OK N2 OK2. apply (pool_law fits triv t m); auto.
  - intros X Y F. unfold npool_forward, pool_forward in F. gt_len. exact F.
  - intros T1 T2 pi X X' TX TX' AC. apply (C43_norm_pool fits _ _ triv t m g pi junk junk' X X' T1 T2 M N (good_pos t OK) TX TX'); auto.
Qed.
Lemma ipool_law fits triv t m junk junk' : ft_gs t = sp -> ipool_make fits triv t = Ok m -> is_trivial (triv sp) = true -> permutes_subfields g t -> ft_reps t <> [] -> good t -> ft_reps (ip_out m) <> [] -> good (ip_out m) ->
  ip_in m = t /\ law (on_channels (ipool_forward space_eqb rep_eqb junk m)) (on_channels (ipool_forward space_eqb rep_eqb junk' m)) t (ip_out m) any.
Proof.
  intros HS M T P N OK N2 OK2.
  assert (E : ip_in m = t /\ ip_out m = MkFT sp (repeat (triv sp) (length (ft_reps t)))).
  { pose proof M as M'. unfold ipool_make in M'. apply assert_ok in M' as [_ M']. apply rbind_ok in M' as (out & O & M'). apply mk_ftype_ok in O as [-> _].
    repeat match goal with H : rbind _ _ = Ok _ |- _ => apply rbind_ok in H as (? & _ & H) end. injection M' as <-. rewrite HS. auto. }
  destruct E as [E1 E2]. split; [exact E1|].
  assert (L0 : length (ft_reps t) <> 0%nat) by (destruct (ft_reps t); [congruence|discriminate]).
  assert (TF : rp_size (triv sp) = 1%nat /\ rp_mat (triv sp) g 0%nat 0%nat = 1).
  { apply trivial_facts; [|exact T]. apply (OK2 (triv sp)). rewrite E2. cbn. destruct (length (ft_reps t)); [lia|left; reflexivity]. }
  destruct TF as [T1 T2]. apply channel_law; auto.
  - intros X Y F _. unfold ipool_forward in F. gt_len. exact F.
  - intros pi X X' x y _ _ TX TX' AC.
    destruct (C43_induced_norm_pool fits space_eqb rep_eqb triv t m g pi junk junk' X X') as (Y & Y' & F1 & F2 & TY & TY' & L & FO); rewrite ?HS; auto; [apply good_pos; auto|].
    exists Y, Y'. rewrite E2. split; [exact F1|]. split; [exact F2|]. rewrite HS in TY. split; [congruence|]. split; [congruence|]. apply follows_acts; auto.
Qed.
Lemma disentangle_law t uniq m junk junk' : dismod_make t uniq = Ok m -> lists_reps uniq t -> ft_reps t <> [] -> good t -> ft_reps (dm_out m) <> [] ->
  dm_in m = t /\ law (on_channels (dismod_forward space_eqb rep_eqb junk m)) (on_channels (dismod_forward space_eqb rep_eqb junk' m)) t (dm_out m) any.
Proof.
  intros M [U ND] N OK N2. destruct (space_ok _ _ _ PS) as [code [el [inv SF]]].
  assert (EI : dm_in m = t).
  { clear -M. unfold dismod_make in M. repeat match goal with H : assert_ _ _ = Ok _ |- _ => apply assert_ok in H as [_ H] | H : rbind _ _ = Ok _ |- _ => apply rbind_ok in H as (? & _ & H)
      | H : match ?c with _ => _ end = Ok _ |- _ => destruct c; try discriminate end. injection M as <-. reflexivity. }
  split; [exact EI|]. apply channel_law; auto.
  - intros X Y F T. unfold dismod_forward in F. gt_len. exact F.
  - intros pi X X' x y _ _ TX TX' AC.
    destruct (C49_module space_eqb rep_eqb t uniq m junk junk' X X' g pi M (good_pos t OK) N) as (Y & Y' & F1 & F2 & T1 & T2 & _ & A & _); auto; [|exists Y, Y'; auto].
    intros r Hr. apply (sf_acc _ _ _ _ _ SF). apply (OK r Hr).
Qed.
Lemma pdrop_law t p m u : pdrop_make t p = Ok m -> ft_reps t <> [] ->
  pd_in m = t /\ law (on_channels (pdrop_forward space_eqb rep_eqb false u m)) (on_channels (pdrop_forward space_eqb rep_eqb false u m)) t t any.
Proof.
  intros M N. assert (EI : pd_in m = t).
  { clear -M. unfold pdrop_make in M. destruct (Rlt_dec p 0); [discriminate|]. destruct (Rlt_dec 1 p); [discriminate|]. apply assert_ok in M as [_ M]. injection M as <-. reflexivity. }
  split; [exact EI|]. apply channel_law; auto.
  - intros X Y F T. unfold pdrop_forward in F. gt_len. rewrite EI in F. exact F.
  - intros pi X X' x y _ _ TX TX' AC.
    destruct (C45_pointwise space_eqb rep_eqb t p m u X M TX) as (_ & _ & _ & _ & F1 & _). destruct (C45_pointwise space_eqb rep_eqb t p m u X' M TX') as (_ & _ & _ & _ & F2 & _).
    eexists _, _. split; [exact F1|]. split; [exact F2|]. auto.
Qed.
End Layers.
