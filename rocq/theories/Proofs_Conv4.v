(** Assembling a filter from its blocks; groups; bias; the equivariance of [conv_forward]. *)
From Coq Require Import Reals ZArith String List Bool Lia Lra FunctionalExtensionality.
From Verif Require Import Base Spec Model_Groups Model_Rep Proofs_Rep Model_FieldType Proofs_FieldType Model_Tensor Proofs_Tensor Model_GSpace Spec_GSpace Proofs_GSpace
  Model_Kernels Spec_Kernels Proofs_Kernels5 Model_Utils Proofs_Utils Model_Expansion Proofs_Expansion Proofs_Expansion2 Model_Conv Spec_Conv Proofs_Conv Proofs_Conv2.
Import ListNotations.
Open Scope R_scope.

(** ** block matrices *)
Lemma nth_split_bsize (L : list (nat * mat)) i p : nth_error L i = Some p -> exists l1 l2, L = l1 ++ p :: l2 /\ bsize l1 = nsum (map fst (firstn i L)).
Proof.
  intros H. apply nth_error_split in H as [l1 [l2 [-> <-]]]. exists l1, l2. split; auto. unfold bsize. rewrite firstn_app, firstn_all, Nat.sub_diag. cbn. now rewrite app_nil_r.
Qed.
Lemma bdiag_mul_row L i n A M w r c : nth_error L i = Some (n, A) -> (r < n)%nat -> (w = nsum (map fst (firstn i L)))%nat ->
  mmul (bsize L) (bdiag L) M (w + r)%nat c = rsum n (fun t => A r t * M (w + t)%nat c).
Proof.
  intros H Hr ->. destruct (nth_split_bsize _ _ _ H) as [l1 [l2 [E Eb]]]. rewrite <- Eb. clear H Eb. subst L. unfold mmul.
  assert (X : inb (bsize l1) n (bsize l1 + r) = true) by (apply inb_true; lia).
  rewrite (rsum_range _ (bsize l1) n).
  - apply rsum_ext. intros t Ht. rewrite bdiag_row by auto. assert (inb (bsize l1) n (bsize l1 + t) = true) as -> by (apply inb_true; lia).
    replace (bsize l1 + r - bsize l1)%nat with r by lia. replace (bsize l1 + t - bsize l1)%nat with t by lia. reflexivity.
  - unfold bsize. rewrite map_app, nsum_app. cbn. lia.
  - intros t Ht Q. rewrite bdiag_row by auto. rewrite Q. ring.
Qed.
Lemma bdiag_mul_col L i n A M w r c : nth_error L i = Some (n, A) -> (c < n)%nat -> (w = nsum (map fst (firstn i L)))%nat ->
  mmul (bsize L) M (bdiag L) r (w + c)%nat = rsum n (fun t => M r (w + t)%nat * A t c).
Proof.
  intros H Hr ->. destruct (nth_split_bsize _ _ _ H) as [l1 [l2 [E Eb]]]. rewrite <- Eb. clear H Eb. subst L. unfold mmul.
  assert (X : inb (bsize l1) n (bsize l1 + c) = true) by (apply inb_true; lia).
  rewrite (rsum_range _ (bsize l1) n).
  - apply rsum_ext. intros t Ht. rewrite bdiag_col by auto. assert (inb (bsize l1) n (bsize l1 + t) = true) as -> by (apply inb_true; lia).
    replace (bsize l1 + c - bsize l1)%nat with c by lia. replace (bsize l1 + t - bsize l1)%nat with t by lia. reflexivity.
  - unfold bsize. rewrite map_app, nsum_app. cbn. lia.
  - intros t Ht Q. rewrite bdiag_col by auto. rewrite Q. ring.
Qed.
Lemma sandwich Lo Li o i no ni A Bm M wo wi r c : nth_error Lo o = Some (no, A) -> nth_error Li i = Some (ni, Bm) -> (r < no)%nat -> (c < ni)%nat ->
  (wo = nsum (map fst (firstn o Lo)))%nat -> (wi = nsum (map fst (firstn i Li)))%nat ->
  mmul (bsize Li) (mmul (bsize Lo) (bdiag Lo) M) (bdiag Li) (wo + r)%nat (wi + c)%nat =
  mmul ni (mmul no A (fun a b => M (wo + a)%nat (wi + b)%nat)) Bm r c.
Proof.
  intros H1 H2 Hr Hc E1 E2. rewrite (bdiag_mul_col Li i ni Bm _ wi _ c H2 Hc E2). unfold mmul at 2. apply rsum_ext. intros t Ht. f_equal.
  rewrite (bdiag_mul_row Lo o no A _ wo r _ H1 Hr E1). reflexivity.
Qed.

Definition trep {G} (reps : list (rep G)) (g : G) : mat := bdiag (map (fun s => (rp_size s, rp_mat s g)) reps).

Lemma steer_assemble {G} s e k (outs ins : list (rep G)) (g g' : G) (FF : nat -> mat) :
  (forall o i ro ri, nth_error outs o = Some ro -> nth_error ins i = Some ri ->
     steer s e (rp_size ro) (rp_size ri) k (rp_mat ro g) (rp_mat ri g') (fun x r c => FF x (field_offset outs o + r)%nat (field_offset ins i + c)%nat)) ->
  steer s e (nsum (map rp_size outs)) (nsum (map rp_size ins)) k (trep outs g) (trep ins g') FF.
Proof.
  intros H i j i0 j0 Hi Hj Hi0 Hj0 E r c Hr Hc.
  destruct (channel_in_field outs r Hr) as [o [ro [a [Eo [Ha ->]]]]]. destruct (channel_in_field ins c Hc) as [p [ri [b [Ep [Hb ->]]]]].
  rewrite (H o p ro ri Eo Ep i j i0 j0 Hi Hj Hi0 Hj0 E a b Ha Hb).
  rewrite <- (bsize_map_rep outs g), <- (bsize_map_rep ins g'). unfold trep. symmetry.
  apply sandwich with (o := o) (i := p); auto.
  - rewrite nth_error_map, Eo. reflexivity.
  - rewrite nth_error_map, Ep. reflexivity.
  - unfold field_offset. rewrite firstn_map, map_map. reflexivity.
  - unfold field_offset. rewrite firstn_map, map_map. reflexivity.
Qed.

(** ** periodic lists of fields *)
Lemma foffset_S {G} (L : list (rep G)) i r : nth_error L i = Some r -> field_offset L (S i) = (field_offset L i + rp_size r)%nat.
Proof.
  unfold field_offset. revert i. induction L as [|x L IH]; intros [|i] H; cbn in H; try discriminate.
  - injection H as ->. cbn. lia.
  - cbn [firstn map nsum fold_right]. change (fold_right Nat.add O ?x) with (nsum x). specialize (IH i H). cbn [firstn map nsum fold_right] in *. unfold nsum in *. lia.
Qed.
Lemma foffset_mono {G} (L : list (rep G)) a b : (a <= b)%nat -> (field_offset L a <= field_offset L b)%nat.
Proof.
  unfold field_offset. intros H. replace (firstn b L) with (firstn a L ++ firstn (b - a) (skipn a L)); [rewrite map_app, nsum_app; lia|].
  replace b with (a + (b - a))%nat at 2 by lia. clear H. revert L. generalize (b - a)%nat as d. induction a as [|a IH]; intros d L; [reflexivity|].
  destruct L as [|x L]; cbn; [now rewrite firstn_nil|]. f_equal. apply IH.
Qed.
Lemma foffset_all {G} (L : list (rep G)) n : (length L <= n)%nat -> field_offset L n = nsum (map rp_size L).
Proof. intros H. unfold field_offset. now rewrite firstn_all2. Qed.
Lemma foffset_firstn {G} (L : list (rep G)) i n : (i <= n)%nat -> field_offset (firstn n L) i = field_offset L i.
Proof. intros H. unfold field_offset. rewrite firstn_firstn, Nat.min_l; auto. Qed.
Lemma nth_firstn {A} (L : list A) i n : (i < n)%nat -> nth_error (firstn n L) i = nth_error L i.
Proof. revert i n. induction L as [|x L IH]; intros [|i] [|n] H; cbn; auto; try lia. apply IH. lia. Qed.

Definition periodic {A} (L : list A) (n : nat) : Prop := forall i, (i < length L)%nat -> nth_error L i = nth_error L (i mod n).
Lemma foffset_periodic {G} (L : list (rep G)) n : periodic L n -> forall a b, (b <= n)%nat -> (a * n + b <= length L)%nat ->
  field_offset L (a * n + b) = (a * field_offset L n + field_offset L b)%nat.
Proof.
  intros P. induction a as [|a IHa]; [intros; reflexivity|]. induction b as [|b IHb]; intros Hb HL.
  - replace (S a * n + 0)%nat with (a * n + n)%nat by lia. rewrite IHa by lia. assert (Z : field_offset L 0 = 0%nat) by reflexivity. rewrite Z. lia.
  - replace (S a * n + S b)%nat with (S (S a * n + b)) by lia.
    destruct (nth_error L (S a * n + b)) as [r|] eqn:E; [|apply nth_error_None in E; lia]. rewrite (foffset_S _ _ _ E).
    rewrite IHb by lia. rewrite (P (S a * n + b)%nat) in E by lia. rewrite Nat.add_comm, Nat.mod_add, Nat.mod_small in E by lia. rewrite (foffset_S L b r E). lia.
Qed.

Lemma all_repeat_periodic {G} (L : list (rep G)) n : names_distinct L -> all_repeat L n = true -> periodic L n.
Proof.
  intros ND H i Hi. unfold all_repeat in H. rewrite forallb_forall in H. specialize (H i). destruct (nth_error L i) as [a|] eqn:E1; [|discriminate H; apply in_seq; lia].
  destruct (nth_error L (i mod n)) as [b|] eqn:E2; [|discriminate H; apply in_seq; lia]. f_equal. apply ND; [eapply nth_error_In; eauto|eapply nth_error_In; eauto|].
  specialize (H ltac:(apply in_seq; lia)). unfold rep_eqb in H. rewrite !andb_true_iff in H. destruct H as [[[H _] _] _]. apply String.eqb_eq. auto.
Qed.
Lemma group_facts {G} (tin tout : ctype G) groups L : group_in tin tout groups = Ok L -> (0 < groups)%nat ->
  names_distinct (ft_reps tin) -> names_distinct (ft_reps tout) -> exists ni no,
    (length (ft_reps tin) = groups * ni /\ length (ft_reps tout) = groups * no)%nat /\ periodic (ft_reps tin) ni /\ periodic (ft_reps tout) no /\ L = firstn ni (ft_reps tin).
Proof.
  intros H HG Ni No. unfold group_in in H. destruct (Nat.ltb_spec 1 groups).
  - apply assert_ok in H as [H1 H]. apply assert_ok in H as [H2 H]. apply assert_ok in H as [H3 H]. apply assert_ok in H as [H4 H]. injection H as <-.
    apply Nat.eqb_eq in H1, H2. exists (length (ft_reps tin) / groups)%nat, (length (ft_reps tout) / groups)%nat.
    assert (D1 := Nat.div_mod (length (ft_reps tin)) groups ltac:(lia)). assert (D2 := Nat.div_mod (length (ft_reps tout)) groups ltac:(lia)).
    split; [split; lia|]. split; [apply all_repeat_periodic; auto|]. split; [apply all_repeat_periodic; auto|]. reflexivity.
  - injection H as <-. exists (length (ft_reps tin)), (length (ft_reps tout)). assert (groups = 1%nat) as -> by lia. split; [lia|].
    split; [intros i Hi; now rewrite Nat.mod_small|]. split; [intros i Hi; now rewrite Nat.mod_small|]. now rewrite firstn_all.
Qed.

(** ** the filter of a grouped convolution as one of a plain convolution *)
Definition fullf (cg og : nat) (f : nat -> nat -> nat -> R) (s : nat) : mat :=
  fun o c => if (c / cg =? o / og)%nat then f o (c mod cg)%nat s else 0.

Lemma rsum_groups q s f : rsum (q * s) f = rsum q (fun k => rsum s (fun c => f (k * s + c)%nat)).
Proof. induction q; simpl; auto. rewrite Nat.add_comm, rsum_split, IHq. reflexivity. Qed.

Lemma conv_valid_spec {B} cin cout k f bias stride dil groups (x y : arr (B -> vec)) cg og : conv_valid cin cout k f bias stride dil groups x = Ok y ->
  (cin = groups * cg)%nat -> (cout = groups * og)%nat -> let F := MkArr k k (fun i j => fullf cg og f (i * k + j)%nat) in
  fits1 stride dil k (a_h x) /\ fits1 stride dil k (a_w x) /\ (0 < groups)%nat /\
  a_h y = a_h (cvo cin stride dil F x) /\ a_w y = a_w (cvo cin stride dil F x) /\
  forall i j b o, (o < cout)%nat -> a_px y i j b o = (match bias with Some v => v o | None => 0 end) + a_px (cvo cin stride dil F x) i j b o.
Proof.
  unfold conv_valid. destruct (_ && _)%bool eqn:E; [|discriminate]. intros H. injection H as <-. intros Ecin Ecout. cbv zeta. cbn [a_h a_w a_px cvo].
  rewrite !andb_true_iff, !Nat.ltb_lt, !Nat.leb_le in E. destruct E as [[[[[[[E1 E2] E3] E4] E5] E6] E7] E8].
  split; [unfold fits1; lia|]. split; [unfold fits1; lia|]. split; [lia|]. split; [reflexivity|]. split; [reflexivity|]. intros i j b o Ho. f_equal.
  assert (cin / groups = cg)%nat as -> by (rewrite Ecin, Nat.mul_comm, Nat.div_mul; lia).
  assert (cout / groups = og)%nat as -> by (rewrite Ecout, Nat.mul_comm, Nat.div_mul; lia).
  apply rsum_ext. intros ky Hky. apply rsum_ext. intros kx Hkx. rewrite Ecin, rsum_groups.
  assert (Ho2 : (o / og < groups)%nat) by (apply Nat.div_lt_upper_bound; lia).
  rewrite (rsum_single groups (o / og)%nat _ Ho2).
  - apply rsum_ext. intros c Hc. unfold fullf. rewrite Nat.div_add_l by lia. rewrite (Nat.div_small c cg), Nat.add_0_r, Nat.eqb_refl by lia.
    rewrite (Nat.add_comm (o / og * cg)), Nat.mod_add, Nat.mod_small by lia. reflexivity.
  - intros g Hg N. apply rsum_0. intros c Hc. unfold fullf. rewrite Nat.div_add_l by lia. rewrite (Nat.div_small c cg), Nat.add_0_r by lia.
    destruct (Nat.eqb_spec g (o / og)); [congruence|ring].
Qed.
