(** The filter, the bias and the forward pass of an R2Conv. *)
From Coq Require Import Reals ZArith String List Bool Lia Lra FunctionalExtensionality.
From Verif Require Import Base Spec Model_Groups Model_Rep Proofs_Rep Model_FieldType Proofs_FieldType Model_Tensor Proofs_Tensor Model_GSpace Spec_GSpace Proofs_GSpace
  Model_Kernels Spec_Kernels Proofs_Kernels5 Model_Utils Proofs_Utils Model_Expansion Proofs_Expansion Proofs_Expansion2 Model_Conv Spec_Conv Proofs_Conv Proofs_Conv2 Proofs_Conv4.
Import ListNotations.
Open Scope R_scope.

Lemma Reqb_spec a b : reflect (a = b) (Reqb a b).
Proof. unfold Reqb. destruct (Req_EM_T a b); constructor; auto. Qed.
Lemma kid_eqb_spec x y : reflect (x = y) (kid_eqb x y).
Proof.
  destruct x as [[[[a b] r] f] i], y as [[[[a' b'] r'] f'] i']. cbn.
  destruct (Nat.eqb_spec a a'); cbn; [|constructor; congruence]. destruct (Nat.eqb_spec b b'); cbn; [|constructor; congruence].
  destruct (Reqb_spec r r'); cbn; [|constructor; congruence]. destruct (Z.eqb_spec f f'); cbn; [|constructor; congruence].
  destruct (Nat.eqb_spec i i'); constructor; congruence.
Qed.
Lemma rep_eqb_refl {G} (r : rep G) : rep_eqb r r = true.
Proof.
  unfold rep_eqb. rewrite String.eqb_refl. cbn [andb].
  assert (list_eqb irrep_same (rp_irreps r) (rp_irreps r) = true) as ->.
  { induction (rp_irreps r) as [|x l IH]; auto. cbn. rewrite IH. unfold irrep_same. now rewrite !Z.eqb_refl, Nat.eqb_refl. }
  cbn [andb]. rewrite !andb_true_iff. split.
  - apply forallb_forall. intros i _. apply forallb_forall. intros j _. destruct (Reqb_spec (rp_cob r i j) (rp_cob r i j)); congruence.
  - assert (X : forallb (fun x => existsb (String.eqb x) (rp_nonlin r)) (rp_nonlin r) = true).
    { apply forallb_forall. intros x Hx. apply existsb_exists. exists x. split; auto. apply String.eqb_refl. }
    auto.
Qed.
Lemma rep_eqb_name {G} (a b : rep G) : rep_eqb a b = true -> rp_name a = rp_name b.
Proof. unfold rep_eqb. rewrite !andb_true_iff. intros [[[H _] _] _]. apply String.eqb_eq. auto. Qed.

(** ** inversion of the constructor *)
Record made {G} (tin tout : ctype G) (k p : nat) (stride dil groups : nat) (gen : rep G -> rep G -> result (sblock kattr)) (m : r2conv G)
    (in_reps : list (rep G)) : Prop := {
  md_space : space_eqb (ft_gs tin) (ft_gs tout) = true;
  md_groups : group_in tin tout groups = Ok in_reps;
  md_exp : be_make rp_name rp_size rep_eqb ka_id in_reps (ft_reps tout) (k * k) gen = Ok (cv_exp m);
  md_dim : (0 < be_dimension kid_eqb (cv_exp m))%nat;
  md_in : cv_in m = tin; md_out : cv_out m = tout; md_k : cv_k m = k; md_pad : cv_pad m = (p, p);
  md_stride : cv_stride m = stride; md_dil : cv_dil m = dil; md_grp : cv_groups m = groups;
  md_bias : cv_bias m = None \/ cv_bias m = Some (bias_cols 0 (ft_reps tout)) }.
Arguments md_space {G tin tout k p stride dil groups gen m in_reps}.
Arguments md_groups {G tin tout k p stride dil groups gen m in_reps}.
Arguments md_exp {G tin tout k p stride dil groups gen m in_reps}.
Arguments md_dim {G tin tout k p stride dil groups gen m in_reps}.
Arguments md_in {G tin tout k p stride dil groups gen m in_reps}.
Arguments md_out {G tin tout k p stride dil groups gen m in_reps}.
Arguments md_k {G tin tout k p stride dil groups gen m in_reps}.
Arguments md_pad {G tin tout k p stride dil groups gen m in_reps}.
Arguments md_stride {G tin tout k p stride dil groups gen m in_reps}.
Arguments md_dil {G tin tout k p stride dil groups gen m in_reps}.
Arguments md_grp {G tin tout k p stride dil groups gen m in_reps}.
Arguments md_bias {G tin tout k p stride dil groups gen m in_reps}.

Lemma make_made {G} (tin tout : ctype G) k padding p stride dil mode groups bias sigma fco rings mo bf m :
  r2conv_make tin tout k padding stride dil mode groups bias sigma fco rings mo bf = Ok m -> parse_padding padding = Ok (p, p) ->
  exists in_reps keep rgs sig maxf, compute_basis_params k fco rings sigma dil bf = Ok (keep, rgs, sig, maxf) /\
    made tin tout k p stride dil groups (pair_block (fun rin rout => sp_build (ft_gs tin) rin rout rgs sig (Some maxf) mo) k dil keep) m in_reps /\
    parse_mode mode = Ok (cv_mode m).
Proof.
  intros H Hp. unfold r2conv_make in H. apply assert_ok in H as [H1 H]. rewrite Hp in H. cbn [rbind] in H. apply rbind_ok in H as [md [Hm H]].
  apply rbind_ok in H as [ir [Hg H]]. cbv zeta in H. apply rbind_ok in H as [[[[keep rgs] sig] maxf] [Hc H]]. apply rbind_ok in H as [e [He H]].
  destruct (Nat.eqb_spec (be_dimension kid_eqb e) 0) as [|N]; [discriminate|]. injection H as <-.
  exists ir, keep, rgs, sig, maxf. split; [auto|]. split; [|auto]. constructor; cbn; auto; try lia. destruct (_ && _)%bool; auto.
Qed.

(** what is needed of the sampled bases: sizes, different identifiers, and symmetry under the elements that satisfy [ok] *)
Definition gen_good {G} (sp : space G) (isrep : rep G -> Prop) (code : G -> gelt) (el : G -> Prop) (inv : G -> G) (ok : gelt -> Prop) (k : nat)
    (gen : rep G -> rep G -> result (sblock kattr)) : Prop :=
  forall rin rout sb, isrep rin -> isrep rout -> gen rin rout = Ok sb ->
    sb_rows sb = rp_size rout /\ sb_cols sb = rp_size rin /\ (0 < length (sb_els sb))%nat /\ NoDup (map (fun e => ka_id (fst e)) (sb_els sb)) /\
    forall t g, el g -> fg_is_element (sp_group (sp_obj sp)) (code g) = true -> ok (code g) ->
      steer (sp_obj sp) (code g) (rp_size rout) (rp_size rin) k (rp_mat rout g) (rp_mat rin (inv g)) (sb_el sb t).
Lemma pair_block_good {G} (sp : space G) isrep code el inv : space_facts sp isrep code el inv -> forall k dil keep rgs sig F T, NoDup rgs ->
  gen_good sp isrep code el inv (fun _ => True) k (pair_block (fun rin rout => sp_build sp rin rout rgs sig F T) k dil keep).
Proof.
  intros SF k dil keep rgs sig F T ND rin rout sb Hi Ho E.
  destruct (pair_block_spec sp isrep code el inv SF k dil keep rgs sig F T ND rin rout sb Hi Ho E) as [H1 [H2 [H3 [H4 H5]]]].
  do 4 (split; [assumption|]). intros t g Hg He _. exact (H5 t g Hg He).
Qed.

Section Conv.
Context {G : Type} (sp : space G) (isrep : rep G -> Prop) (code : G -> gelt) (el : G -> Prop) (inv : G -> G).
Hypothesis SF : space_facts sp isrep code el inv.
Variables (tin tout : ctype G).
Hypothesis Hsin : ft_gs tin = sp.
Hypothesis Hsout : ft_gs tout = sp.
Hypothesis Hin : Forall isrep (ft_reps tin).
Hypothesis Hout : Forall isrep (ft_reps tout).
Hypothesis Nin : names_distinct (ft_reps tin).
Hypothesis Nout : names_distinct (ft_reps tout).
Variables (k p stride dil groups : nat) (gen : rep G -> rep G -> result (sblock kattr)) (m : r2conv G) (in_reps : list (rep G)) (ok : gelt -> Prop).
Hypothesis MD : made tin tout k p stride dil groups gen m in_reps.
Hypothesis GEN : gen_good sp isrep code el inv ok k gen.
Hypothesis Hgr : (0 < groups)%nat.

Hypothesis Pin : forall r, In r (ft_reps tin) -> (0 < rp_size r)%nat.
Hypothesis Pout : forall r, In r (ft_reps tout) -> (0 < rp_size r)%nat.

Lemma in_reps_sub r : In r in_reps -> In r (ft_reps tin).
Proof.
  destruct (group_facts _ _ _ _ (md_groups MD) Hgr Nin Nout) as [ni [no [_ [_ [_ ->]]]]].
  intros H. rewrite <- (firstn_skipn ni). apply in_or_app. auto.
Qed.
Lemma gen_spec ri ro sb : In ri in_reps -> In ro (ft_reps tout) -> gen ri ro = Ok sb ->
  sb_rows sb = rp_size ro /\ sb_cols sb = rp_size ri /\ (0 < length (sb_els sb))%nat /\ NoDup (map (fun e => ka_id (fst e)) (sb_els sb)).
Proof.
  intros Hi Ho E. rewrite Forall_forall in Hin, Hout.
  destruct (GEN ri ro sb (Hin _ (in_reps_sub _ Hi)) (Hout _ Ho) E) as [H1 [H2 [H3 [H4 _]]]]. auto.
Qed.

Lemma exp_forward w : length w = be_dimension kid_eqb (cv_exp m) -> exists f, be_forward rp_name rp_size kid_eqb (cv_exp m) w = Ok f /\
  forall g o i ro ri, el g -> fg_is_element (sp_group (sp_obj sp)) (code g) = true -> ok (code g) -> nth_error (ft_reps tout) o = Some ro -> nth_error in_reps i = Some ri ->
    steer (sp_obj sp) (code g) (rp_size ro) (rp_size ri) k (rp_mat ro g) (rp_mat ri (inv g))
      (fun x r c => f (field_offset (ft_reps tout) o + r)%nat (field_offset in_reps i + c)%nat x).
Proof.
  intros Hw. assert (NI : names_distinct in_reps) by (intros a b Ha Hb; apply Nin; apply in_reps_sub; auto).
  destruct (forward_spec rp_name rp_size rp_size rep_eqb ka_id kid_eqb kid_eqb_spec rep_eqb_refl rep_eqb_name in_reps (ft_reps tout) (k * k)%nat gen (cv_exp m)
    (md_exp MD) NI Nout (fun r H => Pin r (in_reps_sub r H)) Pout gen_spec w Hw (md_dim MD)) as [f [Ef Hf]].
  exists f. split; auto. intros g o i ro ri Hg He Hok Ho Hi.
  assert (Q1 : In o (Proofs_Expansion.pos rp_name rp_size (ft_reps tout) (rp_name ro))) by (apply pos_in; eauto).
  assert (Q2 : In i (Proofs_Expansion.pos rp_name rp_size in_reps (rp_name ri))) by (apply pos_in; eauto).
  apply In_nth_error in Q1 as [q Q1]. apply In_nth_error in Q2 as [q' Q2].
  specialize (Hf ri ro q q' o i).
  destruct (gen ri ro) as [sb|] eqn:E.
  - assert (Iro := nth_error_In _ _ Ho). assert (Iri := in_reps_sub _ (nth_error_In _ _ Hi)). rewrite Forall_forall in Hin, Hout.
    destruct (GEN ri ro sb (Hin _ Iri) (Hout _ Iro) E) as [_ [_ [_ [_ H5]]]].
    destruct (Nat.eq_dec (rp_size ro) 0) as [Z|Z]; [specialize (Pout _ Iro); lia|]. destruct (Nat.eq_dec (rp_size ri) 0) as [Z'|Z']; [specialize (Pin _ Iri); lia|].
    destruct (Hf 0%nat 0%nat 0%nat Ho Hi Q1 Q2 ltac:(lia) ltac:(lia)) as [a [Ea _]].
    apply steer_ext with (F := fun x r c => rsum (length (sb_els sb)) (fun t => sb_el sb t x r c * nth (widx a (length (Proofs_Expansion.pos rp_name rp_size in_reps (rp_name ri))) (length (sb_els sb)) q q' t) w 0)).
    + apply (steer_sum _ _ _ _ _ _ _ _ (fun t x r c => sb_el sb t x r c * nth (widx a (length (Proofs_Expansion.pos rp_name rp_size in_reps (rp_name ri))) (length (sb_els sb)) q q' t) w 0)).
      intros t Ht. apply steer_scal. apply H5; auto.
    + intros x r c Hr Hc. destruct (Hf r c x Ho Hi Q1 Q2 Hr Hc) as [a' [Ea' Ef']]. rewrite Ea in Ea'. assert (a' = a) by congruence. subst a'. symmetry. exact Ef'.
  - apply steer_ext with (F := fun _ => mzero); [apply steer_zero|]. intros x r c Hr Hc. symmetry. apply (Hf r c x Ho Hi Q1 Q2 Hr Hc).
Qed.

(** ** the filter of the whole layer *)
Definition csum (L : list (rep G)) : nat := nsum (map rp_size L).
Definition cgs : nat := (csum (ft_reps tin) / groups)%nat.
Definition ogs : nat := (csum (ft_reps tout) / groups)%nat.

Lemma field_lt (L : list (rep G)) i r c n : nth_error L i = Some r -> (c < rp_size r)%nat -> (i < n)%nat -> (field_offset L i + c < field_offset L n)%nat.
Proof. intros H Hc Hi. assert (X := foffset_mono L (S i) n Hi). rewrite (foffset_S L i r H) in X. lia. Qed.

Lemma sizes : (csum (ft_reps tin) = groups * cgs)%nat /\ (csum (ft_reps tout) = groups * ogs)%nat.
Proof.
  destruct (group_facts _ _ _ _ (md_groups MD) Hgr Nin Nout) as [ni [no [[L1 L2] [P1 [P2 _]]]]].
  assert (X : forall L n, length L = (groups * n)%nat -> periodic L n -> csum L = (groups * (csum L / groups))%nat).
  { intros L n HL P. unfold csum at 1 2. rewrite <- (foffset_all L (groups * n)) by lia.
    replace (groups * n)%nat with (groups * n + 0)%nat by lia. rewrite (foffset_periodic L n P groups 0) by lia. assert (Z : field_offset L 0 = 0%nat) by reflexivity. rewrite Z, Nat.add_0_r.
    rewrite (Nat.mul_comm groups (field_offset L n)) at 2. rewrite Nat.div_mul by lia. reflexivity. }
  split; [apply (X _ ni)|apply (X _ no)]; auto.
Qed.

Lemma full_steer f g : el g -> fg_is_element (sp_group (sp_obj sp)) (code g) = true ->
  (forall o i ro ri, nth_error (ft_reps tout) o = Some ro -> nth_error in_reps i = Some ri ->
    steer (sp_obj sp) (code g) (rp_size ro) (rp_size ri) k (rp_mat ro g) (rp_mat ri (inv g))
      (fun x r c => f (field_offset (ft_reps tout) o + r)%nat (field_offset in_reps i + c)%nat x)) ->
  steer (sp_obj sp) (code g) (csum (ft_reps tout)) (csum (ft_reps tin)) k (trep (ft_reps tout) g) (trep (ft_reps tin) (inv g)) (fullf cgs ogs f).
Proof.
  intros Hg He H. destruct sizes as [Z1 Z2]. apply steer_assemble. intros o i ro ri Ho Hi.
  destruct (group_facts _ _ _ _ (md_groups MD) Hgr Nin Nout) as [ni [no [[L1 L2] [P1 [P2 EL]]]]].
  assert (Li : (i < groups * ni)%nat) by (rewrite <- L1; apply nth_error_Some; congruence).
  assert (Lo : (o < groups * no)%nat) by (rewrite <- L2; apply nth_error_Some; congruence).
  assert (Nni : ni <> 0%nat) by (intros ->; lia). assert (Nno : no <> 0%nat) by (intros ->; lia).
  assert (Di := Nat.div_mod i ni Nni). assert (Do := Nat.div_mod o no Nno). assert (Mi := Nat.mod_upper_bound i ni Nni). assert (Mo := Nat.mod_upper_bound o no Nno).
  assert (Ei := P1 i ltac:(rewrite L1; auto)). rewrite Hi in Ei. symmetry in Ei.
  assert (Eo := P2 o ltac:(rewrite L2; auto)). rewrite Ho in Eo. symmetry in Eo.
  assert (Oi : field_offset (ft_reps tin) i = ((i / ni) * field_offset (ft_reps tin) ni + field_offset (ft_reps tin) (i mod ni))%nat).
  { rewrite Di at 1. rewrite (Nat.mul_comm ni). apply foffset_periodic; auto; [lia|]. rewrite L1. lia. }
  assert (Oo : field_offset (ft_reps tout) o = ((o / no) * field_offset (ft_reps tout) no + field_offset (ft_reps tout) (o mod no))%nat).
  { rewrite Do at 1. rewrite (Nat.mul_comm no). apply foffset_periodic; auto; [lia|]. rewrite L2. lia. }
  assert (Ci : cgs = field_offset (ft_reps tin) ni).
  { unfold cgs, csum. rewrite <- (foffset_all (ft_reps tin) (groups * ni)) by lia. replace (groups * ni)%nat with (groups * ni + 0)%nat by lia.
    rewrite (foffset_periodic (ft_reps tin) ni P1 groups 0) by lia. assert (Z : field_offset (ft_reps tin) 0 = 0%nat) by reflexivity. rewrite Z, Nat.add_0_r, Nat.mul_comm. apply Nat.div_mul; lia. }
  assert (Co : ogs = field_offset (ft_reps tout) no).
  { unfold ogs, csum. rewrite <- (foffset_all (ft_reps tout) (groups * no)) by lia. replace (groups * no)%nat with (groups * no + 0)%nat by lia.
    rewrite (foffset_periodic (ft_reps tout) no P2 groups 0) by lia. assert (Z : field_offset (ft_reps tout) 0 = 0%nat) by reflexivity. rewrite Z, Nat.add_0_r, Nat.mul_comm. apply Nat.div_mul; lia. }
  assert (Val : forall x r c, (r < rp_size ro)%nat -> (c < rp_size ri)%nat ->
     fullf cgs ogs f x (field_offset (ft_reps tout) o + r)%nat (field_offset (ft_reps tin) i + c)%nat =
     if (i / ni =? o / no)%nat then f (field_offset (ft_reps tout) o + r)%nat (field_offset in_reps (i mod ni) + c)%nat x else 0).
  { intros x r c Hr Hc. assert (B1 := field_lt _ _ _ c ni Ei Hc Mi). assert (B2 := field_lt _ _ _ r no Eo Hr Mo). rewrite <- Ci in B1. rewrite <- Co in B2.
    unfold fullf. rewrite EL, foffset_firstn by lia. rewrite Oi, Oo, <- Ci, <- Co, <- !Nat.add_assoc.
    assert (Nc : cgs <> 0%nat) by lia. assert (Ng : ogs <> 0%nat) by lia. rewrite !Nat.div_add_l by auto. rewrite !(Nat.div_small (field_offset _ _ + _)) by auto. rewrite !Nat.add_0_r.
    rewrite (Nat.add_comm (i / ni * cgs)), Nat.mod_add by auto. rewrite (Nat.mod_small (_ + c)) by auto. reflexivity. }
  destruct (Nat.eqb_spec (i / ni) (o / no)) as [Eq|Ne].
  - apply steer_ext with (F := fun x r c => f (field_offset (ft_reps tout) o + r)%nat (field_offset in_reps (i mod ni) + c)%nat x).
    + apply H; auto. rewrite EL, nth_firstn by auto. auto.
    + intros x r c Hr Hc. symmetry. apply Val; auto.
  - apply steer_ext with (F := fun _ => mzero); [apply steer_zero|]. intros x r c Hr Hc. rewrite Val by auto. reflexivity.
Qed.

(** ** the bias *)
Lemma mvec_trep reps g v i r a : nth_error reps i = Some r -> (a < rp_size r)%nat ->
  mvec (csum reps) (trep reps g) v (field_offset reps i + a)%nat = mvec (rp_size r) (rp_mat r g) (fun b => v (field_offset reps i + b)%nat) a.
Proof.
  intros H Ha. unfold csum. rewrite <- (bsize_map_rep reps g). unfold trep.
  assert (E : field_offset reps i = nsum (map fst (firstn i (map (fun s => (rp_size s, rp_mat s g)) reps)))) by (unfold field_offset; rewrite firstn_map, map_map; reflexivity).
  rewrite E. apply mvec_bdiag; auto. rewrite nth_error_map, H. reflexivity.
Qed.

Lemma bias_cols_field_in q (r : rep G) (l : list (irrep G)) : forall pi v, In v (bias_cols_field q r pi l) -> exists l1 i l2, l = (l1 ++ i :: l2)%list /\ irrep_trivial i = true /\ v = fun row => if ((q <=? row) && (row <? q + rp_size r))%nat%bool then rp_cob r (row - q)%nat (pi + nsum (map ir_size l1))%nat else 0.
Proof.
  induction l as [|x l IH]; intros pi v H; [destruct H|]. cbn [bias_cols_field] in H. apply in_app_or in H as [H|H].
  - destruct (irrep_trivial x) eqn:E; [|destruct H]. destruct H as [<-|[]]. exists [], x, l. split; [auto|]. split; [auto|]. cbn. now rewrite Nat.add_0_r.
  - destruct (IH _ _ H) as [l1 [i [l2 [-> [Ht ->]]]]]. exists (x :: l1), i, l2. split; [auto|]. split; [auto|]. cbn [map nsum fold_right]. rewrite Nat.add_assoc. reflexivity.
Qed.
Lemma bias_cols_in (reps : list (rep G)) : forall q v, In v (bias_cols q reps) -> exists i r l1 ir l2, nth_error reps i = Some r /\ rp_irreps r = (l1 ++ ir :: l2)%list /\ irrep_trivial ir = true /\ v = fun row => if ((q + field_offset reps i <=? row) && (row <? q + field_offset reps i + rp_size r))%nat%bool then rp_cob r (row - (q + field_offset reps i))%nat (nsum (map ir_size l1)) else 0.
Proof.
  induction reps as [|x reps IH]; intros q v H; [destruct H|]. cbn [bias_cols] in H. apply in_app_or in H as [H|H].
  - destruct (bias_cols_field_in _ _ _ _ _ H) as [l1 [i [l2 [E [Ht ->]]]]]. exists 0%nat, x, l1, i, l2. split; [auto|]. split; [auto|]. split; [auto|].
    assert (Z : field_offset (x :: reps) 0 = 0%nat) by reflexivity. rewrite Z, Nat.add_0_r. reflexivity.
  - destruct (IH _ _ H) as [i [r [l1 [ir [l2 [E1 [E2 [Ht ->]]]]]]]]. exists (S i), r, l1, ir, l2. split; [auto|]. split; [auto|]. split; [auto|].
    assert (Z : field_offset (x :: reps) (S i) = (rp_size x + field_offset reps i)%nat) by reflexivity. rewrite Z, Nat.add_assoc. reflexivity.
Qed.

Lemma mvec_unit n A q i : (q < n)%nat -> mvec n A (fun b => mid b q) i = A i q.
Proof.
  intros H. unfold mvec. rewrite (rsum_single n q _ H).
  - unfold mid. rewrite Nat.eqb_refl. ring.
  - intros j Hj N. unfold mid. destruct (Nat.eqb_spec j q); [congruence|ring].
Qed.
(** a trivial irrep at position pi: the column pi of the change of basis is fixed *)
Lemma column_fixed r g l1 ir l2 : isrep r -> el g -> rp_irreps r = (l1 ++ ir :: l2)%list -> irrep_trivial ir = true ->
  forall a, (a < rp_size r)%nat -> mvec (rp_size r) (rp_mat r g) (fun b => rp_cob r b (nsum (map ir_size l1))) a = rp_cob r a (nsum (map ir_size l1)).
Proof.
  intros Hr Hg E Ht a Ha. set (pi := nsum (map ir_size l1)).
  assert (I : In ir (rp_irreps r)) by (rewrite E; apply in_or_app; right; left; auto).
  destruct (sf_triv _ _ _ _ _ SF r ir Hr I Ht) as [S1 S2]. assert (Acc := sf_acc _ _ _ _ _ SF r Hr). destruct Acc as [_ Acc].
  assert (Hpi : (pi < rp_size r)%nat). { unfold rp_size. rewrite E. unfold pi, isizes. rewrite map_app, nsum_app. cbn. lia. }
  unfold rp_mat. cbv zeta. rewrite mvec_mmul.
  transitivity (mvec (rp_size r) (mmul (rp_size r) (rp_cob r) (bdiag (blocks (rp_irreps r) g))) (fun b => mid b pi) a).
  { refine (mvec_compat (rp_size r) (rp_size r) _ _ _ _ (fun i j _ _ => eq_refl) _ a Ha). intros b Hb. exact (Acc b pi Hb Hpi). }
  rewrite mvec_mmul. transitivity (mvec (rp_size r) (rp_cob r) (fun b => mid b pi) a).
  2:{ apply mvec_unit; auto. }
  refine (mvec_compat (rp_size r) (rp_size r) _ _ _ _ (fun i j _ _ => eq_refl) _ a Ha). intros b Hb. rewrite mvec_unit by auto.
  unfold blocks. rewrite E, map_app. cbn [map].
  assert (Eb : bsize (map (fun s => (ir_size s, ir_mat s g)) l1) = pi) by (unfold bsize, pi; rewrite map_map; reflexivity).
  assert (X : inb (bsize (map (fun s => (ir_size s, ir_mat s g)) l1)) (ir_size ir) pi = true) by (apply inb_true; lia).
  rewrite bdiag_col by auto. rewrite Eb, S1. unfold mid. destruct (Nat.eqb_spec b pi) as [->|N].
  - assert (inb pi 1 pi = true) as -> by (apply inb_true; lia). rewrite Nat.sub_diag. apply S2; auto.
  - assert (inb pi 1 b = false) as -> by (apply inb_false; lia). reflexivity.
Qed.
Lemma bias_fixed cols bs g : el g -> (forall v, In v cols -> In v (bias_cols 0 (ft_reps tout))) ->
  veq (csum (ft_reps tout)) (mvec (csum (ft_reps tout)) (trep (ft_reps tout) g) (expand_bias cols bs)) (expand_bias cols bs).
Proof.
  intros Hg Hc row Hrow. unfold expand_bias, mvec.
  rewrite (rsum_ext _ _ (fun j => rsum (length cols) (fun c => trep (ft_reps tout) g row j * (nth c cols (fun _ => 0) j * nth c bs 0)))) by (intros; symmetry; apply rsum_scal).
  rewrite rsum_swap. apply rsum_ext. intros c Hcc. set (v := nth c cols (fun _ => 0)).
  transitivity (mvec (csum (ft_reps tout)) (trep (ft_reps tout) g) v row * nth c bs 0).
  { unfold mvec. rewrite <- rsum_scal_r. apply rsum_ext. intros. ring. }
  f_equal. assert (I : In v cols) by (apply nth_In; auto). apply Hc in I. destruct (bias_cols_in _ _ _ I) as [i [r [l1 [ir [l2 [E1 [E2 [Ht Ev]]]]]]]].
  destruct (channel_in_field (ft_reps tout) row Hrow) as [o [ro [a [Eo [Ha ->]]]]]. rewrite (mvec_trep _ _ _ _ _ _ Eo Ha). cbn [Nat.add] in Ev.
  destruct (Nat.eq_dec o i) as [->|N].
  - rewrite E1 in Eo. injection Eo as <-. rewrite Forall_forall in Hout. assert (C := column_fixed r g l1 ir l2 (Hout _ (nth_error_In _ _ E1)) Hg E2 Ht a Ha).
    assert (V : forall b, (b < rp_size r)%nat -> v (field_offset (ft_reps tout) i + b)%nat = rp_cob r b (nsum (map ir_size l1))).
    { intros b Hb. rewrite Ev. destruct (Nat.leb_spec (field_offset (ft_reps tout) i) (field_offset (ft_reps tout) i + b)); [|lia].
      destruct (Nat.ltb_spec (field_offset (ft_reps tout) i + b) (field_offset (ft_reps tout) i + rp_size r)); [|lia]. cbn [andb]. f_equal. lia. }
    rewrite V by auto. rewrite <- C. refine (mvec_compat (rp_size r) (rp_size r) _ _ _ _ (fun i j _ _ => eq_refl) _ a Ha). exact V.
  - assert (V : forall b, (b < rp_size ro)%nat -> v (field_offset (ft_reps tout) o + b)%nat = 0).
    { intros b Hb. rewrite Ev. destruct (Nat.lt_ge_cases o i) as [L|L].
      - assert (X := field_lt _ _ _ b i Eo Hb L). destruct (Nat.leb_spec (field_offset (ft_reps tout) i) (field_offset (ft_reps tout) o + b)); [lia|reflexivity].
      - assert (X := foffset_mono (ft_reps tout) (S i) o ltac:(lia)). rewrite (foffset_S _ _ _ E1) in X.
        destruct (Nat.ltb_spec (field_offset (ft_reps tout) o + b) (field_offset (ft_reps tout) i + rp_size r)); [lia|]. now rewrite andb_false_r. }
    rewrite V by auto. unfold mvec. apply rsum_0. intros b Hb. rewrite V by auto. ring.
Qed.
End Conv.
