(** The facts about spaces needed for convolutions hold for every space of the library. *)
From Coq Require Import Reals ZArith String List Bool Lia Lra.
From Verif Require Import Base Spec Model_Groups Proofs_Groups Proofs_Cont Model_Rep Proofs_Irreps Proofs_Rep Proofs_Restrict Model_FieldType Proofs_FieldType Model_GSpace Spec_GSpace Proofs_GSpace
  Model_Kernels Spec_Kernels Proofs_Kernels5 Prop_Kernels Model_Diffops2 Prop_Diffops2 Model_Conv Spec_Conv Proofs_Conv2.
Import ListNotations.
Open Scope R_scope.

Lemma rp_mat_ext {G} (r : rep G) a b : (forall i, In i (rp_irreps r) -> meq (ir_size i) (ir_size i) (ir_mat i a) (ir_mat i b)) ->
  meq (rp_size r) (rp_size r) (rp_mat r a) (rp_mat r b).
Proof.
  intros H. unfold rp_mat. cbv zeta. apply mmul_compat; [|reflexivity]. apply mmul_compat; [reflexivity|].
  assert (E : rp_size r = bsize (blocks (rp_irreps r) a)) by (unfold rp_size, bsize, blocks; rewrite map_map; reflexivity).
  rewrite E. apply bdiag_ext. unfold blocks. clear E. induction (rp_irreps r) as [|x l IH]; cbn; constructor.
  - cbn. split; auto. apply H. left; auto.
  - apply IH. intros; apply H; right; auto.
Qed.

Lemma inv_from_laws {G} (el : G -> Prop) eqv op inv (e : G) (r : rep G) : group_laws el eqv op inv e -> is_representation el op e (rp_size r) (rp_mat r) ->
  (forall a b, eqv a b -> meq (rp_size r) (rp_size r) (rp_mat r a) (rp_mat r b)) ->
  forall g, el g -> meq (rp_size r) (rp_size r) (mmul (rp_size r) (rp_mat r (inv g)) (rp_mat r g)) mid.
Proof.
  intros L [R1 R2] E g Hg. rewrite <- (R2 (inv g) g (gl_inv_el _ _ _ _ _ L g Hg) Hg). rewrite (E _ _ (gl_inv_l _ _ _ _ _ L g Hg)). apply R1.
Qed.

Lemma check_ok {A} F T (x : result A) a : check_limits F T x = Ok a -> x = Ok a.
Proof. unfold check_limits. intros H. apply assert_ok in H as [_ H]. apply assert_ok in H as [_ H]. apply assert_ok in H as [_ H]. auto. Qed.

Lemma sigma_ok {A} rings sigma (x : result A) a : check_sigma rings sigma x = Ok a -> x = Ok a.
Proof. unfold check_sigma. intros H. apply assert_ok in H as [_ H]. apply assert_ok in H as [_ H]. auto. Qed.
Lemma sigma_gauss {A} rings sigma g (x : result A) : gauss_make rings sigma = Ok g -> check_sigma rings sigma x = x.
Proof.
  unfold gauss_make, check_sigma. intros H. apply assert_ok in H as [H1 H]. apply assert_ok in H as [_ H]. apply assert_ok in H as [H2 _].
  rewrite H2. cbn [assert_]. rewrite Nat.eqb_sym, H1. reflexivity.
Qed.

Lemma cyc_facts N r i : cyc_rep N r -> In i (rp_irreps r) -> (0 < ir_size i)%nat /\ (irrep_trivial i = true -> ir_size i = 1%nat /\ forall g, ir_mat i g 0%nat 0%nat = 1).
Proof.
  intros [_ H] I. rewrite Forall_forall in H. destruct (H i I) as [k E]. destruct (cyc_irrep_inv _ _ _ E) as [_ [F1 [F2 C]]]. unfold irrep_trivial. rewrite F1, F2.
  destruct C as [[-> [-> ->]]|[[Hk [_ [_ [-> _]]]]|[Hk [_ [-> _]]]]]; (split; [lia|]); auto; destruct (Z.eqb_spec k 0); try easy; discriminate.
Qed.
Lemma dih_facts N r i : (0 < N)%Z -> dih_rep N r -> In i (rp_irreps r) -> (0 < ir_size i)%nat /\ (irrep_trivial i = true -> ir_size i = 1%nat /\ forall g, ir_mat i g 0%nat 0%nat = 1).
Proof.
  intros HN [_ H] I. rewrite Forall_forall in H. destruct (H i I) as [j [k E]]. destruct (dih_irrep_inv _ _ _ _ HN E) as [_ [F1 [F2 C]]]. unfold irrep_trivial. rewrite F1, F2.
  destruct C as [[-> [-> [-> ->]]]|[[-> [-> [-> _]]]|[[Hk [_ [_ [-> _]]]]|[[Hk [_ [_ [-> _]]]]|[Hk [_ [_ [-> _]]]]]]]]; (split; [lia|]); auto; try discriminate; destruct (Z.eqb_spec k 0); try easy; discriminate.
Qed.
Lemma so2_facts r i : so2_rep r -> In i (rp_irreps r) -> (0 < ir_size i)%nat /\ (irrep_trivial i = true -> ir_size i = 1%nat /\ forall g, ir_mat i g 0%nat 0%nat = 1).
Proof.
  intros [_ H] I. rewrite Forall_forall in H. destruct (H i I) as [k E]. destruct (so2_irrep_inv _ _ E) as [_ [F1 [F2 C]]]. unfold irrep_trivial. rewrite F1, F2.
  destruct C as [[-> [-> ->]]|[Hk [-> _]]]; (split; [lia|]); auto; destruct (Z.eqb_spec k 0); try easy; discriminate.
Qed.
Lemma o2_facts r i : o2_rep r -> In i (rp_irreps r) -> (0 < ir_size i)%nat /\ (irrep_trivial i = true -> ir_size i = 1%nat /\ forall g, ir_mat i g 0%nat 0%nat = 1).
Proof.
  intros [_ H] I. rewrite Forall_forall in H. destruct (H i I) as [j [k E]]. destruct (o2_irrep_inv _ _ _ E) as [_ [F1 [F2 C]]]. unfold irrep_trivial. rewrite F1, F2.
  destruct C as [[-> [-> [-> ->]]]|[[-> [-> [-> _]]]|[Hk [_ [-> _]]]]]; (split; [lia|]); auto; try discriminate; destruct (Z.eqb_spec k 0); try easy; discriminate.
Qed.
Lemma so2_rep_ext r a b : so2_rep r -> cong2pi a b -> meq (rp_size r) (rp_size r) (rp_mat r a) (rp_mat r b).
Proof.
  intros [_ H] E. apply rp_mat_ext. intros i I. rewrite Forall_forall in H. destruct (H i I) as [k Hk]. apply (so2_irrep_rep _ _ Hk); auto.
Qed.
Lemma o2_rep_ext r a b : o2_rep r -> o2_eqv a b -> meq (rp_size r) (rp_size r) (rp_mat r a) (rp_mat r b).
Proof.
  intros [_ H] E. apply rp_mat_ext. intros i I. rewrite Forall_forall in H. destruct (H i I) as [j [k Hk]]. apply (o2_irrep_rep _ _ _ Hk); auto.
Qed.

Lemma space_ok G sp isrep : planar_space G sp isrep -> exists code el inv, space_facts sp isrep code el inv.
Proof.
  intros H. destruct H as [N HN|B HB|N axis HN|B axis HB|axis|].
  - exists EI, (cyc_el N), (cyc_inverse N). constructor.
    + split; [cbn; lia|]. cbn. destruct (Z.ltb_spec 1 N); [auto|lia].
    + intros [k|a|f k|f a] He; cbn in He; try discriminate. exists k. auto.
    + intros rin rout rings sigma F T b Hi Ho Hb. apply sigma_ok in Hb. apply check_ok in Hb. split; [eexists; exact Hb|]. apply (C23_cyclic N rin rout rings sigma F T b); auto; lia.
    + intros rin rout P F T b Hi Ho Hb. apply check_ok in Hb. split; [eexists; exact Hb|]. apply (C36_cyclic N rin rout P F T b); auto; lia.
    + intros r g Hr Hg. apply (inv_from_laws (cyc_el N) eq (cyc_combine N) (cyc_inverse N) cyc_identity); auto; [apply cyc_laws; lia|apply cyc_rep_is; auto; lia|]. intros a b ->. reflexivity.
    + intros r Hr; apply Hr.
    + intros r i Hr Hi. apply (cyc_facts N r i Hr Hi).
    + intros r i Hr Hi Ht. destruct (proj2 (cyc_facts N r i Hr Hi) Ht); auto.
  - exists ER, so2_el, so2_inverse. constructor.
    + split; [cbn; lia|]. reflexivity.
    + intros [k|a|f k|f a] He; cbn in He; try discriminate. exists a. split; [exact I|auto].
    + intros rin rout rings sigma F T b Hi Ho Hb. apply sigma_ok in Hb. split; [eexists; exact Hb|]. apply (C23_SO2 B rin rout rings sigma b); auto.
    + intros rin rout P F T b Hi Ho Hb. split; [eexists; exact Hb|]. apply (C36_SO2 B rin rout P b); auto.
    + intros r g Hr Hg. apply (inv_from_laws so2_el cong2pi so2_combine so2_inverse so2_identity); auto; [apply so2_laws|apply so2_rep_is; auto|]. intros a b. apply so2_rep_ext; auto.
    + intros r Hr; apply Hr.
    + intros r i Hr Hi. apply (so2_facts r i Hr Hi).
    + intros r i Hr Hi Ht. destruct (proj2 (so2_facts r i Hr Hi) Ht); auto.
  - exists (fun g => EFI (fst g) (snd g)), (dih_el N), (dih_inverse N). constructor.
    + split; [cbn; lia|]. cbn. destruct (Z.ltb_spec 1 N); [auto|lia].
    + intros [k|a|f k|f a] He; cbn in He; try discriminate. exists (f, k). auto.
    + intros rin rout rings sigma F T b Hi Ho Hb. apply sigma_ok in Hb. apply check_ok in Hb. split; [eexists; exact Hb|]. apply (C23_dihedral N axis rin rout rings sigma F T b); auto; lia.
    + intros rin rout P F T b Hi Ho Hb. apply check_ok in Hb. split; [eexists; exact Hb|]. apply (C36_dihedral N axis rin rout P F T b); auto; lia.
    + intros r g Hr Hg. apply (inv_from_laws (dih_el N) eq (dih_combine N) (dih_inverse N) dih_identity); auto; [apply dih_laws; lia|apply dih_rep_is; auto; lia|]. intros a b ->. reflexivity.
    + intros r Hr; apply Hr.
    + intros r i Hr Hi. apply (dih_facts N r i ltac:(lia) Hr Hi).
    + intros r i Hr Hi Ht. destruct (proj2 (dih_facts N r i ltac:(lia) Hr Hi) Ht); auto.
  - exists (fun g => EFR (fst g) (snd g)), o2_el, o2_inverse. constructor.
    + split; [cbn; lia|]. reflexivity.
    + intros [k|a|f k|f a] He; cbn in He; try discriminate. exists (f, a). auto.
    + intros rin rout rings sigma F T b Hi Ho Hb. apply sigma_ok in Hb. split; [eexists; exact Hb|]. apply (C23_O2 B axis rin rout rings sigma b); auto.
    + intros rin rout P F T b Hi Ho Hb. split; [eexists; exact Hb|]. apply (C36_O2 B axis rin rout P b); auto.
    + intros r g Hr Hg. apply (inv_from_laws o2_el o2_eqv o2_combine o2_inverse o2_identity); auto; [apply o2_laws|apply o2_rep_is; auto|]. intros a b. apply o2_rep_ext; auto.
    + intros r Hr; apply Hr.
    + intros r i Hr Hi. apply (o2_facts r i Hr Hi).
    + intros r i Hr Hi Ht. destruct (proj2 (o2_facts r i Hr Hi) Ht); auto.
  - exists EI, (cyc_el 2), (cyc_inverse 2). constructor.
    + split; [cbn; lia|]. reflexivity.
    + intros [k|a|f k|f a] He; cbn in He; try discriminate. exists k. auto.
    + intros rin rout rings sigma F T b Hi Ho Hb. apply sigma_ok in Hb. apply check_ok in Hb. split; [eexists; apply (proj2 (assert_ok _ _ _ Hb))|]. apply (C23_mirror 2 axis rin rout rings sigma F T b); auto.
    + intros rin rout P F T b Hi Ho Hb. apply check_ok in Hb. split; [eexists; apply (proj2 (assert_ok _ _ _ Hb))|]. apply (C36_mirror 2 axis rin rout P F T b); auto.
    + intros r g Hr Hg. apply (inv_from_laws (cyc_el 2) eq (cyc_combine 2) (cyc_inverse 2) cyc_identity); auto; [apply cyc_laws; lia|apply cyc_rep_is; auto; lia|]. intros a b ->. reflexivity.
    + intros r Hr; apply Hr.
    + intros r i Hr Hi. apply (cyc_facts 2 r i Hr Hi).
    + intros r i Hr Hi Ht. destruct (proj2 (cyc_facts 2 r i Hr Hi) Ht); auto.
  - exists EI, (cyc_el 1), (cyc_inverse 1). constructor.
    + split; [cbn; lia|]. reflexivity.
    + intros [k|a|f k|f a] He; cbn in He; try discriminate. exists k. auto.
    + intros rin rout rings sigma F T b Hi Ho Hb. apply sigma_ok in Hb. apply check_ok in Hb. split; [eexists; apply (proj2 (assert_ok _ _ _ Hb))|]. apply (C23_trivial 1 rin rout rings sigma F T b); auto.
    + intros rin rout P F T b Hi Ho Hb. apply check_ok in Hb. split; [eexists; apply (proj2 (assert_ok _ _ _ Hb))|]. apply (C36_trivial 1 rin rout P F T b); auto.
    + intros r g Hr Hg. apply (inv_from_laws (cyc_el 1) eq (cyc_combine 1) (cyc_inverse 1) cyc_identity); auto; [apply cyc_laws; lia|apply cyc_rep_is; auto; lia|]. intros a b ->. reflexivity.
    + intros r Hr; apply Hr.
    + intros r i Hr Hi. apply (cyc_facts 1 r i Hr Hi).
    + intros r i Hr Hi Ht. destruct (proj2 (cyc_facts 1 r i Hr Hi) Ht); auto.
Qed.
