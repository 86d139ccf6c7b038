(** Proofs about SO(2) and O(2): group laws modulo 2*pi and subgroup maps. *)
From Coq Require Import Reals ZArith List Bool Lia Lra Psatz.
From Verif Require Import Base Spec Model_Groups Proofs_Groups.
Import ListNotations.
Open Scope R_scope.

Lemma rmod_bounds x T : 0 < T -> 0 <= rmod x T < T.
Proof.
  intros HT. unfold rmod. destruct (base_Int_part (x / T)) as [H1 H2].
  assert (E : x = T * (x / T)) by (field; lra). split.
  - rewrite E at 1. rewrite <- Rmult_minus_distr_l. apply Rmult_le_pos; lra.
  - rewrite E at 1. rewrite <- Rmult_minus_distr_l.
    rewrite <- (Rmult_1_r T) at 4. apply Rmult_lt_compat_l; lra.
Qed.

Lemma rmod_decomp x T : exists k : Z, rmod x T = x + T * IZR k.
Proof. exists (- Int_part (x / T))%Z. unfold rmod. rewrite opp_IZR. ring. Qed.

Lemma rmod_0_iff x T : 0 < T -> (rmod x T = 0 <-> exists k : Z, x = T * IZR k).
Proof.
  intros HT. split.
  - intros H. destruct (rmod_decomp x T) as [k Hk]. exists (- k)%Z. rewrite opp_IZR. lra.
  - intros [k ->]. destruct (rmod_decomp (T * IZR k) T) as [q Hq].
    destruct (rmod_bounds (T * IZR k) T HT) as [B1 B2].
    rewrite Hq in *. rewrite <- Rmult_plus_distr_l in *.
    rewrite <- plus_IZR in *.
    assert (0 <= IZR (k + q) < 1) as [C1 C2].
    { split.
      - apply Rmult_le_reg_l with T; lra.
      - apply Rmult_lt_reg_l with T; lra. }
    assert ((k + q)%Z = 0%Z) as ->.
    { apply le_IZR in C1. change 1 with (IZR 1) in C2. apply lt_IZR in C2. lia. }
    simpl; ring.
Qed.

(** the (idealised) cyclic closeness test is equality modulo S *)
Lemma cycle_isclose_iff a b S : 0 < S ->
  (cycle_isclose a b S = true <-> exists k : Z, a - b = S * IZR k).
Proof.
  intros HS. unfold cycle_isclose. destruct (Req_EM_T (rmod (a - b) S) 0) as [E|E].
  - split; auto. intros _. apply rmod_0_iff; auto.
  - destruct (Req_EM_T (rmod (a - b) S) S) as [E2|E2].
    + destruct (rmod_bounds (a - b) S HS). lra.
    + split; [discriminate|]. intros H. exfalso; apply E. apply rmod_0_iff; auto.
Qed.

Lemma two_pi_pos : 0 < 2 * PI.
Proof. generalize PI_RGT_0; lra. Qed.

Lemma so2_equal_iff a b : so2_equal a b = true <-> cong2pi a b.
Proof.
  unfold so2_equal, cong2pi. rewrite cycle_isclose_iff by apply two_pi_pos.
  split; intros [k H]; exists k; lra.
Qed.

Lemma cong2pi_refl a : cong2pi a a.
Proof. exists 0%Z; simpl; ring. Qed.
Lemma cong2pi_eq a b : a = b -> cong2pi a b.
Proof. intros ->; apply cong2pi_refl. Qed.
Lemma cong2pi_sym a b : cong2pi a b -> cong2pi b a.
Proof. intros [k ->]; exists (- k)%Z; rewrite opp_IZR; ring. Qed.
Lemma cong2pi_trans a b c : cong2pi a b -> cong2pi b c -> cong2pi a c.
Proof. intros [k ->] [q ->]; exists (q + k)%Z; rewrite plus_IZR; ring. Qed.
Lemma cong2pi_plus a b c d : cong2pi a b -> cong2pi c d -> cong2pi (a + c) (b + d).
Proof. intros [k ->] [q ->]; exists (k + q)%Z; rewrite plus_IZR; ring. Qed.
Lemma cong2pi_opp a b : cong2pi a b -> cong2pi (- a) (- b).
Proof. intros [k ->]; exists (- k)%Z; rewrite opp_IZR; ring. Qed.
Lemma cong2pi_mulZ a b (m : Z) : cong2pi a b -> cong2pi (IZR m * a) (IZR m * b).
Proof. intros [k ->]; exists (m * k)%Z; rewrite mult_IZR; ring. Qed.
Lemma cong2pi_rmod a : cong2pi (rmod a (2 * PI)) a.
Proof. destruct (rmod_decomp a (2 * PI)) as [k Hk]; exists k; rewrite Hk; ring. Qed.

(** a group element of SO(2) is any float *)
Definition so2_el (_ : R) : Prop := True.

Lemma so2_laws : group_laws so2_el cong2pi so2_combine so2_inverse so2_identity.
Proof.
  unfold so2_combine, so2_inverse, so2_identity.
  split; intros; try exact I.
  - eapply cong2pi_trans; [apply cong2pi_rmod|].
    eapply cong2pi_trans; [apply cong2pi_plus; [apply cong2pi_rmod|apply cong2pi_refl]|].
    apply cong2pi_sym. eapply cong2pi_trans; [apply cong2pi_rmod|].
    eapply cong2pi_trans; [apply cong2pi_plus; [apply cong2pi_refl|apply cong2pi_rmod]|].
    rewrite Rplus_assoc; apply cong2pi_refl.
  - rewrite Rplus_0_l; apply cong2pi_rmod.
  - rewrite Rplus_0_r; apply cong2pi_rmod.
  - eapply cong2pi_trans; [apply cong2pi_rmod|].
    eapply cong2pi_trans; [apply cong2pi_plus; [apply cong2pi_rmod|apply cong2pi_refl]|].
    rewrite Rplus_opp_l; apply cong2pi_refl.
  - eapply cong2pi_trans; [apply cong2pi_rmod|].
    eapply cong2pi_trans; [apply cong2pi_plus; [apply cong2pi_refl|apply cong2pi_rmod]|].
    rewrite Rplus_opp_r; apply cong2pi_refl.
Qed.

Lemma so2_range a b : 0 <= so2_combine a b < 2 * PI /\ 0 <= so2_inverse a < 2 * PI.
Proof. split; apply rmod_bounds, two_pi_pos. Qed.

Lemma so2_compat a a' b b' : cong2pi a a' -> cong2pi b b' ->
  so2_combine a b = so2_combine a' b' /\ so2_inverse a = so2_inverse a'.
Proof.
  intros Ha Hb.
  assert (U : forall x y, cong2pi x y -> rmod x (2*PI) = rmod y (2*PI)).
  { intros x y Hxy.
    assert (C : cong2pi (rmod x (2*PI)) (rmod y (2*PI))).
    { eapply cong2pi_trans; [apply cong2pi_rmod|]. eapply cong2pi_trans; [apply Hxy|].
      apply cong2pi_sym, cong2pi_rmod. }
    destruct C as [k Hk].
    destruct (rmod_bounds x (2*PI) two_pi_pos). destruct (rmod_bounds y (2*PI) two_pi_pos).
    assert (k = 0%Z) as ->.
    { assert (IZR k < 1) by (apply Rmult_lt_reg_l with (2*PI); [apply two_pi_pos|]; lra).
      assert (-1 < IZR k) by (apply Rmult_lt_reg_l with (2*PI); [apply two_pi_pos|]; lra).
      change 1 with (IZR 1) in H3; apply lt_IZR in H3.
      change (-1) with (IZR (-1)) in H4; apply lt_IZR in H4. lia. }
    simpl in Hk. lra. }
  split; apply U; [apply cong2pi_plus; auto|apply cong2pi_opp; auto].
Qed.

(** O(2): pairs (flip, angle), flips 0/1, angles modulo 2 pi *)
Definition o2_el (e : Z * R) : Prop := o2_is_element e = true.
Definition o2_eqv (a b : Z * R) : Prop := fst a = fst b /\ cong2pi (snd a) (snd b).

Lemma o2_el_iff j x : o2_el (j, x) <-> (j = 0 \/ j = 1)%Z.
Proof. unfold o2_el, o2_is_element; simpl. rewrite orb_true_iff, !Z.eqb_eq; tauto. Qed.

Lemma o2_equal_iff a b : o2_equal a b = true <-> o2_eqv a b.
Proof.
  unfold o2_equal, o2_eqv. rewrite andb_true_iff, Z.eqb_eq.
  fold (so2_equal (snd a) (snd b)). rewrite so2_equal_iff. tauto.
Qed.

Lemma sgn_sq j : IZR (sgn j) * IZR (sgn j) = 1.
Proof. unfold sgn; destruct (Z.eqb j 0); lra. Qed.

Lemma o2_laws : group_laws o2_el o2_eqv o2_combine o2_inverse o2_identity.
Proof.
  unfold o2_combine, o2_inverse, o2_identity, o2_eqv.
  split.
  - apply o2_el_iff; auto.
  - intros [i a] [j b] Ha Hb; apply o2_el_iff in Ha; apply o2_el_iff in Hb; apply o2_el_iff.
    simpl. apply sgn_mod2; auto.
  - intros [i a] Ha; apply o2_el_iff in Ha; apply o2_el_iff; auto.
  - intros [i a] [j b] [l c] Ha Hb Hc; apply o2_el_iff in Ha; apply o2_el_iff in Hb; cbn [fst snd].
    split; [rewrite Z.add_mod_idemp_l, Z.add_mod_idemp_r by lia; f_equal; lia|].
    destruct (sgn_mod2 i j) as [_ ->]; auto. rewrite mult_IZR.
    match goal with |- cong2pi ?x ?y => replace x with y by ring end. apply cong2pi_refl.
  - intros [i a] Ha; apply o2_el_iff in Ha; cbn [fst snd sgn Z.eqb].
    split; [rewrite Z.mod_small; lia|].
    match goal with |- cong2pi ?x ?y => replace x with y by ring end. apply cong2pi_refl.
  - intros [i a] Ha; apply o2_el_iff in Ha; cbn [fst snd].
    split; [rewrite Z.mod_small; lia|].
    match goal with |- cong2pi ?x ?y => replace x with y by ring end. apply cong2pi_refl.
  - intros [i a] Ha; apply o2_el_iff in Ha; cbn [fst snd].
    split; [destruct Ha as [->| ->]; reflexivity|].
    match goal with |- cong2pi ?x ?y => replace x with y by ring end. apply cong2pi_refl.
  - intros [i a] Ha; apply o2_el_iff in Ha; cbn [fst snd].
    split; [destruct Ha as [->| ->]; reflexivity|].
    match goal with |- cong2pi ?x ?y => replace x with y end. apply cong2pi_refl.
    generalize (sgn_sq i); intros S.
    replace (a + IZR (sgn i) * (- a * IZR (sgn i))) with (a - a * (IZR (sgn i) * IZR (sgn i))) by ring.
    rewrite S; ring.
Qed.

Lemma o2_compat a a' b b' : o2_eqv a a' -> o2_eqv b b' ->
  o2_eqv (o2_combine a b) (o2_combine a' b') /\ o2_eqv (o2_inverse a) (o2_inverse a').
Proof.
  intros [Ha1 Ha2] [Hb1 Hb2]. unfold o2_combine, o2_inverse, o2_eqv; cbn [fst snd].
  rewrite Ha1, Hb1. repeat split.
  - apply cong2pi_plus; auto. apply cong2pi_mulZ; auto.
  - rewrite !(Rmult_comm _ (IZR (sgn (fst a')))). apply cong2pi_mulZ, cong2pi_opp; auto.
Qed.

(** ** rounding *)
Lemma Int_part_IZR n : Int_part (IZR n) = n.
Proof.
  destruct (base_Int_part (IZR n)) as [H1 H2].
  apply le_IZR in H1. assert (IZR n < IZR (Int_part (IZR n) + 1)) by (rewrite plus_IZR; lra).
  apply lt_IZR in H. lia.
Qed.

Lemma py_round_IZR n : py_round (IZR n) = n.
Proof.
  unfold py_round. rewrite Int_part_IZR.
  destruct (Rlt_dec (IZR n - IZR n) (1/2)); [auto|lra].
Qed.

(** ** the maps of the cyclic subgroup of order M of SO(2) *)
Section CycMaps.
Variable M : Z.
Hypothesis HM : (0 < M)%Z.

Let HMr : 0 < IZR M.
Proof. apply (IZR_lt 0); auto. Qed.

Lemma step_pos : 0 < 2 * PI / IZR M.
Proof. unfold Rdiv; apply Rmult_lt_0_compat; [apply two_pi_pos|apply Rinv_0_lt_compat; auto]. Qed.

Lemma cyc_angle_cong (a b : Z) : cong2pi (IZR a * 2 * PI / IZR M) (IZR b * 2 * PI / IZR M) <->
  (a mod M = b mod M)%Z.
Proof.
  generalize PI_RGT_0; intros HPI. split.
  - intros [k Hk].
    assert (IZR a = IZR (b + k * M)) as E.
    { rewrite plus_IZR, mult_IZR.
      replace (IZR a) with (IZR a * 2 * PI / IZR M * (IZR M / (2 * PI))) by (field; lra).
      rewrite Hk. field; lra. }
    apply eq_IZR in E. apply mod_eq_k with k; lia.
  - intros H. destruct (mod_decomp M a) as [q Hq]; [lia|]. destruct (mod_decomp M b) as [r Hr]; [lia|].
    exists (r - q)%Z. assert (a = b + (r - q) * M)%Z as -> by lia.
    rewrite plus_IZR, mult_IZR. field. lra.
Qed.

Lemma close_step_iff x : cycle_isclose x 0 (2 * PI / IZR M) = true <->
  exists k : Z, x = IZR k * 2 * PI / IZR M.
Proof.
  rewrite cycle_isclose_iff by apply step_pos.
  split; intros [k Hk]; exists k; [|rewrite Hk; field; lra].
  rewrite Rminus_0_r in Hk. rewrite Hk. field; lra.
Qed.

Lemma round_step (k : Z) : py_round (IZR k * 2 * PI / IZR M * IZR M / (2 * PI)) = k.
Proof.
  replace (IZR k * 2 * PI / IZR M * IZR M / (2 * PI)) with (IZR k) by (field; generalize PI_RGT_0; lra).
  apply py_round_IZR.
Qed.
End CycMaps.

(** SO(2) -> C_M.  The parent map embeds C_M up to angle equality; the child map answers None exactly
    outside the subgroup, and otherwise an integer standing for the right element *modulo M*. *)
Lemma so2_subgroup_spec M s : so2_subgroup M = Ok s ->
  exists parent child, s = SubC M parent child /\ (0 < M)%Z /\
  embedding (cyc_el M) eq (cyc_combine M) cyc_identity so2_el cong2pi so2_combine so2_identity parent /\
  (forall h, cyc_el M h -> child (parent h) = Some h) /\
  (forall g, match child g with
             | Some h => cong2pi g (parent (h mod M)%Z) /\
                         (0 <= g < 2 * PI -> cyc_el M h)
             | None => forall h, cyc_el M h -> ~ cong2pi g (parent h)
             end).
Proof.
  unfold so2_subgroup, cyc_group, assert_, rbind. destruct (Z.ltb_spec 0 M) as [HM|HM]; [|discriminate].
  intros H; injection H as <-. do 2 eexists; split; [reflexivity|]. split; [auto|].
  assert (HMr : 0 < IZR M) by (apply (IZR_lt 0); auto).
  split; [|split].
  - split.
    + intros; exact I.
    + unfold cyc_identity, so2_identity. replace (IZR 0 * 2 * PI / IZR M) with 0 by (simpl; field; lra).
      apply cong2pi_refl.
    + intros a b Ha Hb. unfold so2_combine. apply cong2pi_sym.
      eapply cong2pi_trans; [apply cong2pi_rmod|].
      replace (IZR a * 2 * PI / IZR M + IZR b * 2 * PI / IZR M) with (IZR (a + b) * 2 * PI / IZR M)
        by (rewrite plus_IZR; field; lra).
      apply cyc_angle_cong; auto. unfold cyc_combine. rewrite Z.mod_mod; lia.
    + intros a b Ha Hb E. apply cyc_el_iff in Ha. apply cyc_el_iff in Hb.
      apply cyc_angle_cong in E; auto. rewrite !Z.mod_small in E; auto.
  - intros h Hh. assert (C : cycle_isclose (IZR h * 2 * PI / IZR M) 0 (2 * PI / IZR M) = true)
      by (apply close_step_iff; [auto|exists h; reflexivity]).
    rewrite C. f_equal. apply round_step; auto.
  - intros g. destruct (cycle_isclose g 0 (2 * PI / IZR M)) eqn:E.
    + apply close_step_iff in E; auto. destruct E as [k ->]. rewrite round_step by auto. split.
      * apply cyc_angle_cong; auto. rewrite Z.mod_mod; lia.
      * intros [B1 B2]. apply cyc_el_iff. generalize PI_RGT_0; intros HP. split.
        -- apply le_IZR. apply Rmult_le_reg_r with (2 * PI / IZR M); [apply step_pos; auto|].
           simpl. replace (IZR k * (2 * PI / IZR M)) with (IZR k * 2 * PI / IZR M) by (field; lra). lra.
        -- apply lt_IZR. apply Rmult_lt_reg_r with (2 * PI / IZR M); [apply step_pos; auto|].
           replace (IZR k * (2 * PI / IZR M)) with (IZR k * 2 * PI / IZR M) by (field; lra).
           replace (IZR M * (2 * PI / IZR M)) with (2 * PI) by (field; lra). lra.
    + intros h Hh C. destruct C as [k Hk].
      assert (cycle_isclose g 0 (2 * PI / IZR M) = true); [|congruence].
      apply close_step_iff; auto. exists (h + k * M)%Z. rewrite Hk, plus_IZR, mult_IZR. field; lra.
Qed.

(** The child map of SO(2) can answer an integer which is not an element of the subgroup. *)
Lemma so2_child_out_of_range : exists M parent child g h,
  so2_subgroup M = Ok (SubC M parent child) /\ child g = Some h /\ ~ cyc_el M h.
Proof.
  exists 4%Z. do 2 eexists. exists (2 * PI), 4%Z. split; [reflexivity|]. split.
  - assert (C : cycle_isclose (2 * PI) 0 (2 * PI / 4) = true).
    { apply (close_step_iff 4); [lia|]. exists 4%Z. field. }
    rewrite C. f_equal.
    replace (2 * PI * 4 / (2 * PI)) with (IZR 4) by (field; generalize PI_RGT_0; lra).
    apply py_round_IZR.
  - rewrite cyc_el_iff. lia.
Qed.

(** ** the finite subgroups of O(2) *)
Lemma o2_fin_subgroup_spec id s : o2_subgroup id = Ok s ->
  match s with
  | SubO2 parent child =>
      embedding o2_el o2_eqv o2_combine o2_identity o2_el o2_eqv o2_combine o2_identity parent /\
      (forall g, o2_el g -> exists h, child g = Some h /\ o2_el h /\ o2_eqv (parent h) g) /\
      (forall h, o2_el h -> exists h', child (parent h) = Some h' /\ o2_eqv h' h)
  | SubSO2 parent child =>
      embedding so2_el cong2pi so2_combine so2_identity o2_el o2_eqv o2_combine o2_identity parent /\
      (forall h, child (parent h) = Some h) /\
      (forall g, o2_el g -> match child g with
                 | Some h => parent h = g
                 | None => forall h, ~ o2_eqv (parent h) g end)
  | SubFin (SubC M parent child) =>
      embedding (cyc_el M) eq (cyc_combine M) cyc_identity o2_el o2_eqv o2_combine o2_identity parent /\
      (forall h, cyc_el M h -> child (parent h) = Some h) /\
      (forall g, o2_el g -> match child g with
                 | Some h => o2_eqv g (parent (h mod M)%Z)
                 | None => forall h, cyc_el M h -> ~ o2_eqv (parent h) g end)
  | SubFin (SubD M parent child) =>
      embedding (dih_el M) eq (dih_combine M) dih_identity o2_el o2_eqv o2_combine o2_identity parent /\
      (forall h, dih_el M h -> child (parent h) = Some h) /\
      (forall g, o2_el g -> match child g with
                 | Some h => o2_eqv g (parent (fst h, snd h mod M)%Z)
                 | None => forall h, dih_el M h -> ~ o2_eqv (parent h) g end)
  end.
Proof.
  destruct id as [[a|] order]; unfold o2_subgroup, assert_; cbn [fst snd].
  - destruct (Z.eqb_spec order 0); [discriminate|].
    destruct ((Rleb 0 a && Rltb a (2 * PI / IZR order)) || (order <? 0)%Z)%bool eqn:Hr; [|discriminate].
    destruct (Z.eqb_spec order (-1)) as [->|Hm1].
    { (* O(2) about another axis *)
      intros H; injection H as <-. split; [|split].
      - split.
        + intros [j x] Hj; apply o2_el_iff in Hj; apply o2_el_iff; auto.
        + unfold o2_identity, o2_eqv; cbn [fst snd]. split; auto.
          replace (0 + IZR 0 * a) with 0 by (simpl; ring). apply cong2pi_refl.
        + intros [i x] [j y] Hi Hj; apply o2_el_iff in Hi; apply o2_el_iff in Hj.
          unfold o2_combine, o2_eqv; cbn [fst snd]. split; auto.
          destruct Hi as [->| ->]; destruct Hj as [->| ->]; cbn [sgn Z.eqb];
            try (change ((0 + 0) mod 2)%Z with 0%Z); try (change ((0 + 1) mod 2)%Z with 1%Z);
            try (change ((1 + 0) mod 2)%Z with 1%Z); try (change ((1 + 1) mod 2)%Z with 0%Z);
            (apply cong2pi_eq; simpl; ring).
        + intros [i x] [j y] _ _ [E1 E2]; cbn [fst snd] in *. subst j. split; auto; cbn [fst snd].
          destruct E2 as [k Hk]. exists k. cbn [fst snd] in *. lra.
      - intros [j x] Hg; apply o2_el_iff in Hg; cbn [fst snd]. eexists; split; [reflexivity|]. split.
        + apply o2_el_iff; auto.
        + split; cbn [fst snd]; auto.
          replace (x - IZR j * a + IZR j * a) with x by ring. apply cong2pi_refl.
      - intros [j x] Hg; cbn [fst snd]. eexists; split; [reflexivity|]. split; cbn [fst snd]; auto.
        replace (x + IZR j * a - IZR j * a) with x by ring. apply cong2pi_refl. }
    destruct (Z.eqb_spec order 1) as [->|H1].
    { (* one reflection *)
      unfold cyc_group, assert_; simpl. intros H; injection H as <-. split; [|split].
      - split.
        + intros e He; apply cyc_el_iff in He; apply o2_el_iff; lia.
        + unfold o2_eqv, cyc_identity, o2_identity; cbn [fst snd]. split; auto.
          replace (a * IZR 0) with 0 by (simpl; ring). apply cong2pi_refl.
        + intros i j Hi Hj; apply cyc_el_iff in Hi; apply cyc_el_iff in Hj.
          unfold o2_eqv, cyc_combine, o2_combine; cbn [fst snd]. split; auto.
          assert (i = 0 \/ i = 1)%Z as [->| ->] by lia; assert (j = 0 \/ j = 1)%Z as [->| ->] by lia;
            cbn [sgn Z.eqb];
            try (change ((0 + 0) mod 2)%Z with 0%Z); try (change ((0 + 1) mod 2)%Z with 1%Z);
            try (change ((1 + 0) mod 2)%Z with 1%Z); try (change ((1 + 1) mod 2)%Z with 0%Z);
            (apply cong2pi_eq; simpl; ring).
        + intros i j _ _ [E _]; exact E.
      - intros h Hh; cbn [fst snd].
        assert (C : cycle_isclose (a * IZR h) (a * IZR h) (2 * PI) = true).
        { apply cycle_isclose_iff; [apply two_pi_pos|]. exists 0%Z; simpl; ring. }
        rewrite C; auto.
      - intros [j x] Hg; apply o2_el_iff in Hg; cbn [fst snd].
        destruct (cycle_isclose x (a * IZR j) (2 * PI)) eqn:E.
        + apply cycle_isclose_iff in E; [|apply two_pi_pos]. destruct E as [k Hk].
          rewrite Z.mod_small by lia. split; cbn [fst snd]; auto. exists k; lra.
        + intros h Hh [E1 E2]; cbn [fst snd] in *. subst h.
          assert (cycle_isclose x (a * IZR j) (2 * PI) = true); [|congruence].
          apply cycle_isclose_iff; [apply two_pi_pos|]. destruct E2 as [k Hk].
          exists (- k)%Z. rewrite opp_IZR. lra. }
    destruct (Z.ltb_spec 1 order) as [HM|HM]; [|discriminate].
    unfold dih_group, assert_. destruct (Z.ltb_spec 0 order) as [HM0|]; [|lia]. simpl.
    intros H; injection H as <-.
    assert (HMr : 0 < IZR order) by (apply (IZR_lt 0); auto).
    split; [|split].
    + split.
      * intros [j x] Hj; apply dih_el_iff in Hj; apply o2_el_iff; tauto.
      * unfold o2_eqv, dih_identity, o2_identity; cbn [fst snd]. split; auto.
        replace (IZR 0 * 2 * PI / IZR order + IZR 0 * a) with 0 by (simpl; field; lra). apply cong2pi_refl.
      * intros [i x] [j y] Hi Hj; apply dih_el_iff in Hi; apply dih_el_iff in Hj.
        unfold o2_eqv, dih_combine, o2_combine; cbn [fst snd]. split; auto.
        eapply cong2pi_trans.
        { apply cong2pi_plus; [|apply cong2pi_refl].
          apply (cyc_angle_cong order HM0 _ (x + sgn i * y)%Z). apply Z.mod_mod; lia. }
        rewrite plus_IZR, mult_IZR.
        destruct Hi as [[->| ->] _]; destruct Hj as [[->| ->] _]; cbn [sgn Z.eqb];
            try (change ((0 + 0) mod 2)%Z with 0%Z); try (change ((0 + 1) mod 2)%Z with 1%Z);
            try (change ((1 + 0) mod 2)%Z with 1%Z); try (change ((1 + 1) mod 2)%Z with 0%Z);
            (apply cong2pi_eq; simpl; field; lra).
      * intros [i x] [j y] Hi Hj [E1 E2]; cbn [fst snd] in *. subst j.
        apply dih_el_iff in Hi; apply dih_el_iff in Hj. f_equal.
        assert (E : cong2pi (IZR x * 2 * PI / IZR order) (IZR y * 2 * PI / IZR order)).
        { destruct E2 as [k Hk]; exists k; lra. }
        apply cyc_angle_cong in E; auto. rewrite !Z.mod_small in E; lia.
    + intros [j x] Hh; cbn [fst snd].
      replace (IZR x * 2 * PI / IZR order + IZR j * a - IZR j * a) with (IZR x * 2 * PI / IZR order) by ring.
      assert (C : cycle_isclose (IZR x * 2 * PI / IZR order) 0 (2 * PI / IZR order) = true).
      { apply close_step_iff; [auto|]. exists x; reflexivity. }
      rewrite C. rewrite round_step; auto.
    + intros [j x] Hg; apply o2_el_iff in Hg; cbn [fst snd].
      destruct (cycle_isclose (x - IZR j * a) 0 (2 * PI / IZR order)) eqn:E.
      * apply close_step_iff in E; auto. destruct E as [k Hk]. rewrite Hk, round_step by auto. cbn [fst snd].
        split; cbn [fst snd]; auto.
        replace x with (IZR k * 2 * PI / IZR order + IZR j * a) by lra.
        apply cong2pi_plus; [|apply cong2pi_refl]. apply cyc_angle_cong; auto. rewrite Z.mod_mod; lia.
      * intros [j' h] Hh [E1 E2]; cbn [fst snd] in *. subst j'.
        assert (cycle_isclose (x - IZR j * a) 0 (2 * PI / IZR order) = true); [|congruence].
        apply close_step_iff; auto. destruct E2 as [k Hk]. exists (h - k * order)%Z.
        rewrite minus_IZR, mult_IZR.
        replace ((IZR h - IZR k * IZR order) * 2 * PI / IZR order)
          with (IZR h * 2 * PI / IZR order - 2 * IZR k * PI) by (field; lra). lra.
  - destruct (Z.eqb_spec order (-1)) as [->|Hm1].
    { intros H; injection H as <-. split; [|split].
      - split.
        + intros x _; apply o2_el_iff; auto.
        + split; cbn [fst snd]; auto. apply cong2pi_refl.
        + intros x y _ _. unfold o2_eqv, o2_combine; cbn [fst snd sgn Z.eqb]. split; auto.
          unfold so2_combine. eapply cong2pi_trans; [apply cong2pi_rmod|].
          rewrite Rmult_1_l. apply cong2pi_refl.
        + intros x y _ _ [_ E]; exact E.
      - reflexivity.
      - intros [j x] Hg; cbn [fst snd]. destruct (Z.eqb_spec j 0) as [->|Hj]; auto.
        intros h [E _]; cbn [fst snd] in E; congruence. }
    unfold cyc_group, assert_, rbind. destruct (Z.ltb_spec 0 order) as [HM|]; [|discriminate].
    intros H; injection H as <-.
    assert (HMr : 0 < IZR order) by (apply (IZR_lt 0); auto).
    split; [|split].
    + split.
      * intros x _; apply o2_el_iff; auto.
      * unfold o2_eqv, cyc_identity, o2_identity; cbn [fst snd]. split; auto.
        replace (IZR 0 * 2 * PI / IZR order) with 0 by (simpl; field; lra). apply cong2pi_refl.
      * intros x y Hx Hy. unfold o2_eqv, o2_combine; cbn [fst snd sgn Z.eqb]. split; auto.
        replace (IZR x * 2 * PI / IZR order + 1 * (IZR y * 2 * PI / IZR order))
          with (IZR (x + y) * 2 * PI / IZR order) by (rewrite plus_IZR; field; lra).
        apply cyc_angle_cong; auto. apply Z.mod_mod; lia.
      * intros x y Hx Hy [_ E]; cbn [fst snd] in E. apply cyc_el_iff in Hx; apply cyc_el_iff in Hy.
        apply cyc_angle_cong in E; auto. rewrite !Z.mod_small in E; lia.
    + intros h Hh; cbn [fst snd]. simpl (Z.eqb 0 0). cbn [andb].
      assert (C : cycle_isclose (IZR h * 2 * PI / IZR order) 0 (2 * PI / IZR order) = true).
      { apply close_step_iff; [auto|]. exists h; reflexivity. }
      rewrite C. f_equal; apply round_step; auto.
    + intros [j x] Hg; cbn [fst snd]. destruct (Z.eqb_spec j 0) as [->|Hj]; cbn [andb].
      * destruct (cycle_isclose x 0 (2 * PI / IZR order)) eqn:E.
        -- apply close_step_iff in E; auto. destruct E as [k ->]. rewrite round_step by auto.
           split; cbn [fst snd]; auto. apply cyc_angle_cong; auto. rewrite Z.mod_mod; lia.
        -- intros h Hh [_ [k Hk]]; cbn [fst snd] in *.
           assert (cycle_isclose x 0 (2 * PI / IZR order) = true); [|congruence].
           apply close_step_iff; auto. exists (h - k * order)%Z. rewrite minus_IZR, mult_IZR.
           replace ((IZR h - IZR k * IZR order) * 2 * PI / IZR order)
             with (IZR h * 2 * PI / IZR order - 2 * IZR k * PI) by (field; lra). lra.
      * intros h Hh [E _]; cbn [fst snd] in E; congruence.
Qed.

(** Through the public operations only: in O(2) with the subgroup C_4, the child map applied to the
    inverse of the generator answers -1, which is not an element of C_4. *)
Lemma o2_child_out_of_range : exists parent child,
  o2_subgroup (None, 4%Z) = Ok (SubFin (SubC 4 parent child)) /\
  child (o2_inverse (parent 1%Z)) = Some (-1)%Z /\ ~ cyc_el 4 (-1)%Z.
Proof.
  do 2 eexists. split; [reflexivity|]. split.
  - unfold o2_inverse; cbn [fst snd sgn Z.eqb]. simpl (Z.eqb 0 0). cbn [andb].
    assert (C : cycle_isclose (- (1 * 2 * PI / 4) * 1) 0 (2 * PI / 4) = true).
    { apply (close_step_iff 4); [lia|]. exists (-1)%Z. field. }
    rewrite C. f_equal.
    replace (- (1 * 2 * PI / 4) * 1 * 4 / (2 * PI)) with (IZR (-1)) by (field; generalize PI_RGT_0; lra).
    apply py_round_IZR.
  - rewrite cyc_el_iff; lia.
Qed.
