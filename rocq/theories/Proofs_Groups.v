(** Proofs about the group operations and subgroup maps (Model_Groups.v). *)
From Coq Require Import Reals ZArith List Bool Lia Lra Psatz.
From Verif Require Import Base Spec Model_Groups.
Import ListNotations.
Open Scope Z_scope.

(** ** Modular arithmetic helpers *)

(** To prove a mod N = b mod N it is enough to exhibit the quotient of the difference. *)
Lemma mod_eq_k N a b k : N <> 0 -> a = b + k * N -> a mod N = b mod N.
Proof. intros HN ->. apply Z_mod_plus_full. Qed.

Lemma mod_id N a : 0 <= a < N -> a mod N = a.
Proof. intros; apply Z.mod_small; auto. Qed.

Lemma mod_decomp N a : N <> 0 -> exists k, a mod N = a + k * N.
Proof. intros HN. exists (- (a / N)). generalize (Z.div_mod a N HN). lia. Qed.

(** ** Cyclic groups *)

Definition cyc_el (N : Z) (e : Z) : Prop := cyc_is_element N e = true.

Lemma cyc_el_iff N e : cyc_el N e <-> 0 <= e < N.
Proof. unfold cyc_el, cyc_is_element. rewrite andb_true_iff, Z.leb_le, Z.ltb_lt. tauto. Qed.

Lemma cyc_laws N : 0 < N -> group_laws (cyc_el N) eq (cyc_combine N) (cyc_inverse N) cyc_identity.
Proof.
  intros HN. unfold cyc_combine, cyc_inverse, cyc_identity.
  split; intros; repeat match goal with H : cyc_el _ _ |- _ => apply cyc_el_iff in H end;
    try (apply cyc_el_iff); try lia; try (apply Z.mod_pos_bound; lia).
  - rewrite Z.add_mod_idemp_l, Z.add_mod_idemp_r by lia. f_equal; lia.
  - simpl. apply mod_id; lia.
  - rewrite Z.add_0_r. apply mod_id; lia.
  - rewrite Z.add_mod_idemp_l by lia. replace (- a + a) with 0 by lia. apply Z.mod_0_l; lia.
  - rewrite Z.add_mod_idemp_r by lia. replace (a + - a) with 0 by lia. apply Z.mod_0_l; lia.
Qed.

Lemma cyc_comm N a b : cyc_combine N a b = cyc_combine N b a.
Proof. unfold cyc_combine. f_equal; lia. Qed.

Lemma cyc_elements_spec N : 0 < N ->
  length (cyc_elements N) = Z.to_nat N /\ NoDup (cyc_elements N) /\
  (forall e, In e (cyc_elements N) <-> cyc_el N e).
Proof.
  intros HN. unfold cyc_elements. repeat split.
  - rewrite map_length, seq_length; auto.
  - apply FinFun.Injective_map_NoDup; [|apply seq_NoDup]. intros x y H; lia.
  - intros H. apply in_map_iff in H as [i [<- Hi]]. apply in_seq in Hi. apply cyc_el_iff. lia.
  - intros H. apply cyc_el_iff in H. apply in_map_iff. exists (Z.to_nat e).
    split; [lia|]. apply in_seq; lia.
Qed.

Lemma div_exact_pos N M : 0 < N -> 0 < M -> N mod M = 0 -> N = M * (N / M) /\ 0 < N / M.
Proof.
  intros HN HM H. assert (E : N = M * (N / M)).
  { generalize (Z.div_mod N M). lia. }
  split; auto. assert (0 <= N / M) by (apply Z.div_pos; lia). nia.
Qed.

(** An int id is accepted exactly when it is a positive divisor of N. *)
Lemma cyc_subgroup_ok N id : 0 < N ->
  (exists s, cyc_subgroup N id = Ok s) <-> (0 < id /\ N mod id = 0).
Proof.
  intros HN. unfold cyc_subgroup, py_mod, assert_, cyc_group, rbind.
  split.
  - intros [s H]. destruct (Z.eqb_spec id 0); [discriminate|].
    destruct (Z.eqb_spec (N mod id) 0); [|discriminate].
    unfold assert_ in H. destruct (Z.ltb_spec 0 id); [auto|discriminate].
  - intros [H1 H2]. destruct (Z.eqb_spec id 0); [lia|].
    rewrite H2; simpl. destruct (Z.ltb_spec 0 id); [|lia]. eexists; reflexivity.
Qed.

Lemma cyc_subgroup_spec N id sg parent child : 0 < N ->
  cyc_subgroup N id = Ok (sg, parent, child) ->
  sg = id /\
  embedding (cyc_el id) eq (cyc_combine id) cyc_identity
            (cyc_el N) eq (cyc_combine N) cyc_identity parent /\
  (forall h, cyc_el id h -> child (parent h) = Some h) /\
  (forall g, cyc_el N g ->
     match child g with
     | Some h => cyc_el id h /\ parent h = g
     | None => forall h, cyc_el id h -> parent h <> g
     end).
Proof.
  intros HN H.
  assert (Hok : 0 < id /\ N mod id = 0) by (apply cyc_subgroup_ok; eauto).
  destruct Hok as [Hid Hmod].
  unfold cyc_subgroup, py_mod, assert_, cyc_group, rbind in H.
  destruct (Z.eqb_spec id 0); [lia|]. rewrite Hmod in H; simpl in H.
  unfold assert_ in H. destruct (Z.ltb_spec 0 id); [|lia].
  injection H as <- <- <-.
  destruct (div_exact_pos N id HN Hid Hmod) as [HNe Hr].
  set (ratio := N / id) in *.
  split; [reflexivity|]. split; [|split].
  - split.
    + intros a Ha. apply cyc_el_iff in Ha. apply cyc_el_iff. nia.
    + reflexivity.
    + intros a b Ha Hb. unfold cyc_combine. rewrite HNe.
      rewrite <- Z.mul_mod_distr_r by lia. f_equal; lia.
    + intros a b Ha Hb E. nia.
  - intros h Hh. rewrite Z.mod_mul by lia. simpl. f_equal. apply Z.div_mul; lia.
  - intros g Hg. apply cyc_el_iff in Hg.
    destruct (Z.eqb_spec (g mod ratio) 0) as [E|E].
    + assert (g = ratio * (g / ratio)) by (generalize (Z.div_mod g ratio); lia).
      split; [|lia]. apply cyc_el_iff. split; [apply Z.div_pos; lia|nia].
    + intros h Hh <-. apply E. apply Z.mod_mul; lia.
Qed.

(** ** Dihedral groups *)

Definition dih_el (N : Z) (e : Z * Z) : Prop := dih_is_element N e = true.

Lemma dih_el_iff N j k : dih_el N (j, k) <-> (j = 0 \/ j = 1) /\ 0 <= k < N.
Proof.
  unfold dih_el, dih_is_element; simpl.
  rewrite !andb_true_iff, orb_true_iff, !Z.eqb_eq, Z.leb_le, Z.ltb_lt. tauto.
Qed.


Lemma sgn_mod2 i j : (i = 0 \/ i = 1) -> (j = 0 \/ j = 1) ->
  ((i + j) mod 2 = 0 \/ (i + j) mod 2 = 1) /\ sgn ((i + j) mod 2) = sgn i * sgn j.
Proof. intros [->| ->] [->| ->]; split; vm_compute; auto. Qed.

Lemma dih_laws N : 0 < N -> group_laws (dih_el N) eq (dih_combine N) (dih_inverse N) dih_identity.
Proof.
  intros HN. unfold dih_combine, dih_inverse, dih_identity.
  split.
  - apply dih_el_iff; lia.
  - intros [i a] [j b] Ha Hb; apply dih_el_iff in Ha; apply dih_el_iff in Hb.
    apply dih_el_iff; cbn [fst snd]. split; [apply sgn_mod2; tauto|apply Z.mod_pos_bound; lia].
  - intros [i a] Ha; apply dih_el_iff in Ha; apply dih_el_iff; cbn [fst snd].
    split; [tauto|apply Z.mod_pos_bound; lia].
  - intros [i a] [j b] [l c] Ha Hb Hc; apply dih_el_iff in Ha; apply dih_el_iff in Hb; apply dih_el_iff in Hc.
    cbn [fst snd]. f_equal.
    + rewrite Z.add_mod_idemp_l, Z.add_mod_idemp_r by lia; f_equal; lia.
    + destruct (sgn_mod2 i j) as [_ ->]; try tauto.
      rewrite Z.add_mod_idemp_l by lia.
      rewrite <- (Z.add_mod_idemp_r a (sgn i * _)) by lia.
      rewrite Z.mul_mod_idemp_r by lia. rewrite Z.add_mod_idemp_r by lia. f_equal; lia.
  - intros [i a] Ha; apply dih_el_iff in Ha; cbn [fst snd sgn Z.eqb].
    f_equal; [rewrite Z.mod_small; lia|]. rewrite Z.mul_1_l; simpl. apply mod_id; lia.
  - intros [i a] Ha; apply dih_el_iff in Ha; cbn [fst snd].
    f_equal; [rewrite Z.mod_small; lia|]. rewrite Z.mul_0_r, Z.add_0_r. apply mod_id; lia.
  - intros [i a] Ha; apply dih_el_iff in Ha; cbn [fst snd].
    destruct Ha as [[->| ->] Ha]; f_equal; cbn [sgn Z.eqb]; rewrite Z.add_mod_idemp_l by lia;
      match goal with |- ?x mod _ = _ => replace x with 0 by lia end; apply Z.mod_0_l; lia.
  - intros [i a] Ha; apply dih_el_iff in Ha; cbn [fst snd].
    destruct Ha as [[->| ->] Ha]; f_equal; cbn [sgn Z.eqb];
      rewrite <- Z.add_mod_idemp_r, Z.mul_mod_idemp_r, Z.add_mod_idemp_r by lia;
      match goal with |- ?x mod _ = _ => replace x with 0 by lia end; apply Z.mod_0_l; lia.
Qed.

Lemma dih_elements_spec N : 0 < N ->
  length (dih_elements N) = (2 * Z.to_nat N)%nat /\ NoDup (dih_elements N) /\
  (forall e, In e (dih_elements N) <-> dih_el N e).
Proof.
  intros HN. unfold dih_elements. repeat split.
  - rewrite app_length, !map_length, seq_length; lia.
  - assert (ND : forall j : Z, NoDup (map (fun i => (j, Z.of_nat i)) (seq 0 (Z.to_nat N)))).
    { intros j; apply FinFun.Injective_map_NoDup; [|apply seq_NoDup].
      intros x y H; injection H; lia. }
    assert (forall (A : Type) (l1 l2 : list A), NoDup l1 -> NoDup l2 ->
            (forall x, In x l1 -> ~ In x l2) -> NoDup (l1 ++ l2)) as NA.
    { intros A l1 l2 H1 H2 H3. induction H1 as [|x l1 Hx H1 IH]; simpl; auto.
      constructor.
      - rewrite in_app_iff. intros [?|?]; [auto|]. apply (H3 x); simpl; auto.
      - apply IH. intros y Hy; apply H3; simpl; auto. }
    apply NA; auto.
    intros x Hx Hy. apply in_map_iff in Hx as [i [<- _]]. apply in_map_iff in Hy as [k [E _]].
    discriminate.
  - intros H. apply in_app_iff in H. destruct H as [H|H];
    apply in_map_iff in H as [i [<- Hi]]; apply in_seq in Hi; apply dih_el_iff; lia.
  - intros H. destruct e as [j k]. apply dih_el_iff in H. destruct H as [[->| ->] H];
    apply in_app_iff; [left|right]; apply in_map_iff; exists (Z.to_nat k);
    (split; [f_equal; lia|apply in_seq; lia]).
Qed.

(** reflections are involutions; conjugating a rotation by a reflection inverts it *)
Lemma dih_reflection N a b : 0 < N -> 0 <= a < N -> 0 <= b < N ->
  dih_combine N (1, a) (1, a) = dih_identity /\
  dih_combine N (dih_combine N (1, a) (0, b)) (dih_inverse N (1, a)) = dih_inverse N (0, b).
Proof.
  intros HN Ha Hb. unfold dih_combine, dih_inverse, dih_identity; cbn [fst snd sgn Z.eqb].
  split.
  - f_equal. replace (a + -1 * a) with 0 by lia. apply Z.mod_0_l; lia.
  - f_equal. change (sgn ((1 + 0) mod 2)) with (-1).
    rewrite Z.add_mod_idemp_l by lia.
    rewrite <- Z.add_mod_idemp_r, Z.mul_mod_idemp_r, Z.add_mod_idemp_r by lia. f_equal; lia.
Qed.

(** ids accepted by [DihedralGroup.subgroup] *)
Definition dih_valid_id (N : Z) (id : option Z * Z) : Prop :=
  0 < snd id /\ N mod snd id = 0 /\
  match fst id with None => True | Some a => 0 <= a < N / snd id end.

Lemma dih_subgroup_ok N id : 0 < N ->
  (exists s, dih_subgroup N id = Ok s) <-> dih_valid_id N id.
Proof.
  intros HN. destruct id as [axis order]. unfold dih_subgroup, dih_valid_id, assert_, cyc_group, dih_group, rbind; simpl.
  destruct (Z.leb_spec 1 order) as [H1|H1].
  2: { split; [intros [s H]; discriminate|]. intros [H _]; lia. }
  destruct (Z.eqb_spec (N mod order) 0) as [H2|H2].
  2: { split; [intros [s H]; discriminate|]. intros [_ [H _]]; lia. }
  unfold assert_. destruct axis as [a|].
  - destruct (Z.leb_spec 0 a); destruct (Z.ltb_spec a (N / order)); simpl;
      try (split; [intros [s H3]; discriminate|intros [_ [_ H3]]; lia]).
    split; [intros _; lia|intros _].
    destruct (Z.eqb_spec order 1); [eexists; reflexivity|].
    destruct (Z.ltb_spec 0 order); [eexists; reflexivity|lia].
  - split; [intros _; split; [lia|auto]|intros _].
    destruct (Z.ltb_spec 0 order); [eexists; reflexivity|lia].
Qed.

(** what a subgroup answer must satisfy: the parent map is an embedding, and the child map
    is its exact partial inverse *)
Definition exact_partial_inverse {H G : Type} (elH : H -> Prop) (elG : G -> Prop)
  (parent : H -> G) (child : G -> option H) : Prop :=
  (forall h, elH h -> child (parent h) = Some h) /\
  (forall g, elG g ->
     match child g with
     | Some h => elH h /\ parent h = g
     | None => forall h, elH h -> parent h <> g
     end).

Lemma dih_subgroup_spec N id s : 0 < N -> dih_subgroup N id = Ok s ->
  match s with
  | SubC M parent child =>
      M = (match fst id with None => snd id | Some _ => 2 end) /\
      embedding (cyc_el M) eq (cyc_combine M) cyc_identity
                (dih_el N) eq (dih_combine N) dih_identity parent /\
      exact_partial_inverse (cyc_el M) (dih_el N) parent child
  | SubD M parent child =>
      M = snd id /\
      embedding (dih_el M) eq (dih_combine M) dih_identity
                (dih_el N) eq (dih_combine N) dih_identity parent /\
      exact_partial_inverse (dih_el M) (dih_el N) parent child
  end.
Proof.
  intros HN H.
  assert (Hv : dih_valid_id N id) by (apply dih_subgroup_ok; eauto).
  destruct id as [axis order]. destruct Hv as [H1 [H2 H3]]; simpl in H1, H2, H3.
  destruct (div_exact_pos N order HN H1 H2) as [HNe Hr].
  unfold dih_subgroup, assert_, cyc_group, dih_group, rbind in H; simpl in H.
  destruct (Z.leb_spec 1 order); [|lia]. rewrite H2 in H; simpl in H.
  unfold assert_ in H. destruct axis as [a|].
  - destruct (Z.leb_spec 0 a); [|lia]. destruct (Z.ltb_spec a (N / order)); [|lia].
    simpl in H. destruct (Z.eqb_spec order 1) as [->|Ho].
    + (* reflection subgroup *)
      injection H as <-. rewrite Z.div_1_r in *. cbn [fst snd].
      split; [reflexivity|]. split; [|split].
      * split.
        -- intros e He. apply cyc_el_iff in He. apply dih_el_iff.
           assert (e = 0 \/ e = 1) as [->| ->] by lia; split; auto; lia.
        -- unfold cyc_identity, dih_identity. f_equal; lia.
        -- intros e1 e2 He1 He2. apply cyc_el_iff in He1. apply cyc_el_iff in He2.
           unfold cyc_combine, dih_combine; cbn [fst snd].
           assert (e1 = 0 \/ e1 = 1) as [->| ->] by lia; assert (e2 = 0 \/ e2 = 1) as [->| ->] by lia;
             f_equal; cbn [sgn Z.eqb];
             try (change ((0 + 0) mod 2) with 0); try (change ((0 + 1) mod 2) with 1);
             try (change ((1 + 0) mod 2) with 1); try (change ((1 + 1) mod 2) with 0).
           all: symmetry; match goal with |- ?x mod _ = ?y => replace x with y by lia end; apply Z.mod_small; lia.
        -- intros e1 e2 He1 He2 E; injection E; auto.
      * intros e He; cbn [fst snd]. destruct (Z.eqb_spec (a * e) (e * a)); [auto|lia].
      * intros [j k] Hg; cbn [fst snd]. apply dih_el_iff in Hg.
        destruct (Z.eqb_spec k (j * a)) as [E|E].
        -- split; [apply cyc_el_iff; lia|f_equal; lia].
        -- intros h Hh E2. injection E2 as -> E3. lia.
    + (* dihedral subgroup *)
      destruct (Z.ltb_spec 0 order); [|lia]. injection H as <-. cbn [fst snd].
      set (ratio := N / order) in *.
      split; [reflexivity|]. split; [|split].
      * split.
        -- intros [j k] He. apply dih_el_iff in He. apply dih_el_iff; cbn [fst snd].
           split; [tauto|]. destruct He as [[->| ->] He]; nia.
        -- reflexivity.
        -- intros [j1 k1] [j2 k2] He1 He2. apply dih_el_iff in He1. apply dih_el_iff in He2.
           unfold dih_combine; cbn [fst snd]. f_equal.
           set (u := k1 + sgn j1 * k2).
           set (w := k1 * ratio + j1 * a + sgn j1 * (k2 * ratio + j2 * a)).
           assert (W : w = u * ratio + ((j1 + j2) mod 2) * a).
           { unfold w, u. destruct He1 as [[->| ->] _]; destruct He2 as [[->| ->] _];
               cbn [sgn Z.eqb];
               try (change ((0 + 0) mod 2) with 0); try (change ((0 + 1) mod 2) with 1);
               try (change ((1 + 0) mod 2) with 1); try (change ((1 + 1) mod 2) with 0); lia. }
           rewrite W. clearbody u.
           assert (Hc : (j1 + j2) mod 2 = 0 \/ (j1 + j2) mod 2 = 1)
             by (apply sgn_mod2; tauto).
           set (c := (j1 + j2) mod 2) in *. clearbody c.
           symmetry. rewrite HNe.
           assert (Hu : u = order * (u / order) + u mod order) by (apply Z.div_mod; lia).
           assert (Hb : 0 <= u mod order < order) by (apply Z.mod_pos_bound; lia).
           set (q := u / order) in *. set (rr := u mod order) in *.
           symmetry; apply Z.mod_unique with (q := q); [left; destruct Hc as [->| ->]; nia|].
           rewrite Hu. ring.
        -- intros [j1 k1] [j2 k2] He1 He2 E. cbn [fst snd] in E. injection E as -> E.
           f_equal. nia.
      * intros [j k] He; cbn [fst snd].
        replace (k * ratio + j * a - j * a) with (k * ratio) by lia.
        rewrite Z.mod_mul by lia. simpl. do 2 f_equal. apply Z.quot_mul; lia.
      * intros [j k] Hg; cbn [fst snd]. apply dih_el_iff in Hg.
        destruct (Z.ltb_spec 0 ((k - j * a) mod ratio)) as [E|E].
        -- intros [j' k'] Hh E2; cbn [fst snd] in E2. injection E2 as -> <-.
           replace (k' * ratio + j * a - j * a) with (k' * ratio) in E by lia.
           rewrite Z.mod_mul in E by lia. lia.
        -- assert (Z0 : (k - j * a) mod ratio = 0).
           { generalize (Z.mod_pos_bound (k - j * a) ratio). lia. }
           assert (D : k - j * a = ratio * ((k - j * a) / ratio)).
           { generalize (Z.div_mod (k - j * a) ratio). lia. }
           set (q := (k - j * a) / ratio) in *.
           assert (Hq : 0 <= q < order).
           { destruct Hg as [[->| ->] Hg]; nia. }
           assert (Q : Z.quot (k - j * a) ratio = q).
           { rewrite D. rewrite Z.mul_comm. apply Z.quot_mul; lia. }
           rewrite Q. split; [apply dih_el_iff; tauto|]. cbn [fst snd]; f_equal; lia.
  - (* rotations only *)
    destruct (Z.ltb_spec 0 order); [|lia]. injection H as <-. cbn [fst snd].
    set (ratio := N / order) in *.
    split; [reflexivity|]. split; [|split].
    + split.
      * intros e He. apply cyc_el_iff in He. apply dih_el_iff. split; [auto|nia].
      * reflexivity.
      * intros a b Ha Hb. unfold cyc_combine, dih_combine; cbn [fst snd sgn Z.eqb]. f_equal.
        rewrite HNe. rewrite <- Z.mul_mod_distr_r by lia. f_equal; lia.
      * intros a b Ha Hb E. injection E as E. nia.
    + intros e He; cbn [fst snd]. simpl. rewrite Z.mod_mul by lia. simpl.
      f_equal. apply Z.quot_mul; lia.
    + intros [j k] Hg; cbn [fst snd]. apply dih_el_iff in Hg.
      destruct (Z.eqb_spec j 0) as [->|Hj]; simpl.
      * destruct (Z.ltb_spec 0 (k mod ratio)) as [E|E].
        -- intros h Hh E2. injection E2 as <-. rewrite Z.mod_mul in E by lia. lia.
        -- assert (Z0 : k mod ratio = 0) by (generalize (Z.mod_pos_bound k ratio); lia).
           assert (D : k = ratio * (k / ratio)) by (generalize (Z.div_mod k ratio); lia).
           rewrite Z.quot_div_nonneg by lia.
           split; [apply cyc_el_iff; nia|f_equal; lia].
      * intros h Hh E2. injection E2; lia.
Qed.
