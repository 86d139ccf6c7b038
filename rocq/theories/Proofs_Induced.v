(** Induced and quotient representations (C10). *)
From Coq Require Import Reals ZArith String List Bool Lia Lra Setoid Morphisms.
From Verif Require Import Base LinAlg Spec Model_Groups Model_Rep Model_Regular
  Proofs_Groups Proofs_Irreps Proofs_Rep Proofs_Regular Proofs_Regular2.
Import ListNotations.
Open Scope R_scope.

Lemma rmap_inv {A B} (f : A -> result B) l bs : rmap f l = Ok bs ->
  Forall2 (fun a b => f a = Ok b) l bs.
Proof.
  revert bs; induction l as [|a l IH]; simpl; intros bs E.
  - injection E as <-; auto.
  - destruct (f a) as [b|] eqn:Ea; [|discriminate]. cbn [rbind] in E.
    destruct (rmap f l) as [bs'|] eqn:Eb; [|discriminate]. cbn [rbind] in E.
    injection E as <-. constructor; auto.
Qed.

Lemma Forall2_nth_error {A B} (P : A -> B -> Prop) l l' n a :
  Forall2 P l l' -> nth_error l n = Some a -> exists b, nth_error l' n = Some b /\ P a b.
Proof.
  intros H; revert n; induction H; intros [|n]; simpl; intros E; try discriminate.
  - injection E as <-; eauto.
  - eauto.
Qed.

Lemma rsum_mul q s f : rsum (q * s) f = rsum q (fun k => rsum s (fun c => f (k * s + c)%nat)).
Proof.
  induction q; simpl; auto. rewrite Nat.add_comm, rsum_split, IHq. reflexivity.
Qed.

Lemma divmod_lt q s x : (x < q * s)%nat -> (x / s < q)%nat /\ (x mod s < s)%nat.
Proof.
  intros H. assert (s <> 0)%nat by (intros ->; lia). split.
  - apply Nat.div_lt_upper_bound; lia.
  - apply Nat.mod_upper_bound; auto.
Qed.

Lemma divmod_unique s k c : (c < s)%nat -> ((k * s + c) / s = k /\ (k * s + c) mod s = c)%nat.
Proof.
  intros H. split.
  - symmetry. apply (Nat.div_unique _ _ k c); lia.
  - symmetry. apply (Nat.mod_unique _ _ k c); lia.
Qed.

Section Induced.
Context {G H : Type}.
Variable grp : fgroup G.
Hypothesis OK : fgroup_ok grp.
Notation els := (fg_elements grp).
Notation el := (fun e => In e els).
Notation op := (fg_combine grp).
Notation inv := (fg_inverse grp).
Notation e0 := (fg_id grp).
Variables (subs : list H) (parent : H -> G) (child : G -> option H)
          (opH : H -> H -> H) (invH : H -> H) (eH : H).
Notation elH := (fun h => In h subs).

(** the subgroup *)
Record subgroup_ok : Prop := {
  so_laws : group_laws elH eq opH invH eH;
  so_emb : embedding elH eq opH eH el eq op e0 parent;
  so_child : exact_partial_inverse elH el parent child;
  so_nodup : NoDup subs
}.
Hypothesis SOK : subgroup_ok.

Let L := fo_laws grp OK.
Let opE := op_el grp OK.
Let invE := inv_el grp OK.
Let pE : forall h, elH h -> el (parent h) := em_el _ _ _ _ _ _ _ _ _ (so_emb SOK).

Lemma assoc a b c : el a -> el b -> el c -> op (op a b) c = op a (op b c).
Proof. apply (gl_assoc _ _ _ _ _ L). Qed.
Lemma inv_op_l a b : el a -> el b -> op (inv a) (op a b) = b.
Proof. intros. rewrite <- assoc, (gl_inv_l _ _ _ _ _ L), (gl_id_l _ _ _ _ _ L); auto. Qed.
Lemma op_inv_l a b : el a -> el b -> op a (op (inv a) b) = b.
Proof. intros. rewrite <- assoc, (gl_inv_r _ _ _ _ _ L), (gl_id_l _ _ _ _ _ L); auto. Qed.
Lemma op_op_inv a b : el a -> el b -> op (op a b) (inv b) = a.
Proof. intros. rewrite assoc, (gl_inv_r _ _ _ _ _ L), (gl_id_r _ _ _ _ _ L); auto. Qed.
Lemma op_inv_op a b : el a -> el b -> op (op a (inv b)) b = a.
Proof. intros. rewrite assoc, (gl_inv_l _ _ _ _ _ L), (gl_id_r _ _ _ _ _ L); auto. Qed.
Lemma inv_unique a b : el a -> el b -> op a b = e0 -> b = inv a.
Proof. intros Ha Hb E. rewrite <- (inv_op_l a b Ha Hb), E. apply (gl_id_r _ _ _ _ _ L); auto. Qed.
Lemma inv_op a b : el a -> el b -> inv (op a b) = op (inv b) (inv a).
Proof.
  intros Ha Hb. symmetry. apply inv_unique; auto.
  rewrite assoc by auto. rewrite op_inv_l by auto. apply (gl_inv_r _ _ _ _ _ L); auto.
Qed.
Lemma inv_inv a : el a -> inv (inv a) = a.
Proof. intros Ha. symmetry. apply inv_unique; auto. apply (gl_inv_l _ _ _ _ _ L); auto. Qed.

Lemma parent_inv h : elH h -> parent (invH h) = inv (parent h).
Proof.
  intros Hh. apply inv_unique; auto.
  - apply pE. apply (gl_inv_el _ _ _ _ _ (so_laws SOK)); auto.
  - rewrite <- (em_hom _ _ _ _ _ _ _ _ _ (so_emb SOK)); auto.
    + rewrite (gl_inv_r _ _ _ _ _ (so_laws SOK)); auto. apply (em_id _ _ _ _ _ _ _ _ _ (so_emb SOK)).
    + apply (gl_inv_el _ _ _ _ _ (so_laws SOK)); auto.
Qed.

(** x and y are in the same left coset *)
Definition rel (x y : G) : Prop := exists h, elH h /\ y = op x (parent h).

Lemma rel_refl x : el x -> rel x x.
Proof.
  intros Hx. exists eH. split; [apply (gl_id_el _ _ _ _ _ (so_laws SOK))|].
  rewrite (em_id _ _ _ _ _ _ _ _ _ (so_emb SOK)). symmetry; apply (gl_id_r _ _ _ _ _ L); auto.
Qed.
Lemma rel_sym x y : el x -> rel x y -> rel y x.
Proof.
  intros Hx [h [Hh ->]]. exists (invH h). split; [apply (gl_inv_el _ _ _ _ _ (so_laws SOK)); auto|].
  rewrite parent_inv by auto. symmetry; apply op_op_inv; auto.
Qed.
Lemma rel_trans x y z : el x -> rel x y -> rel y z -> rel x z.
Proof.
  intros Hx [h [Hh ->]] [h' [Hh' ->]]. exists (opH h h'). split; [apply (gl_op_el _ _ _ _ _ (so_laws SOK)); auto|].
  rewrite (em_hom _ _ _ _ _ _ _ _ _ (so_emb SOK)) by auto. apply assoc; auto.
Qed.
Lemma rel_el x y : el x -> rel x y -> el y.
Proof. intros Hx [h [Hh ->]]; auto. Qed.

Lemma child_rel x y : el x -> el y ->
  (rel x y <-> exists h, elH h /\ child (op (inv x) y) = Some h).
Proof.
  intros Hx Hy. destruct (so_child SOK) as [C1 C2]. split.
  - intros [h [Hh ->]]. exists h. split; auto. rewrite inv_op_l by auto. auto.
  - intros [h [Hh E]]. specialize (C2 (op (inv x) y) (opE _ _ (invE _ Hx) Hy)).
    rewrite E in C2. destruct C2 as [C2 C2']. exists h. split; auto. rewrite C2'. symmetry; apply op_inv_l; auto.
Qed.

Lemma child_some x h : el x -> child x = Some h -> elH h /\ parent h = x.
Proof. intros Hx E. destruct (so_child SOK) as [_ C2]. specialize (C2 x Hx). rewrite E in C2. auto. Qed.
Lemma child_parent h : elH h -> child (parent h) = Some h.
Proof. apply (so_child SOK). Qed.

(** *** the loop that computes the cosets *)
Lemma coset_of_app l1 l2 x : coset_of grp (l1 ++ l2) x =
  match coset_of grp l1 x with Some v => Some v | None => coset_of grp l2 x end.
Proof. induction l1 as [|[k v] l1 IH]; simpl; auto. destruct (fg_eqb grp k x); auto. Qed.

Lemma coset_of_const (ks : list G) e x :
  coset_of grp (map (fun k => (k, e)) ks) x = Some e /\ In x ks \/
  coset_of grp (map (fun k => (k, e)) ks) x = None /\ ~ In x ks.
Proof.
  induction ks as [|k ks IH]; simpl; auto.
  destruct (fg_eqb grp k x) eqn:E.
  - apply (fo_eqb grp OK) in E. left; auto.
  - destruct IH as [[A B]|[A B]]; [left|right]; split; auto.
    intros [->|]; auto. assert (fg_eqb grp x x = true) by (apply (fo_eqb grp OK); auto). congruence.
Qed.

Record coset_inv (seen : list G) (st : list (G * G) * list G) : Prop := {
  ci_some : forall x r, el x -> coset_of grp (fst st) x = Some r -> In r (snd st) /\ rel r x;
  ci_none : forall x r, el x -> coset_of grp (fst st) x = None -> In r (snd st) -> ~ rel r x;
  ci_seen : forall e, In e seen -> coset_of grp (fst st) e <> None;
  ci_nodup : NoDup (snd st);
  ci_sub : forall r, In r (snd st) -> In r seen;
  ci_uniq : forall r r', In r (snd st) -> In r' (snd st) -> rel r r' -> r = r'
}.

Lemma coset_step_inv seen st e : (forall x, In x seen -> el x) -> el e -> coset_inv seen st ->
  coset_inv (seen ++ [e]) (coset_step grp subs parent st e).
Proof.
  intros Hseen He [I1 I2 I3 I4 I5 I6]. unfold coset_step.
  destruct (coset_of grp (fst st) e) as [r|] eqn:E.
  - split; auto.
    + intros x Hx. apply in_app_iff in Hx. destruct Hx as [Hx|[<-|[]]]; auto. congruence.
    + intros x Hx. apply in_app_iff; auto.
  - cbn [fst snd].
    assert (F : forall x, el x ->
       coset_of grp (rev (map (fun h => (op e (parent h), e)) subs) ++ fst st) x =
         (Some e) /\ rel e x \/
       coset_of grp (rev (map (fun h => (op e (parent h), e)) subs) ++ fst st) x = coset_of grp (fst st) x /\ ~ rel e x).
    { intros x Hx. rewrite coset_of_app.
      assert (Q : rev (map (fun h => (op e (parent h), e)) subs) =
                  map (fun k => (k, e)) (rev (map (fun h => op e (parent h)) subs))).
      { rewrite map_rev, map_map. reflexivity. }
      rewrite Q. destruct (coset_of_const (rev (map (fun h => op e (parent h)) subs)) e x) as [[A B]|[A B]]; rewrite A.
      - left. split; auto. apply in_rev, in_map_iff in B. destruct B as [h [B1 B2]]. exists h. auto.
      - right. split; auto. intros [h [B1 B2]]. apply B, in_rev. rewrite rev_involutive. apply in_map_iff. exists h. auto. }
    split; cbn [fst snd].
    + intros x r Hx Ex. destruct (F x Hx) as [[A B]|[A B]]; rewrite A in Ex.
      * injection Ex as <-. split; auto. apply in_app_iff; simpl; auto.
      * destruct (I1 x r Hx Ex). split; auto. apply in_app_iff; auto.
    + intros x r Hx Ex Hr. destruct (F x Hx) as [[A B]|[A B]]; rewrite A in Ex; [discriminate|].
      apply in_app_iff in Hr. destruct Hr as [Hr|[<-|[]]]; auto.
    + intros x Hx. assert (el x).
      { apply in_app_iff in Hx. destruct Hx as [Hx|[<-|[]]]; auto. }
      destruct (F x ltac:(auto)) as [[A B]|[A B]]; rewrite A; [discriminate|].
      apply in_app_iff in Hx. destruct Hx as [Hx|[<-|[]]]; auto. exfalso. apply B, rel_refl; auto.
    + assert (N : ~ In e (snd st)). { intros Hr. apply (I2 e e He E Hr). apply rel_refl; auto. }
      clear - I4 N. induction (snd st) as [|a l IH]; simpl; [repeat constructor; auto|].
      inversion I4; subst. constructor.
      * rewrite in_app_iff. simpl. simpl in N. intuition.
      * apply IH; auto. simpl in N; tauto.
    + intros r Hr. apply in_app_iff in Hr. apply in_app_iff. destruct Hr; auto.
    + intros r r' Hr Hr' R.
      apply in_app_iff in Hr. apply in_app_iff in Hr'.
      destruct Hr as [Hr|[<-|[]]]; destruct Hr' as [Hr'|[<-|[]]]; auto.
      * exfalso. apply (I2 e r He E Hr R).
      * exfalso. apply (I2 e r' He E Hr'). apply rel_sym; auto.
Qed.

Lemma cosets_inv : coset_inv els (cosets_reps grp subs parent).
Proof.
  unfold cosets_reps.
  assert (X : forall l seen st, (forall x, In x (seen ++ l) -> el x) -> coset_inv seen st ->
             coset_inv (seen ++ l) (fold_left (coset_step grp subs parent) l st)).
  { induction l as [|e l IH]; intros seen st Hs I; simpl.
    - rewrite app_nil_r; auto.
    - replace (seen ++ e :: l) with ((seen ++ [e]) ++ l) by (rewrite <- app_assoc; auto).
      apply IH.
      + intros x Hx. apply Hs. rewrite <- app_assoc in Hx. auto.
      + apply coset_step_inv; auto.
        * intros x Hx. apply Hs, in_app_iff; auto.
        * apply Hs, in_app_iff; simpl; auto. }
  apply (X els [] ([], [])); auto.
  split; simpl; try tauto; try discriminate; auto. constructor.
Qed.

Notation reps := (representatives grp subs parent).

Lemma reps_el r : In r reps -> el r.
Proof. apply (ci_sub _ _ cosets_inv). Qed.

Lemma coset_spec x : el x ->
  exists r, coset grp subs parent x = Some r /\ In r reps /\ rel r x /\
            forall r', In r' reps -> rel r' x -> r' = r.
Proof.
  intros Hx. destruct cosets_inv as [I1 I2 I3 I4 I5 I6].
  assert (S1 := I3 x Hx). unfold coset.
  destruct (coset_of grp (fst (cosets_reps grp subs parent)) x) as [r|] eqn:E; [|congruence].
  exists r. destruct (I1 x r Hx E) as [A B]. repeat split; auto.
  intros r' Hr' R. symmetry. apply I6; auto.
  apply rel_trans with x; [apply reps_el; auto|auto|]. apply rel_sym; auto.
Qed.

Definition nreps : nat := length reps.
Definition rp (i : nat) : G := nth i reps e0.

Lemma rp_in i : (i < nreps)%nat -> In (rp i) reps.
Proof. intros. apply nth_In; auto. Qed.
Lemma rp_el i : (i < nreps)%nat -> el (rp i).
Proof. intros. apply reps_el, rp_in; auto. Qed.
Lemma rp_index r : In r reps -> (index_in grp reps r < nreps)%nat /\ rp (index_in grp reps r) = r.
Proof. intros Hr. destruct (index_in_spec grp OK reps r Hr) as [A B]. split; [exact A|apply B]. Qed.
Lemma index_rp i : (i < nreps)%nat -> index_in grp reps (rp i) = i.
Proof.
  intros Hi. destruct (rp_index (rp i) (rp_in i Hi)) as [A B].
  apply (proj1 (NoDup_nth reps e0) (ci_nodup _ _ cosets_inv)); auto.
Qed.

(** *** the matrix *)
Variable s : nat.
Variable rho : H -> mat.

(** zero-extended representation: rho on the subgroup, 0 elsewhere *)
Definition rho0 (x : G) : mat := match child x with Some h => rho h | None => mzero end.

(** the induced matrix, written as in a textbook: block (j,i) is rho0 (r_j^-1 g r_i) *)
Definition ind (g : G) : mat := fun row col =>
  rho0 (op (inv (rp (row / s))) (op g (rp (col / s)))) (row mod s)%nat (col mod s)%nat.

Lemma induced_entry_ok g r : el g -> In r reps ->
  exists j h, induced_entry grp subs parent child g r = Ok (j, h) /\ (j < nreps)%nat /\ elH h /\
    child (op (inv (rp j)) (op g r)) = Some h /\
    forall j', (j' < nreps)%nat -> j' <> j -> child (op (inv (rp j')) (op g r)) = None.
Proof.
  intros Hg Hr. assert (Er := reps_el r Hr). unfold induced_entry.
  destruct (coset_spec (op g r) (opE _ _ Hg Er)) as [g_r [A [B [C D]]]]. rewrite A.
  assert (Egr := reps_el g_r B).
  destruct (proj1 (child_rel g_r (op g r) Egr (opE _ _ Hg Er)) C) as [h [Hh E]].
  rewrite E. destruct (rp_index g_r B) as [I1 I2].
  exists (index_in grp reps g_r), h. split; [reflexivity|]. split; [exact I1|]. split; [exact Hh|]. split.
  - rewrite I2; auto.
  - intros j' Hj' Hne. destruct (child (op (inv (rp j')) (op g r))) as [h'|] eqn:E'; auto. exfalso.
    assert (T : elH h').
    { refine (proj1 (child_some _ _ _ E')). apply opE; [apply invE, rp_el; auto|apply opE; auto]. }
    assert (R : rel (rp j') (op g r)) by (apply child_rel; [apply rp_el; auto|apply opE; auto|exists h'; auto]).
    apply D in R; [|apply rp_in; auto]. apply Hne. rewrite <- R. rewrite index_rp; auto.
Qed.

Lemma rmap_total {A B} (f : A -> result B) l : (forall a, In a l -> exists b, f a = Ok b) -> exists bs, rmap f l = Ok bs.
Proof.
  induction l as [|a l IH]; simpl; intros E; [eauto|].
  destruct (E a) as [b Eb]; auto. rewrite Eb. cbn [rbind].
  destruct IH as [bs Ebs]; [intros; apply E; auto|]. rewrite Ebs. cbn [rbind]. eauto.
Qed.

Lemma induced_matrix_ok g : el g ->
  exists M, induced_matrix grp subs parent child s rho g = Ok M /\
            meq (nreps * s) (nreps * s) M (ind g).
Proof.
  intros Hg. unfold induced_matrix.
  destruct (rmap_total (induced_entry grp subs parent child g) reps) as [ents E].
  { intros r Hr. destruct (induced_entry_ok g r Hg Hr) as [j [h [E _]]]. eauto. }
  rewrite E. cbn [rbind]. eexists; split; [reflexivity|].
  intros row col Hrow Hcol. cbv beta.
  destruct (divmod_lt _ _ _ Hrow) as [R1 R2]. destruct (divmod_lt _ _ _ Hcol) as [C1 C2].
  apply rmap_inv in E.
  assert (Er : nth_error reps (col / s) = Some (rp (col / s))) by (apply nth_error_nth'; auto).
  destruct (Forall2_nth_error _ _ _ _ _ E Er) as [[j h] [E1 E2]]. rewrite E1.
  destruct (induced_entry_ok g _ Hg (rp_in _ C1)) as [j' [h' [Q [Q1 [Q2 [Q3 Q4]]]]]].
  rewrite Q in E2. injection E2 as -> ->. unfold ind, rho0.
  destruct (Nat.eqb_spec (row / s) j) as [->|Hne].
  - rewrite Q3. reflexivity.
  - rewrite (Q4 _ R1 Hne). reflexivity.
Qed.

Hypothesis Hrep : is_representation elH opH eH s rho.

Lemma rho0_mul x y h : el x -> el y -> child y = Some h ->
  meq s s (rho0 (op x y)) (mmul s (rho0 x) (rho h)).
Proof.
  intros Hx Hy E. destruct (child_some _ _ Hy E) as [Hh Ep].
  assert (Ih := gl_inv_el _ _ _ _ _ (so_laws SOK) h Hh).
  unfold rho0.
  destruct (child x) as [k|] eqn:Ex.
  - destruct (child_some _ _ Hx Ex) as [Hk Ek].
    assert (Eo : op x y = parent (opH k h)).
    { rewrite (em_hom _ _ _ _ _ _ _ _ _ (so_emb SOK)) by auto. congruence. }
    rewrite Eo, child_parent by (apply (gl_op_el _ _ _ _ _ (so_laws SOK)); auto).
    apply Hrep; auto.
  - destruct (child (op x y)) as [k|] eqn:Exy.
    + exfalso. destruct (child_some _ _ (opE _ _ Hx Hy) Exy) as [Hk Ek].
      assert (X : x = parent (opH k (invH h))).
      { rewrite (em_hom _ _ _ _ _ _ _ _ _ (so_emb SOK)) by auto.
        rewrite parent_inv, Ek, Ep by auto. symmetry; apply op_op_inv; auto. }
      rewrite X, child_parent in Ex; [discriminate|]. apply (gl_op_el _ _ _ _ _ (so_laws SOK)); auto.
    + intros i j _ _. unfold mmul, mzero. symmetry. apply rsum_0. intros; lra.
Qed.

Lemma ind_mul a b : el a -> el b ->
  meq (nreps * s) (nreps * s) (ind (op a b)) (mmul (nreps * s) (ind a) (ind b)).
Proof.
  intros Ha Hb row col Hrow Hcol.
  destruct (divmod_lt _ _ _ Hrow) as [R1 R2]. destruct (divmod_lt _ _ _ Hcol) as [C1 C2].
  unfold mmul. rewrite rsum_mul.
  destruct (induced_entry_ok b _ Hb (rp_in _ C1)) as [j [h [_ [Q1 [Q2 [Q3 Q4]]]]]].
  set (rc := rp (col / s)) in *. set (rr := rp (row / s)).
  assert (Erc : el rc) by (apply rp_el; auto). assert (Err : el rr) by (apply rp_el; auto).
  assert (Erj : el (rp j)) by (apply rp_el; auto).
  rewrite (rsum_single nreps j); auto.
  - transitivity (mmul s (rho0 (op (inv rr) (op a (rp j)))) (rho h) (row mod s)%nat (col mod s)%nat).
    + unfold ind. fold rc rr.
      rewrite <- (rho0_mul (op (inv rr) (op a (rp j))) (op (inv (rp j)) (op b rc)) h) by auto.
      assert (EQ : op (op (inv rr) (op a (rp j))) (op (inv (rp j)) (op b rc)) = op (inv rr) (op (op a b) rc)).
      { rewrite (assoc (inv rr)) by auto. rewrite (assoc a (rp j)) by auto. rewrite op_inv_l by auto.
        rewrite (assoc a b) by auto. reflexivity. }
      rewrite EQ. reflexivity.
    + unfold mmul. apply rsum_ext. intros c Hc. unfold ind. fold rc rr.
      destruct (divmod_unique s j c Hc) as [-> ->]. f_equal. unfold rho0 at 1. rewrite Q3. reflexivity.
  - intros k Hk Hne. apply rsum_0. intros c Hc. unfold ind. fold rc rr.
    destruct (divmod_unique s k c Hc) as [-> ->].
    unfold rho0 at 2. rewrite (Q4 k Hk Hne). unfold mzero. lra.
Qed.

Lemma rel_rp i j : (i < nreps)%nat -> (j < nreps)%nat -> rel (rp i) (rp j) -> i = j.
Proof.
  intros Hi Hj R. assert (E := ci_uniq _ _ cosets_inv _ _ (rp_in i Hi) (rp_in j Hj) R).
  rewrite <- (index_rp i Hi), <- (index_rp j Hj). congruence.
Qed.

Lemma ind_id : meq (nreps * s) (nreps * s) (ind e0) mid.
Proof.
  intros row col Hrow Hcol.
  destruct (divmod_lt _ _ _ Hrow) as [R1 R2]. destruct (divmod_lt _ _ _ Hcol) as [C1 C2].
  assert (Erc : el (rp (col / s))) by (apply rp_el; auto). assert (Err : el (rp (row / s))) by (apply rp_el; auto).
  unfold ind. rewrite (gl_id_l _ _ _ _ _ L) by auto. unfold rho0.
  assert (Drow := Nat.div_mod row s ltac:(lia)). assert (Dcol := Nat.div_mod col s ltac:(lia)).
  destruct (child _) as [h|] eqn:E.
  - assert (R : (row / s = col / s)%nat).
    { apply rel_rp; auto. apply child_rel; auto. exists h. split; auto.
      eapply child_some; [|exact E]. auto. }
    rewrite R in E. rewrite (gl_inv_l _ _ _ _ _ L) in E by auto.
    rewrite <- (em_id _ _ _ _ _ _ _ _ _ (so_emb SOK)) in E.
    rewrite child_parent in E by (apply (gl_id_el _ _ _ _ _ (so_laws SOK))). injection E as <-.
    destruct Hrep as [Hid _]. rewrite Hid by auto. unfold mid.
    destruct (Nat.eqb_spec (row mod s) (col mod s)); destruct (Nat.eqb_spec row col); auto; [exfalso..].
    + apply n. rewrite Drow, Dcol, R, e. auto.
    + subst; auto.
  - unfold mid, mzero. destruct (Nat.eqb_spec row col) as [->|]; auto. exfalso.
    rewrite (gl_inv_l _ _ _ _ _ L) in E by auto.
    rewrite <- (em_id _ _ _ _ _ _ _ _ _ (so_emb SOK)) in E.
    rewrite child_parent in E by (apply (gl_id_el _ _ _ _ _ (so_laws SOK))). discriminate.
Qed.

Lemma ind_rep : is_representation el op e0 (nreps * s) ind.
Proof. split; [apply ind_id|]. intros; apply ind_mul; auto. Qed.

Hypothesis Horth : is_orthogonal_rep elH s rho.

Lemma rho_tr h : elH h -> meq s s (mtr (rho h)) (rho (invH h)).
Proof.
  intros Hh. assert (Ih := gl_inv_el _ _ _ _ _ (so_laws SOK) h Hh).
  apply (inverse_pair_unique s (rho h)); [apply Horth; auto|].
  destruct Hrep as [Hid Hm]. split; rewrite <- Hm by auto.
  - rewrite (gl_inv_r _ _ _ _ _ (so_laws SOK)); auto.
  - rewrite (gl_inv_l _ _ _ _ _ (so_laws SOK)); auto.
Qed.

Lemma rho0_tr x : el x -> meq s s (mtr (rho0 x)) (rho0 (inv x)).
Proof.
  intros Hx. unfold rho0. destruct (child x) as [h|] eqn:E.
  - destruct (child_some _ _ Hx E) as [Hh Ep]. rewrite <- Ep, <- parent_inv by auto.
    rewrite child_parent by (apply (gl_inv_el _ _ _ _ _ (so_laws SOK)); auto). apply rho_tr; auto.
  - destruct (child (inv x)) as [h|] eqn:E'; [|reflexivity]. exfalso.
    destruct (child_some _ _ (invE _ Hx) E') as [Hh Ep].
    assert (X : x = parent (invH h)) by (rewrite parent_inv, Ep, inv_inv; auto).
    rewrite X, child_parent in E; [discriminate|]. apply (gl_inv_el _ _ _ _ _ (so_laws SOK)); auto.
Qed.

Lemma ind_tr g : el g -> meq (nreps * s) (nreps * s) (mtr (ind g)) (ind (inv g)).
Proof.
  intros Hg row col Hrow Hcol.
  destruct (divmod_lt _ _ _ Hrow) as [R1 R2]. destruct (divmod_lt _ _ _ Hcol) as [C1 C2].
  assert (Erc : el (rp (col / s))) by (apply rp_el; auto). assert (Err : el (rp (row / s))) by (apply rp_el; auto).
  unfold mtr, ind.
  change (mtr (rho0 (op (inv (rp (col / s))) (op g (rp (row / s))))) (row mod s)%nat (col mod s)%nat =
          rho0 (op (inv (rp (row / s))) (op (inv g) (rp (col / s)))) (row mod s)%nat (col mod s)%nat).
  rewrite (rho0_tr _ (opE _ _ (invE _ Erc) (opE _ _ Hg Err)) _ _ R2 C2).
  assert (EQ : inv (op (inv (rp (col / s))) (op g (rp (row / s)))) = op (inv (rp (row / s))) (op (inv g) (rp (col / s)))).
  { rewrite inv_op by auto. rewrite (inv_op g) by auto. rewrite inv_inv by auto. apply assoc; auto. }
  rewrite EQ. reflexivity.
Qed.

Lemma ind_orth : is_orthogonal_rep el (nreps * s) ind.
Proof.
  intros g Hg. apply square_inverse_pair. rewrite (ind_tr g Hg). rewrite <- ind_mul by auto.
  rewrite (gl_inv_r _ _ _ _ _ L) by auto. apply ind_id.
Qed.

End Induced.

(** Lagrange: the number of representatives *)
Section Lagrange.
Context {G H : Type}.
Variable grp : fgroup G.
Hypothesis OK : fgroup_ok grp.
Variables (subs : list H) (parent : H -> G) (child : G -> option H)
          (opH : H -> H -> H) (invH : H -> H) (eH : H).
Hypothesis SOK : subgroup_ok grp subs parent child opH invH eH.
Notation els := (fg_elements grp).
Notation op := (fg_combine grp).

Lemma lagrange : (length els = length (representatives grp subs parent) * length subs)%nat.
Proof.
  assert (CI := cosets_inv grp OK subs parent child opH invH eH SOK).
  set (all := concat (map (fun r => map (fun h => op r (parent h)) subs) (representatives grp subs parent))).
  assert (Len : length all = (length (representatives grp subs parent) * length subs)%nat).
  { unfold all. induction (representatives grp subs parent); simpl; auto. rewrite app_length, map_length, IHl; auto. }
  rewrite <- Len.
  assert (pE : forall h, In h subs -> In (parent h) els) by apply (em_el _ _ _ _ _ _ _ _ _ (so_emb _ _ _ _ _ _ _ SOK)).
  assert (rE : forall r, In r (representatives grp subs parent) -> In r els) by apply (ci_sub _ _ _ _ _ CI).
  apply Nat.le_antisymm.
  - apply NoDup_incl_length; [apply (fo_nodup grp OK)|]. intros x Hx.
    destruct (coset_spec grp OK subs parent child opH invH eH SOK x Hx) as [r [_ [Hr [[h [Hh ->]] _]]]].
    apply in_concat. eexists. split; [apply in_map; exact Hr|]. apply in_map_iff. exists h; auto.
  - apply NoDup_incl_length.
    + unfold all.
      assert (U : forall r r', In r (representatives grp subs parent) -> In r' (representatives grp subs parent) -> rel grp subs parent r r' -> r = r') by apply (ci_uniq _ _ _ _ _ CI).
      generalize (ci_nodup _ _ _ _ _ CI). fold (representatives grp subs parent).
      revert U rE. generalize (representatives grp subs parent) as l.
      induction l as [|r l IH]; simpl; intros U rE ND; [constructor|]. inversion ND; subst.
      apply NoDup_app_remove_l with (l := []) in H3 || idtac.
      assert (A : NoDup (map (fun h => op r (parent h)) subs)).
      { assert (inj : forall h h', In h subs -> In h' subs -> op r (parent h) = op r (parent h') -> h = h').
        { intros h h' Hh Hh' E. apply (em_inj _ _ _ _ _ _ _ _ _ (so_emb _ _ _ _ _ _ _ SOK)); auto.
          apply (op_cancel_l grp OK r); auto. }
        generalize (so_nodup _ _ _ _ _ _ _ SOK). clear - inj. induction subs as [|h t IH]; simpl; intros ND; [constructor|].
        inversion ND; subst. constructor.
        - rewrite in_map_iff. intros [h' [E Hh']]. apply inj in E; simpl; auto. subst; auto.
        - apply IH; auto. intros; apply inj; simpl; auto. }
      assert (B : NoDup (concat (map (fun r => map (fun h => op r (parent h)) subs) l))) by (apply IH; auto; intros; apply U; auto).
      assert (D : forall x, In x (map (fun h => op r (parent h)) subs) -> ~ In x (concat (map (fun r => map (fun h => op r (parent h)) subs) l))).
      { intros x Hx Hx'. apply in_map_iff in Hx. destruct Hx as [h [<- Hh]].
        apply in_concat in Hx'. destruct Hx' as [y [Hy Hx']]. apply in_map_iff in Hy. destruct Hy as [r' [<- Hr']].
        apply in_map_iff in Hx'. destruct Hx' as [h' [E Hh']].
        assert (r = r'); [|subst; auto].
        apply U; auto.
        apply (rel_trans grp OK subs parent child opH invH eH SOK) with (op r (parent h)); auto.
        - exists h; auto.
        - rewrite <- E. apply (rel_sym grp OK subs parent child opH invH eH SOK); auto. exists h'; auto. }
      clear - A B D. induction (map (fun h => op r (parent h)) subs) as [|a t IH]; simpl; auto.
      inversion A; subst. constructor.
      * rewrite in_app_iff. intros [|X]; auto. apply (D a); simpl; auto.
      * apply IH; auto. intros; apply D; simpl; auto.
    + intros x Hx. apply in_concat in Hx. destruct Hx as [y [Hy Hx]]. apply in_map_iff in Hy. destruct Hy as [r [<- Hr]].
      apply in_map_iff in Hx. destruct Hx as [h [<- Hh]]. apply (op_el grp OK); auto.
Qed.

Lemma sub_pos : (0 < length subs)%nat.
Proof.
  assert (X := gl_id_el _ _ _ _ _ (so_laws _ _ _ _ _ _ _ SOK)). simpl in X. destruct subs; simpl in *; [tauto|lia].
Qed.

Lemma quotient_size : (order grp / length subs)%nat = length (representatives grp subs parent).
Proof. unfold order. rewrite lagrange, Nat.div_mul; auto. generalize sub_pos; lia. Qed.

Lemma meqb_true r c A B : meqb r c A B = true -> meq r c A B.
Proof.
  unfold meqb. intros E i j Hi Hj. rewrite forallb_forall in E.
  assert (X := E i ltac:(apply in_seq; lia)). rewrite forallb_forall in X.
  specialize (X j ltac:(apply in_seq; lia)). destruct (Req_EM_T (A i j) (B i j)); auto; discriminate.
Qed.

(** whenever the builder returns, the result is the induced representation *)
Theorem build_induced_spec restrict ir irreps cob cob_inv :
  build_induced grp subs parent child restrict ir = Ok (irreps, cob, cob_inv) ->
  orthogonal (length (representatives grp subs parent) * ir_size ir) cob /\
  cob_inv = mtr cob /\
  forall g, In g els ->
    meq (length (representatives grp subs parent) * ir_size ir) (length (representatives grp subs parent) * ir_size ir)
      (mmul (length (representatives grp subs parent) * ir_size ir)
        (mmul (length (representatives grp subs parent) * ir_size ir) cob (bdiag (blocks irreps g))) cob_inv)
      (ind grp subs parent child (ir_size ir) (ir_mat ir) g).
Proof.
  unfold build_induced. rewrite quotient_size.
  rewrite (Nat.mul_comm (ir_size ir)). set (n := (length (representatives grp subs parent) * ir_size ir)%nat).
  destruct (rmap (induced_matrix _ _ _ _ _ _) els) as [mats|] eqn:EM; [|discriminate]. cbn [rbind].
  destruct (multiplicities _ _) as [ms|]; [|discriminate]. cbn [rbind].
  destruct (rmap _ ms) as [rows|]; [|discriminate]. cbn [rbind].
  set (ci := fun i c => mmul n _ _ i _).
  unfold assert_.
  destruct (meqb n n (mmul n ci (mtr ci)) mid) eqn:E1; [|discriminate].
  destruct (meqb n n (mmul n (mtr ci) ci) mid) eqn:E2; [|discriminate].
  destruct (forallb _ els) eqn:E3; [|discriminate].
  intros E; injection E as <- <- <-.
  apply meqb_true in E1. apply meqb_true in E2.
  split; [split; auto|]. split; [reflexivity|].
  intros g Hg. rewrite forallb_forall in E3. specialize (E3 g Hg). apply meqb_true in E3. rewrite E3.
  apply rmap_inv in EM.
  assert (Eg : nth_error els (index grp g) = Some g).
  { rewrite (nth_error_nth' els (fg_id grp)) by (apply (index_lt grp OK); auto). f_equal. apply (elem_index grp OK); auto. }
  destruct (Forall2_nth_error _ _ _ _ _ EM Eg) as [M [A B]].
  destruct (induced_matrix_ok grp OK subs parent child opH invH eH SOK (ir_size ir) (ir_mat ir) g Hg) as [M' [A' B']].
  rewrite A' in B. injection B as <-.
  rewrite (nth_error_nth _ _ mzero A). exact B'.
Qed.
End Lagrange.
