(** The regular and induced representations have the matrices that the non-linearities need. *)
From Coq Require Import Reals ZArith String List Bool Lia Lra.
From Verif Require Import Base LinAlg Spec Model_Groups Model_Rep Model_Regular Spec_Fieldwise Proofs_Groups Proofs_Irreps Proofs_Rep Proofs_Regular Proofs_Regular2
  Proofs_Induced Prop_Regular Proofs_Fieldwise8.
Import ListNotations.
Open Scope R_scope.

Lemma bij_inverse n t : bij n t -> exists s, bij n s /\ forall i j, (i < n)%nat -> (j < n)%nat -> (i =? t j)%nat = (j =? s i)%nat.
Proof.
  intros B. exists (fun i => hd 0%nat (filter (fun j => i =? t j)%nat (seq 0 n))).
  assert (H : forall i, (i < n)%nat -> exists j, (j < n)%nat /\ t j = i /\ hd 0%nat (filter (fun j => i =? t j)%nat (seq 0 n)) = j).
  { intros i Hi. destruct (bij_surj n t i B Hi) as (j & Hj & E). destruct (filter (fun j => i =? t j)%nat (seq 0 n)) as [|a l] eqn:F.
    - assert (In j []) as []. rewrite <- F. apply filter_In. split; [apply in_seq; lia|]. apply Nat.eqb_eq. auto.
    - exists a. assert (In a (a :: l)) as Ha by (cbn; auto). rewrite <- F in Ha. apply filter_In in Ha as [H1 H2]. apply in_seq in H1. apply Nat.eqb_eq in H2. cbn. split; [lia|auto]. }
  split; [split|].
  - intros i Hi. destruct (H i Hi) as (j & Hj & _ & ->). auto.
  - intros i i' Hi Hi' E. destruct (H i Hi) as (j & _ & Tj & Ej). destruct (H i' Hi') as (j' & _ & Tj' & Ej'). rewrite Ej, Ej' in E. congruence.
  - intros i j Hi Hj. destruct (H i Hi) as (j' & Hj' & Tj & ->). destruct (Nat.eqb_spec j j') as [->|N]; [apply Nat.eqb_eq; auto|].
    apply Nat.eqb_neq. intros E. apply N. apply (proj2 B); auto. congruence.
Qed.
Lemma perm_of_cols n t A : bij n t -> (forall i j, (i < n)%nat -> (j < n)%nat -> A i j = if (i =? t j)%nat then 1 else 0) -> is_perm n A.
Proof. intros B H. destruct (bij_inverse n t B) as (s & Bs & E). exists s. split; [auto|]. intros i j Hi Hj. rewrite H, E by auto. reflexivity. Qed.
Lemma block_perm_of_cols k m t (O : nat -> mat) A : bij k t -> (forall q, (q < k)%nat -> orthogonal m (O q)) ->
  (forall q q' i j, (q < k)%nat -> (q' < k)%nat -> (i < m)%nat -> (j < m)%nat -> A (q * m + i)%nat (q' * m + j)%nat = if (q =? t q')%nat then O q' i j else 0) -> is_block_perm k m A.
Proof.
  intros B OO H. destruct (bij_inverse k t B) as (s & Bs & E). exists s, (fun q => O (s q)). split; [auto|]. split; [intros q Hq; apply OO, Bs; auto|].
  intros q q' i j Hq Hq' Hi Hj. rewrite H, E by auto. destruct (Nat.eqb_spec q' (s q)) as [->|]; reflexivity.
Qed.

(** regular representations are permutations *)
Lemma regular_perm {G} (grp : fgroup G) (OK : fgroup_ok grp) g M : In g (fg_elements grp) -> meq (order grp) (order grp) M (reg_perm grp g) -> is_perm (order grp) M.
Proof.
  intros Hg HM. apply (perm_of_cols _ (fun i => index grp (fg_combine grp g (elem grp i)))).
  - split.
    + intros i Hi. apply (index_lt grp OK). apply (op_el grp OK); auto. apply (elem_el grp); auto.
    + intros i j Hi Hj E. assert (Ei := elem_el grp i Hi). assert (Ej := elem_el grp j Hj).
      assert (E' : fg_combine grp g (elem grp i) = fg_combine grp g (elem grp j)).
      { rewrite <- (elem_index grp OK (fg_combine grp g (elem grp i))), <- (elem_index grp OK (fg_combine grp g (elem grp j))) by (apply (op_el grp OK); auto). congruence. }
      assert (E2 : elem grp i = elem grp j).
      { pose proof (fo_laws grp OK) as L. assert (In (fg_inverse grp g) (fg_elements grp)) by (apply (gl_inv_el _ _ _ _ _ L); auto).
        rewrite <- (gl_id_l _ _ _ _ _ L (elem grp i)), <- (gl_id_l _ _ _ _ _ L (elem grp j)) by auto.
        rewrite <- (gl_inv_l _ _ _ _ _ L g) by auto. rewrite !(gl_assoc _ _ _ _ _ L) by auto. congruence. }
      rewrite <- (index_elem grp OK i Hi), <- (index_elem grp OK j Hj). congruence.
  - intros i j Hi Hj. rewrite HM by auto. reflexivity.
Qed.
Lemma perm_orthogonal n A : is_perm n A -> orthogonal n A.
Proof.
  intros (s & B & H).
  assert (X : forall i j, (i < n)%nat -> (j < n)%nat -> rsum n (fun k => A i k * A j k) = if Nat.eqb i j then 1 else 0).
  { intros i j Hi Hj. rewrite (rsum_perm n s A (fun _ => 1) i B H Hi (fun k => A j k)). rewrite H by (auto; apply B; auto). rewrite Rmult_1_l.
    destruct (Nat.eqb_spec i j) as [->|N]; [rewrite Nat.eqb_refl; auto|]. destruct (Nat.eqb_spec (s i) (s j)) as [E|]; [|auto]. exfalso. apply N, B; auto. }
  assert (Y : forall i j, (i < n)%nat -> (j < n)%nat -> rsum n (fun k => A k i * A k j) = if Nat.eqb i j then 1 else 0).
  { intros i j Hi Hj. destruct (bij_surj n s i B Hi) as (a & Ha & Ea). rewrite (rsum_ext n _ (fun k => if Nat.eqb k a then A a j else 0)).
    - rewrite (rsum_at' n a (fun _ => A a j)) by auto. rewrite H by auto. rewrite Ea, Nat.eqb_sym. reflexivity.
    - intros k Hk. rewrite (H k i) by auto. destruct (Nat.eqb_spec i (s k)) as [E|N].
      + assert (k = a) by (apply B; auto; congruence). subst k. rewrite Nat.eqb_refl. ring.
      + destruct (Nat.eqb_spec k a) as [->|]; [congruence|ring]. }
  split.
  - intros i j Hi Hj. unfold mmul, mtr, mid. rewrite X by auto. reflexivity.
  - intros i j Hi Hj. unfold mmul, mtr, mid. rewrite Y by auto. reflexivity.
Qed.
Lemma cyc_shift N r g : (0 < N)%Z -> regular_representation (cyc_fg N) = Ok r -> cyc_el N g -> is_shift (Z.to_nat N) (Z.to_nat g) (rp_mat r g).
Proof.
  intros HN E Hg. destruct (cyc_regular N HN) as (r' & E' & SZ & _ & _ & _ & _ & _ & I). rewrite E in E'. injection E' as <-.
  destruct (cyc_elements_spec N HN) as [E1 [_ E3]].
  assert (T : left_translation (cyc_elements N) 0%Z (cyc_combine N) g (rp_mat r g)).
  { apply (reg_perm_translation (cyc_fg N) (cyc_fg_ok N HN)); [apply E3; auto|]. assert (O : order (cyc_fg N) = Z.to_nat N) by exact E1. rewrite O. apply I; auto. }
  apply cyc_el_iff in Hg. intros i j Hi Hj. destruct (T i j ltac:(lia) ltac:(lia)) as [T1 T2].
  assert (NT : forall a, (a < Z.to_nat N)%nat -> nth a (cyc_elements N) 0%Z = Z.of_nat a).
  { intros a Ha. unfold cyc_elements. rewrite (nth_indep _ 0%Z (Z.of_nat 0)) by (rewrite map_length, seq_length; auto). rewrite (map_nth Z.of_nat), seq_nth by auto. reflexivity. }
  rewrite !NT in T1, T2 by auto. unfold cyc_combine in *.
  set (n := Z.to_nat N) in *. set (k := Z.to_nat g) in *.
  pose proof (Nat.div_mod (i + (n - k)) n ltac:(lia)) as D. pose proof (Nat.mod_upper_bound (i + (n - k)) n ltac:(lia)) as D'. set (q := ((i + (n - k)) / n)%nat) in *. set (e := ((i + (n - k)) mod n)%nat) in *.
  assert (Q : (q <= 1)%nat) by nia.
  destruct (Nat.eqb_spec j e) as [Ej|NE].
  - apply T1. subst j. destruct q as [|[|q]]; [| |lia].
    + apply Z.mod_unique with 1%Z; lia.
    + apply Z.mod_unique with 0%Z; lia.
  - apply T2. intros Ei. apply NE. pose proof (Z.div_mod (g + Z.of_nat j) N ltac:(lia)) as D2. rewrite <- Ei in D2. set (u := ((g + Z.of_nat j) / N)%Z) in *.
    assert (u = 0 \/ u = 1)%Z by nia. assert (Z.of_nat j = Z.of_nat e); [|lia]. destruct q as [|[|q]]; [| |lia]; destruct H as [H|H]; rewrite H in D2; try nia; lia.
Qed.
(** induced representations of orthogonal ones are block permutations *)
Lemma induced_block_perm {G H} (grp : fgroup G) (OK : fgroup_ok grp) (subs : list H) parent child opH invH eH
  (SOK : subgroup_ok grp subs parent child opH invH eH) s rho g :
  is_orthogonal_rep (fun h => In h subs) s rho -> In g (fg_elements grp) ->
  is_block_perm (length (representatives grp subs parent)) s (ind_mat grp subs parent child s rho g).
Proof.
  intros OR Hg. set (reps := representatives grp subs parent) in *.
  pose (rr := rp grp subs parent).
  assert (RE : forall i, (i < length reps)%nat -> In (rr i) (fg_elements grp)) by (intros i Hi; apply (rp_el grp OK subs parent child opH invH eH SOK); auto).
  assert (RI : forall i, (i < length reps)%nat -> In (rr i) reps) by (intros i Hi; apply rp_in; auto).
  pose (t := fun i => match induced_entry grp subs parent child g (rr i) with Ok (j, _) => j | Err _ => 0%nat end).
  pose (hh := fun i => match induced_entry grp subs parent child g (rr i) with Ok (_, h) => h | Err _ => eH end).
  assert (C : forall i, (i < length reps)%nat -> (t i < length reps)%nat /\ In (hh i) subs /\
      child (fg_combine grp (fg_inverse grp (rr (t i))) (fg_combine grp g (rr i))) = Some (hh i) /\
      forall j', (j' < length reps)%nat -> j' <> t i -> child (fg_combine grp (fg_inverse grp (rr j')) (fg_combine grp g (rr i))) = None).
  { intros i Hi. destruct (induced_entry_ok grp OK subs parent child opH invH eH SOK g (rr i) Hg (RI i Hi)) as (j & h & E & A). unfold t, hh. rewrite E. exact A. }
  assert (OE : forall i, (i < length reps)%nat -> In (fg_combine grp g (rr i)) (fg_elements grp)) by (intros i Hi; apply (op_el grp OK); auto).
  assert (RL : forall i, (i < length reps)%nat -> rel grp subs parent (rr (t i)) (fg_combine grp g (rr i))).
  { intros i Hi. destruct (C i Hi) as (A & B & D & _). apply (child_rel grp OK subs parent child opH invH eH SOK); auto. exists (hh i). auto. }
  apply (block_perm_of_cols _ s t (fun i => rho (hh i))).
  - split; [intros i Hi; apply C; auto|]. intros i i' Hi Hi' E. apply (rel_rp grp OK subs parent child opH invH eH SOK); auto.
    assert (R1 := RL i Hi). assert (R2 := RL i' Hi'). rewrite <- E in R2.
    apply (rel_sym grp OK subs parent child opH invH eH SOK) in R1; [|apply RE, C; auto].
    destruct (rel_trans grp OK subs parent child opH invH eH SOK _ _ _ (OE i Hi) R1 R2) as (h & Hh & Eh). exists h. split; [auto|].
    pose proof (fo_laws grp OK) as L. assert (In (fg_inverse grp g) (fg_elements grp)) by (apply (gl_inv_el _ _ _ _ _ L); auto).
    assert (Eh' : fg_combine grp (fg_inverse grp g) (fg_combine grp g (rr i')) = fg_combine grp (fg_inverse grp g) (fg_combine grp (fg_combine grp g (rr i)) (parent h))) by congruence.
    assert (PH : In (parent h) (fg_elements grp)) by (apply (em_el _ _ _ _ _ _ _ _ _ (so_emb _ _ _ _ _ _ _ SOK)); auto).
    assert (Ei : In (rr i) (fg_elements grp)) by auto. assert (Ei' : In (rr i') (fg_elements grp)) by auto.
    assert (Ep : In (fg_combine grp (rr i) (parent h)) (fg_elements grp)) by (apply (op_el grp OK); auto).
    rewrite (gl_assoc _ _ _ _ _ L g (rr i) (parent h)) in Eh' by auto. rewrite <- !(gl_assoc _ _ _ _ _ L (fg_inverse grp g) g) in Eh' by auto.
    rewrite (gl_inv_l _ _ _ _ _ L) in Eh' by auto. rewrite !(gl_id_l _ _ _ _ _ L) in Eh' by auto. exact Eh'.
  - intros q Hq. apply OR, C; auto.
  - intros q q' i j Hq Hq' Hi Hj.
    destruct (induced_matrix_ok grp OK subs parent child opH invH eH SOK s rho g Hg) as (M & EM & HM). unfold ind_mat. rewrite EM. rewrite HM; [|unfold nreps; fold reps; nia|unfold nreps; fold reps; nia].
    unfold ind. destruct (divmod_unique s q i Hi) as [-> ->]. destruct (divmod_unique s q' j Hj) as [-> ->]. unfold rho0.
    destruct (C q' Hq') as (A & B & D & F). unfold rr in D, F. destruct (Nat.eqb_spec q (t q')) as [->|N]; [rewrite D; reflexivity|]. rewrite F by auto. reflexivity.
Qed.
