(** Kinds of matrices that are closed under direct sums, parts of direct sums and reordering. *)
From Coq Require Import Reals ZArith String List Bool Lia Lra.
From Verif Require Import Base LinAlg Spec Model_Groups Model_Rep Spec_Fieldwise Proofs_Irreps Proofs_Rep Proofs_Kernels5 Proofs_Fieldwise8 Proofs_Fieldwise11.
Import ListNotations.
Open Scope R_scope.

(** orthogonal matrices whose entries satisfy E *)
Definition okind (E : R -> Prop) (n : nat) (A : mat) : Prop := orthogonal n A /\ forall i j, (i < n)%nat -> (j < n)%nat -> E (A i j).
Definition e01 (x : R) : Prop := x = 0 \/ x = 1.
Definition epm (x : R) : Prop := x = 0 \/ x = 1 \/ x = -1.

Lemma okind_ext E n A B : meq n n A B -> okind E n A -> okind E n B.
Proof. intros H [O X]. split; [apply (orthogonal_ext n A B H O)|]. intros i j Hi Hj. rewrite <- (H i j) by auto. auto. Qed.
Lemma bsize_mid l1 n (A : mat) l2 : bsize (l1 ++ (n, A) :: l2) = (bsize l1 + (n + bsize l2))%nat.
Proof. unfold bsize. rewrite map_app, nsum_app. reflexivity. Qed.
Lemma bdiag_at l1 n A l2 i j : (i < n)%nat -> (j < n)%nat -> bdiag (l1 ++ (n, A) :: l2) (bsize l1 + i)%nat (bsize l1 + j)%nat = A i j.
Proof.
  intros Hi Hj. rewrite bdiag_row by (apply inb_true; lia). assert (X : inb (bsize l1) n (bsize l1 + j) = true) by (apply inb_true; lia). rewrite X. f_equal; lia.
Qed.
Lemma bdiag_orth l : Forall (fun p => orthogonal (fst p) (snd p)) l -> orthogonal (bsize l) (bdiag l).
Proof.
  intros F. set (l3 := map (fun p => (fst p, (snd p, mtr (snd p)))) l : list (nat * (mat * mat))).
  assert (I := bdiag_inverse_pair l3). assert (F3 : Forall (fun p => inverse_pair (fst p) (fst (snd p)) (snd (snd p))) l3).
  { apply Forall_forall. intros p Hp. unfold l3 in Hp. apply in_map_iff in Hp as (q & <- & Hq). rewrite Forall_forall in F. exact (F q Hq). }
  specialize (I F3). unfold l3 in I. rewrite !map_map in I. cbn [fst snd] in I.
  assert (E : map (fun x : nat * mat => (fst x, snd x)) l = l). { clear. induction l as [|[n A] l IH]; cbn [map fst snd]; congruence. } rewrite E in I.
  destruct I as [I1 I2]. change (nsum (map (fun x => fst x) l)) with (bsize l) in *. split.
  - intros i j Hi Hj. rewrite <- I1 by auto. unfold mmul. apply rsum_ext. intros k Hk. rewrite bdiag_tr. reflexivity.
  - intros i j Hi Hj. rewrite <- I2 by auto. unfold mmul. apply rsum_ext. intros k Hk. rewrite bdiag_tr. reflexivity.
Qed.
Lemma rsum_block l1 n (A : mat) l2 f : (forall k, (k < bsize (l1 ++ (n, A) :: l2))%nat -> inb (bsize l1) n k = false -> f k = 0) ->
  rsum (bsize (l1 ++ (n, A) :: l2)) f = rsum n (fun k => f (bsize l1 + k)%nat).
Proof. intros H. apply rsum_range; [rewrite bsize_mid; lia|auto]. Qed.
Lemma part_orth l1 n A l2 : orthogonal (bsize (l1 ++ (n, A) :: l2)) (bdiag (l1 ++ (n, A) :: l2)) -> orthogonal n A.
Proof.
  intros [O1 O2]. assert (LT : forall i, (i < n)%nat -> (bsize l1 + i < bsize (l1 ++ (n, A) :: l2))%nat) by (intros; rewrite bsize_mid; lia).
  assert (MID : forall i j, @eq R (mid (bsize l1 + i)%nat (bsize l1 + j)%nat) (mid i j)).
  { intros i j. unfold mid. destruct (Nat.eqb_spec (bsize l1 + i) (bsize l1 + j)); destruct (Nat.eqb_spec i j); try lia; auto. }
  split; intros i j Hi Hj.
  - specialize (O1 _ _ (LT i Hi) (LT j Hj)). rewrite MID in O1. rewrite <- O1. unfold mmul, mtr. rewrite rsum_block.
    + apply rsum_ext. intros k Hk. rewrite !bdiag_at by auto. reflexivity.
    + intros k _ Hk. rewrite bdiag_row by (apply inb_true; lia). rewrite Hk. ring.
  - specialize (O2 _ _ (LT i Hi) (LT j Hj)). rewrite MID in O2. rewrite <- O2. unfold mmul, mtr. rewrite rsum_block.
    + apply rsum_ext. intros k Hk. rewrite !bdiag_at by auto. reflexivity.
    + intros k _ Hk. rewrite bdiag_col by (apply inb_true; lia). rewrite Hk. ring.
Qed.
Lemma bdiag_entries (E : R -> Prop) l : E 0 -> Forall (fun p => forall i j, (i < fst p)%nat -> (j < fst p)%nat -> E (snd p i j)) l -> forall i j, E (bdiag l i j).
Proof.
  intros Z F. induction F as [|[n A] l H F IH]; intros i j; cbn [bdiag]; [exact Z|]. cbn [fst snd] in H.
  destruct (Nat.ltb_spec i n); destruct (Nat.ltb_spec j n); auto.
Qed.
Lemma okind_sum (E : R -> Prop) l : E 0 -> Forall (fun p => okind E (fst p) (snd p)) l -> okind E (bsize l) (bdiag l).
Proof.
  intros Z F. split.
  - apply bdiag_orth. eapply Forall_impl; [|exact F]. intros p [O _]. exact O.
  - intros i j _ _. apply bdiag_entries; auto. eapply Forall_impl; [|exact F]. intros p [_ X]. exact X.
Qed.
Lemma okind_part (E : R -> Prop) l : okind E (bsize l) (bdiag l) -> Forall (fun p => okind E (fst p) (snd p)) l.
Proof.
  intros [O X]. apply Forall_forall. intros [n A] Hp. apply in_split in Hp as (l1 & l2 & ->). cbn [fst snd]. split; [apply (part_orth _ _ _ _ O)|].
  intros i j Hi Hj. rewrite <- (bdiag_at l1 n A l2 i j) by auto. apply X; rewrite bsize_mid; lia.
Qed.
Lemma mid_part l : meq (bsize l) (bsize l) (bdiag l) mid -> Forall (fun p => meq (fst p) (fst p) (snd p) mid) l.
Proof.
  intros X. apply Forall_forall. intros [n A] Hp. apply in_split in Hp as (l1 & l2 & ->). cbn [fst snd].
  intros i j Hi Hj. rewrite <- (bdiag_at l1 n A l2 i j) by auto. rewrite X by (rewrite bsize_mid; lia). unfold mid.
  destruct (Nat.eqb_spec (bsize l1 + i) (bsize l1 + j)); destruct (Nat.eqb_spec i j); try lia; auto.
Qed.
(** reordering rows and columns *)
Lemma perm_conj n P A s : bij n s -> (forall i j, (i < n)%nat -> (j < n)%nat -> P i j = if (j =? s i)%nat then 1 else 0) ->
  meq n n (mmul n (mmul n P A) (mtr P)) (fun i j => A (s i) (s j)).
Proof.
  intros B H i j Hi Hj. unfold mmul at 1. unfold mtr.
  rewrite (rsum_ext n _ (fun k => P j k * mmul n P A i k)) by (intros; ring). rewrite (rsum_perm n s P (fun _ => 1) j B H Hj).
  unfold mmul. rewrite (rsum_perm n s P (fun _ => 1) i B H Hi). ring.
Qed.
Lemma okind_conj (E : R -> Prop) n P A : is_perm n P -> okind E n A -> okind E n (mmul n (mmul n P A) (mtr P)).
Proof.
  intros HP [O X]. pose proof (perm_orthogonal _ _ HP) as OP. destruct HP as (s & B & H). split.
  - assert (OT : orthogonal n (mtr P)) by (destruct OP as [P1 P2]; split; [exact P2|exact P1]).
    apply orthogonal_mmul; [apply orthogonal_mmul; auto|auto].
  - intros i j Hi Hj. rewrite (perm_conj n P A s B H) by auto. apply X; apply B; auto.
Qed.
Lemma mid_conj n P A : is_perm n P -> meq n n A mid -> meq n n (mmul n (mmul n P A) (mtr P)) mid.
Proof. intros HP E. destruct (perm_orthogonal _ _ HP) as [O _]. rewrite E, mmul_id_r. exact O. Qed.

(** permutations and signed permutations *)
Lemma signed_okind n A : is_signed_perm n A <-> okind epm n A.
Proof.
  split.
  - intros (s & e & B & He & H). split.
    + assert (X : forall i j, (i < n)%nat -> (j < n)%nat -> rsum n (fun k => A i k * A j k) = if Nat.eqb i j then 1 else 0).
      { intros i j Hi Hj. rewrite (rsum_perm n s A e i B H Hi (fun k => A j k)). rewrite H by (auto; apply B; auto).
        destruct (Nat.eqb_spec i j) as [->|N]; [rewrite Nat.eqb_refl; destruct (He j Hj) as [->| ->]; ring|].
        destruct (Nat.eqb_spec (s i) (s j)) as [Q|]; [|ring]. exfalso. apply N, B; auto. }
      assert (Y : forall i j, (i < n)%nat -> (j < n)%nat -> rsum n (fun k => A k i * A k j) = if Nat.eqb i j then 1 else 0).
      { intros i j Hi Hj. destruct (bij_surj n s i B Hi) as (a & Ha & Ea). rewrite (rsum_ext n _ (fun k => if Nat.eqb k a then e a * A a j else 0)).
        - rewrite (rsum_at' n a (fun _ => e a * A a j)) by auto. rewrite H by auto. rewrite Ea, Nat.eqb_sym. destruct (Nat.eqb i j); [|ring]. destruct (He a Ha) as [->| ->]; ring.
        - intros k Hk. rewrite (H k i) by auto. destruct (Nat.eqb_spec i (s k)) as [E|N].
          + assert (k = a) by (apply B; auto; congruence). subst k. rewrite Nat.eqb_refl. ring.
          + destruct (Nat.eqb_spec k a) as [->|]; [congruence|ring]. }
      split; intros i j Hi Hj; unfold mmul, mtr, mid; [apply X|apply Y]; auto.
    + intros i j Hi Hj. rewrite H by auto. destruct (Nat.eqb j (s i)); [|left; auto]. right. auto.
  - intros [[O1 O2] X].
    assert (Q : forall i j, (i < n)%nat -> (j < n)%nat -> A i j * A i j = (if Req_EM_T (A i j) 0 then 0 else 1)).
    { intros i j Hi Hj. destruct (Req_EM_T (A i j) 0) as [->|N]; [ring|]. destruct (X i j Hi Hj) as [?|[->| ->]]; [contradiction|ring|ring]. }
    assert (ROW : forall i, (i < n)%nat -> exists j, (j < n)%nat /\ A i j <> 0).
    { intros i Hi. destruct (existsb (fun j => if Req_EM_T (A i j) 0 then false else true) (seq 0 n)) eqn:Ex.
      - apply existsb_exists in Ex as (j & Hj & E). apply in_seq in Hj. destruct (Req_EM_T (A i j) 0); [discriminate|]. exists j. split; [lia|auto].
      - exfalso. assert (Z : forall j, (j < n)%nat -> A i j = 0).
        { intros j Hj. destruct (Req_EM_T (A i j) 0) as [E|N]; [auto|]. exfalso. assert (T : existsb (fun j => if Req_EM_T (A i j) 0 then false else true) (seq 0 n) = true).
          { apply existsb_exists. exists j. split; [apply in_seq; lia|]. destruct (Req_EM_T (A i j) 0); [contradiction|auto]. } congruence. }
        specialize (O1 i i Hi Hi). unfold mmul, mtr, mid in O1. rewrite Nat.eqb_refl in O1. rewrite rsum_0 in O1 by (intros k Hk; rewrite Z by auto; ring). lra. }
    assert (TWO : forall (f : nat -> R) a b, (a < n)%nat -> (b < n)%nat -> a <> b -> (forall k, (k < n)%nat -> 0 <= f k) -> f a = 1 -> f b = 1 -> rsum n f = 1 -> False).
    { intros f a b Ha Hb N P F1 F2 S1. assert (L : rsum n (fun k => (if Nat.eqb k a then 1 else 0) + (if Nat.eqb k b then 1 else 0)) <= rsum n f).
      { apply rsum_le. intros k Hk. specialize (P k Hk). destruct (Nat.eqb_spec k a) as [E1|]; destruct (Nat.eqb_spec k b) as [E2|]; [congruence| | |]; try (rewrite E1 in *); try (rewrite E2 in *); lra. }
      rewrite rsum_plus, (rsum_at' n a (fun _ => 1)), (rsum_at' n b (fun _ => 1)) in L by auto. lra. }
    set (s := fun i => match find (fun j => if Req_EM_T (A i j) 0 then false else true) (seq 0 n) with Some j => j | None => 0%nat end).
    assert (S1 : forall i, (i < n)%nat -> (s i < n)%nat /\ A i (s i) <> 0).
    { intros i Hi. unfold s. destruct (find _ (seq 0 n)) as [j|] eqn:F.
      - apply find_some in F as [F1 F2]. apply in_seq in F1. destruct (Req_EM_T (A i j) 0); [discriminate|]. split; [lia|auto].
      - exfalso. destruct (ROW i Hi) as (j & Hj & NZ). pose proof (find_none _ _ F j ltac:(apply in_seq; lia)) as C. cbv beta in C. destruct (Req_EM_T (A i j) 0); [contradiction|discriminate]. }
    assert (ONE : forall i j, (i < n)%nat -> (j < n)%nat -> A i j <> 0 -> A i j * A i j = 1) by (intros i j Hi Hj N; rewrite Q by auto; destruct (Req_EM_T (A i j) 0); [contradiction|auto]).
    assert (POS : forall i j, (0 <= A i j * A i j)) by (intros; apply Rle_0_sqr).
    assert (BS : bij n s).
    { split; [intros i Hi; apply S1; auto|]. intros i i' Hi Hi' E. destruct (Nat.eq_dec i i') as [|N]; [auto|exfalso].
      destruct (S1 i Hi) as [L1 L2]. destruct (S1 i' Hi') as [L1' L2']. rewrite <- E in L2'.
      apply (TWO (fun k => A k (s i) * A k (s i)) i i'); auto. specialize (O2 (s i) (s i) L1 L1). unfold mmul, mtr, mid in O2. rewrite Nat.eqb_refl in O2. exact O2. }
    exists s, (fun i => A i (s i)). split; [exact BS|]. split.
    + intros i Hi. destruct (S1 i Hi) as [L1 L2]. destruct (X i (s i) Hi L1) as [?|[?|?]]; auto. contradiction.
    + intros i j Hi Hj. destruct (Nat.eqb_spec j (s i)) as [->|N]; [auto|]. destruct (Req_EM_T (A i j) 0) as [|NZ]; [auto|exfalso]. destruct (S1 i Hi) as [L1 L2].
      apply (TWO (fun k => A i k * A i k) j (s i)); auto. specialize (O1 i i Hi Hi). unfold mmul, mtr, mid in O1. rewrite Nat.eqb_refl in O1. exact O1.
Qed.
Lemma perm_okind n A : is_perm n A <-> okind e01 n A.
Proof.
  split.
  - intros HP. split; [apply perm_orthogonal; auto|]. destruct HP as (s & B & H). intros i j Hi Hj. rewrite H by auto. unfold e01. destruct (Nat.eqb j (s i)); auto.
  - intros [O X]. assert (SP : is_signed_perm n A). { apply signed_okind. split; [auto|]. intros i j Hi Hj. destruct (X i j Hi Hj); unfold epm; auto. }
    destruct SP as (s & e & B & He & H). exists s. split; [auto|]. intros i j Hi Hj. rewrite H by auto. destruct (Nat.eqb_spec j (s i)) as [->|]; [|auto].
    destruct (B) as [B1 _]. specialize (X i (s i) Hi (B1 i Hi)). rewrite H in X by auto. rewrite Nat.eqb_refl in X. destruct (He i Hi) as [E|E]; rewrite E in *; auto. destruct X; lra.
Qed.
