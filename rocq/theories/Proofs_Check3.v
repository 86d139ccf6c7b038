(** For C66: the errors that check_equivariance returns. *)
From Coq Require Import Reals ZArith String List Bool Lia Lra.
From Verif Require Import Base Model_Groups Model_Rep Model_FieldType Model_GSpace Model_Conv Model_Net Spec_Net Model_Check Spec_Check Proofs_Conv Proofs_FieldType Proofs_Check.
Import ListNotations.
Open Scope R_scope.

Lemma fold_seq (f : nat -> R) n : fold_right Rplus 0 (map f (seq 0 n)) = rsum n f.
Proof.
  induction n as [|n IH]; [reflexivity|]. rewrite seq_S, map_app, fold_right_app. cbn [map fold_right rsum Nat.add]. rewrite <- IH.
  generalize (map f (seq 0 n)). intros l. induction l as [|a l IHl]; cbn; [ring|]. rewrite IHl. ring.
Qed.
Lemma fold_flat {A} (h : A -> R) (f : nat -> list A) n : fold_right Rplus 0 (map h (flat_map f (seq 0 n))) = rsum n (fun i => fold_right Rplus 0 (map h (f i))).
Proof.
  rewrite <- fold_seq. generalize (seq 0 n). intros l. induction l as [|a l IH]; [reflexivity|]. cbn [flat_map map fold_right]. rewrite map_app, fold_right_app, IH.
  generalize (fold_right Rplus 0 (map (fun i => fold_right Rplus 0 (map h (f i))) l)). intros s. generalize (map h (f a)). intros k. induction k as [|b k IHk]; cbn; [ring|]. rewrite IHk. ring.
Qed.
Lemma flat_size {A X} (f : A -> list X) k l : (forall a, length (f a) = k) -> length (flat_map f l) = (length l * k)%nat.
Proof. intros H. induction l as [|a l IH]; cbn; [reflexivity|]. rewrite app_length, H, IH. reflexivity. Qed.
Lemma compare_mean {G B} (bt : batch B) atol rtol (y z : arr (B -> vec) * ctype G) err : compare bt atol rtol y z = Ok err -> err = mean_difference bt y z.
Proof.
  intros E. destruct (proj1 (compare_ok bt atol rtol y z) (ex_intro _ err E)) as (D1 & D2 & D3 & _). unfold compare in E. rewrite D1, D2, D3, !Nat.eqb_refl in E. cbn [andb negb] in E. cbv zeta in E. rewrite <- D3 in E.
  rewrite (pairs_combine bt _ _ _ D1 D2) in E. destruct (pairs bt (ct_size (snd y)) (fst y) (fst z)) as [|p ps] eqn:EP; [discriminate|]. rewrite <- EP in E. apply assert_ok in E as [_ E]. injection E as <-.
  unfold mean, mean_difference, pairs. f_equal.
  - rewrite fold_flat. apply rsum_ext. intros b _. rewrite fold_flat. apply rsum_ext. intros c _. rewrite fold_flat. apply rsum_ext. intros i _. rewrite map_map, fold_seq. reflexivity.
  - rewrite map_length. do 2 f_equal. erewrite flat_size; [rewrite seq_length; reflexivity|]. intros b. erewrite flat_size; [rewrite seq_length; reflexivity|]. intros c. erewrite flat_size; [rewrite seq_length; reflexivity|]. intros i. rewrite map_length, seq_length. reflexivity.
Qed.
Lemma loop_errors {G B St} (bt : batch B) (call : St -> arr (B -> vec) * ctype G -> result (arr (B -> vec) * ctype G * St)) move atol rtol x els s r :
  check_loop bt call move atol rtol x els s = Ok r -> map fst (fst r) = els /\
  forall e err, In (e, err) (fst r) -> exists s0 y s1 out1 x' out2 s2, call s0 x = Ok (y, s1) /\ move y e = Ok out1 /\ move x e = Ok x' /\ call s1 x' = Ok (out2, s2) /\ err = mean_difference bt out1 out2.
Proof.
  revert s r. induction els as [|e els IH]; intros s r E; cbn [check_loop] in E.
  - injection E as <-. split; [reflexivity|]. intros ? ? [].
  - apply rbind_ok in E as ([y s1] & C1 & E). cbn [fst snd] in E. apply rbind_ok in E as (out1 & M1 & E). apply rbind_ok in E as (x' & M2 & E). apply rbind_ok in E as ([out2 s2] & C2 & E). cbn [fst snd] in E.
    apply rbind_ok in E as (err & D & E). apply rbind_ok in E as (r' & L & E). injection E as <-. destruct (IH s2 r' L) as [I1 I2]. cbn [fst map]. split; [rewrite I1; reflexivity|].
    intros e' err' [Q|Q]; [|exact (I2 e' err' Q)]. injection Q as <- <-. exists s, y, s1, out1, x', out2, s2. repeat (split; [assumption|]). exact (compare_mean _ _ _ _ _ _ D).
Qed.
