(** NormNonLinearity and InducedNormNonLinearity, field by field. *)
From Coq Require Import Reals ZArith String Ascii Decimal DecimalString List Bool Lia Lra Permutation Sorted.
From Verif Require Import Base Spec_Fields Model_Groups Model_Rep Model_FieldType Model_Utils Model_Modules Model_Fieldwise Spec_Fieldwise
  Proofs_FieldType Proofs_FieldType2 Proofs_Utils Proofs_Modules Proofs_Modules2 Proofs_Modules3 Proofs_Fieldwise Proofs_Fieldwise2.
Import ListNotations.
Open Scope nat_scope.

(** * Lists *)
Lemma combine_skipn' {A B} n : forall (l : list A) (l' : list B), skipn n (combine l l') = combine (skipn n l) (skipn n l').
Proof.
  induction n as [|n IH]; intros [|a l] [|b l']; cbn; auto. destruct (skipn n l); reflexivity.
Qed.
Lemma field_combine {A B} fs (l : list A) (l' : list B) f : field fs (combine l l') f = combine (field fs l f) (field fs l' f).
Proof. unfold field, sub_list. rewrite combine_skipn', combine_firstn. reflexivity. Qed.
Lemma field_map {A B} (h : A -> B) fs (l : list A) f : field fs (map h l) f = map h (field fs l f).
Proof. unfold field, sub_list. rewrite skipn_map, firstn_map. reflexivity. Qed.

Definition blocks {A} (s : nat) (d : list A) : list (list A) := map (fun q => sub_list d (q * s) (q * s + s)) (seq 0 (length d / s)).
Lemma view_blocks {A} s (d : list A) : s <> 0 -> length d mod s = 0 -> view_fields s d = Ok (blocks s d).
Proof. intros H1 H2. unfold view_fields. rewrite H2. destruct (Nat.eqb_spec s 0); [lia|]. reflexivity. Qed.
Lemma view_inv {A} s (d : list A) bl : view_fields s d = Ok bl -> s <> 0 /\ length d = length bl * s /\ bl = blocks s d.
Proof.
  unfold view_fields. destruct (Nat.eqb_spec s 0); [discriminate|]. destruct (Nat.eqb_spec (length d mod s) 0) as [E|]; [|discriminate].
  cbn. intros H. injection H as <-. rewrite map_length, seq_length. split; auto. split; [|reflexivity].
  rewrite (Nat.div_mod (length d) s) at 1 by auto. lia.
Qed.
Lemma sub_list_app_l {A} (a d : list A) i j : i <= j -> j <= length a -> sub_list (a ++ d) i j = sub_list a i j.
Proof.
  intros H1 H2. unfold sub_list. rewrite skipn_app. rewrite firstn_app. rewrite skipn_length.
  replace (j - i - (length a - i)) with 0 by lia. cbn. rewrite app_nil_r. reflexivity.
Qed.
Lemma sub_list_app_r {A} (a d : list A) i j : length a <= i -> sub_list (a ++ d) i j = sub_list d (i - length a) (j - length a).
Proof.
  intros H. unfold sub_list. rewrite skipn_app, (skipn_all2 a) by lia. cbn. f_equal. lia.
Qed.
Lemma blocks_app {A} s k (a d : list A) : s <> 0 -> length a = k * s -> blocks s (a ++ d) = blocks s a ++ blocks s d.
Proof.
  intros S0 L. unfold blocks. rewrite app_length, L, Nat.add_comm, Nat.div_add, Nat.add_comm by auto. rewrite Nat.div_mul by auto.
  rewrite seq_app, map_app. f_equal.
  - apply map_ext_in. intros q Hq. apply in_seq in Hq. apply sub_list_app_l; [lia|]. rewrite L. nia.
  - cbn [Nat.add]. rewrite <- (Nat.add_0_r k) at 1. rewrite <- (map_id (seq 0 (length d / s))) at 1.
    assert (E : forall n b, seq (k + b) n = map (fun i => k + i) (seq b n)).
    { induction n as [|n IH]; intros b; [reflexivity|]. cbn. f_equal. rewrite <- IH. f_equal. lia. }
    rewrite map_id, (E _ 0), map_map. apply map_ext. intros q. rewrite sub_list_app_r by nia. f_equal; nia.
Qed.
Lemma blocks_concat {A} s k (bl : list (list A)) : s <> 0 -> (forall b, In b bl -> length b = k * s) -> blocks s (concat bl) = concat (map (blocks s) bl).
Proof.
  intros S0 H. induction bl as [|b bl IH].
  - cbn. unfold blocks. cbn [length]. rewrite Nat.div_0_l by auto. reflexivity.
  - cbn [concat map]. rewrite (blocks_app s k) by (auto; apply H; cbn; auto). rewrite IH; auto. intros c Hc. apply H. cbn; auto.
Qed.
Lemma blocks_len {A} s (d : list A) b : In b (blocks s d) -> length b = s.
Proof.
  intros H. apply in_map_iff in H as (q & <- & Hq). apply in_seq in Hq. destruct (Nat.eq_dec s 0) as [->|S0]; [rewrite Nat.add_0_r, sub_list_nil; reflexivity|].
  rewrite sub_list_length; [lia| |lia].
  pose proof (Nat.mul_div_le (length d) s S0) as X. assert (q * s + s <= s * (length d / s)); [|lia]. destruct Hq as [_ Hq]. cbn in Hq. nia.
Qed.
Lemma blocks_len2 {A} s (d : list A) : length (blocks s d) = length d / s.
Proof. unfold blocks. rewrite map_length, seq_length. reflexivity. Qed.
Lemma blocks_join {A} s k : s <> 0 -> forall d : list A, length d = k * s -> concat (blocks s d) = d.
Proof.
  intros S0. induction k as [|k IH]; intros d L.
  - destruct d; [|discriminate]. unfold blocks. cbn [length]. rewrite Nat.div_0_l by auto. reflexivity.
  - rewrite <- (firstn_skipn s d). assert (L1 : length (firstn s d) = 1 * s) by (rewrite firstn_length_le; lia).
    rewrite (blocks_app s 1) by auto. rewrite concat_app, (IH (skipn s d)) by (rewrite skipn_length; lia). f_equal.
    unfold blocks. rewrite L1, Nat.div_mul by auto. cbn. rewrite app_nil_r. unfold sub_list. cbn [skipn]. rewrite Nat.sub_0_r.
    apply firstn_all2. lia.
Qed.
Lemma blocks_cut {A} s k : s <> 0 -> forall d : list A, length d = k * s -> blocks s d = cut (repeat s k) d.
Proof.
  intros S0. induction k as [|k IH]; intros d L.
  - destruct d; [|discriminate]. unfold blocks. cbn [length]. rewrite Nat.div_0_l by auto. reflexivity.
  - assert (L1 : length (firstn s d) = 1 * s) by (rewrite firstn_length_le; lia).
    rewrite <- (firstn_skipn s d) at 1. rewrite (blocks_app s 1) by auto. rewrite (IH (skipn s d)) by (rewrite skipn_length; lia).
    cbn [repeat cut]. unfold blocks. rewrite L1, Nat.div_mul by auto. cbn. unfold sub_list. cbn [skipn]. rewrite Nat.sub_0_r.
    f_equal. apply firstn_all2. lia.
Qed.
(** blocks of blocks *)
Lemma view_sub {A} s k (fm : list A) bl : s <> 0 -> view_fields (k * s) fm = Ok bl -> view_fields s fm = Ok (concat (map (blocks s) bl)) /\
  (forall b, In b bl -> length b = k * s).
Proof.
  intros S0 H. apply view_inv in H as (H1 & H2 & H3).
  assert (LB : forall b, In b bl -> length b = k * s) by (intros b Hb; subst bl; apply blocks_len in Hb; auto). split; [|auto].
  rewrite view_blocks; auto.
  - f_equal. rewrite <- (blocks_concat s k) by auto. f_equal. rewrite H3. symmetry. eapply blocks_join; eauto.
  - rewrite H2, Nat.mul_assoc. apply Nat.mod_mul. auto.
Qed.

(** * Strings *)
Lemma pair_str_inj a b : pair_str a = pair_str b -> a = b.
Proof.
  unfold pair_str. destruct a as [a1 a2], b as [b1 b2]. cbn [fst snd].
  assert (NC : forall n c, In c (list_ascii_of_string (py_str n)) -> c <> ","%char /\ c <> ")"%char).
  { intros n c. unfold py_str. assert (D : forall d, In c (list_ascii_of_string (NilEmpty.string_of_uint d)) -> c <> ","%char /\ c <> ")"%char).
    { induction d; cbn; [tauto|..]; (intros [<-|H]; [split; discriminate|auto]). }
    unfold NilZero.string_of_uint. destruct (Nat.to_uint n); [|apply D..]. cbn. intros [<-|[]]. split; discriminate. }
  assert (SP : forall sep s s' t t', (forall c, In c (list_ascii_of_string s) -> c <> sep) -> (forall c, In c (list_ascii_of_string s') -> c <> sep) ->
     (s ++ String sep t)%string = (s' ++ String sep t')%string -> s = s' /\ t = t').
  { intros sep. induction s as [|c s IH]; intros [|c' s'] t t' H H' E; cbn in E.
    - injection E as ->. auto. - injection E as <- _. elim (H' sep); cbn; auto. - injection E as -> _. elim (H sep); cbn; auto.
    - injection E as <- E. destruct (IH s' t t') as [-> ->]; auto; intros x Hx; [apply H|apply H']; cbn; auto. }
  cbn [String.append]. intros E. injection E as E.
  apply SP in E as [E1 E2]; try (intros c Hc; apply (NC _ _ Hc)). injection E2 as E2. apply SP in E2 as [E2 _]; try (intros c Hc; apply (NC _ _ Hc)).
  apply py_str_inj in E1, E2. congruence.
Qed.
