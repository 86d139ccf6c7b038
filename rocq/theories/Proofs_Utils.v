(** Lemmas on channel bookkeeping (nn/modules/utils.py) and on lists. *)
From Coq Require Import ZArith String List Bool Lia Sorting.Sorted Arith.
From Verif Require Import Base Model_Groups Model_Rep Model_FieldType Model_Utils Proofs_FieldType Proofs_FieldType2.
Import ListNotations.
Open Scope nat_scope.

(** * lists *)
Lemma nth_error_concat_map {A B} (f : A -> list B) d : forall (l : list A) q t x, (forall x, In x l -> length (f x) = d) ->
  nth_error l q = Some x -> t < d -> nth_error (concat (map f l)) (q * d + t) = nth_error (f x) t.
Proof.
  induction l as [|a l IH]; intros q t x Hd Hq Ht. { destruct q; discriminate. }
  destruct q as [|q]; cbn [map concat nth_error] in *.
  - injection Hq as <-. rewrite nth_error_app1; [reflexivity|]. rewrite (Hd a (or_introl eq_refl)). lia.
  - rewrite nth_error_app2; rewrite (Hd a (or_introl eq_refl)); [|lia]. replace (S q * d + t - d) with (q * d + t) by lia.
    apply IH; auto. intros y Hy. apply Hd. right; exact Hy.
Qed.
Lemma length_concat_map {A B} (f : A -> list B) d (l : list A) : (forall x, In x l -> length (f x) = d) ->
  length (concat (map f l)) = length l * d.
Proof. induction l as [|a l IH]; intros H; cbn [map concat length]; [lia|]. rewrite app_length, (H a (or_introl eq_refl)), IH; [lia|]. intros; apply H; right; auto. Qed.
Lemma list_prod_concat {A B} (l : list A) (l' : list B) : list_prod l l' = concat (map (fun a => map (fun b => (a, b)) l') l).
Proof. induction l as [|a l IH]; [reflexivity|]. cbn. now rewrite IH. Qed.
Lemma nth_error_list_prod {A B} (l : list A) (l' : list B) q p a b : nth_error l q = Some a -> nth_error l' p = Some b ->
  nth_error (list_prod l l') (q * length l' + p) = Some (a, b).
Proof.
  intros Ha Hb. rewrite list_prod_concat. rewrite (nth_error_concat_map _ (length l') l q p a); auto.
  - now rewrite nth_error_map, Hb.
  - intros x _. apply map_length.
  - apply nth_error_Some. congruence.
Qed.
Lemma concat_concat {A} (l : list (list (list A))) : concat (concat l) = concat (map (@concat A) l).
Proof. induction l as [|a l IH]; [reflexivity|]. cbn. now rewrite concat_app, IH. Qed.
Lemma concat_map_if {A B} (c : A -> bool) (f : A -> list B) (l : list A) :
  concat (map (fun a => if c a then f a else []) l) = concat (map f (filter c l)).
Proof. induction l as [|a l IH]; [reflexivity|]. cbn. destruct (c a); cbn; now rewrite IH. Qed.

(** * consecutive numbers *)
Lemma fold_add l z : fold_left Z.add l z = (z + fold_right Z.add 0 l)%Z.
Proof. revert z. induction l as [|a l IH]; intros z; cbn; [lia|]. rewrite IH. lia. Qed.
Lemma fold_min_sorted l (x : nat) : Forall (fun y => x < y) l -> fold_left Z.min (map Z.of_nat l) (Z.of_nat x) = Z.of_nat x.
Proof. induction l as [|a l IH]; intros H; [reflexivity|]. inversion H; subst. cbn [map fold_left]. rewrite Z.min_l by lia. auto. Qed.
Lemma fold_max_sorted l (x : nat) : StronglySorted lt (x :: l) -> fold_left Z.max (map Z.of_nat l) (Z.of_nat x) = Z.of_nat (List.last l x).
Proof.
  revert x. induction l as [|a l IH]; intros x H; [reflexivity|]. cbn [map fold_left]. inversion H as [|? ? H1 H2]; subst.
  inversion H2; subst. rewrite Z.max_r by lia. rewrite last_cons. apply IH. exact H1.
Qed.
Lemma half_prod x : (2 * (x * (x + 1) / 2) = x * (x + 1))%Z.
Proof.
  assert (exists k, (x * (x + 1) = 2 * k)%Z) as [k ->].
  { destruct (Z.Even_or_Odd x) as [[k ->]|[k ->]]; [exists (k * (2 * k + 1))%Z|exists ((2 * k + 1) * (k + 1))%Z]; ring. }
  rewrite (Z.mul_comm 2 k), Z.div_mul; lia.
Qed.
Lemma sorted_sum l : forall x, StronglySorted lt (x :: l) ->
  let s := fold_right Z.add 0%Z (map Z.of_nat (x :: l)) in
  let M := Z.of_nat (List.last l x) in let m := Z.of_nat x in
  (m <= M /\ 2 * s <= M * (M + 1) - (m - 1) * m)%Z /\
  ((2 * s = M * (M + 1) - (m - 1) * m)%Z -> x :: l = seq x (length (x :: l))).
Proof.
  induction l as [|y l IH]; intros x H.
  - cbn [map fold_right List.last]. split; [split; lia|]. reflexivity.
  - inversion H as [|? ? H1 H2]; subst. inversion H2; subst. specialize (IH y H1). cbn zeta in IH |- *.
    rewrite last_cons. cbn [map fold_right] in IH |- *. destruct IH as [[I0 I1] I2].
    set (M := Z.of_nat (List.last l y)) in *. set (s := fold_right Z.add 0%Z (map Z.of_nat l)) in *.
    assert (Hy : (Z.of_nat x + 1 <= Z.of_nat y)%Z) by lia. assert (Hx : (0 <= Z.of_nat x)%Z) by lia.
    assert (Q : ((Z.of_nat x + 1) * Z.of_nat x <= Z.of_nat y * (Z.of_nat y - 1))%Z) by (apply Z.mul_le_mono_nonneg; lia).
    split; [split; lia|]. intros E.
    assert (Z.of_nat y = Z.of_nat x + 1)%Z as Ey.
    { destruct (Z_lt_le_dec (Z.of_nat x + 1) (Z.of_nat y)) as [L|L]; [|lia]. exfalso.
      assert (Q' : ((Z.of_nat x + 1) * Z.of_nat x < Z.of_nat y * (Z.of_nat y - 1))%Z) by (apply Z.mul_lt_mono_nonneg; lia). lia. } assert (y = S x) as -> by lia.
    cbn [length]. rewrite <- cons_seq. f_equal. apply I2. nia.
Qed.
Lemma check_total l : l <> [] -> exists b, check_consecutive_numbers (map Z.of_nat l) = Ok b.
Proof.
  destruct l as [|x l]; [congruence|]. intros _. unfold check_consecutive_numbers. cbn [map].
  replace (forallb (fun v => (0 <=? v)%Z) (Z.of_nat x :: map Z.of_nat l)) with true; [eexists; reflexivity|].
  symmetry. apply forallb_forall. intros v Hv. apply (in_map_iff Z.of_nat (x :: l) v) in Hv. destruct Hv as [n [<- _]]. apply Z.leb_le. lia.
Qed.
Lemma check_sorted x l b : StronglySorted lt (x :: l) -> check_consecutive_numbers (map Z.of_nat (x :: l)) = Ok b ->
  (b = true <-> x :: l = seq x (length (x :: l))).
Proof.
  intros SS H. unfold check_consecutive_numbers in H. cbn [map] in H.
  destruct (assert_ok _ _ _ H) as [_ H']. injection H' as <-. clear H. cbn [fold_left].
  rewrite Z.min_id, Z.max_id, fold_add. inversion SS as [|? ? S1 S2]; subst.
  rewrite fold_min_sorted by exact S2. rewrite fold_max_sorted by exact SS.
  destruct (sorted_sum l x SS) as [[A0 A1] A2]. cbn [map fold_right] in A1, A2. rewrite Z.eqb_eq.
  set (M := Z.of_nat (List.last l x)) in *. set (s := fold_right Z.add 0%Z (map Z.of_nat l)) in *.
  assert (HM := half_prod M). assert (Hm := half_prod (Z.of_nat x - 1)).
  replace (Z.of_nat x - 1 + 1)%Z with (Z.of_nat x) in Hm by lia. split.
  - intros E. apply A2. lia.
  - intros E. assert (Z.of_nat x + s = fold_right Z.add 0 (map Z.of_nat (seq x (S (length l)))))%Z as Es by (cbn [length] in E; rewrite <- E; reflexivity).
    assert (F : forall n a, (2 * fold_right Z.add 0 (map Z.of_nat (seq a (S n))) = (Z.of_nat a + Z.of_nat n) * (Z.of_nat a + Z.of_nat n + 1) - (Z.of_nat a - 1) * Z.of_nat a)%Z).
    { clear. induction n; intros a. - cbn [seq map fold_right]. lia. - rewrite <- cons_seq. cbn [map fold_right]. specialize (IHn (S a)). rewrite !Nat2Z.inj_succ in *. unfold Z.succ in *. lia. }
    specialize (F (length l) x). assert (M = Z.of_nat x + Z.of_nat (length l))%Z as EM.
    { unfold M. assert (L : forall n a d, List.last (seq a (S n)) d = a + n).
      { clear. induction n; intros a d; [cbn; lia|]. rewrite <- cons_seq, last_cons, IHn. lia. }
      rewrite <- (last_cons x l 0). rewrite E. cbn [length]. rewrite L. lia. }
    rewrite EM in *. lia.
Qed.

(** * labels *)
Lemma label_fields_ge l : forall fs c x, In x (label_fields l c fs) -> c <= x.
Proof. induction fs as [|[l' n] fs IH]; intros c x H; [destruct H|]. cbn in H. apply in_app_or in H as [H|H]. - destruct (String.eqb l' l); [destruct H as [<-|[]]; lia|destruct H]. - apply IH in H. lia. Qed.
Lemma label_fields_spec l : forall fs c x, In x (label_fields l c fs) <-> c <= x /\ exists n, nth_error fs (x - c) = Some (l, n).
Proof.
  induction fs as [|[l' n] fs IH]; intros c x.
  - cbn. split; [tauto|]. intros [_ [n H]]. destruct (x - c); discriminate.
  - cbn [label_fields]. rewrite in_app_iff, IH. split.
    + intros [H|[H1 [m H]]].
      * destruct (String.eqb_spec l' l); [|destruct H]. subst. destruct H as [<-|[]]. split; [lia|]. exists n. now rewrite Nat.sub_diag.
      * split; [lia|]. exists m. replace (x - c) with (S (x - S c)) by lia. exact H.
    + intros [H1 [m H]]. destruct (Nat.eq_dec x c) as [->|N].
      * left. rewrite Nat.sub_diag in H. cbn in H. injection H as -> ->. rewrite String.eqb_refl. now left.
      * right. split; [lia|]. exists m. replace (x - c) with (S (x - S c)) in H by lia. exact H.
Qed.
Lemma label_fields_sorted l : forall fs c, StronglySorted lt (label_fields l c fs).
Proof.
  induction fs as [|[l' n] fs IH]; intros c; cbn [label_fields]; [constructor|]. destruct (String.eqb l' l); [|apply IH].
  cbn [app]. constructor; [apply IH|]. apply Forall_forall. intros x Hx. apply label_fields_ge in Hx. lia.
Qed.
Lemma label_indices_ge l : forall fs p x, In x (label_indices l p fs) -> p <= x.
Proof. induction fs as [|[l' n] fs IH]; intros c x H; [destruct H|]. cbn in H. apply in_app_or in H as [H|H]. - destruct (String.eqb l' l); [apply in_seq in H; lia|destruct H]. - apply IH in H. lia. Qed.
Lemma sorted_seq a n : StronglySorted lt (seq a n).
Proof. revert a. induction n; intros a; cbn; constructor; auto. apply Forall_forall. intros x Hx. apply in_seq in Hx. lia. Qed.
Lemma sorted_app l1 l2 : StronglySorted lt l1 -> StronglySorted lt l2 -> (forall x y, In x l1 -> In y l2 -> x < y) -> StronglySorted lt (l1 ++ l2).
Proof.
  induction l1 as [|a l1 IH]; intros H1 H2 H; [exact H2|]. inversion H1; subst. cbn. constructor.
  - apply IH; auto. intros x y Hx Hy. apply H; auto. now right.
  - apply Forall_forall. intros x Hx. apply in_app_or in Hx as [Hx|Hx]. + rewrite Forall_forall in H5. auto. + apply H; auto. now left.
Qed.
Lemma label_indices_sorted l : forall fs p, StronglySorted lt (label_indices l p fs).
Proof.
  induction fs as [|[l' n] fs IH]; intros p; cbn [label_indices]; [constructor|]. destruct (String.eqb l' l); [|apply IH].
  apply sorted_app; [apply sorted_seq|apply IH|]. intros x y Hx Hy. apply in_seq in Hx. apply label_indices_ge in Hy. lia.
Qed.
Lemma sorted_nodup l : StronglySorted lt l -> NoDup l.
Proof. induction 1; constructor; auto. intros Hx. rewrite Forall_forall in H0. specialize (H0 _ Hx). lia. Qed.

(** the channels of the fields with label l, in order *)
Definition foff (fs : list (string * nat)) (c : nat) : nat := nsum (map snd (firstn c fs)).
Lemma foff_cons x fs c : foff (x :: fs) (S c) = snd x + foff fs c.
Proof. reflexivity. Qed.
Lemma label_indices_concat l : forall fs p c,
  label_indices l p fs = concat (map (fun x => seq (p + foff fs (x - c)) (snd (nth (x - c) fs (l, 0)))) (label_fields l c fs)).
Proof.
  induction fs as [|[l' n] fs IH]; intros p c; [reflexivity|]. cbn [label_indices label_fields]. rewrite map_app, concat_app.
  f_equal.
  - destruct (String.eqb l' l); [|reflexivity]. cbn. rewrite Nat.sub_diag. cbn. now rewrite Nat.add_0_r, app_nil_r.
  - rewrite (IH (p + n) (S c)). f_equal. apply map_ext_in. intros x Hx. apply label_fields_ge in Hx.
    replace (x - c) with (S (x - S c)) by lia. rewrite foff_cons. cbn [snd nth]. f_equal. lia.
Qed.
(** if these fields all have size n, channel number q*n+r of the label is channel r of its q-th field *)
Lemma label_indices_nth l fs n q r x : (forall m, In (l, m) fs -> m = n) -> nth_error (label_fields l 0 fs) q = Some x -> r < n ->
  nth_error (label_indices l 0 fs) (q * n + r) = Some (foff fs x + r).
Proof.
  intros Hn Hq Hr. rewrite (label_indices_concat l fs 0 0).
  assert (E : forall y, In y (label_fields l 0 fs) -> snd (nth (y - 0) fs (l, 0)) = n).
  { intros y Hy. apply label_fields_spec in Hy as [_ [m Hm]]. rewrite (nth_error_nth _ _ _ Hm). cbn. apply Hn. eapply nth_error_In; eauto. }
  rewrite (nth_error_concat_map _ n _ q r x).
  - rewrite Nat.sub_0_r in *. assert (X := E x (nth_error_In _ _ Hq)). rewrite Nat.sub_0_r in X. rewrite X.
    rewrite (nth_error_nth' _ 0) by (rewrite seq_length; lia). rewrite seq_nth by lia. reflexivity.
  - intros y Hy. rewrite seq_length. apply E, Hy.
  - exact Hq.
  - exact Hr.
Qed.
Lemma label_indices_length l fs n : (forall m, In (l, m) fs -> m = n) -> length (label_indices l 0 fs) = length (label_fields l 0 fs) * n.
Proof.
  intros Hn. rewrite (label_indices_concat l fs 0 0). apply length_concat_map. intros y Hy. rewrite seq_length.
  apply label_fields_spec in Hy as [_ [m Hm]]. rewrite (nth_error_nth _ _ _ Hm). cbn. apply Hn. eapply nth_error_In; eauto.
Qed.
Lemma label_indices_in l fs x : In x (label_indices l 0 fs) <-> exists c n r, nth_error fs c = Some (l, n) /\ r < n /\ x = foff fs c + r.
Proof.
  rewrite (label_indices_concat l fs 0 0). rewrite in_concat. split.
  - intros [s [Hs Hx]]. apply in_map_iff in Hs as [c [<- Hc]]. apply label_fields_spec in Hc as [_ [m Hm]]. rewrite (nth_error_nth _ _ _ Hm) in Hx.
    apply in_seq in Hx. cbn [snd] in Hx. rewrite Nat.sub_0_r in *. exists c, m, (x - foff fs c). split; auto. lia.
  - intros [c [n [r [Hc [Hr ->]]]]]. eexists. split; [apply in_map_iff; exists c; split; [reflexivity|]|].
    + apply label_fields_spec. split; [lia|]. exists n. now rewrite Nat.sub_0_r.
    + rewrite Nat.sub_0_r. rewrite (nth_error_nth _ _ _ Hc). cbn [snd]. apply in_seq. lia.
Qed.
(** a channel belongs to one field *)
Lemma foff_S fs c x : nth_error fs c = Some x -> foff fs (S c) = foff fs c + snd x.
Proof. revert c. induction fs as [|y fs IH]; intros c H; [destruct c; discriminate|]. destruct c; cbn in H. - injection H as ->. unfold foff. cbn. lia. - rewrite !foff_cons, (IH _ H). lia. Qed.
Lemma foff_mono fs a b : a <= b -> foff fs a <= foff fs b.
Proof.
  revert a b. induction fs as [|y fs IH]; intros a b H. - unfold foff. rewrite !firstn_nil. lia.
  - destruct a; [unfold foff; cbn; lia|]. destruct b; [lia|]. rewrite !foff_cons. assert (foff fs a <= foff fs b) by (apply IH; lia). lia.
Qed.
Lemma foff_inj fs c c' x x' r r' : nth_error fs c = Some x -> nth_error fs c' = Some x' -> r < snd x -> r' < snd x' ->
  foff fs c + r = foff fs c' + r' -> c = c' /\ r = r'.
Proof.
  intros H H' Hr Hr' E. destruct (lt_eq_lt_dec c c') as [[L|L]|L].
  - assert (X := foff_mono fs (S c) c' ltac:(lia)). rewrite (foff_S _ _ _ H) in X. lia.
  - subst. lia.
  - assert (X := foff_mono fs (S c') c ltac:(lia)). rewrite (foff_S _ _ _ H') in X. lia.
Qed.

(** * dicts *)
Section Dict.
Context {K V : Type} (keqb : K -> K -> bool) (keqb_spec : forall a b, reflect (a = b) (keqb a b)).
Lemma kget_kset (d : list (K * V)) k v k' : kget keqb (kset keqb d k v) k' = if keqb k k' then Some v else kget keqb d k'.
Proof.
  induction d as [|[a w] d IH]; cbn. - destruct (keqb_spec k k'); reflexivity.
  - destruct (keqb_spec a k) as [->|N]; cbn. + destruct (keqb_spec k k'); reflexivity.
    + rewrite IH. destruct (keqb_spec a k') as [->|]; [|reflexivity]. destruct (keqb_spec k k') as [->|]; [congruence|reflexivity].
Qed.
Lemma kset_keys (d : list (K * V)) k v x : In x (map fst (kset keqb d k v)) <-> x = k \/ In x (map fst d).
Proof.
  induction d as [|[a w] d IH]; cbn; [intuition auto|]. destruct (keqb_spec a k) as [->|N]; cbn; [intuition auto|]. rewrite IH. intuition auto.
Qed.
Lemma kset_nodup (d : list (K * V)) k v : NoDup (map fst d) -> NoDup (map fst (kset keqb d k v)).
Proof.
  induction d as [|[a w] d IH]; cbn; intros H. - constructor; auto.
  - inversion H; subst. destruct (keqb_spec a k) as [->|N]; cbn; [constructor; auto|]. constructor; auto. rewrite kset_keys. intuition auto.
Qed.
Lemma kget_in (d : list (K * V)) k v : kget keqb d k = Some v -> In (k, v) d.
Proof. induction d as [|[a w] d IH]; cbn; [discriminate|]. destruct (keqb_spec a k) as [->|N]; [injection 1 as ->; now left|]. intros H. right. auto. Qed.
Lemma in_kget (d : list (K * V)) k v : NoDup (map fst d) -> In (k, v) d -> kget keqb d k = Some v.
Proof.
  induction d as [|[a w] d IH]; cbn; intros N H; [destruct H|]. inversion N; subst. destruct H as [H|H].
  - injection H as -> ->. destruct (keqb_spec k k); congruence.
  - destruct (keqb_spec a k) as [->|]; [|auto]. destruct H2. apply in_map_iff. exists (k, v). auto.
Qed.
Lemma kget_keys (d : list (K * V)) k : In k (map fst d) <-> exists v, kget keqb d k = Some v.
Proof.
  induction d as [|[a w] d IH]; cbn; [split; [tauto|intros [v H]; discriminate]|]. destruct (keqb_spec a k) as [->|N].
  - split; [eauto|]. auto. - rewrite <- IH. intuition congruence.
Qed.
End Dict.
