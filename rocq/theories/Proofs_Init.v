(** The standard deviations of the He initialisation. *)
From Coq Require Import Reals ZArith String List Bool Lia Lra.
From Verif Require Import Base Model_Groups Model_Rep Model_FieldType Model_Utils Model_Expansion Model_Conv Model_Init Proofs_FieldType.
Import ListNotations.
Open Scope R_scope.

(** sum of a list *)
Definition lsum {A} (f : A -> R) (l : list A) : R := fold_right Rplus 0 (map f l).
Lemma lsum_cons {A} (f : A -> R) a l : lsum f (a :: l) = f a + lsum f l. Proof. reflexivity. Qed.
Lemma lsum_ext {A} (f g : A -> R) l : (forall a, In a l -> f a = g a) -> lsum f l = lsum g l.
Proof. induction l as [|a l IH]; intros H; [reflexivity|]. rewrite !lsum_cons, IH by (intros; apply H; right; auto). rewrite H by (left; auto). reflexivity. Qed.
Lemma lsum_0 {A} (l : list A) : lsum (fun _ => 0) l = 0.
Proof. induction l as [|a l IH]; [reflexivity|]. rewrite lsum_cons, IH. lra. Qed.
Lemma lsum_const {A} c (l : list A) : lsum (fun _ => c) l = INR (length l) * c.
Proof. induction l as [|a l IH]; [cbn; lra|]. rewrite lsum_cons, IH. cbn [length]. rewrite S_INR. lra. Qed.
Lemma lsum_plus {A} (f g : A -> R) l : lsum (fun a => f a + g a) l = lsum f l + lsum g l.
Proof. induction l as [|a l IH]; [cbn; lra|]. rewrite !lsum_cons, IH. lra. Qed.

Section He.
Context {N : Type} (neqb : N -> N -> bool) (NE : forall a b, reflect (a = b) (neqb a b)).

(** the names of the entries at output position o *)
Definition names_at (infos : list (N * nat)) (o : nat) : list N := fst (he_counts neqb infos) o.
Definition count_at (infos : list (N * nat)) (k : N * nat) : nat := length (filter (fun a => key_is neqb (fst a) (snd a) k) infos).
Lemma key_isP n o k : reflect (k = (n, o)) (key_is neqb n o k).
Proof.
  unfold key_is. destruct k as [m p]. cbn [fst snd]. destruct (NE n m) as [->|H]; [|right; congruence]. destruct (Nat.eqb_spec o p) as [->|H]; [left; auto|right; congruence].
Qed.
Lemma he_fold infos : forall d,
  (forall o, NoDup (fst d o)) ->
  let d' := fold_left (he_step neqb) infos d in
  (forall o, NoDup (fst d' o)) /\ (forall o n, In n (fst d' o) <-> In n (fst d o) \/ In (n, o) infos) /\
  (forall k, snd d' k = (snd d k + count_at infos k)%nat).
Proof.
  induction infos as [|[n o] infos IH]; intros d ND; cbv zeta; cbn [fold_left].
  - split; [auto|]. split; [cbn; intuition|]. intros k. cbn. lia.
  - destruct (IH (he_step neqb d (n, o))) as (H1 & H2 & H3).
    { intros o'. cbn [he_step fst snd]. destruct (o' =? o)%nat; [|auto]. unfold set_add. destruct (existsb (neqb n) (fst d o')) eqn:E; [auto|].
      constructor; [|auto]. intros C. assert (X : existsb (neqb n) (fst d o') = true) by (apply existsb_exists; exists n; split; [auto|]; destruct (NE n n); congruence). congruence. }
    split; [exact H1|]. split.
    + intros o' n'. rewrite H2. cbn [he_step fst snd In]. destruct (Nat.eqb_spec o' o) as [->|NO].
      * unfold set_add. destruct (existsb (neqb n) (fst d o)) eqn:E.
        -- apply existsb_exists in E as (m & Hm & Em). destruct (NE n m) as [<-|]; [|discriminate]. split; [tauto|]. intros [H|[H|H]]; auto. injection H as <-. auto.
        -- cbn [In]. split; [intros [[->|H]|H]; auto|]. intros [H|[H|H]]; auto. injection H as <-. auto.
      * split; [tauto|]. intros [H|[H|H]]; auto. congruence.
    + intros k. rewrite H3. cbn [he_step fst snd]. unfold count_at. cbn [filter fst snd]. destruct (key_is neqb n o k); cbn [length]; lia.
Qed.
Lemma names_at_spec infos o : NoDup (names_at infos o) /\ forall n, In n (names_at infos o) <-> In (n, o) infos.
Proof.
  destruct (he_fold infos (fun _ => [], fun _ => 0%nat)) as (H1 & H2 & _). { intros. constructor. }
  split; [apply H1|]. intros n. unfold names_at, he_counts. rewrite H2. cbn. tauto.
Qed.
Lemma counts_spec infos k : snd (he_counts neqb infos) k = count_at infos k.
Proof. destruct (he_fold infos (fun _ => [], fun _ => 0%nat)) as (_ & _ & H). { intros. constructor. } unfold he_counts. rewrite H. reflexivity. Qed.
Lemma count_pos infos k : In k infos -> (0 < count_at infos k)%nat.
Proof.
  intros H. unfold count_at. assert (X : In k (filter (fun a => key_is neqb (fst a) (snd a) k) infos)).
  { apply filter_In. split; [auto|]. destruct (key_isP (fst k) (snd k) k) as [|C]; [auto|]. destruct k; cbn in C; congruence. }
  destruct (filter _ infos); [destruct X|cbn; lia].
Qed.
(** the value of an entry *)
Definition he_value (infos : list (N * nat)) (a : N * nat) : R := 1 / sqrt (INR (length (names_at infos (snd a)) * count_at infos a)).
Lemma he_value_sq infos a : In a infos -> 0 < he_value infos a /\ he_value infos a * he_value infos a = 1 / INR (length (names_at infos (snd a))) / INR (count_at infos a) /\
  (0 < length (names_at infos (snd a)))%nat.
Proof.
  intros H. pose proof (count_pos infos a H) as C.
  assert (L : (0 < length (names_at infos (snd a)))%nat). { destruct (names_at_spec infos (snd a)) as [_ Q]. assert (X : In (fst a) (names_at infos (snd a))) by (apply Q; destruct a; auto). destruct (names_at infos (snd a)); [destruct X|cbn; lia]. }
  apply lt_INR in C as C'. apply lt_INR in L as L'. cbn [INR] in C', L'. assert (P : 0 < INR (length (names_at infos (snd a)) * count_at infos a)) by (rewrite mult_INR; nra).
  unfold he_value. pose proof (sqrt_lt_R0 _ P) as SP. split; [apply Rdiv_lt_0_compat; lra|]. split; [|auto].
  rewrite <- (mult_INR) in * || idtac. replace (1 / sqrt (INR (length (names_at infos (snd a)) * count_at infos a)) * (1 / sqrt (INR (length (names_at infos (snd a)) * count_at infos a)))) with (1 / (sqrt (INR (length (names_at infos (snd a)) * count_at infos a)) * sqrt (INR (length (names_at infos (snd a)) * count_at infos a)))) by (field; lra).
  rewrite sqrt_sqrt by lra. rewrite mult_INR. field. split; lra.
Qed.
(** the loop of assignments *)
Lemma put_ok l w v : (w < length l)%nat -> put l w v = Ok (firstn w l ++ v :: skipn (S w) l).
Proof. intros H. unfold put. apply Nat.ltb_lt in H. rewrite H. reflexivity. Qed.
Lemma put_loop (f : N * nat -> R) : forall infos p l, (p + length infos <= length l)%nat ->
  fold_left (fun acc wa => rbind acc (fun vars => put vars (fst wa) (f (snd wa)))) (combine (seq p (length infos)) infos) (Ok l) =
  Ok (firstn p l ++ map f infos ++ skipn (p + length infos) l).
Proof.
  induction infos as [|a infos IH]; intros p l H.
  - cbn [length seq combine fold_left map app]. rewrite Nat.add_0_r, firstn_skipn. reflexivity.
  - cbn [length seq combine fold_left]. cbn [length] in H. cbn [fst snd rbind]. rewrite put_ok by lia.
    rewrite IH. 2:{ rewrite app_length, firstn_length. cbn [length]. rewrite skipn_length. lia. }
    f_equal. assert (LF : length (firstn p l) = p) by (rewrite firstn_length; lia).
    replace (S p) with (p + 1)%nat by lia. rewrite <- LF at 1. rewrite firstn_app_2. cbn [firstn]. rewrite <- app_assoc. cbn [app map]. f_equal. f_equal. f_equal.
    replace (p + 1 + length infos)%nat with (length (firstn p l) + (1 + length infos))%nat by (rewrite LF; lia). rewrite skipn_app. rewrite skipn_all2 by lia. cbn [app].
    replace (length (firstn p l) + (1 + length infos) - length (firstn p l))%nat with (S (length infos)) by lia. cbn [skipn]. rewrite skipn_skipn. f_equal. lia.
Qed.

Lemma he_stds_ok infos : he_stds neqb (length infos) infos = Ok (map (he_value infos) infos).
Proof.
  unfold he_stds, enumerate. cbv zeta. rewrite (put_loop (fun a => 1 / sqrt (INR (length (fst (he_counts neqb infos) (snd a)) * snd (he_counts neqb infos) a)))) by (rewrite repeat_length; lia).
  rewrite skipn_all2 by (rewrite repeat_length; lia). cbn [firstn app]. rewrite app_nil_r. f_equal. apply map_ext. intros a. rewrite counts_spec. reflexivity.
Qed.
Lemma lsum_filter_if {A} (c : A -> bool) (g : A -> R) v l : (forall a, In a l -> c a = true -> g a = v) -> lsum (fun a => if c a then g a else 0) l = INR (length (filter c l)) * v.
Proof.
  induction l as [|a l IH]; intros H; [cbn; lra|]. rewrite lsum_cons, IH by (intros; apply H; [right|]; auto). cbn [filter]. destruct (c a) eqn:E; [|lra].
  rewrite (H a) by (auto; left; auto). cbn [length]. rewrite S_INR. lra.
Qed.
(** the contribution of one input irrep *)
Lemma he_share infos n o : In (n, o) infos ->
  lsum (fun a => if key_is neqb n o a then he_value infos a * he_value infos a else 0) infos = 1 / INR (length (names_at infos o)).
Proof.
  intros H. destruct (he_value_sq infos (n, o) H) as (_ & Q & L). cbn [snd] in *. rewrite (lsum_filter_if _ _ (he_value infos (n, o) * he_value infos (n, o))).
  2:{ intros a _ Ka. destruct (key_isP n o a) as [E|E]; [rewrite E; auto|discriminate]. }
  replace (length (filter (key_is neqb n o) infos)) with (count_at infos (n, o)).
  2:{ unfold count_at. f_equal. apply filter_ext. intros [m p]. cbn [fst snd]. destruct (key_isP m p (n, o)) as [E|E], (key_isP n o (m, p)) as [F|F]; auto; congruence. }
  rewrite Q. pose proof (count_pos infos (n, o) H) as C. apply lt_INR in C. apply lt_INR in L. cbn [INR] in *. field. split; lra.
Qed.
Lemma lsum_swap {A B} (f : A -> B -> R) la lb : lsum (fun a => lsum (f a) lb) la = lsum (fun b => lsum (fun a => f a b) la) lb.
Proof.
  induction la as [|a la IH]; [symmetry; apply lsum_0|]. rewrite lsum_cons, IH, <- lsum_plus. apply lsum_ext. intros b _. rewrite lsum_cons. reflexivity.
Qed.
Lemma lsum_one (n : N) v l : NoDup l -> In n l -> lsum (fun m => if neqb m n then v else 0) l = v.
Proof.
  induction l as [|m l IH]; intros ND H; [destruct H|]. inversion ND as [|? ? H1 H2]; subst. rewrite lsum_cons. destruct H as [->|H].
  - destruct (NE n n) as [_|]; [|congruence]. rewrite (lsum_ext _ (fun _ => 0)), lsum_0 by (intros a Ha; destruct (NE a n) as [->|]; [tauto|auto]). lra.
  - destruct (NE m n) as [->|]; [tauto|]. rewrite IH by auto. lra.
Qed.
Lemma he_total infos o : (exists n, In (n, o) infos) -> lsum (fun a => if (snd a =? o)%nat then he_value infos a * he_value infos a else 0) infos = 1.
Proof.
  intros (n0 & H0). destruct (names_at_spec infos o) as [ND IN].
  transitivity (lsum (fun n => lsum (fun a => if key_is neqb n o a then he_value infos a * he_value infos a else 0) infos) (names_at infos o)).
  - rewrite lsum_swap. apply lsum_ext. intros [m p] Ha. cbn [snd]. unfold key_is. cbn [fst snd]. destruct (Nat.eqb_spec p o) as [->|NP].
    + rewrite (lsum_ext _ (fun n => if neqb n m then he_value infos (m, o) * he_value infos (m, o) else 0)) by (intros n _; rewrite Nat.eqb_refl, andb_true_r; auto).
      rewrite lsum_one; auto. apply IN. auto.
    + rewrite (lsum_ext _ (fun _ => 0)), lsum_0; [auto|]. intros n _. destruct (Nat.eqb_spec o p); [congruence|]. rewrite andb_false_r. auto.
  - rewrite (lsum_ext _ (fun _ => 1 / INR (length (names_at infos o)))) by (intros n Hn; apply he_share; apply IN; auto). rewrite lsum_const.
    assert (L : (0 < length (names_at infos o))%nat) by (apply (he_value_sq infos (n0, o) H0)). apply lt_INR in L. cbn [INR] in L. field. lra.
Qed.
End He.
(** sums over indices *)
Lemma lsum_nth {A} (f : A -> R) d l : lsum f l = rsum (length l) (fun x => f (nth x l d)).
Proof. induction l as [|a l IH] using rev_ind; [reflexivity|]. rewrite app_length. cbn [length]. rewrite Nat.add_1_r. cbn [rsum]. 
  unfold lsum in *. rewrite map_app, fold_right_app. cbn [map fold_right]. rewrite app_nth2, Nat.sub_diag by lia. cbn [nth].
  rewrite (rsum_ext (length l) _ (fun x => f (nth x l d))) by (intros x Hx; rewrite app_nth1; auto). rewrite <- IH. generalize (map f l). intros q. clear. induction q as [|b q IH]; cbn [fold_right]; [lra|]. rewrite IH. lra.
Qed.
