(** Finite-difference stencils on the grid of a filter, and their symmetries. *)
From Coq Require Import Reals ZArith String List Bool Arith Lia Lra Sorted.
From Verif Require Import Base Model_Groups Model_GSpace Spec_GSpace Model_Rep Model_Diffops Spec_Fd Spec_Diffops Proofs_Diffops Proofs_Fd Model_Conv.
Import ListNotations.
Open Scope R_scope.

(** ** np.unique *)
Definition ssorted (l : list R) : Prop := StronglySorted Rlt l.
Lemma insert_in x l y : In y (insert_R x l) <-> y = x \/ In y l.
Proof.
  induction l as [|z l IH]; cbn [insert_R]; [cbn; intuition congruence|].
  destruct (Rlt_dec x z); [cbn; intuition congruence|]. destruct (Req_EM_T x z); [subst; cbn; intuition congruence|]. cbn [In]. rewrite IH. intuition congruence.
Qed.
Lemma insert_sorted x l : ssorted l -> ssorted (insert_R x l).
Proof.
  intros H. induction H as [|z l Hl IH F]; cbn [insert_R]; [repeat constructor|].
  destruct (Rlt_dec x z) as [L|L]; [constructor; [constructor; auto|constructor; auto; eapply Forall_impl; [|exact F]; intros; cbn in *; lra]|].
  destruct (Req_EM_T x z) as [E|E]; [constructor; auto|]. constructor; auto. apply Forall_forall. intros y Hy. apply insert_in in Hy. destruct Hy as [->|Hy]; [lra|].
  rewrite Forall_forall in F. auto.
Qed.
Lemma unique_in l y : In y (np_unique l) <-> In y l.
Proof. induction l as [|x l IH]; [reflexivity|]. cbn [np_unique fold_right]. rewrite insert_in. cbn [In]. unfold np_unique in IH. rewrite IH. intuition congruence. Qed.
Lemma unique_sorted l : ssorted (np_unique l).
Proof. induction l as [|x l IH]; [constructor|]. apply insert_sorted. exact IH. Qed.
Lemma sorted_eq l l' : ssorted l -> ssorted l' -> (forall x, In x l <-> In x l') -> l = l'.
Proof.
  intros H. revert l'. induction H as [|x l Hl IH F]; intros l' H' E.
  - destruct l' as [|y l']; [reflexivity|]. exfalso. apply (proj2 (E y)). left; auto.
  - destruct H' as [|y l' Hl' F']; [exfalso; apply (proj1 (E x)); left; auto|]. rewrite Forall_forall in F, F'.
    assert (x = y).
    { destruct (proj1 (E x) (or_introl eq_refl)) as [->|I]; auto. destruct (proj2 (E y) (or_introl eq_refl)) as [<-|J]; auto.
      specialize (F _ J). specialize (F' _ I). lra. }
    subst y. f_equal. apply IH; auto. intros z. split; intros I.
    + destruct (proj1 (E z) (or_intror I)) as [<-|]; auto. specialize (F _ I). lra.
    + destruct (proj2 (E z) (or_intror I)) as [<-|]; auto. specialize (F' _ I). lra.
Qed.

(** ** the grid *)
Lemma map_sorted (f : nat -> R) : (forall a b, (a < b)%nat -> f a < f b) -> forall n m, ssorted (map f (seq m n)).
Proof.
  intros H. induction n as [|n IH]; intros m; cbn [seq map]; constructor; [apply IH|]. apply Forall_forall. intros y Hy. apply in_map_iff in Hy. destruct Hy as [i [<- Hi]].
  apply in_seq in Hi. apply H. lia.
Qed.
Lemma sym_sorted k d : 0 < d -> ssorted (symmetric_points k d).
Proof. intros Hd. unfold symmetric_points. apply map_sorted. intros a b L. apply Rmult_lt_compat_r; auto. apply lt_INR in L. lra. Qed.
Lemma grid_value k dil a b : (b < k)%nat ->
  grid_point k dil (a * k + b) = ((INR b - (INR k - 1) / 2) * INR dil, - ((INR a - (INR k - 1) / 2) * INR dil)).
Proof.
  intros H. unfold grid_point. rewrite Nat.div_add_l by lia. rewrite (Nat.div_small b k H), Nat.add_0_r.
  rewrite Nat.add_comm, Nat.mod_add by lia. rewrite (Nat.mod_small b k H). rewrite !mult_INR. f_equal; field.
Qed.
Lemma cell k s : (s < k * k)%nat -> exists a b, (a < k)%nat /\ (b < k)%nat /\ s = (a * k + b)%nat.
Proof.
  intros H. assert (k <> 0)%nat by lia. exists (s / k)%nat, (s mod k)%nat. split; [apply Nat.div_lt_upper_bound; auto|]. split; [apply Nat.mod_upper_bound; auto|].
  rewrite (Nat.div_mod s k) at 1 by auto. lia.
Qed.
Lemma grid_length k dil : length (grid_coords k dil) = (k * k)%nat.
Proof. unfold grid_coords. rewrite map_length, seq_length. reflexivity. Qed.
Lemma grid_nth k dil s d : (s < k * k)%nat -> nth s (grid_coords k dil) d = grid_point k dil s.
Proof.
  intros H. unfold grid_coords. rewrite (nth_indep _ d (grid_point k dil 0)) by (rewrite map_length, seq_length; auto). rewrite map_nth, seq_nth by auto. reflexivity.
Qed.
Lemma flat_len {A B C} (f : A -> B -> C) xs ys : length (flat_map (fun a => map (f a) ys) xs) = (length xs * length ys)%nat.
Proof. induction xs as [|x xs IH]; [reflexivity|]. cbn [flat_map length]. rewrite app_length, map_length, IH. lia. Qed.
Lemma flat_nth {A B C} (f : A -> B -> C) (xs : list A) (ys : list B) a b dx dy d : (a < length xs)%nat -> (b < length ys)%nat ->
  nth (a * length ys + b) (flat_map (fun a => map (f a) ys) xs) d = f (nth a xs dx) (nth b ys dy).
Proof.
  revert a. induction xs as [|x xs IH]; intros a Ha Hb; [cbn in Ha; lia|]. cbn [flat_map]. destruct a as [|a].
  - cbn [Nat.mul Nat.add nth]. rewrite app_nth1 by (rewrite map_length; auto). rewrite (nth_indep _ d (f x dy)) by (rewrite map_length; auto). apply map_nth.
  - rewrite app_nth2 by (rewrite map_length; nia). rewrite map_length. replace (S a * length ys + b - length ys)%nat with (a * length ys + b)%nat by nia.
    cbn [nth]. apply IH; auto. cbn in Ha. lia.
Qed.

Lemma axis0 k dil : (0 < dil)%nat -> np_unique (map fst (grid_coords k dil)) = symmetric_points k (INR dil).
Proof.
  intros Hd. assert (Hd' := lt_0_INR _ Hd). apply sorted_eq; [apply unique_sorted|apply sym_sorted; auto|]. intros x. rewrite unique_in. split; intros H.
  - apply in_map_iff in H. destruct H as [p [<- H]]. apply In_nth with (d := (0, 0)) in H. destruct H as [s [Hs E]]. rewrite grid_length in Hs.
    rewrite grid_nth in E by auto. destruct (cell k s Hs) as [a [b [Ha [Hb ->]]]]. rewrite grid_value in E by auto. rewrite <- E. cbn [fst].
    unfold symmetric_points. apply in_map_iff. exists b. split; auto. apply in_seq. lia.
  - unfold symmetric_points in H. apply in_map_iff in H. destruct H as [b [<- Hb]]. apply in_seq in Hb.
    apply in_map_iff. exists (grid_point k dil (0 * k + b)). split; [rewrite grid_value by lia; reflexivity|].
    unfold grid_coords. apply in_map. apply in_seq. split; [lia|]. cbn. nia.
Qed.
Lemma axis1 k dil : (0 < dil)%nat -> np_unique (map snd (grid_coords k dil)) = symmetric_points k (INR dil).
Proof.
  intros Hd. assert (Hd' := lt_0_INR _ Hd). apply sorted_eq; [apply unique_sorted|apply sym_sorted; auto|]. intros x. rewrite unique_in. split; intros H.
  - apply in_map_iff in H. destruct H as [p [<- H]]. apply In_nth with (d := (0, 0)) in H. destruct H as [s [Hs E]]. rewrite grid_length in Hs.
    rewrite grid_nth in E by auto. destruct (cell k s Hs) as [a [b [Ha [Hb ->]]]]. rewrite grid_value in E by auto. rewrite <- E. cbn [snd].
    unfold symmetric_points. apply in_map_iff. exists (k - 1 - a)%nat. split; [|apply in_seq; lia]. rewrite minus_INR, minus_INR by lia. cbn [INR]. field.
  - unfold symmetric_points in H. apply in_map_iff in H. destruct H as [b [<- Hb]]. apply in_seq in Hb.
    apply in_map_iff. exists (grid_point k dil ((k - 1 - b) * k + 0)). split; [rewrite grid_value by lia; cbn [snd]; rewrite minus_INR, minus_INR by lia; cbn [INR]; field|].
    unfold grid_coords. apply in_map. apply in_seq. assert (M : ((k - 1 - b + 1) * k <= k * k)%nat) by (apply Nat.mul_le_mono_r; lia). rewrite Nat.mul_add_distr_r in M. clear Hd Hd'.
    revert M. generalize ((k - 1 - b) * k)%nat. generalize (k * k)%nat. intros u v M. lia.
Qed.
Lemma mesh_grid k dil : meshgrid_xy (symmetric_points k (INR dil)) (map Ropp (symmetric_points k (INR dil))) = grid_coords k dil.
Proof.
  unfold meshgrid_xy. apply (nth_ext _ _ (0, 0) (0, 0)).
  - rewrite (flat_len (fun y x => (x, y))), map_length, sym_length, grid_length. reflexivity.
  - intros s Hs. rewrite (flat_len (fun y x => (x, y))), map_length, sym_length in Hs. rewrite grid_nth by auto. destruct (cell k s Hs) as [a [b [Ha [Hb ->]]]].
    rewrite grid_value by auto. assert (E := flat_nth (fun y x : R => (x, y)) (map Ropp (symmetric_points k (INR dil))) (symmetric_points k (INR dil)) a b (-0) 0 (0, 0)).
    rewrite sym_length in E. rewrite E by (rewrite ?map_length, ?sym_length; auto). rewrite map_nth, !sym_nth by auto. reflexivity.
Qed.
Lemma pts_eqb_refl l : pts_eqb l l = true.
Proof.
  unfold pts_eqb. rewrite Nat.eqb_refl. cbn [andb]. apply forallb_forall. intros [p q] H.
  assert (p = q). { clear -H. induction l as [|a l IH]; cbn in H; [tauto|]. destruct H as [H|H]; [congruence|auto]. }
  subst q. cbn [fst snd]. destruct (Req_EM_T (fst p) (fst p)); [|congruence]. destruct (Req_EM_T (snd p) (snd p)); congruence.
Qed.

(** ** the value of a stencil *)
(** the stencil in the frame in which the code computes it: rows along x, columns along y *)
Definition stencil (k dil : nat) (c : list R) (a b : nat) : R :=
  rsum (length c) (fun j => nth j c 0 * (nth a (fd_weights (length c - 1 - j) (symmetric_points k (INR dil))) 0 *
                                         nth b (fd_weights j (symmetric_points k (INR dil))) 0)).

Lemma lsum_map_filter (p : nat -> bool) (f : nat -> R) l : (forall x, p x = false -> f x = 0) -> lsum (map f (filter p l)) = lsum (map f l).
Proof. intros H. induction l as [|x l IH]; [reflexivity|]. cbn [filter map]. destruct (p x) eqn:E; cbn [map lsum fold_right]; unfold lsum in *; cbn [fold_right]; rewrite IH; auto. rewrite (H x E). ring. Qed.
Lemma lsum_rsum f n : lsum (map f (seq 0 n)) = rsum n f.
Proof.
  induction n as [|n IH]; [reflexivity|]. rewrite seq_S, map_app. unfold lsum in *. cbn [rsum]. rewrite fold_right_app. cbn [map fold_right Nat.add].
  rewrite <- IH. rewrite Rplus_0_r. generalize (f n). generalize (map f (seq 0 n)). clear. intros l r. induction l as [|x l IH]; cbn [fold_right]; [ring|]. rewrite IH. ring.
Qed.
Lemma rmap_map {A B} (f : A -> result B) (g : A -> B) l l' : (forall x y, f x = Ok y -> y = g x) -> rmap f l = Ok l' -> l' = map g l.
Proof.
  intros H. revert l'. induction l as [|x l IH]; intros l' E; [injection E as <-; reflexivity|]. cbn [rmap] in E. unfold rbind in E.
  destruct (f x) as [y|] eqn:Ex; [|discriminate]. destruct (rmap f l) as [m|] eqn:El; [|discriminate]. injection E as <-. cbn [map]. rewrite (H _ _ Ex), (IH m eq_refl). reflexivity.
Qed.
Lemma rmap_ok {A B} (f : A -> result B) l : (forall x, In x l -> exists y, f x = Ok y) -> exists l', rmap f l = Ok l'.
Proof.
  induction l as [|x l IH]; intros H; [eexists; reflexivity|]. destruct (H x (or_introl eq_refl)) as [y E]. destruct IH as [l' E']; [intros; apply H; right; auto|].
  exists (y :: l'). cbn [rmap]. rewrite E. cbn [rbind]. rewrite E'. reflexivity.
Qed.

Definition grid_mono (k dil n j : nat) : list R :=
  flat_map (fun a => map (fun b => a * b) (fd_weights j (symmetric_points k (INR dil)))) (fd_weights (n - j) (symmetric_points k (INR dil))).
Lemma mono_nth k dil n j a b : (a < k)%nat -> (b < k)%nat ->
  nth (a * k + b) (grid_mono k dil n j) 0 = nth a (fd_weights (n - j) (symmetric_points k (INR dil))) 0 * nth b (fd_weights j (symmetric_points k (INR dil))) 0.
Proof.
  intros Ha Hb. unfold grid_mono.
  assert (E := flat_nth (fun x y : R => x * y) (fd_weights (n - j) (symmetric_points k (INR dil))) (fd_weights j (symmetric_points k (INR dil))) a b 0 0 0).
  rewrite !fd_length, !sym_length in E. apply E; auto.
Qed.
Lemma mono_ok k dil n j v : discretize_2d_monomial (n - j) j (symmetric_points k (INR dil)) (symmetric_points k (INR dil)) = Ok v -> v = grid_mono k dil n j.
Proof.
  unfold discretize_2d_monomial, discretize_1d_monomial, assert_. destruct (n - j <? _)%nat; [|discriminate]. cbn [rbind]. destruct (j <? _)%nat; [|discriminate]. cbn [rbind].
  intros E. injection E as <-. reflexivity.
Qed.

Lemma discretize_value k dil c v : (0 < dil)%nat -> c <> [] -> discretize_fd (grid_coords k dil) c = Ok v ->
  length v = (k * k)%nat /\ forall a b, (a < k)%nat -> (b < k)%nat -> nth (a * k + b) v 0 = stencil k dil c a b.
Proof.
  intros Hd Hc. unfold discretize_fd. set (n := (length c - 1)%nat).
  assert (Hn : length c = (n + 1)%nat) by (unfold n; destruct c; [congruence|cbn; lia]).
  set (p := fun j => if Req_EM_T (nth j c 0) 0 then false else true).
  assert (Hp : forall j, p j = false -> nth j c 0 = 0) by (intros j; unfold p; destruct (Req_EM_T (nth j c 0) 0); congruence).
  assert (ST : forall a b, stencil k dil c a b = lsum (map (fun j => nth j c 0 * (nth a (fd_weights (n - j) (symmetric_points k (INR dil))) 0 * nth b (fd_weights j (symmetric_points k (INR dil))) 0)) (filter p (seq 0 (n + 1))))).
  { intros a b. rewrite lsum_map_filter by (intros j Hj; rewrite (Hp j Hj); ring). rewrite lsum_rsum. unfold stencil. rewrite Hn. replace (n + 1 - 1)%nat with n by lia. reflexivity. }
  destruct (filter p (seq 0 (n + 1))) as [|j0 l0] eqn:EF.
  - intros E. injection E as <-. rewrite repeat_length, grid_length. split; auto. intros a b Ha Hb. rewrite ST. cbn [map lsum fold_right]. apply nth_repeat.
  - rewrite <- EF in *. clear EF j0 l0. rewrite axis0, axis1, mesh_grid, pts_eqb_refl by auto.
    intros E. unfold rbind in E at 1. destruct (rmap _ _) as [ks|] eqn:EK; [|discriminate]. injection E as <-.
    apply (rmap_map _ (fun j => (nth j c 0, grid_mono k dil n j))) in EK.
    2:{ intros j y Ey. unfold rbind in Ey. destruct (discretize_2d_monomial _ _ _ _) as [w|] eqn:Ew; [|discriminate]. injection Ey as <-. f_equal. apply mono_ok. exact Ew. }
    subst ks. rewrite map_length, seq_length, grid_length. split; auto. intros a b Ha Hb.
    rewrite (nth_indep _ 0 (lsum (map (fun cw => fst cw * nth 0 (snd cw) 0) (map (fun j => (nth j c 0, grid_mono k dil n j)) (filter p (seq 0 (n + 1))))))) by (rewrite map_length, seq_length; nia).
    rewrite (map_nth (fun s => lsum (map (fun cw => fst cw * nth s (snd cw) 0) (map (fun j => (nth j c 0, grid_mono k dil n j)) (filter p (seq 0 (n + 1))))))).
    rewrite seq_nth by nia. cbn [Nat.add]. rewrite ST, map_map. f_equal. apply map_ext. intros j. cbn [fst snd]. rewrite mono_nth by auto. reflexivity.
Qed.
Lemma discretize_ok k dil c : (0 < dil)%nat -> (length c <= k)%nat -> c <> [] -> exists v, discretize_fd (grid_coords k dil) c = Ok v.
Proof.
  intros Hd Hk Hc. unfold discretize_fd. set (n := (length c - 1)%nat). set (p := fun j => if Req_EM_T (nth j c 0) 0 then false else true).
  assert (Hn : length c = (n + 1)%nat) by (unfold n; destruct c; [congruence|cbn; lia]).
  destruct (filter p (seq 0 (n + 1))) as [|j0 l0] eqn:EF; [eexists; reflexivity|]. rewrite <- EF. rewrite axis0, axis1, mesh_grid, pts_eqb_refl by auto.
  destruct (rmap_ok (fun k0 => rbind (discretize_2d_monomial (n - k0) k0 (symmetric_points k (INR dil)) (symmetric_points k (INR dil))) (fun w => Ok (nth k0 c 0, w))) (filter p (seq 0 (n + 1)))) as [l' E].
  - intros j Hj. apply filter_In in Hj. destruct Hj as [Hj _]. apply in_seq in Hj. unfold discretize_2d_monomial, discretize_1d_monomial, assert_. rewrite sym_length.
    destruct (Nat.ltb_spec (n - j) k); [|lia]. destruct (Nat.ltb_spec j k); [|lia]. eexists. reflexivity.
  - rewrite E. eexists. reflexivity.
Qed.

(** ** symmetries of a stencil *)
Lemma hom_unique c c' : length c = length c' -> (forall x y, hom_value c x y = hom_value c' x y) -> c = c'.
Proof.
  intros L H. destruct (Nat.eq_dec (length c) 0) as [Z|Z].
  { destruct c; [|discriminate]. destruct c'; [reflexivity|discriminate]. }
  set (n := (length c - 1)%nat). assert (Hn : length c = (n + 1)%nat) by lia.
  set (q := map (fun k => nth k c 0 - nth k c' 0) (seq 0 (n + 1))).
  assert (ZQ : Forall (eq 0) q).
  { apply (many_roots (symmetric_points (n + 1) 1)).
    - apply sym_nodup. lra.
    - unfold q. rewrite map_length, seq_length, sym_length. lia.
    - intros y _. unfold q. rewrite peval_map. specialize (H 1 y). rewrite !hom_sum, <- L, Hn in H.
      transitivity (rsum (n + 1) (fun k => nth k c 0 * (1 ^ (n + 1 - 1 - k) * y ^ k)) - rsum (n + 1) (fun k => nth k c' 0 * (1 ^ (n + 1 - 1 - k) * y ^ k))); [|rewrite H; ring].
      rewrite <- rsum_minus. apply rsum_ext. intros i _. rewrite pow1. ring. }
  apply (nth_ext _ _ 0 0); auto. intros i Hi. assert (E := forall0_nth q i ZQ). unfold q in E.
  rewrite (nth_indep _ 0 (nth 0 c 0 - nth 0 c' 0)) in E by (rewrite map_length, seq_length; lia). rewrite (map_nth (fun k => nth k c 0 - nth k c' 0)) in E.
  rewrite seq_nth in E by lia. cbn [Nat.add] in E. lra.
Qed.

(** a filter built from weights along the two axes: [w n] is the weight function of the n-th derivative *)
Definition poly_w (w : nat -> R -> R) (c : list R) (q : R * R) : R :=
  rsum (length c) (fun j => nth j c 0 * (w (length c - 1 - j)%nat (fst q) * w j (snd q))).
Definition odd_even (w : nat -> R -> R) : Prop := forall n x, w n (- x) = (-1) ^ n * w n x.
(** q -> (e q_1, d q_2), or (e q_2, d q_1) *)
Definition signed (sw : bool) (e d : R) (q : R * R) : R * R := if sw then (e * snd q, d * fst q) else (e * fst q, d * snd q).
Definition unit_sign (e : R) : Prop := e = 1 \/ e = -1.

Lemma sign_weight w e n x : odd_even w -> unit_sign e -> w n (e * x) = e ^ n * w n x.
Proof.
  intros H [->| ->]; [rewrite pow1, !Rmult_1_l; reflexivity|]. replace (-1 * x) with (- x) by ring. apply H.
Qed.
Lemma rsum_rev n f : rsum n f = rsum n (fun i => f (n - 1 - i)%nat).
Proof.
  induction n as [|n IH]; [reflexivity|]. change (S n) with (1 + n)%nat at 2. rewrite (rsum_split 1 n (fun i => f (S n - 1 - i)%nat)). cbn [rsum]. rewrite IH. replace (S n - 1 - 0)%nat with n by lia.
  rewrite Rplus_0_l, Rplus_comm. f_equal. apply rsum_ext. intros i Hi. f_equal. lia.
Qed.
(** the coefficients of P(signed q) *)
Definition signed_coef (sw : bool) (e d : R) (c : list R) : list R :=
  let n := (length c - 1)%nat in
  map (fun j => if sw then nth (n - j) c 0 * (e ^ j * d ^ (n - j)) else nth j c 0 * (e ^ (n - j) * d ^ j)) (seq 0 (n + 1)).
Lemma signed_coef_length sw e d c : c <> [] -> length (signed_coef sw e d c) = length c.
Proof. intros H. unfold signed_coef. rewrite map_length, seq_length. destruct c; [congruence|]. cbn; lia. Qed.
Lemma signed_coef_nth sw e d c j : (j < length c)%nat -> nth j (signed_coef sw e d c) 0 =
  if sw then nth (length c - 1 - j) c 0 * (e ^ j * d ^ (length c - 1 - j)) else nth j c 0 * (e ^ (length c - 1 - j) * d ^ j).
Proof.
  intros H. unfold signed_coef. set (n := (length c - 1)%nat).
  set (f := fun j => if sw then nth (n - j) c 0 * (e ^ j * d ^ (n - j)) else nth j c 0 * (e ^ (n - j) * d ^ j)).
  rewrite (nth_indep _ 0 (f 0%nat)) by (rewrite map_length, seq_length; lia). rewrite (map_nth f), seq_nth by lia. reflexivity.
Qed.
Lemma signed_value sw e d c q : c <> [] -> hom_value (signed_coef sw e d c) (fst q) (snd q) = hom_value c (fst (signed sw e d q)) (snd (signed sw e d q)).
Proof.
  intros H. rewrite !hom_sum, signed_coef_length by auto. set (N := length c). destruct sw.
  - rewrite (rsum_rev N (fun k => nth k c 0 * _)). apply rsum_ext. intros j Hj. rewrite signed_coef_nth by auto. fold N. cbn [signed fst snd].
    rewrite !Rpow_mult_distr. replace (N - 1 - (N - 1 - j))%nat with j by lia. ring.
  - apply rsum_ext. intros j Hj. rewrite signed_coef_nth by auto. fold N. cbn [signed fst snd]. rewrite !Rpow_mult_distr. ring.
Qed.
Lemma signed_weight w sw e d c q : odd_even w -> unit_sign e -> unit_sign d -> c <> [] ->
  poly_w w (signed_coef sw e d c) q = poly_w w c (signed sw e d q).
Proof.
  intros W He Hd H. unfold poly_w. rewrite signed_coef_length by auto. set (N := length c). destruct sw.
  - rewrite (rsum_rev N (fun k => nth k c 0 * _)). apply rsum_ext. intros j Hj. rewrite signed_coef_nth by auto. fold N. cbn [signed fst snd].
    rewrite !sign_weight by auto. replace (N - 1 - (N - 1 - j))%nat with j by lia. ring.
  - apply rsum_ext. intros j Hj. rewrite signed_coef_nth by auto. fold N. cbn [signed fst snd]. rewrite !sign_weight by auto. ring.
Qed.
Lemma poly_neg w c q : odd_even w -> c <> [] -> poly_w w c (- fst q, - snd q) = (-1) ^ (length c - 1) * poly_w w c q.
Proof.
  intros W H. unfold poly_w. rewrite <- rsum_scal. apply rsum_ext. intros j Hj. cbn [fst snd]. rewrite !W.
  replace ((-1) ^ (length c - 1)) with ((-1) ^ (length c - 1 - j) * (-1) ^ j); [ring|]. rewrite <- pow_add. f_equal. lia.
Qed.

(** a matrix of polynomials that satisfies P(L x) = A P(x) B for a signed permutation L gives weights with W(L q) = A W(q) B *)
Lemma mmul_lin no ni A B N (F : nat -> mat) (om : nat -> R) r c :
  rsum N (fun j => mmul ni (mmul no A (F j)) B r c * om j) = mmul ni (mmul no A (fun u v => rsum N (fun j => F j u v * om j))) B r c.
Proof.
  unfold mmul. induction N as [|N IH].
  - cbn [rsum]. symmetry. apply rsum_0. intros u _. rewrite rsum_0; [ring|]. intros; ring.
  - cbn [rsum]. rewrite IH, <- rsum_scal_r, <- rsum_plus. apply rsum_ext. intros u _.
    rewrite Rmult_assoc, (Rmult_comm (B u c)), <- Rmult_assoc, <- Rmult_plus_distr_r. f_equal. rewrite <- rsum_scal_r, <- rsum_plus. apply rsum_ext. intros v _. ring.
Qed.
Lemma poly_steer w sw e d no ni A B n (P : nat -> nat -> list R) : odd_even w -> unit_sign e -> unit_sign d ->
  (forall i j, length (P i j) = S n) ->
  (forall q, meq no ni (fun i j => hom_value (P i j) (fst (signed sw e d q)) (snd (signed sw e d q)))
                       (mmul ni (mmul no A (fun i j => hom_value (P i j) (fst q) (snd q))) B)) ->
  forall q, meq no ni (fun i j => poly_w w (P i j) (signed sw e d q)) (mmul ni (mmul no A (fun i j => poly_w w (P i j) q)) B).
Proof.
  intros W He Hd L H q r c Hr Hc. assert (NE : forall i j, P i j <> []) by (intros i j E; specialize (L i j); rewrite E in L; discriminate).
  rewrite <- signed_weight by auto. set (N := S n).
  set (comb := map (fun k => mmul ni (mmul no A (fun i j => nth k (P i j) 0)) B r c) (seq 0 (n + 1))).
  assert (E : signed_coef sw e d (P r c) = comb).
  { apply hom_unique; [rewrite signed_coef_length, L by auto; unfold comb; rewrite map_length, seq_length; lia|]. intros x y.
    assert (V := signed_value sw e d (P r c) (x, y) (NE r c)). cbn [fst snd] in V. rewrite V. clear V.
    assert (V := H (x, y) r c Hr Hc). cbn beta in V. rewrite V. cbn [fst snd].
    unfold comb. rewrite hom_map, mmul_lin. apply mmul_compat with (r := no) (c := ni); auto; [|reflexivity]. apply mmul_compat; [reflexivity|].
    intros u v _ _. rewrite hom_sum, L. replace (n + 1)%nat with (S n) by lia. apply rsum_ext. intros k _. replace (S n - 1 - k)%nat with (n - k)%nat by lia. reflexivity. }
  rewrite E. unfold poly_w at 1. replace (length comb) with N by (unfold comb; rewrite map_length, seq_length; unfold N; lia).
  transitivity (rsum N (fun j => mmul ni (mmul no A (fun i k => nth j (P i k) 0)) B r c * (w (N - 1 - j)%nat (fst q) * w j (snd q)))).
  - apply rsum_ext. intros j Hj. f_equal. unfold comb. set (f := fun k => mmul ni (mmul no A (fun i j => nth k (P i j) 0)) B r c).
    rewrite (nth_indep _ 0 (f 0%nat)) by (rewrite map_length, seq_length; unfold N in Hj; lia). rewrite (map_nth f), seq_nth by (unfold N in Hj; lia). reflexivity.
  - rewrite mmul_lin. apply mmul_compat with (r := no) (c := ni); auto; [|reflexivity]. apply mmul_compat; [reflexivity|].
    intros u v _ _. unfold poly_w. rewrite L. reflexivity.
Qed.
