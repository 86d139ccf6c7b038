(** Finite differences: polynomials in one variable, Lagrange interpolation, symmetric points. *)
From Coq Require Import Reals ZArith String List Bool Arith Lia Lra FinFun.
From Verif Require Import Base Model_Groups Model_Rep Model_Diffops Spec_Diffops Spec_Fd.
Import ListNotations.
Open Scope R_scope.

(** ** polynomials: coefficients of 1, x, x^2, ... *)
Fixpoint peval (l : list R) (x : R) : R := match l with [] => 0 | a :: l' => a + x * peval l' x end.
Lemma peval_sum l x : peval l x = rsum (length l) (fun k => nth k l 0 * x ^ k).
Proof.
  induction l as [|a l IH]; [reflexivity|]. cbn [peval length]. rewrite rsum_S_l, IH. cbn [nth]. rewrite <- rsum_scal. f_equal; [cbn [pow]; ring|].
  apply rsum_ext. intros. cbn [pow]. ring.
Qed.
Lemma peval_map n f x : peval (map f (seq 0 n)) x = rsum n (fun k => f k * x ^ k).
Proof.
  rewrite peval_sum, map_length, seq_length. apply rsum_ext. intros i Hi. rewrite (nth_indep _ 0 (f 0%nat)) by (rewrite map_length, seq_length; lia).
  rewrite map_nth, seq_nth by lia. reflexivity.
Qed.
Fixpoint quot (l : list R) (p : R) : list R :=
  match l with [] => [] | a :: m => match m with [] => [] | _ => peval m p :: quot m p end end.
Lemma quot_length l p : length (quot l p) = (length l - 1)%nat.
Proof. induction l as [|a m IH]; [reflexivity|]. destruct m as [|b m]; [reflexivity|]. cbn [quot length] in *. rewrite IH. lia. Qed.
Lemma quot_eval l p x : peval l x - peval l p = (x - p) * peval (quot l p) x.
Proof.
  induction l as [|a m IH]; [cbn; ring|]. destruct m as [|b m]; [cbn; ring|].
  change (quot (a :: b :: m) p) with (peval (b :: m) p :: quot (b :: m) p). set (M := b :: m) in *. cbn [peval].
  replace (a + x * peval M x - (a + p * peval M p)) with ((x - p) * peval M p + x * (peval M x - peval M p)) by ring. rewrite IH. ring.
Qed.
Lemma quot_zero l p : Forall (eq 0) (quot l p) -> peval l p = 0 -> Forall (eq 0) l.
Proof.
  induction l as [|a m IH]; [constructor|]. destruct m as [|b m].
  - cbn. intros _ H. repeat constructor. lra.
  - change (quot (a :: b :: m) p) with (peval (b :: m) p :: quot (b :: m) p). intros H E. change (peval (a :: b :: m) p) with (a + p * peval (b :: m) p) in E.
    assert (H1 := Forall_inv H). assert (H2 := Forall_inv_tail H). rewrite <- H1 in E. constructor; [lra|]. apply IH; auto.
Qed.
Lemma many_roots ps : forall l, NoDup ps -> (length l <= length ps)%nat -> (forall p, In p ps -> peval l p = 0) -> Forall (eq 0) l.
Proof.
  induction ps as [|p ps IH]; intros l ND L H.
  - destruct l; [constructor|cbn in L; lia].
  - inversion ND as [|h t N1 N2]; subst. apply (quot_zero l p); [|apply H; left; auto]. apply IH; auto.
    + rewrite quot_length. cbn in L. lia.
    + intros q Hq. assert (E := quot_eval l p q). rewrite (H q), (H p) in E by (cbn; auto).
      assert (q - p <> 0) by (intros D; apply N1; replace p with q by lra; auto). nra.
Qed.
Lemma forall0_nth (l : list R) k : Forall (eq 0) l -> nth k l 0 = 0.
Proof. intros H. destruct (le_lt_dec (length l) k); [apply nth_overflow; lia|]. symmetry. apply (proj1 (Forall_nth (eq 0) l) H k 0 l0). Qed.

(** ** the coefficients of the product of the x - p *)
Definition cf (ps : list R) (k : nat) : R := nth k (root_poly ps) 0.
Lemma root_poly_length ps : length (root_poly ps) = S (length ps).
Proof. induction ps; [reflexivity|]. cbn [root_poly length]. rewrite map_length, combine_length, app_length. cbn [length]. lia. Qed.
Lemma cf_nil k : cf [] k = if (k =? 0)%nat then 1 else 0.
Proof. unfold cf. destruct k as [|[|k]]; reflexivity. Qed.
Lemma nth_snoc0 (q : list R) k : nth k (q ++ [0]) 0 = nth k q 0.
Proof.
  destruct (lt_dec k (length q)); [apply app_nth1; auto|]. rewrite app_nth2 by lia. rewrite (nth_overflow q) by lia.
  destruct (k - length q)%nat as [|[|]]; reflexivity.
Qed.
Lemma cf_cons p ps k : cf (p :: ps) k = (match k with O => 0 | S k' => cf ps k' end) - p * cf ps k.
Proof.
  unfold cf. cbn [root_poly]. set (q := root_poly ps).
  assert (E : nth k (map (fun c => fst c - p * snd c) (combine (0 :: q) (q ++ [0]))) 0 = nth k (0 :: q) 0 - p * nth k (q ++ [0]) 0).
  { transitivity (nth k (map (fun c : R * R => fst c - p * snd c) (combine (0 :: q) (q ++ [0]))) ((fun c : R * R => fst c - p * snd c) (0, 0))).
    { f_equal. cbn. ring. }
    rewrite (map_nth (fun c : R * R => fst c - p * snd c)). rewrite combine_nth by (rewrite app_length; cbn; lia). reflexivity. }
  rewrite E, nth_snoc0. destruct k; reflexivity.
Qed.
Lemma cf_over ps k : (length ps < k)%nat -> cf ps k = 0.
Proof. intros H. apply nth_overflow. rewrite root_poly_length. lia. Qed.
Lemma cf_top ps : cf ps (length ps) = 1.
Proof. induction ps as [|p ps IH]; [reflexivity|]. cbn [length]. rewrite cf_cons, IH, cf_over by lia. ring. Qed.
Lemma root_eval ps x : peval (root_poly ps) x = lprod (map (fun p => x - p) ps).
Proof.
  induction ps as [|p ps IH]; [cbn; ring|].
  unfold lprod in *. cbn [map fold_right]. rewrite <- IH.
  rewrite !peval_sum, !root_poly_length. cbn [length]. rewrite (rsum_ext _ _ (fun k => (match k with O => 0 | S k' => cf ps k' end) * x ^ k + - p * (cf ps k * x ^ k))).
  2:{ intros k _. change (nth k (root_poly (p :: ps)) 0) with (cf (p :: ps) k). rewrite cf_cons. ring. }
  rewrite rsum_plus, rsum_scal. rewrite rsum_S_l.
  change (rsum (S (S (length ps))) (fun k => cf ps k * x ^ k)) with (rsum (S (length ps)) (fun k => cf ps k * x ^ k) + cf ps (S (length ps)) * x ^ (S (length ps))).
  rewrite cf_over by lia. rewrite (rsum_ext _ (fun i => cf ps i * x ^ S i) (fun i => x * (cf ps i * x ^ i))) by (intros; cbn [pow]; ring).
  rewrite rsum_scal. change (fun k => nth k (root_poly ps) 0 * x ^ k) with (fun k => cf ps k * x ^ k). ring.
Qed.
Lemma lprod_zero l : In 0 l -> lprod l = 0.
Proof. induction l as [|a l IH]; [intros []|]. intros [->|H]; unfold lprod in *; cbn [fold_right]; [ring|]. rewrite IH by auto. ring. Qed.
Lemma lprod_nonzero l : ~ In 0 l -> lprod l <> 0.
Proof.
  induction l as [|a l IH]; intros H; unfold lprod in *; cbn [fold_right]; [lra|]. apply Rmult_integral_contrapositive. split; [|apply IH]; intros E; apply H; cbn; auto.
Qed.

(** ** weights that are exact on monomials are exact on polynomials *)
Lemma derives_poly o d ps w (q : list R) : derives o d ps w -> (length q <= d)%nat ->
  rsum (length ps) (fun i => nth i w 0 * peval q (nth i ps 0)) = INR (fact o) * nth o q 0.
Proof.
  intros H L.
  rewrite (rsum_ext _ _ (fun i => rsum (length q) (fun k => nth k q 0 * (nth i w 0 * nth i ps 0 ^ k)))).
  2:{ intros i _. rewrite peval_sum, <- rsum_scal. apply rsum_ext. intros. ring. }
  rewrite rsum_swap. rewrite (rsum_ext _ _ (fun k => if (k =? o)%nat then INR (fact o) * nth o q 0 else 0)).
  2:{ intros k Hk. rewrite rsum_scal, H by lia. destruct (k =? o)%nat eqn:E; [apply Nat.eqb_eq in E; subst|]; ring. }
  destruct (lt_dec o (length q)) as [Ho|Ho].
  - rewrite (rsum_single _ o); [rewrite Nat.eqb_refl; reflexivity|auto|]. intros k _ Hne. apply Nat.eqb_neq in Hne. rewrite Hne. reflexivity.
  - rewrite rsum_0; [rewrite nth_overflow by lia; ring|]. intros k Hk. replace (k =? o)%nat with false by (symmetry; apply Nat.eqb_neq; lia). reflexivity.
Qed.

(** ** Lagrange *)
Lemma others_length i ps : (i < length ps)%nat -> length (others i ps) = (length ps - 1)%nat.
Proof. intros H. unfold others. rewrite app_length, firstn_length, skipn_length. lia. Qed.
Lemma others_split i (ps : list R) : (i < length ps)%nat -> ps = firstn i ps ++ nth i ps 0 :: skipn (S i) ps.
Proof.
  revert i. induction ps as [|a ps IH]; intros i H; [cbn in H; lia|]. destruct i; [reflexivity|]. cbn [firstn nth skipn app]. f_equal. apply IH. cbn in H. lia.
Qed.
Lemma in_others (ps : list R) : forall i m, (i < length ps)%nat -> (m < length ps)%nat -> m <> i -> In (nth m ps 0) (others i ps).
Proof.
  induction ps as [|a ps IH]; intros i m Hi Hm Hne; [cbn in Hi; lia|]. cbn [length] in *.
  destruct i as [|i]; destruct m as [|m]; try congruence.
  - change (In (nth m ps 0) ps). apply nth_In. lia.
  - left. reflexivity.
  - right. apply (IH i m); lia.
Qed.
Lemma others_not (ps : list R) i : NoDup ps -> (i < length ps)%nat -> ~ In (nth i ps 0) (others i ps).
Proof. intros ND Hi. rewrite (others_split i ps Hi) in ND. apply NoDup_remove_2 in ND. exact ND. Qed.
Definition den (i : nat) (ps : list R) : R := lprod (map (fun q => nth i ps 0 - q) (others i ps)).
Lemma den_nonzero ps i : NoDup ps -> (i < length ps)%nat -> den i ps <> 0.
Proof.
  intros ND Hi. apply lprod_nonzero. intros H. apply in_map_iff in H. destruct H as [q [E Hq]].
  apply (others_not ps i ND Hi). replace (nth i ps 0) with q by lra. auto.
Qed.
Lemma fd_length n ps : length (fd_weights n ps) = length ps.
Proof. unfold fd_weights. rewrite map_length, seq_length. reflexivity. Qed.
Lemma fd_nth n ps i : (i < length ps)%nat -> nth i (fd_weights n ps) 0 = INR (fact n) * cf (others i ps) n / den i ps.
Proof.
  intros H. unfold fd_weights.
  set (f := fun i : nat => INR (fact n) * nth n (root_poly (others i ps)) 0 / lprod (map (fun q : R => nth i ps 0 - q) (others i ps))).
  rewrite (nth_indep _ 0 (f 0%nat)) by (rewrite map_length, seq_length; auto). rewrite map_nth, seq_nth by auto. reflexivity.
Qed.

Lemma lagrange n ps : NoDup ps -> derives n (length ps) ps (fd_weights n ps).
Proof.
  intros ND j Hj. set (N := length ps) in *.
  set (Q := map (fun k => rsum N (fun i => nth i ps 0 ^ j / den i ps * cf (others i ps) k) - (if (k =? j)%nat then 1 else 0)) (seq 0 N)).
  assert (Z : Forall (eq 0) Q).
  { apply (many_roots ps); auto; [unfold Q; rewrite map_length, seq_length; auto|].
    intros p Hp. unfold Q. rewrite peval_map.
    rewrite (rsum_ext N _ (fun k => rsum N (fun i => nth i ps 0 ^ j / den i ps * (cf (others i ps) k * p ^ k)) + - (if (k =? j)%nat then p ^ k else 0))).
    2:{ intros k Hk. rewrite Rmult_minus_distr_r, <- rsum_scal_r. unfold Rminus. f_equal; [apply rsum_ext; intros; ring|]. destruct (k =? j)%nat; ring. }
    rewrite rsum_plus, rsum_opp, rsum_swap.
    rewrite (rsum_single N j (fun k => if (k =? j)%nat then p ^ k else 0)); auto.
    2:{ intros k _ Hk. apply Nat.eqb_neq in Hk. rewrite Hk. reflexivity. }
    rewrite Nat.eqb_refl.
    destruct (In_nth ps p 0 Hp) as [m [Hm Em]]. fold N in Hm.
    rewrite (rsum_single N m); auto.
    - rewrite rsum_scal. replace (rsum N (fun k => cf (others m ps) k * p ^ k)) with (den m ps).
      + rewrite Em. field. apply den_nonzero; auto.
      + unfold den. rewrite <- root_eval, Em, peval_sum, root_poly_length, others_length by auto. fold N. replace (S (N - 1)) with N by lia. reflexivity.
    - intros i Hi Hne. rewrite rsum_scal. replace (rsum N (fun k => cf (others i ps) k * p ^ k)) with 0; [ring|].
      symmetry. transitivity (peval (root_poly (others i ps)) p).
      + rewrite peval_sum, root_poly_length, others_length by auto. fold N. replace (S (N - 1)) with N by lia. reflexivity.
      + rewrite root_eval. apply lprod_zero. apply in_map_iff. exists p. split; [ring|]. rewrite <- Em. apply in_others; auto. }
  assert (W : forall k, (k < N)%nat -> rsum N (fun i => nth i ps 0 ^ j / den i ps * cf (others i ps) k) = if (k =? j)%nat then 1 else 0).
  { intros k Hk. assert (E := forall0_nth Q k Z). unfold Q in E.
    set (f := fun k => rsum N (fun i => nth i ps 0 ^ j / den i ps * cf (others i ps) k) - (if (k =? j)%nat then 1 else 0)) in *.
    rewrite (nth_indep _ 0 (f 0%nat)) in E by (rewrite map_length, seq_length; auto). rewrite map_nth, seq_nth in E by auto. unfold f in E. cbn [Nat.add] in E. lra. }
  rewrite (rsum_ext N _ (fun i => INR (fact n) * (nth i ps 0 ^ j / den i ps * cf (others i ps) n))).
  2:{ intros i Hi. rewrite fd_nth by auto. unfold Rdiv. ring. }
  rewrite rsum_scal. destruct (lt_dec n N) as [Hn|Hn].
  - rewrite W by auto. rewrite (Nat.eqb_sym j n). destruct (n =? j)%nat; ring.
  - rewrite rsum_0; [replace (j =? n)%nat with false by (symmetry; apply Nat.eqb_neq; lia); ring|].
    intros i Hi. rewrite cf_over by (rewrite others_length by auto; fold N; lia). ring.
Qed.
(** they are the only ones *)
Lemma lagrange_unique n ps w : NoDup ps -> derives n (length ps) ps w -> forall i, (i < length ps)%nat -> nth i w 0 = nth i (fd_weights n ps) 0.
Proof.
  intros ND H i Hi. rewrite fd_nth by auto.
  assert (E := derives_poly n (length ps) ps w (root_poly (others i ps)) H). rewrite root_poly_length, others_length in E by auto.
  specialize (E ltac:(lia)). change (nth n (root_poly (others i ps)) 0) with (cf (others i ps) n) in E. rewrite <- E.
  rewrite (rsum_single (length ps) i); auto.
  - rewrite root_eval. fold (den i ps). field. apply den_nonzero; auto.
  - intros m Hm Hne. rewrite root_eval, lprod_zero; [ring|]. apply in_map_iff. exists (nth m ps 0). split; [ring|]. apply in_others; auto.
Qed.

(** ** symmetric points *)
Lemma sym_length n d : length (symmetric_points n d) = n.
Proof. unfold symmetric_points. rewrite map_length, seq_length. reflexivity. Qed.
Lemma sym_nth n d i : (i < n)%nat -> nth i (symmetric_points n d) 0 = (INR i - (INR n - 1) / 2) * d.
Proof.
  intros H. unfold symmetric_points. set (f := fun x : nat => (INR x - (INR n - 1) / 2) * d).
  rewrite (nth_indep _ 0 (f 0%nat)) by (rewrite map_length, seq_length; auto). rewrite map_nth, seq_nth by auto. reflexivity.
Qed.
Lemma sym_centred n d : centred n d (symmetric_points n d).
Proof. split; [apply sym_length|]. intros. apply sym_nth; auto. Qed.
Lemma sym_nodup n d : d <> 0 -> NoDup (symmetric_points n d).
Proof.
  intros Hd. unfold symmetric_points. apply Injective_map_NoDup; [|apply seq_NoDup].
  intros a b H. apply INR_eq. apply Rmult_eq_reg_r in H; auto. lra.
Qed.
Lemma sym_neg n d i : (i < n)%nat -> nth (n - 1 - i) (symmetric_points n d) 0 = - nth i (symmetric_points n d) 0.
Proof. intros H. rewrite !sym_nth by lia. rewrite minus_INR, minus_INR by lia. cbn [INR]. lra. Qed.
(** the weights of the mirrored points *)
Lemma fd_mirror n N d i : d <> 0 -> (i < N)%nat ->
  nth (N - 1 - i) (fd_weights n (symmetric_points N d)) 0 = (-1) ^ n * nth i (fd_weights n (symmetric_points N d)) 0.
Proof.
  intros Hd Hi. set (ps := symmetric_points N d). assert (L : length ps = N) by apply sym_length.
  set (w := fd_weights n ps). set (w' := map (fun i => (-1) ^ n * nth (N - 1 - i) w 0) (seq 0 N)).
  assert (Nw : forall i, (i < N)%nat -> nth i w' 0 = (-1) ^ n * nth (N - 1 - i) w 0).
  { intros k Hk. unfold w'. set (f := fun i : nat => (-1) ^ n * nth (N - 1 - i) w 0).
    rewrite (nth_indep _ 0 (f 0%nat)) by (rewrite map_length, seq_length; auto). rewrite map_nth, seq_nth by auto. reflexivity. }
  assert (D : derives n (length ps) ps w') .
  { intros j Hj. assert (HL := lagrange n ps (sym_nodup N d Hd) j Hj). rewrite L in *. rewrite rsum_rev.
    rewrite (rsum_ext N _ (fun i => ((-1) ^ n * (-1) ^ j) * (nth i w 0 * nth i ps 0 ^ j))).
    2:{ intros k Hk. rewrite Nw by lia. replace (N - 1 - (N - 1 - k))%nat with k by lia. unfold ps at 1. rewrite sym_neg by auto. fold ps.
        replace (- nth k ps 0) with ((-1) * nth k ps 0) by ring. rewrite Rpow_mult_distr. ring. }
    rewrite rsum_scal. unfold w. rewrite HL. destruct (j =? n)%nat eqn:E; [|ring]. apply Nat.eqb_eq in E. subst j.
    rewrite <- pow_add. replace (n + n)%nat with (2 * n)%nat by lia. rewrite pow_1_even. ring. }
  assert (U := lagrange_unique n ps w' (sym_nodup N d Hd) D (N - 1 - i)%nat ltac:(lia)). rewrite Nw in U by lia.
  replace (N - 1 - (N - 1 - i))%nat with i in U by lia. symmetry. exact U.
Qed.

(** the coefficients of the product over symmetric points *)
Lemma cf_ext ps ps' : (forall k, cf ps k = cf ps' k) -> forall p k, cf (p :: ps) k = cf (p :: ps') k.
Proof. intros H p k. rewrite !cf_cons, H. destruct k; [|rewrite H]; reflexivity. Qed.
Lemma cf_snoc ps p : forall k, cf (ps ++ [p]) k = cf (p :: ps) k.
Proof.
  induction ps as [|q ps IH]; intros k; [reflexivity|]. cbn [app]. rewrite (cf_ext _ _ IH).
  rewrite !cf_cons. destruct k as [|k]; [ring|]. rewrite !cf_cons. ring.
Qed.
Lemma sym_SS n d : symmetric_points (S (S n)) d = (- ((INR n + 1) / 2 * d)) :: symmetric_points n d ++ [(INR n + 1) / 2 * d].
Proof.
  unfold symmetric_points. change (seq 0 (S (S n))) with (0%nat :: seq 1 (S n)). rewrite seq_S. cbn [map]. rewrite map_app. cbn [map].
  rewrite !S_INR. f_equal; [cbn [INR]; field|]. f_equal.
  - rewrite <- seq_shift, map_map. apply map_ext. intros. rewrite S_INR. field.
  - f_equal. cbn [Nat.add]. rewrite ?S_INR. field.
Qed.
Lemma cf_sym_SS n d k : let e := (INR n + 1) / 2 * d in
  cf (symmetric_points (S (S n)) d) k = (match k with S (S k') => cf (symmetric_points n d) k' | _ => 0 end) - e * e * cf (symmetric_points n d) k.
Proof.
  intros e. rewrite sym_SS. fold e. rewrite cf_cons, !cf_snoc. destruct k as [|k]; [rewrite cf_cons; ring|].
  rewrite !cf_snoc, !cf_cons. destruct k; ring.
Qed.
Lemma cf_sym_sign d : d <> 0 -> forall n k, (2 * k <= n)%nat -> 0 < (-1) ^ k * cf (symmetric_points n d) (n - 2 * k).
Proof.
  intros Hd. assert (H : forall n, (forall k, (2 * k <= n)%nat -> 0 < (-1) ^ k * cf (symmetric_points n d) (n - 2 * k)) /\
                         (forall k, (2 * k <= S n)%nat -> 0 < (-1) ^ k * cf (symmetric_points (S n) d) (S n - 2 * k))).
  { induction n as [|n [IH1 IH2]].
    - split; intros k Hk; replace k with 0%nat by lia; cbn [Nat.mul Nat.sub pow]; [cbn; lra|].
      change 1%nat with (length (symmetric_points 1 d)) at 2. rewrite cf_top. lra.
    - split; auto. intros k Hk. rewrite cf_sym_SS. set (e := (INR n + 1) / 2 * d).
      assert (He : 0 < e * e). { assert (e <> 0). { unfold e. assert (Hn := pos_INR n). apply Rmult_integral_contrapositive. split; auto. lra. } apply Rsqr_pos_lt in H. exact H. }
      destruct k as [|k].
      + replace (S (S n) - 2 * 0)%nat with (S (S n)) by lia. rewrite (cf_over (symmetric_points n d) (S (S n))) by (rewrite sym_length; lia).
        assert (T := cf_top (symmetric_points n d)). rewrite sym_length in T. rewrite T. cbn [pow]. lra.
      + replace (S (S n) - 2 * S k)%nat with (n - 2 * k)%nat by lia.
        assert (P1 := IH1 k ltac:(lia)). destruct (le_lt_dec (2 * S k) n) as [L|L].
        * assert (P2 := IH1 (S k) L). replace (n - 2 * k)%nat with (S (S (n - 2 * S k))) by lia.
          replace (n - 2 * k)%nat with (S (S (n - 2 * S k))) in P1 by lia. cbn [pow] in *. nra.
        * assert ((n - 2 * k = 0 \/ n - 2 * k = 1)%nat) as [E|E] by lia; rewrite E in *; cbn [pow] in *; nra. }
  intros n. apply H.
Qed.

(** ** multiples of the product *)
Lemma no_derives o d ps w k c : derives o d ps w -> (k + length ps < d)%nat -> (k <= o)%nat -> cf ps (o - k) = c -> c <> 0 -> False.
Proof.
  intros H L Hk Hc Hn. set (q := repeat 0 k ++ root_poly ps).
  assert (E := derives_poly o d ps w q H). specialize (E ltac:(unfold q; rewrite app_length, repeat_length, root_poly_length; lia)).
  replace (nth o q 0) with c in E.
  2:{ unfold q. rewrite app_nth2 by (rewrite repeat_length; lia). rewrite repeat_length. rewrite <- Hc. reflexivity. }
  rewrite rsum_0 in E.
  - assert (F := INR_fact_neq_0 o). symmetry in E. apply Rmult_integral in E. destruct E; auto.
  - intros i Hi. replace (peval q (nth i ps 0)) with 0; [ring|]. unfold q. symmetry.
    assert (P : forall m, peval (repeat 0 m ++ root_poly ps) (nth i ps 0) = 0).
    { induction m; cbn [repeat app peval]; [|rewrite IHm; ring]. rewrite root_eval. apply lprod_zero. apply in_map_iff. exists (nth i ps 0). split; [ring|apply nth_In; auto]. }
    apply P.
Qed.

(** ** accuracy *)
Lemma centred_sym N d ps : centred N d ps -> ps = symmetric_points N d.
Proof.
  intros [L H]. apply (nth_ext _ _ 0 0); [rewrite sym_length; auto|]. intros i Hi. rewrite sym_nth by lia. apply H. lia.
Qed.
Lemma parity_diff a b : Nat.even (a - b) = false -> (b <= a)%nat -> (-1) ^ a * (-1) ^ b = -1.
Proof.
  intros E H. replace a with ((a - b) + b)%nat by lia. rewrite pow_add. replace (a - b + b - b)%nat with (a - b)%nat in * by lia.
  assert (O : Nat.odd (a - b) = true) by (unfold Nat.odd; rewrite E; reflexivity). apply Nat.odd_spec in O. destruct O as [m O]. rewrite O.
  replace (2 * m + 1)%nat with (S (2 * m)) by lia. rewrite pow_1_odd.
  assert (B : (-1) ^ b * (-1) ^ b = 1) by (rewrite <- pow_add; replace (b + b)%nat with (2 * b)%nat by lia; apply pow_1_even). nra.
Qed.
Lemma sym_boost o N d : d <> 0 -> (o < N)%nat -> Nat.even (N - o) = false ->
  derives o (S N) (symmetric_points N d) (fd_weights o (symmetric_points N d)).
Proof.
  intros Hd Ho E j Hj. destruct (lt_dec j N) as [H|H].
  - apply lagrange; [apply sym_nodup; auto|rewrite sym_length; auto].
  - assert (j = N) by lia. subst j. rewrite sym_length. replace (N =? o)%nat with false by (symmetry; apply Nat.eqb_neq; lia).
    set (s := rsum N _). assert (s = - s); [|lra]. unfold s at 1. rewrite rsum_rev. unfold s. rewrite <- rsum_opp. apply rsum_ext. intros i Hi.
    rewrite fd_mirror, sym_neg by auto. replace (- nth i (symmetric_points N d) 0) with ((-1) * nth i (symmetric_points N d) 0) by ring.
    rewrite Rpow_mult_distr. assert (P := parity_diff N o E ltac:(lia)).
    transitivity (((-1) ^ N * (-1) ^ o) * (nth i (fd_weights o (symmetric_points N d)) 0 * nth i (symmetric_points N d) 0 ^ N)); [ring|]. rewrite P. ring.
Qed.
(** no weights can do better *)
Lemma even_half n : Nat.even n = true -> exists m, n = (2 * m)%nat.
Proof. intros E. apply Nat.even_spec in E. exact E. Qed.
Lemma sym_cf_nonzero N d m : d <> 0 -> (2 * m <= N)%nat -> cf (symmetric_points N d) (N - 2 * m) <> 0.
Proof. intros Hd H E. assert (P := cf_sym_sign d Hd N m H). rewrite E in P. lra. Qed.
Lemma sym_limit_small o N d w D : (N <= o < D)%nat -> derives o D (symmetric_points N d) w -> False.
Proof.
  intros H DV. apply (no_derives o D (symmetric_points N d) w (o - N) 1 DV); try lra; rewrite ?sym_length; try lia.
  replace (o - (o - N))%nat with N by lia. assert (T := cf_top (symmetric_points N d)). rewrite sym_length in T. exact T.
Qed.
Lemma sym_limit_even o N d w D : d <> 0 -> (o <= N < D)%nat -> Nat.even (N - o) = true -> derives o D (symmetric_points N d) w -> False.
Proof.
  intros Hd H E DV. destruct (even_half _ E) as [m Hm].
  apply (no_derives o D (symmetric_points N d) w 0 (cf (symmetric_points N d) (N - 2 * m)) DV); rewrite ?sym_length; try lia.
  - f_equal. lia.
  - apply sym_cf_nonzero; auto. lia.
Qed.
Lemma sym_limit_odd o N d w D : d <> 0 -> (1 <= o <= N)%nat -> (S N < D)%nat -> Nat.even (N - o) = false -> derives o D (symmetric_points N d) w -> False.
Proof.
  intros Hd H HD E DV. assert (E' : Nat.even (N - (o - 1)) = true).
  { replace (N - (o - 1))%nat with (S (N - o)) by lia. rewrite Nat.even_succ. unfold Nat.odd. rewrite E. reflexivity. }
  destruct (even_half _ E') as [m Hm].
  apply (no_derives o D (symmetric_points N d) w 1 (cf (symmetric_points N d) (N - 2 * m)) DV); rewrite ?sym_length; try lia.
  - f_equal. lia.
  - apply sym_cf_nonzero; auto. lia.
Qed.
Lemma even_Z n : Nat.even n = Z.eqb (Z.of_nat n mod 2) 0.
Proof.
  destruct (Nat.even n) eqn:E; symmetry.
  - apply Nat.even_spec in E. destruct E as [m ->]. apply Z.eqb_eq. Z.to_euclidean_division_equations. lia.
  - assert (O : Nat.odd n = true) by (unfold Nat.odd; rewrite E; auto). apply Nat.odd_spec in O. destruct O as [m ->].
    apply Z.eqb_neq. Z.to_euclidean_division_equations. lia.
Qed.

(** required_points, largest_possible_order, guaranteed_accuracy *)
Lemma required_spec o a : (0 <= o)%Z -> (1 <= a)%Z ->
  let N := required_points o a in (o < N)%Z /\
  (forall M, (o < M)%Z -> ((a <= if Z.eqb ((M - o) mod 2) 0 then M - o else M - o + 1) <-> (N <= M))%Z).
Proof.
  intros Ho Ha N. unfold N, required_points. split.
  - destruct (Z.eqb_spec ((a - 1) mod 2) 0) as [E|E]; [lia|]. Z.to_euclidean_division_equations. lia.
  - intros M HM. destruct (Z.eqb_spec ((a - 1) mod 2) 0) as [E|E]; destruct (Z.eqb_spec ((M - o) mod 2) 0) as [F|F];
    Z.to_euclidean_division_equations; lia.
Qed.
Lemma enough_points o N d D : d <> 0 -> (o < N)%nat -> (D <= if Nat.even (N - o) then N else S N)%nat ->
  derives o D (symmetric_points N d) (fd_weights o (symmetric_points N d)).
Proof.
  intros Hd Ho HD j Hj. destruct (Nat.even (N - o)) eqn:E.
  - apply lagrange; [apply sym_nodup; auto|rewrite sym_length; lia].
  - apply (sym_boost o N d); auto. lia.
Qed.
Lemma too_few_points o N d D w : d <> 0 -> (1 <= o < D)%nat -> ((if Nat.even (N - o) then N else S N) < D)%nat ->
  derives o D (symmetric_points N d) w -> False.
Proof.
  intros Hd Ho HD. destruct (le_lt_dec N o) as [L|L]; [apply sym_limit_small; lia|].
  destruct (Nat.even (N - o)) eqn:E; [apply sym_limit_even; auto; lia|apply sym_limit_odd; auto; lia].
Qed.
