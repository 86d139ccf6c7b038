(** interpolate commutes with flips, transposition and linear maps of the channels *)
From Coq Require Import Reals ZArith String List Bool Lia Lra Arith.
From Verif Require Import Base LinAlg Model_Groups Model_Rep Model_FieldType Model_GSpace Spec_GSpace Proofs_GSpace Model_Conv Proofs_Conv Proofs_Conv2 Proofs_Conv3 Proofs_Conv4 Proofs_Conv6
  Model_Fieldwise Proofs_FieldType Model_Pool Proofs_Pool Model_Upsample.
Import ListNotations.
Open Scope R_scope.

(** ** one axis *)
Definition taps_in (h : nat) (l : list (nat * R)) : Prop := forall r w, In (r, w) l -> (r < h)%nat.
Definition mirrored (h o : nat) (T : nat -> list (nat * R)) : Prop :=
  forall i f, (i < o)%nat -> tap_sum (T (o - 1 - i)%nat) f = tap_sum (T i) (fun r => f (h - 1 - r)%nat).
Lemma tap_ext h l f g : taps_in h l -> (forall r, (r < h)%nat -> f r = g r) -> tap_sum l f = tap_sum l g.
Proof.
  intros H E. unfold tap_sum. induction l as [|[r w] l IH]; [reflexivity|]. cbn [fold_right fst snd]. rewrite E by (apply (H r w); now left). rewrite IH; [reflexivity|].
  intros r' w' Hr. apply (H r' w'). now right.
Qed.
Lemma tap_add l f g : tap_sum l (fun r => f r + g r) = tap_sum l f + tap_sum l g.
Proof. unfold tap_sum. induction l as [|[r w] l IH]; cbn [fold_right fst snd]; [ring|]. rewrite IH. ring. Qed.
Lemma tap_scale a l f : tap_sum l (fun r => a * f r) = a * tap_sum l f.
Proof. unfold tap_sum. induction l as [|[r w] l IH]; cbn [fold_right fst snd]; [ring|]. rewrite IH. ring. Qed.
Lemma tap_zero l : tap_sum l (fun _ => 0) = 0.
Proof. unfold tap_sum. induction l as [|[r w] l IH]; cbn [fold_right fst snd]; [ring|]. rewrite IH. ring. Qed.
Lemma tap_swap l l' (f : nat -> nat -> R) : tap_sum l (fun r => tap_sum l' (fun s => f r s)) = tap_sum l' (fun s => tap_sum l (fun r => f r s)).
Proof.
  induction l as [|[r w] l IH]; [symmetry; apply tap_zero|]. unfold tap_sum at 1. cbn [fold_right fst snd]. fold (tap_sum l (fun r => tap_sum l' (fun s => f r s))). rewrite IH.
  rewrite <- tap_scale, <- tap_add. unfold tap_sum at 3. cbn [fold_right fst snd]. reflexivity.
Qed.
Lemma tap_rsum n l (f : nat -> nat -> R) : tap_sum l (fun r => rsum n (fun c => f r c)) = rsum n (fun c => tap_sum l (fun r => f r c)).
Proof. induction n as [|n IH]; cbn [rsum]; [apply tap_zero|]. rewrite tap_add, IH. reflexivity. Qed.

Lemma int_part_eq x k : IZR k <= x -> x < IZR k + 1 -> Int_part x = k.
Proof.
  intros H1 H2. destruct (base_Int_part x) as [A B]. assert (L1 : IZR (Int_part x) < IZR (k + 1)) by (rewrite plus_IZR; lra).
  assert (L2 : IZR k < IZR (Int_part x + 1)) by (rewrite plus_IZR; lra). apply lt_IZR in L1, L2. lia.
Qed.
Lemma int_part_nat x k : INR k <= x -> x < INR k + 1 -> Z.to_nat (Int_part x) = k.
Proof. intros H1 H2. rewrite (int_part_eq x (Z.of_nat k)); [apply Nat2Z.id| |]; rewrite <- INR_IZR_INZ; auto. Qed.
Lemma nat_floor x : 0 <= x -> exists k, INR k <= x /\ x < INR k + 1.
Proof.
  intros H. destruct (base_Int_part x) as [A B]. assert (P : (0 <= Int_part x)%Z). { assert (L : IZR (-1) < IZR (Int_part x)) by lra. apply lt_IZR in L. lia. }
  exists (Z.to_nat (Int_part x)). rewrite INR_IZR_INZ, Z2Nat.id by auto. lra.
Qed.

(** nearest, when every pixel is repeated q times *)
Lemma nearest_idx h q i : (0 < q)%nat -> (i < q * h)%nat -> forall ratio, ratio = 1 / INR q -> nearest_taps ratio h i = [((i / q)%nat, 1)].
Proof.
  intros Q I ratio ->. unfold nearest_taps. assert (Q' : 0 < INR q) by (apply (lt_INR 0); auto). assert (LT : (i / q < h)%nat) by (apply Nat.div_lt_upper_bound; lia).
  rewrite (int_part_nat _ (i / q)%nat); [rewrite Nat.min_l by lia; reflexivity| |].
  - apply (Rmult_le_reg_r (INR q)); auto. replace (INR i * (1 / INR q) * INR q) with (INR i) by (field; lra). rewrite <- mult_INR. apply le_INR. rewrite Nat.mul_comm. apply Nat.mul_div_le. lia.
  - apply (Rmult_lt_reg_r (INR q)); auto. replace (INR i * (1 / INR q) * INR q) with (INR i) by (field; lra). change 1 with (INR 1). rewrite <- plus_INR, <- mult_INR. apply lt_INR.
    pose proof (Nat.mul_succ_div_gt i q ltac:(lia)). lia.
Qed.
Lemma nearest_mirror h q ratio : (0 < q)%nat -> (0 < h)%nat -> ratio = 1 / INR q -> mirrored h (q * h) (nearest_taps ratio h).
Proof.
  intros Q H E i f I. rewrite !(nearest_idx h q) by (auto; lia). unfold tap_sum. cbn [fold_right fst snd].
  replace ((q * h - 1 - i) / q)%nat with (h - 1 - i / q)%nat; [reflexivity|].
  assert (LT : (i / q < h)%nat) by (apply Nat.div_lt_upper_bound; lia).
  apply (Nat.div_unique _ _ _ (q - 1 - i mod q)%nat); [lia|]. pose proof (Nat.div_mod i q ltac:(lia)) as D. pose proof (Nat.mod_upper_bound i q ltac:(lia)) as M.
  assert (h = h - 1 - i / q + i / q + 1)%nat as E1 by lia. rewrite E1 at 1. rewrite !Nat.mul_add_distr_l. lia.
Qed.
Lemma nearest_in h ratio i : (0 < h)%nat -> taps_in h (nearest_taps ratio h i).
Proof. intros H r w [E|[]]. injection E as <- _. lia. Qed.

(** the two neighbours of a position u of an axis, and of its mirror image *)
Lemma linear_at k l h : (k < h)%nat -> 0 <= l -> l < 1 -> linear_taps (INR k + l) h = [(k, 1 - l); ((k + if k <? h - 1 then 1 else 0)%nat, l)].
Proof. intros K L1 L2. unfold linear_taps. cbv zeta. rewrite (int_part_nat (INR k + l) k) by lra. replace (INR k + l - INR k) with l by ring. reflexivity. Qed.
Lemma linear_in src h : (0 < h)%nat -> 0 <= src -> src < INR h -> taps_in h (linear_taps src h).
Proof.
  intros H S0 S1. destruct (nat_floor src S0) as (k & K1 & K2). assert (K : (k < h)%nat) by (apply INR_lt; lra).
  replace src with (INR k + (src - INR k)) by ring. rewrite linear_at by (auto; lra). intros r w [E|[E|[]]]; injection E as <- _; [exact K|]. destruct (Nat.ltb_spec k (h - 1)); lia.
Qed.
Lemma linear_mirror h u f : (0 < h)%nat -> - (1 / 2) <= u -> u <= INR h - 1 / 2 ->
  tap_sum (linear_taps (Rmax 0 (INR h - 1 - u)) h) f = tap_sum (linear_taps (Rmax 0 u) h) (fun r => f (h - 1 - r)%nat).
Proof.
  intros H U1 U2. assert (HI : INR (h - 1) = INR h - 1) by (rewrite minus_INR by lia; reflexivity).
  assert (LOW : forall v g, - (1 / 2) <= v -> v <= 0 -> tap_sum (linear_taps (Rmax 0 v) h) g = g 0%nat).
  { intros v g V1 V2. rewrite Rmax_left by auto. replace 0 with (INR 0 + 0) by (cbn; ring). rewrite linear_at by (auto; lra). unfold tap_sum. cbn [fold_right fst snd]. ring. }
  assert (HIGH : forall v g, INR h - 1 <= v -> v <= INR h - 1 / 2 -> tap_sum (linear_taps (Rmax 0 v) h) g = g (h - 1)%nat).
  { intros v g V1 V2. assert (0 <= INR (h - 1)) by apply pos_INR. rewrite Rmax_right by lra. replace v with (INR (h - 1) + (v - INR (h - 1))) by ring. rewrite linear_at by (try lia; lra).
    rewrite Nat.ltb_irrefl. unfold tap_sum. cbn [fold_right fst snd]. rewrite Nat.add_0_r. ring. }
  destruct (Rle_dec u 0) as [L|L]; [rewrite (LOW u), (HIGH (INR h - 1 - u)) by lra; f_equal; lia|].
  destruct (Rle_dec (INR h - 1) u) as [M|M]; [rewrite (HIGH u), (LOW (INR h - 1 - u)) by lra; f_equal; lia|].
  apply Rnot_le_lt in L, M. rewrite !Rmax_right by lra. destruct (nat_floor u ltac:(lra)) as (k & K1 & K2).
  assert (K : (k < h - 1)%nat) by (apply INR_lt; lra). set (l := u - INR k).
  replace u with (INR k + l) by (unfold l; ring). rewrite linear_at by (try lia; unfold l; lra). destruct (Nat.ltb_spec k (h - 1)); [|lia].
  destruct (Req_dec l 0) as [Z|NZ].
  - rewrite Z. replace (INR h - 1 - (INR k + 0)) with (INR (h - 1 - k) + 0) by (rewrite minus_INR, HI by lia; ring). rewrite linear_at by (try lia; lra).
    unfold tap_sum. cbn [fold_right fst snd]. ring.
  - replace (INR h - 1 - (INR k + l)) with (INR (h - 1 - (k + 1)) + (1 - l)) by (rewrite minus_INR, HI, plus_INR by lia; cbn [INR]; ring).
    rewrite linear_at by (try lia; unfold l in *; lra). destruct (Nat.ltb_spec (h - 1 - (k + 1)) (h - 1)); [|lia].
    unfold tap_sum. cbn [fold_right fst snd]. replace (h - 1 - (k + 1) + 1)%nat with (h - 1 - k)%nat by lia. ring.
Qed.
Lemma source_free h o i : (0 < h)%nat -> (i < o)%nat -> let u := INR h / INR o * (INR i + 1 / 2) - 1 / 2 in - (1 / 2) <= u /\ u < INR h - 1 / 2.
Proof.
  intros H I u. assert (O : 0 < INR o) by (apply (lt_INR 0); lia). assert (HH : 0 < INR h) by (apply (lt_INR 0); auto). assert (I0 := pos_INR i).
  assert (I1 : INR i + 1 <= INR o) by (change 1 with (INR 1); rewrite <- plus_INR; apply le_INR; lia). assert (Q : 0 < INR h / INR o) by (apply Rdiv_lt_0_compat; auto).
  split; unfold u.
  - assert (0 <= INR h / INR o * (INR i + 1 / 2)) by (apply Rmult_le_pos; lra). lra.
  - assert (INR h / INR o * (INR i + 1 / 2) < INR h / INR o * INR o) by (apply Rmult_lt_compat_l; lra). replace (INR h / INR o * INR o) with (INR h) in * by (field; lra). lra.
Qed.
Lemma source_align h o i : (0 < h)%nat -> (1 < o)%nat -> (i < o)%nat -> let u := INR i * ((INR h - 1) / (INR o - 1)) in 0 <= u /\ u <= INR h - 1.
Proof.
  intros H O I u. assert (OO : 0 < INR o - 1) by (change 1 with (INR 1); rewrite <- minus_INR by lia; apply (lt_INR 0); lia). assert (I0 := pos_INR i).
  assert (HH : 0 <= INR h - 1) by (change 1 with (INR 1); rewrite <- minus_INR by lia; apply pos_INR).
  assert (I1 : INR i <= INR o - 1) by (change 1 with (INR 1); rewrite <- minus_INR by lia; apply le_INR; lia).
  assert (Q : 0 <= (INR h - 1) / (INR o - 1)). { unfold Rdiv. apply Rmult_le_pos; [lra|]. left. apply Rinv_0_lt_compat. lra. }
  split; unfold u; [apply Rmult_le_pos; auto|].
  eapply Rle_trans; [apply Rmult_le_compat_r; [exact Q|exact I1]|]. right. field. lra.
Qed.
(** what the mirror symmetry needs of the sizes *)
Definition axis_ok (mode : string) (align : option bool) (h o : nat) : Prop :=
  (mode = "nearest"%string -> exists q, (o = q * h)%nat) /\ (mode <> "nearest"%string -> align = Some true -> h = 1%nat \/ (1 < o)%nat).
Lemma taps_mirror mode align ratio h o : (0 < h)%nat -> (0 < o)%nat -> ratio = INR h / INR o -> axis_ok mode align h o -> mirrored h o (taps mode align ratio h o).
Proof.
  intros H O E [A1 A2]. unfold taps. destruct (String.eqb_spec mode "nearest") as [N|N].
  - destruct (A1 N) as [q ->]. assert (Q : (0 < q)%nat) by (destruct q; lia). apply nearest_mirror; auto. rewrite E, mult_INR. assert (0 < INR h) by (apply (lt_INR 0); auto). assert (0 < INR q) by (apply (lt_INR 0); auto). field. lra.
  - intros i f I. assert (OI : INR (o - 1 - i) = INR o - 1 - INR i) by (rewrite !minus_INR by lia; reflexivity). assert (O' : 0 < INR o) by (apply (lt_INR 0); lia).
    unfold source. destruct (match align with Some a => a | None => false end) eqn:AL.
    + assert (align = Some true) as EA by (destruct align as [[|]|]; congruence). specialize (A2 N EA). destruct (Nat.ltb_spec 1 o) as [L|L].
      * destruct (source_align h o i H L I) as [S1 S2]. set (u := INR i * ((INR h - 1) / (INR o - 1))) in *.
        assert (O1 : 0 < INR o - 1) by (change 1 with (INR 1); rewrite <- minus_INR by lia; apply (lt_INR 0); lia).
        replace (INR (o - 1 - i) * ((INR h - 1) / (INR o - 1))) with (INR h - 1 - u) by (rewrite OI; unfold u; field; lra).
        pose proof (linear_mirror h u f H ltac:(lra) ltac:(lra)) as LM. rewrite !Rmax_right in LM by lra. exact LM.
      * destruct A2 as [->|]; [|lia]. rewrite !Rmult_0_r. pose proof (linear_mirror 1 0 f H ltac:(lra) ltac:(cbn; lra)) as LM.
        replace (INR 1 - 1 - 0) with 0 in LM by (cbn; ring). rewrite Rmax_left in LM by lra. exact LM.
    + destruct (source_free h o i H I) as [S1 S2]. rewrite <- E in S1, S2. set (u := ratio * (INR i + 1 / 2) - 1 / 2) in *.
      replace (ratio * (INR (o - 1 - i) + 1 / 2) - 1 / 2) with (INR h - 1 - u) by (rewrite OI; unfold u; rewrite E; field; lra).
      apply linear_mirror; auto; lra.
Qed.
Lemma taps_bound mode align ratio h o i : (0 < h)%nat -> (i < o)%nat -> ratio = INR h / INR o -> taps_in h (taps mode align ratio h o i).
Proof.
  intros H I E. unfold taps. destruct (String.eqb mode "nearest"); [apply nearest_in; auto|]. assert (HH : 1 <= INR h) by (change 1 with (INR 1); apply le_INR; lia).
  unfold source. destruct (match align with Some a => a | None => false end); apply linear_in; auto.
  - destruct (Nat.ltb_spec 1 o) as [L|L]; [apply (source_align h o i H L I)|lra].
  - destruct (Nat.ltb_spec 1 o) as [L|L]; [|lra]. destruct (source_align h o i H L I). lra.
  - apply Rmax_l.
  - destruct (source_free h o i H I) as [S1 S2]. rewrite <- E in S2. apply Rmax_lub_lt; lra.
Qed.

(** ** images *)
Section Grid.
Context {B : Type} (size : option (nat * nat)) (scale : option nat) (mode : string) (align : option bool).
Implicit Types x y : arr (B -> vec).
Definition outs (h w : nat) : nat * nat := match size, scale with Some o, None => o | None, Some s => (h * s, w * s)%nat | _, _ => (0, 0)%nat end.
Definition up_val (x : arr (B -> vec)) (oh ow : nat) : arr (B -> vec) := MkArr oh ow (fun i j b c =>
  tap_sum (taps mode align (INR (a_h x) / INR oh) (a_h x) oh i) (fun r => tap_sum (taps mode align (INR (a_w x) / INR ow) (a_w x) ow j) (fun s => a_px x r s b c))).
Lemma interp_inv x y : interpolate size scale mode align x = Ok y ->
  (0 < a_h x)%nat /\ (0 < a_w x)%nat /\ (0 < fst (outs (a_h x) (a_w x)))%nat /\ (0 < snd (outs (a_h x) (a_w x)))%nat /\
  y = up_val x (fst (outs (a_h x) (a_w x))) (snd (outs (a_h x) (a_w x))) /\ (size = None /\ scale <> None \/ size <> None /\ scale = None).
Proof.
  unfold interpolate, outs, up_val. intros H. apply rbind_ok in H as ([[oh ow] [rh rw]] & Q & H).
  destruct (((0 <? a_h x) && (0 <? a_w x) && (0 <? oh) && (0 <? ow))%nat%bool) eqn:C; [|discriminate].
  rewrite !andb_true_iff, !Nat.ltb_lt in C. destruct C as [[[C1 C2] C3] C4]. injection H as <-.
  destruct size as [[o1 o2]|], scale as [s|]; try discriminate; injection Q as <- <- <- <-; cbn [fst snd]; (split; [exact C1|]); (split; [exact C2|]); (split; [exact C3|]); (split; [exact C4|]).
  - split; [reflexivity|]. right. split; congruence.
  - split; [|left; split; congruence]. assert (0 < INR s) by (apply (lt_INR 0); destruct s; lia). assert (0 < INR (a_h x)) by (apply (lt_INR 0); auto). assert (0 < INR (a_w x)) by (apply (lt_INR 0); auto).
    rewrite !mult_INR. replace (INR (a_h x) / (INR (a_h x) * INR s)) with (1 / INR s) by (field; lra). replace (INR (a_w x) / (INR (a_w x) * INR s)) with (1 / INR s) by (field; lra). reflexivity.
Qed.
Lemma interp_ok x : (0 < a_h x)%nat -> (0 < a_w x)%nat -> (0 < fst (outs (a_h x) (a_w x)))%nat -> (0 < snd (outs (a_h x) (a_w x)))%nat ->
  interpolate size scale mode align x = Ok (up_val x (fst (outs (a_h x) (a_w x))) (snd (outs (a_h x) (a_w x)))).
Proof.
  intros C1 C2 C3 C4. unfold interpolate, outs, up_val in *. destruct size as [[o1 o2]|], scale as [s|]; cbn [fst snd] in *; try lia; cbn [rbind fst snd].
  - replace ((0 <? a_h x) && (0 <? a_w x) && (0 <? o1) && (0 <? o2))%nat%bool with true by (symmetry; rewrite !andb_true_iff, !Nat.ltb_lt; auto). reflexivity.
  - replace ((0 <? a_h x) && (0 <? a_w x) && (0 <? a_h x * s) && (0 <? a_w x * s))%nat%bool with true by (symmetry; rewrite !andb_true_iff, !Nat.ltb_lt; auto).
    assert (0 < INR s) by (apply (lt_INR 0); destruct s; lia). assert (0 < INR (a_h x)) by (apply (lt_INR 0); auto). assert (0 < INR (a_w x)) by (apply (lt_INR 0); auto).
    rewrite !mult_INR. replace (INR (a_h x) / (INR (a_h x) * INR s)) with (1 / INR s) by (field; lra). replace (INR (a_w x) / (INR (a_w x) * INR s)) with (1 / INR s) by (field; lra). reflexivity.
Qed.
Definition up_square : Prop := match size with None => True | Some o => fst o = snd o end.
Definition up_dom (h w : nat) : Prop := axis_ok mode align h (fst (outs h w)) /\ axis_ok mode align w (snd (outs h w)).
Lemma outs_tr h w : up_square -> outs w h = (snd (outs h w), fst (outs h w)).
Proof. unfold up_square, outs. destruct size as [[o1 o2]|], scale as [s|]; cbn [fst snd]; intros E; try reflexivity. rewrite E. reflexivity. Qed.
Lemma interp_grid n : grid_op n up_dom (fun _ => True) up_square (@interpolate B size scale mode align).
Proof.
  constructor.
  - intros x y [D1 D2] H. apply interp_inv in H as (H1 & H2 & H3 & H4 & -> & _).
    assert (E := interp_ok (flip_rows x)). cbn [flip_rows a_h a_w] in E. eexists. split; [apply E; auto|]. split; [reflexivity|]. split; [reflexivity|].
    intros i j b c Hi Hj Hc. cbn [up_val a_h a_w a_px flip_rows] in *. rewrite (taps_mirror mode align _ (a_h x) _ H1 H3 eq_refl D1 i) by exact Hi. reflexivity.
  - intros x y [D1 D2] H. apply interp_inv in H as (H1 & H2 & H3 & H4 & -> & _).
    assert (E := interp_ok (flip_cols x)). cbn [flip_cols a_h a_w] in E. eexists. split; [apply E; auto|]. split; [reflexivity|]. split; [reflexivity|].
    intros i j b c Hi Hj Hc. cbn [up_val a_h a_w a_px flip_cols] in *. apply (tap_ext (a_h x)); [apply taps_bound; auto|]. intros r Hr.
    rewrite (taps_mirror mode align _ (a_w x) _ H2 H4 eq_refl D2 j) by exact Hj. reflexivity.
  - intros x y S [D1 D2] H. apply interp_inv in H as (H1 & H2 & H3 & H4 & -> & _).
    assert (E := interp_ok (transpose x)). cbn [transpose a_h a_w] in E. rewrite (outs_tr (a_h x) (a_w x) S) in E. cbn [fst snd] in E. eexists. split; [apply E; auto|]. split; [reflexivity|]. split; [reflexivity|].
    intros i j b c Hi Hj Hc. cbn [up_val a_h a_w a_px transpose] in *. apply tap_swap.
  - intros h w S [D1 D2]. unfold up_dom. rewrite (outs_tr h w S). split; auto.
  - intros x x' y S H. apply interp_inv in H as (H1 & H2 & H3 & H4 & -> & _). destruct S as (S1 & S2 & S3).
    assert (E := interp_ok x'). rewrite <- S1, <- S2 in E. eexists. split; [apply E; auto|]. split; [reflexivity|]. split; [reflexivity|].
    intros i j b c Hi Hj Hc. cbn [up_val a_h a_w a_px] in *. rewrite <- S1, <- S2. apply (tap_ext (a_h x)); [apply taps_bound; auto|]. intros r Hr.
    apply (tap_ext (a_w x)); [apply taps_bound; auto|]. intros s Hs. apply S3; auto.
  - intros A x y _ H. apply interp_inv in H as (H1 & H2 & H3 & H4 & -> & _).
    assert (E := interp_ok (amap (fun v b => mvec n A (v b)) x)). cbn [amap a_h a_w] in E. eexists. split; [apply E; auto|]. split; [reflexivity|]. split; [reflexivity|].
    intros i j b c Hi Hj Hc. cbn [up_val a_h a_w a_px amap]. unfold mvec.
    transitivity (tap_sum (taps mode align (INR (a_h x) / INR (fst (outs (a_h x) (a_w x)))) (a_h x) (fst (outs (a_h x) (a_w x))) i) (fun r =>
      rsum n (fun k => A c k * tap_sum (taps mode align (INR (a_w x) / INR (snd (outs (a_h x) (a_w x)))) (a_w x) (snd (outs (a_h x) (a_w x))) j) (fun s => a_px x r s b k)))).
    + apply (tap_ext (a_h x)); [apply taps_bound; auto|]. intros r Hr. rewrite tap_rsum. apply rsum_ext. intros k Hk. apply tap_scale.
    + rewrite tap_rsum. apply rsum_ext. intros k Hk. apply tap_scale.
Qed.
End Grid.
