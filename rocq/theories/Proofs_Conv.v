(** Padding and convolution commute with flips, transposition and quarter turns. *)
From Coq Require Import Reals ZArith String List Bool Lia Lra FunctionalExtensionality.
From Verif Require Import Base Model_Groups Model_FieldType Model_GSpace Spec_GSpace Proofs_GSpace Model_Conv.
Import ListNotations.
Open Scope R_scope.

(** ** padding *)
Definition pads {B} (m : pmode) (ph pw : nat) (x : arr (B -> vec)) : arr (B -> vec) :=
  MkArr (a_h x + 2 * ph) (a_w x + 2 * pw) (fun i j b c =>
    match pad_index m (a_h x) ph i, pad_index m (a_w x) pw j with Some i', Some j' => a_px x i' j' b c | _, _ => 0 end).
Lemma pad2d_eq {B} m ph pw (x : arr (B -> vec)) :
  pad2d m ph pw x = if (pad_legal m (a_h x) ph && pad_legal m (a_w x) pw)%bool then Ok (pads m ph pw x) else Err "RuntimeError".
Proof. reflexivity. Qed.

Lemma circ_index h p y : (p <= h)%nat -> (0 < h)%nat -> (y < h + 2 * p)%nat ->
  ((y + (h - p)) mod h = if y <? p then y + (h - p) else if y <? p + h then y - p else y - p - h)%nat.
Proof.
  intros. destruct (Nat.ltb_spec y p). { apply Nat.mod_small. lia. }
  destruct (Nat.ltb_spec y (p + h)).
  - replace (y + (h - p))%nat with (y - p + 1 * h)%nat by lia. rewrite Nat.mod_add by lia. apply Nat.mod_small. lia.
  - replace (y + (h - p))%nat with (y - p - h + 2 * h)%nat by lia. rewrite Nat.mod_add by lia. apply Nat.mod_small. lia.
Qed.
Lemma pad_index_flip m h p y : pad_legal m h p = true -> (y < h + 2 * p)%nat ->
  pad_index m h p (h + 2 * p - 1 - y) = option_map (fun i => h - 1 - i)%nat (pad_index m h p y).
Proof.
  intros L Hy. destruct m; cbn [pad_legal pad_index] in *.
  - destruct (Nat.leb_spec p (h + 2 * p - 1 - y)); destruct (Nat.ltb_spec (h + 2 * p - 1 - y) (p + h)); destruct (Nat.leb_spec p y); destruct (Nat.ltb_spec y (p + h)); cbn; try lia; try reflexivity; f_equal; lia.
  - apply Nat.ltb_lt in L. destruct (Nat.ltb_spec (h + 2 * p - 1 - y) p); destruct (Nat.ltb_spec (h + 2 * p - 1 - y) (p + h)); destruct (Nat.ltb_spec y p); destruct (Nat.ltb_spec y (p + h)); cbn; try lia; f_equal; lia.
  - apply Nat.ltb_lt in L. destruct (Nat.ltb_spec (h + 2 * p - 1 - y) p); destruct (Nat.ltb_spec (h + 2 * p - 1 - y) (p + h)); destruct (Nat.ltb_spec y p); destruct (Nat.ltb_spec y (p + h)); cbn; try lia; f_equal; lia.
  - apply andb_true_iff in L as [L1 L2]. apply Nat.leb_le in L1. apply Nat.ltb_lt in L2. rewrite !circ_index by lia. cbn [option_map].
    destruct (Nat.ltb_spec (h + 2 * p - 1 - y) p); destruct (Nat.ltb_spec (h + 2 * p - 1 - y) (p + h)); destruct (Nat.ltb_spec y p); destruct (Nat.ltb_spec y (p + h)); cbn; try lia; f_equal; lia.
Qed.
Lemma pad_index_lt m h p y i : pad_legal m h p = true -> (y < h + 2 * p)%nat -> pad_index m h p y = Some i -> (i < h)%nat.
Proof.
  intros L Hy. destruct m; cbn [pad_legal pad_index] in *.
  - destruct (Nat.leb_spec p y); destruct (Nat.ltb_spec y (p + h)); cbn; intros E; try discriminate; injection E as <-; lia.
  - apply Nat.ltb_lt in L. destruct (Nat.ltb_spec y p); destruct (Nat.ltb_spec y (p + h)); intros E; injection E as <-; lia.
  - apply Nat.ltb_lt in L. destruct (Nat.ltb_spec y p); destruct (Nat.ltb_spec y (p + h)); intros E; injection E as <-; lia.
  - apply andb_true_iff in L as [L1 L2]. apply Nat.leb_le in L1. apply Nat.ltb_lt in L2. rewrite circ_index by lia.
    destruct (Nat.ltb_spec y p); destruct (Nat.ltb_spec y (p + h)); intros E; injection E as <-; lia.
Qed.

Lemma pads_flip_rows {B} m ph pw (x : arr (B -> vec)) : pad_legal m (a_h x) ph = true ->
  arr_eq (pads m ph pw (flip_rows x)) (flip_rows (pads m ph pw x)).
Proof.
  intros L. split; [reflexivity|]. split; [reflexivity|]. cbn. intros i j Hi Hj. extensionality b. extensionality c.
  replace (a_h x + (ph + (ph + 0)) - 1 - i)%nat with (a_h x + 2 * ph - 1 - i)%nat by lia.
  rewrite (pad_index_flip m _ _ i L) by lia. destruct (pad_index m (a_h x) ph i); reflexivity.
Qed.
Lemma pads_flip_cols {B} m ph pw (x : arr (B -> vec)) : pad_legal m (a_w x) pw = true ->
  arr_eq (pads m ph pw (flip_cols x)) (flip_cols (pads m ph pw x)).
Proof.
  intros L. split; [reflexivity|]. split; [reflexivity|]. cbn. intros i j Hi Hj. extensionality b. extensionality c.
  replace (a_w x + (pw + (pw + 0)) - 1 - j)%nat with (a_w x + 2 * pw - 1 - j)%nat by lia.
  rewrite (pad_index_flip m _ _ j L) by lia. destruct (pad_index m (a_w x) pw j); reflexivity.
Qed.
Lemma pads_transpose {B} m ph pw (x : arr (B -> vec)) : arr_eq (pads m ph pw (transpose x)) (transpose (pads m pw ph x)).
Proof.
  split; [reflexivity|]. split; [reflexivity|]. cbn. intros i j Hi Hj. extensionality b. extensionality c.
  destruct (pad_index m (a_w x) ph i); destruct (pad_index m (a_h x) pw j); reflexivity.
Qed.
Lemma pads_eq {B} m ph pw (x y : arr (B -> vec)) : pad_legal m (a_h x) ph = true -> pad_legal m (a_w x) pw = true ->
  arr_eq x y -> arr_eq (pads m ph pw x) (pads m ph pw y).
Proof.
  intros L1 L2 (H1 & H2 & H3). split; [cbn; congruence|]. split; [cbn; congruence|]. cbn. intros i j Hi Hj. extensionality b. extensionality c.
  rewrite <- H1, <- H2. destruct (pad_index m (a_h x) ph i) eqn:E1; auto. destruct (pad_index m (a_w x) pw j) eqn:E2; auto.
  apply pad_index_lt in E1; [|auto|lia]. apply pad_index_lt in E2; [|auto|lia]. rewrite H3; auto.
Qed.

(** ** convolution with a full filter *)
Definition cvo {B} (n s d : nat) (F : arr mat) (X : arr (B -> vec)) : arr (B -> vec) :=
  MkArr ((a_h X - (d * (a_h F - 1) + 1)) / s + 1) ((a_w X - (d * (a_w F - 1) + 1)) / s + 1) (fun i j b o =>
    rsum (a_h F) (fun ky => rsum (a_w F) (fun kx => rsum n (fun c => a_px F ky kx o c * a_px X (i * s + ky * d)%nat (j * s + kx * d)%nat b c)))).

Definition fits1 (s d k H : nat) : Prop := (0 < k /\ 0 < s /\ d * (k - 1) + 1 <= H)%nat.
Definition divides1 (s d k H : nat) : Prop := ((H - (d * (k - 1) + 1)) mod s = 0)%nat.

Lemma cv_idx_flip s d k H i ky : fits1 s d k H -> divides1 s d k H -> (i < (H - (d * (k - 1) + 1)) / s + 1)%nat -> (ky < k)%nat ->
  (H - 1 - (i * s + ky * d) = ((H - (d * (k - 1) + 1)) / s + 1 - 1 - i) * s + (k - 1 - ky) * d)%nat /\ (i * s + ky * d < H)%nat.
Proof.
  intros [Hk [Hs HH]] Hd Hi Hky. unfold divides1 in Hd. set (e := (d * (k - 1) + 1)%nat) in *.
  assert (D := Nat.div_mod (H - e) s ltac:(lia)). set (q := ((H - e) / s)%nat) in *. rewrite Hd, Nat.add_0_r in D.
  assert (E : (i + (q - i) = q)%nat) by lia. assert (E2 : (ky + (k - 1 - ky) = k - 1)%nat) by lia.
  replace (q + 1 - 1 - i)%nat with (q - i)%nat by lia. set (u := (q - i)%nat) in *. set (v := (k - 1 - ky)%nat) in *.
  assert (A1 : (s * q = i * s + u * s)%nat) by (rewrite <- E; ring). assert (A2 : (d * (k - 1) = ky * d + v * d)%nat) by (rewrite <- E2; ring).
  unfold e in *. lia.
Qed.
Lemma cv_idx s d k H i ky : fits1 s d k H -> (i < (H - (d * (k - 1) + 1)) / s + 1)%nat -> (ky < k)%nat -> (i * s + ky * d < H)%nat.
Proof.
  intros [Hk [Hs HH]] Hi Hky. set (e := (d * (k - 1) + 1)%nat) in *. assert (D := Nat.mul_div_le (H - e) s ltac:(lia)). set (q := ((H - e) / s)%nat) in *.
  assert (A1 : (i * s <= q * s)%nat) by (apply Nat.mul_le_mono_r; lia). assert (A2 : (ky * d <= (k - 1) * d)%nat) by (apply Nat.mul_le_mono_r; lia).
  unfold e in *. lia.
Qed.

Lemma cvo_flip_rows {B} n s d F (X : arr (B -> vec)) : fits1 s d (a_h F) (a_h X) -> divides1 s d (a_h F) (a_h X) ->
  arr_eq (cvo n s d (flip_rows F) (flip_rows X)) (flip_rows (cvo n s d F X)).
Proof.
  intros Hf Hd. split; [reflexivity|]. split; [reflexivity|]. cbn [cvo flip_rows a_h a_w a_px]. intros i j Hi Hj. extensionality b. extensionality o.
  rewrite rsum_rev. apply rsum_ext. intros ky Hky. apply rsum_ext. intros kx Hkx. apply rsum_ext. intros c Hc.
  replace (a_h F - 1 - (a_h F - 1 - ky))%nat with ky by lia. f_equal. f_equal.
  destruct (cv_idx_flip s d _ _ i (a_h F - 1 - ky) Hf Hd Hi ltac:(lia)) as [E _]. rewrite E. replace (a_h F - 1 - (a_h F - 1 - ky))%nat with ky by lia. reflexivity.
Qed.
Lemma cvo_flip_cols {B} n s d F (X : arr (B -> vec)) : fits1 s d (a_w F) (a_w X) -> divides1 s d (a_w F) (a_w X) ->
  arr_eq (cvo n s d (flip_cols F) (flip_cols X)) (flip_cols (cvo n s d F X)).
Proof.
  intros Hf Hd. split; [reflexivity|]. split; [reflexivity|]. cbn [cvo flip_cols a_h a_w a_px]. intros i j Hi Hj. extensionality b. extensionality o.
  apply rsum_ext. intros ky Hky. rewrite rsum_rev. apply rsum_ext. intros kx Hkx. apply rsum_ext. intros c Hc.
  replace (a_w F - 1 - (a_w F - 1 - kx))%nat with kx by lia. f_equal. f_equal.
  destruct (cv_idx_flip s d _ _ j (a_w F - 1 - kx) Hf Hd Hj ltac:(lia)) as [E _]. rewrite E. replace (a_w F - 1 - (a_w F - 1 - kx))%nat with kx by lia. reflexivity.
Qed.
Lemma cvo_transpose {B} n s d F (X : arr (B -> vec)) :
  arr_eq (cvo n s d (transpose F) (transpose X)) (transpose (cvo n s d F X)).
Proof.
  split; [reflexivity|]. split; [reflexivity|]. cbn [cvo transpose a_h a_w a_px]. intros i j Hi Hj. extensionality b. extensionality o.
  apply rsum_swap.
Qed.
Lemma cvo_eq {B} n s d F F' (X X' : arr (B -> vec)) : fits1 s d (a_h F) (a_h X) -> fits1 s d (a_w F) (a_w X) -> arr_eq F F' -> arr_eq X X' ->
  arr_eq (cvo n s d F X) (cvo n s d F' X').
Proof.
  intros H1 H2 (F1 & F2 & F3) (X1 & X2 & X3). split; [cbn; congruence|]. split; [cbn; congruence|]. cbn [cvo a_h a_w a_px]. intros i j Hi Hj. extensionality b. extensionality o.
  rewrite <- F1, <- F2. apply rsum_ext. intros ky Hky. apply rsum_ext. intros kx Hkx. apply rsum_ext. intros c Hc.
  rewrite F3 by auto. rewrite X3; [reflexivity|eapply cv_idx; eauto|eapply cv_idx; eauto].
Qed.

(** ** composition: the exact elements of a space *)
Definition turn {A} (f : bool) (k : Z) (x : arr A) : arr A := rot90 (if f then flip_rows x else x) k.

Lemma cvo_rot90 {B} n s d F (X : arr (B -> vec)) k : a_h F = a_w F -> fits1 s d (a_h F) (a_h X) -> fits1 s d (a_w F) (a_w X) ->
  divides1 s d (a_h F) (a_h X) -> divides1 s d (a_w F) (a_w X) -> arr_eq (cvo n s d (rot90 F k) (rot90 X k)) (rot90 (cvo n s d F X) k).
Proof.
  intros E H1 H2 D1 D2. rewrite !rot90_red. destruct (mod4 k) as [Q|[Q|[Q|Q]]]; rewrite Q.
  - apply arr_eq_refl.
  - eapply arr_eq_trans; [apply cvo_transpose|]. apply transpose_eq. apply cvo_flip_cols; auto.
  - eapply arr_eq_trans; [apply cvo_flip_cols; cbn; auto|]. apply flip_cols_eq. apply cvo_flip_rows; auto.
  - eapply arr_eq_trans; [apply cvo_flip_cols; cbn; auto|]. apply flip_cols_eq. apply cvo_transpose.
Qed.
Lemma cvo_turn {B} n s d F (X : arr (B -> vec)) f k : a_h F = a_w F -> fits1 s d (a_h F) (a_h X) -> fits1 s d (a_w F) (a_w X) ->
  divides1 s d (a_h F) (a_h X) -> divides1 s d (a_w F) (a_w X) -> arr_eq (cvo n s d (turn f k F) (turn f k X)) (turn f k (cvo n s d F X)).
Proof.
  intros E H1 H2 D1 D2. unfold turn. eapply arr_eq_trans; [apply cvo_rot90; destruct f; auto|]. apply rot90_eq. destruct f; [|apply arr_eq_refl].
  apply cvo_flip_rows; auto.
Qed.
Lemma turn_dims {A} f k (x : arr A) : (a_h (turn f k x) = a_h x /\ a_w (turn f k x) = a_w x) \/ (a_h (turn f k x) = a_w x /\ a_w (turn f k x) = a_h x).
Proof. unfold turn. rewrite rot90_red. destruct (mod4 k) as [Q|[Q|[Q|Q]]]; rewrite Q; destruct f; cbn; auto. Qed.
Lemma pads_turn {B} m p (x : arr (B -> vec)) f k : pad_legal m (a_h x) p = true -> pad_legal m (a_w x) p = true ->
  arr_eq (pads m p p (turn f k x)) (turn f k (pads m p p x)).
Proof.
  intros L1 L2. unfold turn.
  assert (X : forall y : arr (B -> vec), pad_legal m (a_h y) p = true -> pad_legal m (a_w y) p = true -> arr_eq (pads m p p (rot90 y k)) (rot90 (pads m p p y) k)).
  { intros y K1 K2. rewrite !rot90_red. destruct (mod4 k) as [Q|[Q|[Q|Q]]]; rewrite Q.
    - apply arr_eq_refl.
    - eapply arr_eq_trans; [apply pads_transpose|]. apply transpose_eq, pads_flip_cols; auto.
    - eapply arr_eq_trans; [apply pads_flip_cols; cbn; auto|]. apply flip_cols_eq, pads_flip_rows; auto.
    - eapply arr_eq_trans; [apply pads_flip_cols; cbn; auto|]. apply flip_cols_eq, pads_transpose. }
  eapply arr_eq_trans; [apply X; destruct f; auto|]. apply rot90_eq. destruct f; [|apply arr_eq_refl]. apply pads_flip_rows; auto.
Qed.
Lemma turn_eq {A} f k (x y : arr A) : arr_eq x y -> arr_eq (turn f k x) (turn f k y).
Proof. intros H. apply rot90_eq. destruct f; auto. apply flip_rows_eq; auto. Qed.
Lemma turn_amap {A B} (g : A -> B) f k (x : arr A) : turn f k (amap g x) = amap g (turn f k x).
Proof. unfold turn. destruct f; [rewrite amap_flip|]; apply amap_rot90. Qed.
Lemma amap_eq {A B} (g : A -> B) x y : arr_eq x y -> arr_eq (amap g x) (amap g y).
Proof. intros (H1 & H2 & H3). split; [auto|]. split; [auto|]. cbn. intros. f_equal. auto. Qed.

(** ** the equivariance argument.
    [M], [N]: how the output and input vectors transform; the filter F is fixed by the symmetry. *)
Section Equivariance.
Context {B : Type}.
Variables (n m : nat) (M N N' : mat) (f : bool) (k : Z).
Hypothesis Hinv : meq n n (mmul n N' N) mid.
Variable F : arr mat.
Hypothesis Hsq : a_h F = a_w F.
(** F(q') = M F(q) N^-1 when q' is where q goes *)
Hypothesis HF : forall i j, (i < a_h F)%nat -> (j < a_w F)%nat -> meq m n (a_px F i j) (mmul n (mmul m M (a_px (turn f k F) i j)) N').

Lemma cvo_equivariant s d (X : arr (B -> vec)) :
  fits1 s d (a_h F) (a_h X) -> fits1 s d (a_w F) (a_w X) -> divides1 s d (a_h F) (a_h X) -> divides1 s d (a_w F) (a_w X) ->
  same_field m (cvo n s d F (amap (fun v b => mvec n N (v b)) (turn f k X))) (amap (fun v b => mvec m M (v b)) (turn f k (cvo n s d F X))).
Proof.
  intros H1 H2 D1 D2.
  assert (P := amap_eq (fun v (b : B) => mvec m M (v b)) _ _ (cvo_turn n s d F X f k Hsq H1 H2 D1 D2)).
  destruct P as (P1 & P2 & P3).
  assert (TF : a_h (turn f k F) = a_h F /\ a_w (turn f k F) = a_w F) by (destruct (turn_dims f k F); lia).
  destruct TF as [TF1 TF2].
  cbn [amap cvo a_h a_w] in P1, P2. rewrite TF1 in P1. rewrite TF2 in P2.
  split; [cbn [amap cvo a_h]; rewrite <- P1; reflexivity|]. split; [cbn [amap cvo a_w]; rewrite <- P2; reflexivity|].
  intros i j b o Hi Hj Ho. assert (Hi' : (i < a_h (amap (fun v (b : B) => mvec m M (v b)) (cvo n s d (turn f k F) (turn f k X))))%nat) by (cbn [amap cvo a_h] in *; rewrite TF1; exact Hi).
  assert (Hj' : (j < a_w (amap (fun v (b : B) => mvec m M (v b)) (cvo n s d (turn f k F) (turn f k X))))%nat) by (cbn [amap cvo a_w] in *; rewrite TF2; exact Hj).
  assert (Q := f_equal (fun v => v b o) (P3 i j Hi' Hj')). cbn beta in Q. rewrite <- Q. clear Q P3.
  cbn [amap cvo a_px a_h a_w]. rewrite TF1, TF2. unfold mvec at 2.
  rewrite (rsum_ext m _ (fun o' => rsum (a_h F) (fun ky => rsum (a_w F) (fun kx => M o o' *
    rsum n (fun c => a_px (turn f k F) ky kx o' c * a_px (turn f k X) (i * s + ky * d)%nat (j * s + kx * d)%nat b c))))).
  2:{ intros o' Ho'. rewrite <- rsum_scal. apply rsum_ext. intros. rewrite <- rsum_scal. reflexivity. }
  symmetry. rewrite rsum_swap. apply rsum_ext. intros ky Hky. rewrite rsum_swap. apply rsum_ext. intros kx Hkx. symmetry.
  set (V := a_px (turn f k X) (i * s + ky * d)%nat (j * s + kx * d)%nat b). set (T := a_px (turn f k F) ky kx).
  change (mvec n (a_px F ky kx) (mvec n N V) o = mvec m M (mvec n T V) o).
  transitivity (mvec n (mmul n (mmul m M T) N') (mvec n N V) o).
  { refine (mvec_compat m n _ _ _ _ (HF ky kx Hky Hkx) (fun c _ => eq_refl) o Ho). }
  rewrite mvec_mmul. transitivity (mvec n (mmul m M T) V o); [|apply mvec_mmul].
  refine (mvec_compat m n _ _ _ _ (fun i j _ _ => eq_refl) _ o Ho). intros c Hc. rewrite <- mvec_mmul.
  rewrite (mvec_compat n n _ _ _ _ Hinv (fun c _ => eq_refl) c Hc). apply mvec_id. exact Hc.
Qed.
End Equivariance.
