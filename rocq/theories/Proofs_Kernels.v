(** Kernels between irreps satisfy the kernel constraint (C22); offsets (C24). *)
From Coq Require Import Reals ZArith String List Bool Lia Lra Setoid Morphisms Sorted.
From Verif Require Import Base Spec Model_Groups Model_Rep Model_GSpace Spec_GSpace Model_Kernels Spec_Kernels
  Proofs_Groups Proofs_Cont Proofs_Irreps Proofs_GSpace Proofs_Trig.
Import ListNotations.
Open Scope R_scope.

(** ** offset_iterator *)
Lemma in_zrange a b x : In x (zrange a b) <-> (a <= x < b)%Z.
Proof.
  unfold zrange. rewrite in_map_iff. split.
  - intros [i [<- H]]. apply in_seq in H. lia.
  - intros H. exists (Z.to_nat (x - a)). rewrite in_seq. lia.
Qed.
Lemma zrange_sorted a b : StronglySorted Z.lt (zrange a b).
Proof.
  unfold zrange. generalize (Z.to_nat (b - a)) as n. intros n. generalize 0%nat as i. revert a.
  induction n as [|n IH]; intros a i; cbn; constructor; auto.
  apply Forall_forall. intros x Hx. apply in_map_iff in Hx. destruct Hx as [k [<- Hk]]. apply in_seq in Hk. lia.
Qed.

Lemma cdiv_le a b t : (0 < b)%Z -> (cdiv a b <= t <-> a <= t * b)%Z.
Proof.
  intros Hb. unfold cdiv. split; intros H.
  - assert (- t <= (- a) / b)%Z by lia. 
    assert ((-t) * b <= - a)%Z; [|lia].
    transitivity (((- a) / b) * b)%Z; [apply Z.mul_le_mono_nonneg_r; lia|].
    rewrite Z.mul_comm. apply Z.mul_div_le; lia.
  - assert (- t <= (- a) / b)%Z; [|lia]. apply Z.div_le_lower_bound; lia.
Qed.
Lemma fdiv_le a b t : (0 < b)%Z -> (t <= a / b <-> t * b <= a)%Z.
Proof.
  intros Hb. split; intros H.
  - transitivity ((a / b) * b)%Z; [apply Z.mul_le_mono_nonneg_r; lia|]. rewrite Z.mul_comm. apply Z.mul_div_le; lia.
  - apply Z.div_le_lower_bound; lia.
Qed.

Lemma offsets_F base N T f nn : (0 < N)%Z ->
  exists l, offset_iterator base N T (Some f) nn = Ok l /\ StronglySorted Z.lt l /\
    forall t, In t l <-> ((if nn then 0 else - f) <= base + t * N <= f /\ le_opt (Z.abs t) T = true)%Z.
Proof.
  intros HN. unfold offset_iterator, assert_. destruct (Z.ltb_spec N 0); [lia|]. destruct (Z.eqb_spec N 0); [lia|].
  cbn [rbind fst snd]. set (minf := if nn then 0%Z else (- f)%Z).
  eexists. split; [reflexivity|]. split; [apply zrange_sorted|].
  intros t. rewrite in_zrange. destruct T as [T|]; cbn [fst snd le_opt].
  - rewrite Z.leb_le. assert (A := cdiv_le (minf - base) N t HN). assert (B := fdiv_le (f - base) N t HN). lia.
  - assert (A := cdiv_le (minf - base) N t HN). assert (B := fdiv_le (f - base) N t HN). split; [intros H1; split; [lia|auto]|lia].
Qed.

Lemma offsets_T base N T nn : (0 <= N)%Z ->
  exists l, offset_iterator base N (Some T) None nn = Ok l /\ StronglySorted Z.lt l /\
    forall t, In t l <-> (Z.abs t <= T /\ Z.abs t <= 10000)%Z.
Proof.
  intros HN. unfold offset_iterator, assert_. destruct (Z.ltb_spec N 0); [lia|].
  cbn [rbind fst snd]. eexists. split; [reflexivity|]. split; [apply zrange_sorted|].
  intros t. rewrite in_zrange. lia.
Qed.

Lemma rmap_all_ok {A B} (f : A -> result B) (g : A -> B) l : (forall a, In a l -> f a = Ok (g a)) -> rmap f l = Ok (map g l).
Proof.
  induction l as [|a l IH]; intros H; cbn; auto. rewrite (H a) by (left; auto). cbn.
  rewrite IH by (intros; apply H; right; auto). reflexivity.
Qed.

Lemma bounds_ok_cases F T : bounds_ok F T = true ->
  (exists f, F = Some f /\ (0 <= f)%Z /\ (T = None \/ exists t, T = Some t /\ (0 <= t)%Z)) \/
  (F = None /\ exists t, T = Some t /\ (0 <= t)%Z).
Proof.
  unfold bounds_ok. destruct F as [f|], T as [t|]; cbn; intros H; try discriminate;
  rewrite ?andb_true_iff, ?Z.leb_le in H.
  - left. exists f. intuition. right. exists t. auto.
  - left. exists f. intuition.
  - right. split; auto. exists t. split; auto; lia.
Qed.

(** the offsets t that the library accepts *)
Definition okt (T F : option Z) (nn : bool) (k N t : Z) : Prop :=
  match F with
  | Some f => ((if nn then 0 else - f) <= k + t * N <= f)%Z /\ le_opt (Z.abs t) T = true
  | None => match T with Some b => (Z.abs t <= b /\ Z.abs t <= 10000)%Z | None => False end
  end.

Lemma shifted_ok k N T F nn : (0 < N)%Z -> bounds_ok F T = true ->
  exists ts, offset_iterator k N T F nn = Ok ts /\ shifted k N T F nn = Ok (map (fun t => (t, k + t * N)%Z) ts) /\
    StronglySorted Z.lt ts /\ forall t, In t ts <-> okt T F nn k N t.
Proof.
  intros HN HB. destruct (bounds_ok_cases _ _ HB) as [[f [-> [Hf HT]]]|[-> [t0 [-> Ht]]]].
  - destruct (offsets_F k N T f nn HN) as [l [E [S I]]]. exists l. split; auto. split; [|split; auto].
    unfold shifted. rewrite E. cbn [rbind]. apply rmap_all_ok. intros t Ht. apply I in Ht. destruct Ht as [H1 H2].
    unfold assert_. rewrite H2. cbn [le_opt].
    replace (Z.abs (k + t * N) <=? f)%Z with true; auto. symmetry. apply Z.leb_le. destruct nn; lia.
  - destruct (offsets_T k N t0 nn) as [l [E [S I]]]; [lia|]. exists l. split; auto. split; [|split; auto].
    unfold shifted. rewrite E. cbn [rbind]. apply rmap_all_ok. intros t Ht'. apply I in Ht'.
    unfold assert_. cbn [le_opt]. replace (Z.abs t <=? t0)%Z with true; auto. symmetry. apply Z.leb_le. lia.
Qed.

(** elements produced from the accepted offsets *)
Lemma in_els_of gq s k N ts e : In e (els_of gq s (map (fun t => (t, k + t * N)%Z) ts)) <->
  exists t, In t ts /\ e = MkKel gq (k + t * N) s t.
Proof.
  unfold els_of. rewrite map_map, in_map_iff. split; intros [t [A B]]; exists t; cbn in *; auto.
Qed.
Lemma in_els_keep gq k N ts e : In e (els_keep gq (map (fun t => (t, k + t * N)%Z) ts)) <->
  exists t, In t ts /\ keep gq (k + t * N) = true /\ e = MkKel gq (k + t * N) 0 t.
Proof.
  unfold els_keep. rewrite in_map_iff. split.
  - intros [p [A B]]. apply filter_In in B. destruct B as [B C]. apply in_map_iff in B. destruct B as [t [<- D]].
    exists t. cbn in *. auto.
  - intros [t [A [B ->]]]. exists (t, (k + t * N)%Z). split; auto. apply filter_In. split; auto. apply in_map_iff. eauto.
Qed.

(** ** the matrix of a kernel as a function of the angle from the axis *)
Definition kmat (rows cols : nat) (e : kel) (x : R) : mat :=
  let arg := IZR (ke_mu e) * x + ke_gamma e in
  match rows, cols with
  | 2%nat, 2%nat => psichi x (ke_s e) (ke_mu e) (ke_gamma e)
  | 1%nat, 2%nat => fun _ j => match j with O => cos arg | _ => sin arg end
  | 2%nat, 1%nat => fun i _ => match i with O => cos arg | _ => sin arg end
  | _, _ => fun _ _ => cos arg
  end.
Definition ax (b : kbasis) : R := match kb_axis b with None => 0 | Some a => a end.

Lemma kb_sample_Some b e a : kb_sample_el b e (Some a) = kmat (kb_rows b) (kb_cols b) e (a - ax b).
Proof.
  unfold kb_sample_el, kmat, ax. destruct (kb_axis b); cbn [andb]; auto.
  rewrite Rminus_0_r. auto.
Qed.
Lemma kmat_mu0 rows cols e x y : ke_mu e = 0%Z -> kmat rows cols e x = kmat rows cols e y.
Proof. intros H. unfold kmat, psichi. rewrite H, !Rmult_0_l. auto. Qed.
Lemma kb_sample_None b e : ke_mu e = 0%Z -> kb_sample_el b e None = kmat (kb_rows b) (kb_cols b) e 0.
Proof.
  intros H. rewrite (kmat_mu0 _ _ _ 0 (0 - ax b) H), <- kb_sample_Some. unfold kb_sample_el. rewrite H. cbn [Z.eqb negb andb]. auto.
Qed.
Lemma kb_sample_None0 b e : ke_mu e <> 0%Z -> forall i j, kb_sample_el b e None i j = 0.
Proof.
  intros H i j. unfold kb_sample_el. destruct (Z.eqb_spec (ke_mu e) 0); [contradiction|]. cbn [andb negb]. ring.
Qed.
Lemma kmat_cong rows cols e x y : cong2pi x y -> kmat rows cols e x = kmat rows cols e y.
Proof.
  intros H. assert (C : cong2pi (IZR (ke_mu e) * x + ke_gamma e) (IZR (ke_mu e) * y + ke_gamma e)).
  { apply cong2pi_plus; [apply cong2pi_mulZ; auto|apply cong2pi_refl]. }
  unfold kmat, psichi. rewrite (cos_cong _ _ C), (sin_cong _ _ C). auto.
Qed.

(** ** the four shapes: x' = theta + sgn(j) x *)
Section Core.
Variables (th x : R) (j : Z) (e : kel).
Hypothesis Hj : (j = 0 \/ j = 1)%Z.
Let x' := th + IZR (sgn j) * x.

Lemma shift_arg (r : Z) : cong2pi (IZR (ke_mu e) * th) (IZR r * th) ->
  cong2pi (IZR (ke_mu e) * x' + ke_gamma e) (IZR r * th + (IZR (sgn j) * (IZR (ke_mu e) * x) + ke_gamma e)).
Proof.
  intros H. unfold x'.
  replace (IZR (ke_mu e) * (th + IZR (sgn j) * x) + ke_gamma e)
    with (IZR (ke_mu e) * th + (IZR (sgn j) * (IZR (ke_mu e) * x) + ke_gamma e)) by ring.
  apply cong2pi_plus; [auto|apply cong2pi_refl].
Qed.

Lemma core22 (m n : Z) : cong2pi (IZR (ke_mu e) * th) (IZR (m - sgn (ke_s e) * n) * th) ->
  (j = 0 \/ ke_gq e = 0)%Z ->
  meq 2 2 (kmat 2 2 e x') (mmul 2 (mmul 2 (pc j (IZR m * th)) (kmat 2 2 e x)) (mtr (pc j (IZR n * th)))).
Proof.
  intros HC HG. apply shift_arg in HC. unfold kmat. rewrite !psichi_pc.
  set (X := IZR (ke_mu e) * x + ke_gamma e). rewrite (pc_cong _ _ _ HC).
  destruct Hj as [-> | ->].
  - rewrite (pc_mul 0 (ke_s e) (ke_s e)) by (unfold sgn at 2; cbn [Z.eqb]; lia).
    rewrite pc_tr_0, (pc_mul (ke_s e) 0 (ke_s e)) by (unfold sgn at 3; cbn [Z.eqb]; lia).
    replace (IZR (m - sgn (ke_s e) * n) * th + (IZR (sgn 0) * (IZR (ke_mu e) * x) + ke_gamma e))
      with (IZR m * th + IZR (sgn 0) * X + IZR (sgn (ke_s e)) * - (IZR n * th)); [reflexivity|].
    unfold X. rewrite minus_IZR, mult_IZR. change (IZR (sgn 0)) with 1. ring.
  - assert (G0 : ke_gamma e = 0) by (unfold ke_gamma; destruct HG as [HG|HG]; [discriminate|rewrite HG; ring]).
    set (u := if Z.eqb (ke_s e) 0 then 1%Z else 0%Z).
    assert (Su : sgn u = (sgn 1 * sgn (ke_s e))%Z) by (unfold u, sgn; destruct (Z.eqb (ke_s e) 0); reflexivity).
    rewrite (pc_mul 1 (ke_s e) u) by auto.
    rewrite pc_tr_1, (pc_mul u 1 (ke_s e)) by (rewrite Su; unfold sgn; cbn [Z.eqb]; destruct (Z.eqb (ke_s e) 0); reflexivity).
    replace (IZR (m - sgn (ke_s e) * n) * th + (IZR (sgn 1) * (IZR (ke_mu e) * x) + ke_gamma e))
      with (IZR m * th + IZR (sgn 1) * X + IZR (sgn u) * (IZR n * th)); [reflexivity|].
    unfold X. rewrite Su, minus_IZR, !mult_IZR, G0. change (IZR (sgn 1)) with (-1). ring.
Qed.

(** sign of the one-dimensional irrep with flip frequency f *)
Definition fsign (f : Z) : R := if Z.eqb f 0 then 1 else flip_sign j.

(** cos/sin of W + gamma versus W + sgn(j) gamma *)
Lemma gamma_flip f W : (f = 0 \/ f = 1)%Z -> (j = 0 \/ ke_gq e = f)%Z ->
  cos (W + ke_gamma e) = fsign f * cos (W + IZR (sgn j) * ke_gamma e) /\
  sin (W + ke_gamma e) = fsign f * sin (W + IZR (sgn j) * ke_gamma e).
Proof.
  intros Hf HG. unfold fsign, flip_sign, ke_gamma. destruct Hj as [-> | ->].
  - change (IZR (sgn 0)) with 1. destruct (Z.eqb f 0); rewrite !Rmult_1_l; auto.
  - destruct HG as [HG|HG]; [discriminate|]. rewrite HG. change (IZR (sgn 1)) with (-1).
    destruct Hf as [-> | ->]; cbn [Z.eqb].
    + rewrite !Rmult_0_l, Rmult_0_r, !Rmult_1_l. auto.
    + rewrite !Rmult_1_l. rewrite !cos_plus, !sin_plus.
      replace (-1 * (PI / 2)) with (- (PI / 2)) by ring. rewrite cos_neg, sin_neg, cos_PI2, sin_PI2. lra.
Qed.

Lemma core12 (m n f : Z) : cong2pi (IZR (ke_mu e) * th) (IZR (n + m) * th) -> sin (IZR m * th) = 0 ->
  (f = 0 \/ f = 1)%Z -> (j = 0 \/ ke_gq e = f)%Z ->
  meq 1 2 (kmat 1 2 e x') (mmul 2 (mmul 1 (mat1 (cos (IZR m * th) * fsign f)) (kmat 1 2 e x)) (mtr (pc j (IZR n * th)))).
Proof.
  intros HC HS Hf HG. apply shift_arg in HC.
  set (Y := IZR (ke_mu e) * x + ke_gamma e). set (B := IZR n * th). set (A := IZR m * th) in *.
  destruct (gamma_flip f (B + IZR (sgn j) * (IZR (ke_mu e) * x)) Hf HG) as [G1 G2].
  assert (E : IZR (n + m) * th + (IZR (sgn j) * (IZR (ke_mu e) * x) + ke_gamma e)
              = A + (B + IZR (sgn j) * (IZR (ke_mu e) * x) + ke_gamma e))
    by (unfold A, B; rewrite plus_IZR; ring).
  assert (E2 : B + IZR (sgn j) * (IZR (ke_mu e) * x) + IZR (sgn j) * ke_gamma e = B + IZR (sgn j) * Y) by (unfold Y; ring).
  assert (Q := sgn_sq j).
  intros i k Hi Hk. unfold kmat. cbn [mmul rsum]. unfold mmul. cbn [rsum]. unfold mat1, mtr, pc, mat2.
  rewrite (cos_cong _ _ HC), (sin_cong _ _ HC), E, (cos_plus A), (sin_plus A), HS, G1, G2, E2.
  fold Y. destruct i as [|]; [|lia]. destruct Hj as [-> | ->]; [change (IZR (sgn 0)) with 1|change (IZR (sgn 1)) with (-1)];
  destruct k as [|[|]]; try lia; rewrite ?Rmult_1_l; try replace (B + -1 * Y) with (B - Y) by ring;
  rewrite ?cos_plus, ?sin_plus, ?cos_minus, ?sin_minus; ring.
Qed.

Lemma core21 (m n f : Z) : cong2pi (IZR (ke_mu e) * th) (IZR (n + m) * th) -> sin (IZR n * th) = 0 ->
  (f = 0 \/ f = 1)%Z -> (j = 0 \/ ke_gq e = f)%Z ->
  meq 2 1 (kmat 2 1 e x') (mmul 1 (mmul 2 (pc j (IZR m * th)) (kmat 2 1 e x)) (mtr (mat1 (cos (IZR n * th) * fsign f)))).
Proof.
  intros HC HS Hf HG. apply shift_arg in HC.
  set (Y := IZR (ke_mu e) * x + ke_gamma e). set (B := IZR n * th) in *. set (A := IZR m * th).
  destruct (gamma_flip f (A + IZR (sgn j) * (IZR (ke_mu e) * x)) Hf HG) as [G1 G2].
  assert (E : IZR (n + m) * th + (IZR (sgn j) * (IZR (ke_mu e) * x) + ke_gamma e)
              = B + (A + IZR (sgn j) * (IZR (ke_mu e) * x) + ke_gamma e))
    by (unfold A, B; rewrite plus_IZR; ring).
  assert (E2 : A + IZR (sgn j) * (IZR (ke_mu e) * x) + IZR (sgn j) * ke_gamma e = A + IZR (sgn j) * Y) by (unfold Y; ring).
  intros i k Hi Hk. unfold kmat. unfold mmul. cbn [rsum]. unfold mat1, mtr, pc, mat2.
  rewrite (cos_cong _ _ HC), (sin_cong _ _ HC), E, (cos_plus B), (sin_plus B), HS, G1, G2, E2.
  fold Y. destruct k as [|]; [|lia]. destruct Hj as [-> | ->]; [change (IZR (sgn 0)) with 1|change (IZR (sgn 1)) with (-1)];
  destruct i as [|[|]]; try lia; rewrite ?Rmult_1_l; try replace (A + -1 * Y) with (A - Y) by ring;
  rewrite ?cos_plus, ?sin_plus, ?cos_minus, ?sin_minus; ring.
Qed.

Lemma core11 (m n fi fo : Z) : cong2pi (IZR (ke_mu e) * th) (IZR (m - n) * th) ->
  sin (IZR n * th) = 0 -> sin (IZR m * th) = 0 ->
  (fi = 0 \/ fi = 1)%Z -> (fo = 0 \/ fo = 1)%Z -> (j = 0 \/ ke_gq e = (fi + fo) mod 2)%Z ->
  meq 1 1 (kmat 1 1 e x') (mmul 1 (mmul 1 (mat1 (cos (IZR m * th) * fsign fo)) (kmat 1 1 e x)) (mtr (mat1 (cos (IZR n * th) * fsign fi)))).
Proof.
  intros HC HS1 HS2 Hfi Hfo HG. apply shift_arg in HC.
  set (f := ((fi + fo) mod 2)%Z) in *.
  assert (Hf : (f = 0 \/ f = 1)%Z) by (unfold f; destruct Hfi as [-> | ->], Hfo as [-> | ->]; cbn; auto).
  assert (F : fsign fo * fsign fi = fsign f).
  { assert (Q := flip_sign_sq j). unfold f, fsign. destruct Hfi as [-> | ->], Hfo as [-> | ->]; cbn; lra. }
  destruct (gamma_flip f (IZR (sgn j) * (IZR (ke_mu e) * x)) Hf HG) as [G1 G2].
  intros i k Hi Hk. unfold kmat. unfold mmul. cbn [rsum]. unfold mat1, mtr.
  rewrite (cos_cong _ _ HC), minus_IZR, (cos_plus ((IZR m - IZR n) * th)), G1.
  replace ((IZR m - IZR n) * th) with (IZR m * th - IZR n * th) by ring.
  rewrite cos_minus, sin_minus, HS1, HS2.
  replace (IZR (sgn j) * (IZR (ke_mu e) * x) + IZR (sgn j) * ke_gamma e) with (IZR (sgn j) * (IZR (ke_mu e) * x + ke_gamma e)) by ring.
  set (Y := IZR (ke_mu e) * x + ke_gamma e).
  assert (C : cos (IZR (sgn j) * Y) = cos Y).
  { destruct Hj as [-> | ->]; [change (IZR (sgn 0)) with 1; rewrite Rmult_1_l; auto|].
    change (IZR (sgn 1)) with (-1). replace (-1 * Y) with (- Y) by ring. apply cos_neg. }
  rewrite C, <- F. ring.
Qed.
End Core.
