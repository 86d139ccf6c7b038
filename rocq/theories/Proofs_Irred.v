(** Irreducibility, inequivalence and completeness of the irreps (C59). *)
From Coq Require Import Reals ZArith String List Bool Lia Lra Setoid Morphisms Classical_Prop.
From Verif Require Import Base LinAlg Spec Spec_Irred Model_Groups Model_Rep Model_Regular Proofs_Groups Proofs_Cont Proofs_Irreps Proofs_Rep Proofs_Regular Proofs_Regular2.
Import ListNotations.
Open Scope R_scope.

(** ** Representations of size 1 and 2 *)
Definition rot (n : nat) (x : R) : mat := if (n =? 1)%nat then mat1 (cos x) else pc 0 x.

Ltac entries2 H := 
  let a := fresh in pose proof (H 0%nat 0%nat ltac:(lia) ltac:(lia)) as a; 
  try (let b := fresh in pose proof (H 0%nat 1%nat ltac:(lia) ltac:(lia)) as b);
  try (let b := fresh in pose proof (H 1%nat 0%nat ltac:(lia) ltac:(lia)) as b);
  try (let b := fresh in pose proof (H 1%nat 1%nat ltac:(lia) ltac:(lia)) as b).

Lemma plane D s a b : D * a = - (s * b) -> D * b = s * a -> (D * D + s * s) * a = 0 /\ (D * D + s * s) * b = 0.
Proof.
  intros H K. split.
  - replace ((D * D + s * s) * a) with (D * (D * a) + s * (s * a)) by ring. rewrite <- K, H. ring.
  - replace ((D * D + s * s) * b) with (D * (D * b) + s * (s * b)) by ring. rewrite K. replace (s * b) with (- (D * a)) by lra. ring.
Qed.
Lemma rsum_pick n j (f : nat -> R) : (j < n)%nat -> rsum n (fun k => if (k =? j)%nat then f k else 0) = f j.
Proof. intros H. rewrite (rsum_single n j) by (try exact H; intros i _ N; apply Nat.eqb_neq in N; rewrite N; reflexivity). rewrite Nat.eqb_refl. reflexivity. Qed.
Lemma no_map n m x y A : (n = 1 \/ n = 2)%nat -> (m = 1 \/ m = 2)%nat -> cos x <> cos y ->
  meq m n (mmul n A (rot n x)) (mmul m (rot m y) A) -> meq m n A mzero.
Proof.
  intros Hn Hm D H. pose proof (sc2 x) as SX. pose proof (sc2 y) as SY.
  assert (Z : forall d u, d <> 0 -> d * u = 0 -> u = 0) by (intros d u Hd Hu; apply Rmult_integral in Hu; tauto).
  destruct Hn as [-> | ->], Hm as [-> | ->]; entries2 H; unfold mmul, rot, pc, mat1, mat2, sgn in *; cbn in *;
    set (cx := cos x) in *; set (cy := cos y) in *; set (sx := sin x) in *; set (sy := sin y) in *; intros i j Hi Hj; unfold mzero.
  - replace i with 0%nat by lia. replace j with 0%nat by lia. apply (Z (cx - cy)); [lra|]. lra.
  - replace j with 0%nat by lia. set (a := A 0%nat 0%nat) in *. set (b := A 1%nat 0%nat) in *.
    assert (P : (cx - cy) * (cx - cy) + sy * sy <> 0). { pose proof (Rle_0_sqr sy) as Q. unfold Rsqr in Q. pose proof (Rlt_0_sqr (cx - cy) ltac:(lra)) as Q2. unfold Rsqr in Q2. lra. }
    destruct (plane (cx - cy) sy a b) as [Ea Eb]; [lra|lra|]. destruct i as [|[|]]; [exact (Z _ _ P Ea)|exact (Z _ _ P Eb)|lia].
  - replace i with 0%nat by lia. set (a := A 0%nat 0%nat) in *. set (b := A 0%nat 1%nat) in *.
    assert (P : (cx - cy) * (cx - cy) + sx * sx <> 0). { pose proof (Rle_0_sqr sx) as Q. unfold Rsqr in Q. pose proof (Rlt_0_sqr (cx - cy) ltac:(lra)) as Q2. unfold Rsqr in Q2. lra. }
    destruct (plane (cx - cy) sx a b) as [Ea Eb]; [lra|lra|]. destruct j as [|[|]]; [exact (Z _ _ P Ea)|exact (Z _ _ P Eb)|lia].
  - set (a := A 0%nat 0%nat) in *. set (b := A 0%nat 1%nat) in *. set (c := A 1%nat 0%nat) in *. set (d := A 1%nat 1%nat) in *.
    set (f00 := a * cx + b * sx). set (f01 := - a * sx + b * cx). set (f10 := c * cx + d * sx). set (f11 := - c * sx + d * cx).
    assert (E00 : f00 - (cy * a - sy * c) = 0) by (unfold f00; lra). assert (E01 : f01 - (cy * b - sy * d) = 0) by (unfold f01; lra).
    assert (E10 : f10 - (sy * a + cy * c) = 0) by (unfold f10; lra). assert (E11 : f11 - (sy * b + cy * d) = 0) by (unfold f11; lra).
    set (e00 := f00 - (cy * a - sy * c)) in *. set (e01 := f01 - (cy * b - sy * d)) in *. set (e10 := f10 - (sy * a + cy * c)) in *. set (e11 := f11 - (sy * b + cy * d)) in *.
    assert (P : 2 * (cx - cy) <> 0) by lra.
    assert (F00 : f00 = 0). { apply (Z _ _ P). replace (2 * (cx - cy) * f00) with (e00 * cx + e01 * sx + (cy * e00 - sy * e10) - 2 * cy * e00 - ((cy * cy + sy * sy) - (cx * cx + sx * sx)) * a) by (unfold e00, e01, e10, f00, f01, f10; ring). rewrite E00, E01, E10, SX, SY. ring. }
    assert (F01 : f01 = 0). { apply (Z _ _ P). replace (2 * (cx - cy) * f01) with (- e00 * sx + e01 * cx + (cy * e01 - sy * e11) - 2 * cy * e01 - ((cy * cy + sy * sy) - (cx * cx + sx * sx)) * b) by (unfold e00, e01, e11, f00, f01, f11; ring). rewrite E00, E01, E11, SX, SY. ring. }
    assert (F10 : f10 = 0). { apply (Z _ _ P). replace (2 * (cx - cy) * f10) with (e10 * cx + e11 * sx + (sy * e00 + cy * e10) - 2 * cy * e10 - ((cy * cy + sy * sy) - (cx * cx + sx * sx)) * c) by (unfold e00, e10, e11, f00, f10, f11; ring). rewrite E00, E10, E11, SX, SY. ring. }
    assert (F11 : f11 = 0). { apply (Z _ _ P). replace (2 * (cx - cy) * f11) with (- e10 * sx + e11 * cx + (sy * e01 + cy * e11) - 2 * cy * e11 - ((cy * cy + sy * sy) - (cx * cx + sx * sx)) * d) by (unfold e01, e10, e11, f01, f10, f11; ring). rewrite E01, E10, E11, SX, SY. ring. }
    assert (Ea : a = 0). { replace a with (f00 * cx - f01 * sx - (cx * cx + sx * sx - 1) * a) by (unfold f00, f01; ring). rewrite F00, F01, SX. ring. }
    assert (Eb : b = 0). { replace b with (f00 * sx + f01 * cx - (cx * cx + sx * sx - 1) * b) by (unfold f00, f01; ring). rewrite F00, F01, SX. ring. }
    assert (Ec : c = 0). { replace c with (f10 * cx - f11 * sx - (cx * cx + sx * sx - 1) * c) by (unfold f10, f11; ring). rewrite F10, F11, SX. ring. }
    assert (Ed : d = 0). { replace d with (f10 * sx + f11 * cx - (cx * cx + sx * sx - 1) * d) by (unfold f10, f11; ring). rewrite F10, F11, SX. ring. }
    destruct i as [|[|]]; [| |lia]; (destruct j as [|[|]]; [| |lia]); assumption.
Qed.

Section Small.
Context {G : Type} (el : G -> Prop) (rho : G -> mat).
Lemma irreducible1 : irreducible el 1 rho.
Proof.
  split; [lia|]. intros W (S0 & SL & SE) _. destruct (classic (exists v, W v /\ v 0%nat <> 0)) as [(v & Wv & Nv)|N].
  - right. intros u. apply (SE (fun i => u 0%nat / v 0%nat * v i + 0 * v i)); [|apply SL; assumption]. intros i Hi. replace i with 0%nat by lia. field. exact Nv.
  - left. intros v Wv i Hi. replace i with 0%nat by lia. destruct (Req_EM_T (v 0%nat) 0) as [E|E]; [exact E|]. exfalso. apply N. eauto.
Qed.
Lemma irreducible2 g x : el g -> meq 2 2 (rho g) (pc 0 x) -> sin x <> 0 -> irreducible el 2 rho.
Proof.
  intros Hg M SX. split; [lia|]. intros W (S0 & SL & SE) I. destruct (classic (exists v, W v /\ ~ veq 2 v (fun _ => 0))) as [(v & Wv & Nv)|N].
  - right. intros u. pose proof (I g v Hg Wv) as Wr. set (p := v 0%nat). set (q := v 1%nat).
    assert (P : p * p + q * q <> 0).
    { intros E. apply Nv. pose proof (Rle_0_sqr p) as Q1. pose proof (Rle_0_sqr q) as Q2. unfold Rsqr in *.
      assert (p * p = 0) by lra. assert (q * q = 0) by lra. intros i Hi. destruct i as [|[|]]; [|  |lia]; fold p q; [apply Rmult_integral in H; tauto|apply Rmult_integral in H0; tauto]. }
    assert (D : sin x * (p * p + q * q) <> 0) by (apply Rmult_integral_contrapositive_currified; assumption).
    set (c := cos x). set (s := sin x) in *. set (r0 := c * p - s * q). set (r1 := s * p + c * q).
    refine (SE _ u _ (SL ((u 0%nat * r1 - u 1%nat * r0) / (s * (p * p + q * q))) ((p * u 1%nat - q * u 0%nat) / (s * (p * p + q * q))) v _ Wv Wr)).
    assert (R0 : mvec 2 (rho g) v 0%nat = r0). { unfold mvec. cbn [rsum]. rewrite !M by lia. unfold pc, mat2, sgn, r0, c, s, p, q. cbn. ring. }
    assert (R1 : mvec 2 (rho g) v 1%nat = r1). { unfold mvec. cbn [rsum]. rewrite !M by lia. unfold pc, mat2, sgn, r1, c, s, p, q. cbn. ring. }
    intros i Hi. destruct i as [|[|]]; [| |lia]; rewrite ?R0, ?R1; fold p q; unfold r0, r1; field; split; try exact P; exact SX.
  - left. intros v Wv. destruct (classic (veq 2 v (fun _ => 0))) as [E|E]; [exact E|]. exfalso. apply N. eauto.
Qed.
Lemma commutant1 : commutant_dim el 1 rho 1.
Proof.
  exists (fun _ => mid). split; [|split].
  - intros k Hk g Hg i j Hi Hj. unfold mmul, mid. cbn. replace i with 0%nat by lia. replace j with 0%nat by lia. cbn. ring.
  - intros c H k Hk. replace k with 0%nat by lia. specialize (H 0%nat 0%nat ltac:(lia) ltac:(lia)). unfold mid, mzero in H. cbn in H. lra.
  - intros A _. exists (fun _ => A 0%nat 0%nat). intros i j Hi Hj. replace i with 0%nat by lia. replace j with 0%nat by lia. unfold mid. cbn. ring.
Qed.
(** rotations only: the matrices aI + bJ *)
Lemma commutant_complex g x : el g -> meq 2 2 (rho g) (pc 0 x) -> sin x <> 0 -> (forall h, el h -> exists y, meq 2 2 (rho h) (pc 0 y)) -> commutant_dim el 2 rho 2.
Proof.
  intros Hg M SX AL. exists (fun k => if (k =? 0)%nat then mid else mat2 0 (-1) 1 0). split; [|split].
  - intros k Hk h Hh. destruct (AL h Hh) as [y Y]. rewrite (mmul_compat 2 2 2 _ _ _ _ (reflexivity _) Y), (mmul_compat 2 2 2 _ _ _ _ Y (reflexivity _)). intros i j Hi Hj.
    destruct k as [|[|]]; [| |lia]; unfold mmul, mid, pc, mat2, sgn; (destruct i as [|[|]]; [| |lia]); (destruct j as [|[|]]; [| |lia]); cbn; ring.
  - intros c H k Hk. pose proof (H 0%nat 0%nat ltac:(lia) ltac:(lia)) as H0. pose proof (H 1%nat 0%nat ltac:(lia) ltac:(lia)) as H1. unfold mid, mat2, mzero in *. cbn in *. destruct k as [|[|]]; [lra|lra|lia].
  - intros A I. specialize (I g Hg). rewrite (mmul_compat 2 2 2 _ _ _ _ (reflexivity A) M), (mmul_compat 2 2 2 _ _ _ _ M (reflexivity A)) in I.
    exists (fun k => if (k =? 0)%nat then A 0%nat 0%nat else A 1%nat 0%nat).
    pose proof (I 0%nat 0%nat ltac:(lia) ltac:(lia)) as I0. pose proof (I 0%nat 1%nat ltac:(lia) ltac:(lia)) as I1. unfold mmul, pc, mat2, sgn in I0, I1. cbn in I0, I1.
    assert (E1 : A 0%nat 1%nat = - A 1%nat 0%nat) by (apply (Rmult_eq_reg_l (sin x)); [lra|exact SX]).
    assert (E2 : A 1%nat 1%nat = A 0%nat 0%nat) by (apply (Rmult_eq_reg_l (sin x)); [lra|exact SX]).
    intros i j Hi Hj. unfold mid, mat2. destruct i as [|[|]]; [| |lia]; (destruct j as [|[|]]; [| |lia]); cbn; lra.
Qed.
(** with a reflection: only the multiples of the identity *)
Lemma commutant_real g x h : el g -> meq 2 2 (rho g) (pc 0 x) -> sin x <> 0 -> el h -> meq 2 2 (rho h) (mat2 1 0 0 (-1)) -> commutant_dim el 2 rho 1.
Proof.
  intros Hg M SX Hh F. exists (fun _ => mid). split; [|split].
  - intros k Hk f Hf i j Hi Hj. unfold mmul, mid. destruct i as [|[|]]; [| |lia]; (destruct j as [|[|]]; [| |lia]); cbn; ring.
  - intros c H k Hk. pose proof (H 0%nat 0%nat ltac:(lia) ltac:(lia)) as H0. unfold mid, mzero in *. cbn in *. replace k with 0%nat by lia. lra.
  - intros A I. pose proof (I g Hg) as IG. rewrite (mmul_compat 2 2 2 _ _ _ _ (reflexivity A) M), (mmul_compat 2 2 2 _ _ _ _ M (reflexivity A)) in IG.
    pose proof (I h Hh) as IH. rewrite (mmul_compat 2 2 2 _ _ _ _ (reflexivity A) F), (mmul_compat 2 2 2 _ _ _ _ F (reflexivity A)) in IH.
    pose proof (IG 0%nat 1%nat ltac:(lia) ltac:(lia)) as I1. pose proof (IH 0%nat 1%nat ltac:(lia) ltac:(lia)) as J1. pose proof (IH 1%nat 0%nat ltac:(lia) ltac:(lia)) as J2. unfold mmul, pc, mat2, sgn in *. cbn in *.
    assert (E1 : A 0%nat 1%nat = 0) by lra. assert (E2 : A 1%nat 0%nat = 0) by lra.
    assert (E3 : A 1%nat 1%nat = A 0%nat 0%nat) by (apply (Rmult_eq_reg_l (sin x)); [rewrite E1 in I1; lra|exact SX]).
    exists (fun _ => A 0%nat 0%nat). intros i j Hi Hj. unfold mid. destruct i as [|[|]]; [| |lia]; (destruct j as [|[|]]; [| |lia]); cbn; lra.
Qed.
End Small.

(** ** Schur: a non-zero equivariant map between irreducible representations is an equivalence *)
Lemma finite_choice {A} (P : nat -> A -> Prop) (d : A) n : (forall j, (j < n)%nat -> exists a, P j a) -> exists f, forall j, (j < n)%nat -> P j (f j).
Proof.
  induction n as [|n IH]; intros H; [exists (fun _ => d); intros; lia|]. destruct IH as [f F]; [intros; apply H; lia|]. destruct (H n ltac:(lia)) as [a E].
  exists (fun j => if (j =? n)%nat then a else f j). intros j Hj. destruct (Nat.eqb_spec j n) as [->|]; [exact E|apply F; lia].
Qed.
Lemma mvec_lin n A a b u v i : mvec n A (fun k => a * u k + b * v k) i = a * mvec n A u i + b * mvec n A v i.
Proof. unfold mvec. rewrite <- !rsum_scal, <- rsum_plus. apply rsum_ext. intros; ring. Qed.
Lemma mvec_col n A B i j : mvec n A (fun k => B k j) i = mmul n A B i j.
Proof. reflexivity. Qed.
Lemma mvec_0 n A i : mvec n A (fun _ => 0) i = 0.
Proof. unfold mvec. apply rsum_0. intros; ring. Qed.
Lemma trace_rect n m A B : meq m m (mmul n A B) mid -> meq n n (mmul m B A) mid -> n = m.
Proof.
  intros H K. apply INR_eq. transitivity (rsum n (fun i => mmul m B A i i)).
  - rewrite (rsum_ext n _ (fun _ => 1)); [rewrite rsum_const; ring|]. intros i Hi. rewrite K by auto. unfold mid. rewrite Nat.eqb_refl. reflexivity.
  - unfold mmul. rewrite rsum_swap. rewrite (rsum_ext m _ (fun _ => 1)); [rewrite rsum_const; ring|]. intros i Hi.
    rewrite (rsum_ext n _ (fun k => A i k * B k i)) by (intros; ring). fold (mmul n A B i i). rewrite H by auto. unfold mid. rewrite Nat.eqb_refl. reflexivity.
Qed.
Lemma schur {G} (el : G -> Prop) n rho m sigma A : irreducible el n rho -> irreducible el m sigma -> intertwines el n rho m sigma A -> ~ meq m n A mzero -> equivalent el n rho m sigma.
Proof.
  intros [_ IR] [_ IS] IT NZ.
  assert (KER : forall v, veq m (mvec n A v) (fun _ => 0) -> veq n v (fun _ => 0)).
  { destruct (IR (fun v => veq m (mvec n A v) (fun _ => 0))) as [K|K].
    - split; [intros i _; apply mvec_0|]. split.
      + intros a b u v U V i Hi. rewrite mvec_lin, U, V by auto. ring.
      + intros u v E U i Hi. rewrite <- (U i Hi). unfold mvec. apply rsum_ext. intros k Hk. rewrite E by auto. reflexivity.
    - intros g v Hg V i Hi. rewrite <- mvec_mmul. rewrite (mvec_compat m n _ _ v v (IT g Hg) (reflexivity v) i Hi), mvec_mmul. unfold mvec at 1. apply rsum_0. intros k Hk. rewrite V by auto. ring.
    - exact K.
    - exfalso. apply NZ. intros i j Hi Hj. specialize (K (fun k => if (k =? j)%nat then 1 else 0) i Hi). cbn beta in K. unfold mvec in K.
      rewrite (rsum_ext n _ (fun k => if (k =? j)%nat then A i k else 0)) in K by (intros k _; destruct (k =? j)%nat; ring). rewrite rsum_pick in K by exact Hj. exact K. }
  assert (IM : forall w, exists v, veq m (mvec n A v) w).
  { destruct (IS (fun w => exists v, veq m (mvec n A v) w)) as [K|K].
    - split; [exists (fun _ => 0); intros i _; apply mvec_0|]. split.
      + intros a b u v [p P] [q Q]. exists (fun k => a * p k + b * q k). intros i Hi. rewrite mvec_lin, P, Q by auto. reflexivity.
      + intros u v E [p P]. exists p. intros i Hi. rewrite P, E by auto. reflexivity.
    - intros g w Hg [v V]. exists (mvec n (rho g) v). intros i Hi. rewrite <- mvec_mmul. rewrite (mvec_compat m n _ _ v v (IT g Hg) (reflexivity v) i Hi), mvec_mmul. unfold mvec at 1 3. apply rsum_ext. intros k Hk. rewrite V by auto. reflexivity.
    - exfalso. apply NZ. intros i j Hi Hj. specialize (K (fun i => A i j) ltac:(exists (fun k => if (k =? j)%nat then 1 else 0); intros k Hk; unfold mvec;
        rewrite (rsum_ext n _ (fun q => if (q =? j)%nat then A k q else 0)) by (intros q _; destruct (q =? j)%nat; ring); rewrite rsum_pick by exact Hj; reflexivity) i Hi). exact K.
    - exact K. }
  destruct (finite_choice (fun j v => veq m (mvec n A v) (fun i => mid i j)) (fun _ => 0) m ltac:(intros j _; apply IM)) as [f F].
  set (B := fun k j => f j k : R).
  assert (AB : meq m m (mmul n A B) mid). { intros i j Hi Hj. exact (F j Hj i Hi). }
  assert (BA : meq n n (mmul m B A) mid).
  { intros i j Hi Hj. pose proof (KER (fun k => 1 * mmul m B A k j + -1 * mid k j)) as Q. enough (E : veq m (mvec n A (fun k => 1 * mmul m B A k j + -1 * mid k j)) (fun _ => 0)) by (specialize (Q E i Hi); cbn beta in Q; lra).
    intros p Hp. rewrite mvec_lin. replace (mvec n A (fun k => mid k j) p) with (A p j).
    - rewrite (mvec_col n A (mmul m B A)). rewrite <- mmul_assoc. unfold mmul at 1. rewrite (rsum_ext m _ (fun k => if (k =? p)%nat then A k j else 0)); [rewrite rsum_pick by exact Hp; ring|].
      intros k Hk. rewrite AB by auto. unfold mid. rewrite (Nat.eqb_sym p k). destruct (k =? p)%nat; ring.
    - rewrite (mvec_col n A mid). symmetry. unfold mmul. rewrite (rsum_ext n _ (fun k => if (k =? j)%nat then A p k else 0)) by (intros k _; unfold mid; destruct (k =? j)%nat; ring). apply rsum_pick. exact Hj. }
  pose proof (trace_rect n m A B AB BA) as E. split; [exact E|]. subst m. exists A, B. split; [split; assumption|].
  intros g Hg. rewrite (mmul_compat n n n _ _ _ _ (IT g Hg) (reflexivity B)). intros i j Hi Hj. rewrite mmul_assoc. symmetry.
  unfold mmul at 1. rewrite (rsum_ext n _ (fun k => if (k =? j)%nat then sigma g i k else 0)); [apply rsum_pick; exact Hj|]. intros k Hk. rewrite AB by auto. unfold mid. destruct (k =? j)%nat; ring.
Qed.
