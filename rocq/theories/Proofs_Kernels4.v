(** Completeness of the bases of kernels between irreps (C26). *)
From Coq Require Import Reals ZArith String List Bool Lia Lra Setoid Morphisms Sorted.
From Verif Require Import Base Spec Model_Groups Model_Rep Model_GSpace Spec_GSpace Model_Kernels Spec_Kernels
  Proofs_Groups Proofs_Cont Proofs_Irreps Proofs_GSpace Proofs_Trig Proofs_Kernels Proofs_Kernels2 Proofs_Kernels3.
Import ListNotations.
Open Scope R_scope.

(** ** span of a list of elements *)
Definition lspan (r c : nat) (els : list kel) (K : R -> mat) : Prop :=
  exists w : nat -> R, forall x i j, (i < r)%nat -> (j < c)%nat ->
    K x i j = rsum (length els) (fun b => w b * kmat r c (el_at els b) x i j).

Lemma lspan_ext r c els K K' : (forall x i j, (i < r)%nat -> (j < c)%nat -> K x i j = K' x i j) -> lspan r c els K -> lspan r c els K'.
Proof. intros E [w H]. exists w. intros x i j Hi Hj. rewrite <- E by auto. auto. Qed.
Lemma lspan_zero r c els : lspan r c els (fun _ _ _ => 0).
Proof. exists (fun _ => 0). intros. symmetry. apply rsum_0. intros; ring. Qed.
Lemma lspan_add r c els K K' : lspan r c els K -> lspan r c els K' -> lspan r c els (fun x i j => K x i j + K' x i j).
Proof.
  intros [w H] [w' H']. exists (fun b => w b + w' b). intros x i j Hi Hj. rewrite H, H', <- rsum_plus by auto.
  apply rsum_ext. intros; ring.
Qed.
Lemma lspan_scal r c els u K : lspan r c els K -> lspan r c els (fun x i j => u * K x i j).
Proof.
  intros [w H]. exists (fun b => u * w b). intros x i j Hi Hj. rewrite H, <- rsum_scal by auto. apply rsum_ext. intros; ring.
Qed.
Lemma lspan_in r c els e : In e els -> lspan r c els (kmat r c e).
Proof.
  intros I. apply (In_nth _ _ kel0) in I. destruct I as [b [Hb E]].
  exists (fun i => if (i =? b)%nat then 1 else 0). intros x i j Hi Hj.
  rewrite (rsum_single _ b); auto.
  - rewrite Nat.eqb_refl. unfold el_at. rewrite E. ring.
  - intros i' Hi' Hne. destruct (Nat.eqb_spec i' b); [contradiction|ring].
Qed.
Lemma lspan_lsum {A} r c els (f : A -> R -> mat) l : (forall k, In k l -> lspan r c els (f k)) ->
  lspan r c els (fun x i j => lsum (map (fun k => f k x i j) l)).
Proof.
  induction l as [|k l IH]; intros H; cbn; [apply lspan_zero|].
  apply lspan_add; [apply H; left; auto|apply IH; intros; apply H; right; auto].
Qed.
Lemma lspan_zsum r c els F (f : Z -> R -> mat) : (forall k, (Z.abs k <= Z.of_nat F)%Z -> lspan r c els (f k)) ->
  lspan r c els (fun x i j => zsum F (fun k => f k x i j)).
Proof.
  intros H. apply (lspan_ext r c els (fun x i j => lsum (map (fun k => f k x i j) (zlist F)))).
  - intros. rewrite zsum_lsum. reflexivity.
  - apply lspan_lsum. intros k Hk. apply H, in_zlist, Hk.
Qed.

(** ** complex channels *)
Definition emb (r c : nat) (s : Z) (u v : R) : mat :=
  match r, c with
  | 2%nat, 2%nat => mat2 u (- IZR (sgn s) * v) v (IZR (sgn s) * u)
  | 1%nat, 2%nat => fun _ j => match j with O => u | _ => v end
  | 2%nat, 1%nat => fun i _ => match i with O => u | _ => v end
  | _, _ => fun _ _ => u
  end.
Lemma kmat_emb r c e x : shape_ok r c ->
  forall i j, kmat r c e x i j = emb r c (ke_s e) (cos (IZR (ke_mu e) * x + ke_gamma e)) (sin (IZR (ke_mu e) * x + ke_gamma e)) i j.
Proof.
  intros [[-> | ->] [-> | ->]] i j; unfold kmat, emb, psichi; auto.
Qed.
Lemma emb_lin r c s u v u' v' p i j : shape_ok r c ->
  emb r c s (u + p * u') (v + p * v') i j = emb r c s u v i j + p * emb r c s u' v' i j.
Proof.
  intros [[-> | ->] [-> | ->]]; unfold emb, mat2; destruct i as [|[|]], j as [|[|]]; ring.
Qed.
Lemma emb_add r c s u v u' v' i j : shape_ok r c ->
  emb r c s (u + u') (v + v') i j = emb r c s u v i j + emb r c s u' v' i j.
Proof.
  intros [[-> | ->] [-> | ->]]; unfold emb, mat2; destruct i as [|[|]], j as [|[|]]; ring.
Qed.
Lemma emb_scal r c s u v p i j : shape_ok r c -> emb r c s (p * u) (p * v) i j = p * emb r c s u v i j.
Proof.
  intros [[-> | ->] [-> | ->]]; unfold emb, mat2; destruct i as [|[|]], j as [|[|]]; ring.
Qed.
Lemma emb_zero r c s i j : shape_ok r c -> emb r c s 0 0 i j = 0.
Proof.
  intros [[-> | ->] [-> | ->]]; unfold emb, mat2; destruct i as [|[|]], j as [|[|]]; ring.
Qed.
Lemma emb_rsum r c s n (f g : nat -> R) i j : shape_ok r c ->
  emb r c s (rsum n f) (rsum n g) i j = rsum n (fun k => emb r c s (f k) (g k) i j).
Proof.
  intros Hs. induction n as [|n IH]; cbn [rsum]; [apply emb_zero; auto|]. rewrite emb_add, IH by auto. auto.
Qed.

Definition ch (r c : nat) (s : Z) (M : mat) : R * R :=
  match r, c with
  | 2%nat, 2%nat => ((M 0%nat 0%nat + IZR (sgn s) * M 1%nat 1%nat) / 2, (M 1%nat 0%nat - IZR (sgn s) * M 0%nat 1%nat) / 2)
  | 1%nat, 2%nat => (M 0%nat 0%nat, M 0%nat 1%nat)
  | 2%nat, 1%nat => (M 0%nat 0%nat, M 1%nat 0%nat)
  | _, _ => (M 0%nat 0%nat, 0)
  end.
Lemma ch_ext r c s M M' : shape_ok r c -> meq r c M M' -> ch r c s M = ch r c s M'.
Proof.
  intros [[-> | ->] [-> | ->]] H; unfold ch; rewrite ?(H 0%nat 0%nat), ?(H 0%nat 1%nat), ?(H 1%nat 0%nat), ?(H 1%nat 1%nat) by lia; auto.
Qed.
Lemma ch_emb r c M i j : shape_ok r c -> (i < r)%nat -> (j < c)%nat ->
  M i j = emb r c 0 (fst (ch r c 0 M)) (snd (ch r c 0 M)) i j +
          (if (r * c =? 4)%nat then emb r c 1 (fst (ch r c 1 M)) (snd (ch r c 1 M)) i j else 0).
Proof.
  intros [[-> | ->] [-> | ->]] Hi Hj; unfold emb, ch, mat2; cbn [Nat.mul Nat.add Nat.eqb fst snd];
  change (IZR (sgn 0)) with 1; change (IZR (sgn 1)) with (-1);
  destruct i as [|[|]], j as [|[|]]; try lia; field.
Qed.

Definition fr0 (r c : nat) (m n s : Z) : Z :=
  match r, c with
  | 2%nat, 2%nat => (m - sgn s * n)%Z
  | 1%nat, 1%nat => (m - n)%Z
  | _, _ => (n + m)%Z
  end.
Definition fq (r c : nat) (fo fi : Z) : Z :=
  match r, c with
  | 2%nat, 2%nat => 0%Z
  | 1%nat, 2%nat => fo
  | 2%nat, 1%nat => fi
  | _, _ => ((fi + fo) mod 2)%Z
  end.
(** sign of the flip on the channel *)
Definition eps (f : Z) : R := if Z.eqb f 0 then 1 else -1.

Section Complete.
Context {G : Type}.
Variables (el : G -> Prop) (inv : G -> G) (s : gspace) (code : G -> gelt) (th : G -> R) (fl : G -> Z) (axis : R) (P : Z).
Hypothesis HP : planar el s code th fl axis P.
Variables (m n fo fi : Z) (iout iin : irrep G).
Hypothesis Ho : std el inv th fl m fo iout.
Hypothesis Hi : std el inv th fl n fi iin.
Notation r := (ir_size iout).
Notation c := (ir_size iin).
Variable K : R -> mat.
Hypothesis HK : angular_constraint s code el inv r c (ir_mat iout) (ir_mat iin) K.
Let L (x : R) : mat := K (axis + x).
Let z (k : Z) (x : R) : R * R := ch r c k (L x).

Lemma shapes : shape_ok r c.
Proof. destruct Ho as [_ [_ A]], Hi as [_ [_ B]]. split; intuition. Qed.

Lemma L_act g x : el g -> meq r c (L (th g + IZR (sgn (fl g)) * x)) (mmul c (mmul r (ir_mat iout g) (L x)) (mtr (ir_mat iin g))).
Proof.
  intros Hg. unfold L.
  assert (A := moves_exact el s code th fl axis P HP g (axis + x) Hg).
  replace (axis + x - axis) with x in A by ring.
  etransitivity; [apply (HK g _ _ Hg A)|]. apply mmul_compat; [reflexivity|]. apply Hi; auto.
Qed.

Lemma z_rot g k x : el g -> fl g = 0%Z -> (k = 0 \/ k = 1)%Z ->
  z k (x + th g) = (cos (IZR (fr0 r c m n k) * th g) * fst (z k x) - sin (IZR (fr0 r c m n k) * th g) * snd (z k x),
                    sin (IZR (fr0 r c m n k) * th g) * fst (z k x) + cos (IZR (fr0 r c m n k) * th g) * snd (z k x)).
Proof.
  intros Hg Hf Hk. assert (A := L_act g x Hg). rewrite Hf in A. change (IZR (sgn 0)) with 1 in A.
  replace (th g + 1 * x) with (x + th g) in A by ring.
  unfold z. rewrite (ch_ext _ _ k _ _ shapes A). clear A.
  set (M := L x). set (t := th g).
  destruct Ho as [Hfo [_ [[So Mo]|[So Mo]]]], Hi as [Hfi [_ [[Si Mi]|[Si Mi]]]]; rewrite So, Si; unfold ch, fr0;
  specialize (Mo g Hg); specialize (Mi g Hg); fold t in Mo, Mi; rewrite Hf in Mo, Mi.
  - unfold mmul. cbn [rsum]. unfold mtr.
    rewrite !(Mo 0%nat 0%nat), !(Mo 0%nat 1%nat), !(Mo 1%nat 0%nat), !(Mo 1%nat 1%nat) by lia.
    rewrite !(Mi 0%nat 0%nat), !(Mi 0%nat 1%nat), !(Mi 1%nat 0%nat), !(Mi 1%nat 1%nat) by lia.
    unfold pc, mat2. change (IZR (sgn 0)) with 1. cbn [fst snd].
    destruct Hk as [-> | ->]; [change (sgn 0) with 1%Z|change (sgn 1) with (-1)%Z];
    rewrite minus_IZR, mult_IZR;
    [replace ((IZR m - 1 * IZR n) * t) with (IZR m * t - IZR n * t) by ring; rewrite cos_minus, sin_minus
    |replace ((IZR m - -1 * IZR n) * t) with (IZR m * t + IZR n * t) by ring; rewrite cos_plus, sin_plus];
    f_equal; field.
  - destruct Mi as [Ms Mi]. unfold mmul. cbn [rsum]. unfold mtr.
    rewrite !(Mo 0%nat 0%nat), !(Mo 0%nat 1%nat), !(Mo 1%nat 0%nat), !(Mo 1%nat 1%nat) by lia.
    rewrite !(Mi 0%nat 0%nat) by lia.
    unfold pc, mat2, mat1, fsign. change (IZR (sgn 0)) with 1. change (flip_sign 0) with 1. cbn [fst snd].
    rewrite plus_IZR. replace ((IZR n + IZR m) * t) with (IZR m * t + IZR n * t) by ring. rewrite cos_plus, sin_plus, Ms.
    destruct (Z.eqb fi 0); f_equal; ring.
  - destruct Mo as [Ms Mo]. unfold mmul. cbn [rsum]. unfold mtr.
    rewrite !(Mi 0%nat 0%nat), !(Mi 0%nat 1%nat), !(Mi 1%nat 0%nat), !(Mi 1%nat 1%nat) by lia.
    rewrite !(Mo 0%nat 0%nat) by lia.
    unfold pc, mat2, mat1, fsign. change (IZR (sgn 0)) with 1. change (flip_sign 0) with 1. cbn [fst snd].
    rewrite plus_IZR. replace ((IZR n + IZR m) * t) with (IZR m * t + IZR n * t) by ring. rewrite cos_plus, sin_plus, Ms.
    destruct (Z.eqb fo 0); f_equal; ring.
  - destruct Mo as [Ms Mo], Mi as [Ms' Mi]. unfold mmul. cbn [rsum]. unfold mtr.
    rewrite !(Mi 0%nat 0%nat), !(Mo 0%nat 0%nat) by lia.
    unfold mat1, fsign. change (flip_sign 0) with 1. cbn [fst snd].
    rewrite minus_IZR. replace ((IZR m - IZR n) * t) with (IZR m * t - IZR n * t) by ring. rewrite cos_minus, sin_minus, Ms, Ms'.
    destruct (Z.eqb fo 0), (Z.eqb fi 0); f_equal; ring.
Qed.

Lemma z_flip g k x : el g -> fl g = 1%Z -> th g = 0 -> (k = 0 \/ k = 1)%Z ->
  z k (- x) = (eps (fq r c fo fi) * fst (z k x), - eps (fq r c fo fi) * snd (z k x)).
Proof.
  intros Hg Hf Ht Hk. assert (A := L_act g x Hg). rewrite Hf, Ht in A. change (IZR (sgn 1)) with (-1) in A.
  replace (0 + -1 * x) with (- x) in A by ring.
  unfold z. rewrite (ch_ext _ _ k _ _ shapes A). clear A.
  set (M := L x).
  destruct Ho as [Hfo [_ [[So Mo]|[So Mo]]]], Hi as [Hfi [_ [[Si Mi]|[Si Mi]]]]; rewrite So, Si; unfold ch, fq;
  specialize (Mo g Hg); specialize (Mi g Hg); rewrite Hf, Ht, ?Rmult_0_r in Mo, Mi.
  - unfold mmul. cbn [rsum]. unfold mtr.
    rewrite !(Mo 0%nat 0%nat), !(Mo 0%nat 1%nat), !(Mo 1%nat 0%nat), !(Mo 1%nat 1%nat) by lia.
    rewrite !(Mi 0%nat 0%nat), !(Mi 0%nat 1%nat), !(Mi 1%nat 0%nat), !(Mi 1%nat 1%nat) by lia.
    unfold pc, mat2. rewrite cos_0, sin_0. change (IZR (sgn 1)) with (-1). unfold eps. cbn [fst snd Z.eqb].
    f_equal; field.
  - destruct Mi as [Ms Mi]. unfold mmul. cbn [rsum]. unfold mtr.
    rewrite !(Mo 0%nat 0%nat), !(Mo 0%nat 1%nat), !(Mo 1%nat 0%nat), !(Mo 1%nat 1%nat) by lia.
    rewrite !(Mi 0%nat 0%nat) by lia.
    unfold pc, mat2, mat1, fsign, eps. rewrite cos_0, sin_0. change (IZR (sgn 1)) with (-1). change (flip_sign 1) with (-1). cbn [fst snd].
    destruct (Z.eqb fi 0); f_equal; ring.
  - destruct Mo as [Ms Mo]. unfold mmul. cbn [rsum]. unfold mtr.
    rewrite !(Mi 0%nat 0%nat), !(Mi 0%nat 1%nat), !(Mi 1%nat 0%nat), !(Mi 1%nat 1%nat) by lia.
    rewrite !(Mo 0%nat 0%nat) by lia.
    unfold pc, mat2, mat1, fsign, eps. rewrite cos_0, sin_0. change (IZR (sgn 1)) with (-1). change (flip_sign 1) with (-1). cbn [fst snd].
    destruct (Z.eqb fo 0); f_equal; ring.
  - destruct Mo as [Ms Mo], Mi as [Ms' Mi]. unfold mmul. cbn [rsum]. unfold mtr.
    rewrite !(Mi 0%nat 0%nat), !(Mo 0%nat 0%nat) by lia.
    unfold mat1, fsign, eps. rewrite cos_0. change (flip_sign 1) with (-1). cbn [fst snd].
    destruct Hfo as [-> | ->], Hfi as [-> | ->]; cbn; f_equal; ring.
Qed.

(** the list of elements contains the element of channel k, frequency mu and phase q quarter turns *)
Definition has (els : list kel) (k mu q : Z) : Prop := exists t, In (MkKel q mu k t) els.

Lemma elem0 els k mu : has els k mu 0 -> lspan r c els (fun x => emb r c k (cos (IZR mu * x)) (sin (IZR mu * x))).
Proof.
  intros [t I]. apply (lspan_ext r c els (kmat r c (MkKel 0 mu k t))); [|apply lspan_in; auto].
  intros x i j _ _. rewrite (kmat_emb r c _ x shapes). unfold ke_gamma. cbn [ke_s ke_mu ke_gq].
  rewrite Rmult_0_l, Rplus_0_r. reflexivity.
Qed.
Lemma elem1 els k mu : has els k mu 1 -> lspan r c els (fun x => emb r c k (- sin (IZR mu * x)) (cos (IZR mu * x))).
Proof.
  intros [t I]. apply (lspan_ext r c els (kmat r c (MkKel 1 mu k t))); [|apply lspan_in; auto].
  intros x i j _ _. rewrite (kmat_emb r c _ x shapes). unfold ke_gamma. cbn [ke_s ke_mu ke_gq].
  rewrite Rmult_1_l, cos_plus, sin_plus, cos_PI2, sin_PI2. f_equal; ring.
Qed.
Lemma elem_pq els k mu p q : (p = 0 \/ has els k mu 0) -> (q = 0 \/ has els k mu 1) ->
  lspan r c els (fun x => emb r c k (p * cos (IZR mu * x) - q * sin (IZR mu * x)) (p * sin (IZR mu * x) + q * cos (IZR mu * x))).
Proof.
  intros Hp Hq.
  assert (A : lspan r c els (fun x i j => p * emb r c k (cos (IZR mu * x)) (sin (IZR mu * x)) i j)).
  { destruct Hp as [-> | Hp]; [|apply lspan_scal, elem0; auto].
    apply (lspan_ext r c els (fun _ _ _ => 0)); [intros; ring|apply lspan_zero]. }
  assert (B : lspan r c els (fun x i j => q * emb r c k (- sin (IZR mu * x)) (cos (IZR mu * x)) i j)).
  { destruct Hq as [-> | Hq]; [|apply lspan_scal, elem1; auto].
    apply (lspan_ext r c els (fun _ _ _ => 0)); [intros; ring|apply lspan_zero]. }
  apply (lspan_ext r c els (fun x i j => p * emb r c k (cos (IZR mu * x)) (sin (IZR mu * x)) i j + q * emb r c k (- sin (IZR mu * x)) (cos (IZR mu * x)) i j)); [|apply lspan_add; auto].
  intros x i j _ _. rewrite <- !emb_scal, <- emb_add by apply shapes. f_equal; ring.
Qed.

(** it is enough to treat the channels *)
Lemma by_channels els :
  (forall k, (k = 0 \/ k = 1 /\ r = 2%nat /\ c = 2%nat)%Z -> lspan r c els (fun x => emb r c k (fst (z k x)) (snd (z k x)))) ->
  lspan r c els L.
Proof.
  intros H. assert (Sh := shapes).
  apply (lspan_ext r c els (fun x i j => emb r c 0 (fst (z 0 x)) (snd (z 0 x)) i j + (if (r * c =? 4)%nat then emb r c 1 (fst (z 1 x)) (snd (z 1 x)) i j else 0))).
  - intros x i j Hi' Hj'. symmetry. unfold z. apply ch_emb; auto.
  - apply lspan_add; [apply H; auto|]. destruct (Nat.eqb_spec (r * c) 4) as [E|E].
    + apply H. right. destruct Sh as [[A|A] [B|B]]; rewrite A, B in E; try lia; auto.
    + apply lspan_zero.
Qed.

(** *** discrete groups *)
Variables (N : Z) (F : nat) (wf : bool) (els : list kel).
Hypothesis HN : (0 < N)%Z.
Hypothesis Hrot : N = 1%Z \/ exists g, el g /\ fl g = 0%Z /\ th g = 2 * PI / IZR N.
Hypothesis Hflip : wf = true -> exists g, el g /\ fl g = 1%Z /\ th g = 0.

Definition allowed (q : Z) : Prop := (q = 0 \/ q = 1)%Z /\ (wf = true -> q = fq r c fo fi).

Lemma fq01 : (fq r c fo fi = 0 \/ fq r c fo fi = 1)%Z.
Proof.
  destruct Ho as [A _], Hi as [B _]. assert (0 <= (fi + fo) mod 2 < 2)%Z by (apply Z.mod_pos_bound; lia).
  unfold fq. destruct r as [|[|[|]]], c as [|[|[|]]]; lia.
Qed.

Lemma coefs k p q : (k = 0 \/ k = 1)%Z ->
  (forall x, fst (z k x) = re_sum F p q x /\ snd (z k x) = im_sum F p q x) ->
  forall l, (Z.abs l <= Z.of_nat F)%Z ->
   ((exists t, l = fr0 r c m n k + t * N)%Z \/ (p l = 0 /\ q l = 0)) /\
   (wf = true -> (fq r c fo fi = 0%Z -> q l = 0) /\ (fq r c fo fi = 1%Z -> p l = 0)).
Proof.
  intros Hk HZ l Hl. assert (PN := IZR_pos N HN). split.
  - destruct Hrot as [-> | [g [Hg [Hf Ht]]]]; [left; exists (l - fr0 r c m n k)%Z; lia|].
    set (k0 := fr0 r c m n k) in *. set (t := 2 * PI / IZR N) in *.
    set (p' := fun j => p j * cos (IZR j * t) - q j * sin (IZR j * t) - (cos (IZR k0 * t) * p j - sin (IZR k0 * t) * q j)).
    set (q' := fun j => p j * sin (IZR j * t) + q j * cos (IZR j * t) - (cos (IZR k0 * t) * q j + sin (IZR k0 * t) * p j)).
    assert (Z0 : p' l = 0 /\ q' l = 0).
    { apply (exp_unique F); auto; intros x; assert (A := z_rot g k x Hg Hf Hk); rewrite Ht in A; fold k0 t in A;
      assert (A1 := f_equal fst A); assert (A2 := f_equal snd A); cbn [fst snd] in A1, A2; clear A;
      destruct (HZ x) as [B1 B2]; destruct (HZ (x + t)) as [C1 C2]; rewrite B1, B2 in A1, A2; rewrite C1 in A1; rewrite C2 in A2.
      - apply (Rplus_eq_reg_r (cos (IZR k0 * t) * re_sum F p q x - sin (IZR k0 * t) * im_sum F p q x)).
        rewrite Rplus_0_l. rewrite <- A1 at 2. unfold re_sum, im_sum, p', q'. rewrite <- !zsum_scal, <- zsum_minus, <- zsum_plus.
        apply zsum_ext. intros j _. rewrite (Rmult_plus_distr_l (IZR j)), cos_plus, sin_plus. ring.
      - apply (Rplus_eq_reg_r (sin (IZR k0 * t) * re_sum F p q x + cos (IZR k0 * t) * im_sum F p q x)).
        rewrite Rplus_0_l. rewrite <- A2 at 2. unfold re_sum, im_sum, p', q'. rewrite <- !zsum_scal, <- !zsum_plus.
        apply zsum_ext. intros j _. rewrite (Rmult_plus_distr_l (IZR j)), cos_plus, sin_plus. ring. }
    unfold p', q' in Z0. destruct Z0 as [E1 E2].
    set (dc := cos (IZR l * t) - cos (IZR k0 * t)). set (ds := sin (IZR l * t) - sin (IZR k0 * t)).
    assert (E1' : p l * dc - q l * ds = 0) by (unfold dc, ds; lra).
    assert (E2' : p l * ds + q l * dc = 0) by (unfold dc, ds; lra).
    destruct (Req_dec (dc * dc + ds * ds) 0) as [D|D].
    + left. assert (dc = 0 /\ ds = 0) as [D1 D2] by (split; nra).
      destruct (cos_sin_cong (IZR l * t) (IZR k0 * t)) as [j Hj]; [unfold dc in D1; lra|unfold ds in D2; lra|].
      exists j. apply eq_IZR. rewrite plus_IZR, mult_IZR.
      assert (T : t * IZR N = 2 * PI) by (unfold t; field; lra). assert (PP := PI_RGT_0).
      apply (Rmult_eq_reg_r t); [|unfold t; intros X; apply (f_equal (fun v => v * IZR N)) in X; fold t in X; rewrite T in X; lra].
      rewrite Hj. replace ((IZR k0 + IZR j * IZR N) * t) with (IZR k0 * t + IZR j * (t * IZR N)) by ring. rewrite T. ring.
    + right. assert (X1 : p l * (dc * dc + ds * ds) = 0) by (replace (p l * (dc * dc + ds * ds)) with ((p l * dc - q l * ds) * dc + (p l * ds + q l * dc) * ds) by ring; rewrite E1', E2'; ring).
      assert (X2 : q l * (dc * dc + ds * ds) = 0) by (replace (q l * (dc * dc + ds * ds)) with ((p l * ds + q l * dc) * dc - (p l * dc - q l * ds) * ds) by ring; rewrite E1', E2'; ring).
      apply Rmult_integral in X1, X2. intuition.
  - intros W. destruct (Hflip W) as [g [Hg [Hf Ht]]].
    set (e := eps (fq r c fo fi)).
    assert (Z0 : (1 - e) * p l = 0 /\ - (1 + e) * q l = 0).
    { apply (exp_unique F (fun l => (1 - e) * p l) (fun l => - (1 + e) * q l)); auto; intros x;
      assert (A := z_flip g k x Hg Hf Ht Hk); fold e in A;
      assert (A1 := f_equal fst A); assert (A2 := f_equal snd A); cbn [fst snd] in A1, A2; clear A;
      destruct (HZ x) as [B1 B2]; destruct (HZ (- x)) as [C1 C2]; rewrite B1, C1 in A1; rewrite B2, C2 in A2.
      - replace (re_sum F _ _ x) with (re_sum F p q (- x) - e * re_sum F p q x); [rewrite A1; ring|].
        unfold re_sum. rewrite <- zsum_scal, <- zsum_minus. apply zsum_ext. intros j _.
        rewrite Ropp_mult_distr_r_reverse, cos_neg, sin_neg. ring.
      - replace (im_sum F _ _ x) with (- (im_sum F p q (- x) + e * im_sum F p q x)); [rewrite A2; ring|].
        replace (- (im_sum F p q (- x) + e * im_sum F p q x)) with ((-1) * im_sum F p q (- x) - e * im_sum F p q x) by ring.
        unfold im_sum. rewrite <- !zsum_scal, <- zsum_minus. apply zsum_ext. intros j _.
        rewrite Ropp_mult_distr_r_reverse, cos_neg, sin_neg. ring. }
    destruct Z0 as [Z1 Z2]. split; intros Q; unfold e, eps in Z1, Z2; rewrite Q in Z1, Z2; cbn [Z.eqb] in Z1, Z2; lra.
Qed.

Lemma tp_ctp f : trig_poly F f -> ctp F f (fun _ => 0).
Proof.
  intros [a [b H]]. apply (ctp_ext F (fun x => rsum (F + 1) (fun k => a k * cos (INR k * x) + b k * sin (INR k * x))) (fun _ => 0)); auto.
  assert (A : forall M, (M <= F + 1)%nat -> ctp F (fun x => rsum M (fun k => a k * cos (INR k * x) + b k * sin (INR k * x))) (fun _ => 0)).
  { induction M as [|M IH]; intros HM; cbn [rsum]; [apply ctp_zero|].
    apply (ctp_ext F (fun x => rsum M (fun k => a k * cos (INR k * x) + b k * sin (INR k * x)) + (a M * cos (INR M * x) + b M * sin (INR M * x))) (fun _ => 0 + 0)); [auto|intros; ring|].
    apply ctp_add; [apply IH; lia|].
    apply (ctp_ext F (fun x => (a M * cos (IZR (Z.of_nat M) * x) - 0 * 0) + (b M * sin (IZR (Z.of_nat M) * x) - 0 * 0))
                     (fun x => (a M * 0 + 0 * cos (IZR (Z.of_nat M) * x)) + (b M * 0 + 0 * sin (IZR (Z.of_nat M) * x)))); [intros; rewrite <- INR_IZR_INZ; ring|intros; ring|].
    apply ctp_add; [apply (ctp_mul F (a M) 0), ctp_cos; lia|apply (ctp_mul F (b M) 0), ctp_sin; lia]. }
  apply A. lia.
Qed.
Lemma ctp_pair a b : ctp F a (fun _ => 0) -> ctp F b (fun _ => 0) -> ctp F a b.
Proof.
  intros Ha Hb. apply (ctp_ext F (fun x => a x + (0 * b x - 1 * 0)) (fun x => 0 + (0 * 0 + 1 * b x))); [intros; ring|intros; ring|].
  apply ctp_add; auto. apply (ctp_mul F 0 1); auto.
Qed.
Lemma ctp_lin u v a b : ctp F a (fun _ => 0) -> ctp F b (fun _ => 0) -> ctp F (fun x => u * a x + v * b x) (fun _ => 0).
Proof.
  intros Ha Hb. apply (ctp_ext F (fun x => (u * a x - 0 * 0) + (v * b x - 0 * 0)) (fun x => (u * 0 + 0 * a x) + (v * 0 + 0 * b x))); [intros; ring|intros; ring|].
  apply ctp_add; [apply (ctp_mul F u 0); auto|apply (ctp_mul F v 0); auto].
Qed.

Hypothesis HT : trig_poly_mat F r c K.

Lemma L_ctp i j : (i < r)%nat -> (j < c)%nat -> ctp F (fun x => L x i j) (fun _ => 0).
Proof.
  intros Hi' Hj'. apply (ctp_ext F (fun x => K (x + axis) i j) (fun _ => 0)); [intros; unfold L; rewrite Rplus_comm; auto|auto|].
  apply (ctp_shift F axis (fun x => K x i j) (fun _ => 0)). apply tp_ctp, HT; auto.
Qed.

Lemma z_ctp k : ctp F (fun x => fst (z k x)) (fun x => snd (z k x)).
Proof.
  assert (Sh := shapes). assert (LC := L_ctp). unfold z.
  destruct Sh as [[A|A] [B|B]]; rewrite A, B in *; unfold ch; cbn [fst snd].
  - apply LC; lia.
  - apply ctp_pair; apply LC; lia.
  - apply ctp_pair; apply LC; lia.
  - apply ctp_pair.
    + apply (ctp_ext F (fun x => 1 / 2 * L x 0%nat 0%nat + IZR (sgn k) / 2 * L x 1%nat 1%nat) (fun _ => 0)); [intros; field|auto|]. apply ctp_lin; apply LC; lia.
    + apply (ctp_ext F (fun x => 1 / 2 * L x 1%nat 0%nat + - IZR (sgn k) / 2 * L x 0%nat 1%nat) (fun _ => 0)); [intros; field|auto|]. apply ctp_lin; apply LC; lia.
Qed.

Hypothesis Hels : forall k l q, (k = 0 \/ k = 1 /\ r = 2%nat /\ c = 2%nat)%Z -> (Z.abs l <= Z.of_nat F)%Z ->
  (exists t, l = fr0 r c m n k + t * N)%Z -> allowed q ->
  ((r * c = 1)%nat -> 0 <= l /\ (q = 1 -> 0 < l))%Z -> has els k l q.
(** for 1x1 blocks the frequencies form a symmetric set *)
Hypothesis Hsym : (r * c = 1)%nat -> exists d, (2 * (m - n) = d * N)%Z.

Lemma complete_discrete : lspan r c els L.
Proof.
  assert (Sh := shapes).
  apply by_channels. intros k Hk. assert (Hk' : (k = 0 \/ k = 1)%Z) by lia.
  destruct (z_ctp k) as [p [q HZ]].
  assert (CO := coefs k p q Hk' HZ).
  apply (lspan_ext r c els (fun x i j => zsum F (fun l => emb r c k (p l * cos (IZR l * x) - q l * sin (IZR l * x)) (p l * sin (IZR l * x) + q l * cos (IZR l * x)) i j))).
  { intros x i j _ _. destruct (HZ x) as [-> ->]. unfold re_sum, im_sum, zsum. symmetry. apply emb_rsum; auto. }
  apply lspan_zsum. intros l Hl. destruct (CO l Hl) as [C1 C2].
  destruct C1 as [Hd|[-> ->]]; [|apply elem_pq; auto].
  assert (Ap : p l = 0 \/ allowed 0).
  { destruct (bool_dec wf true) as [W|W]; [|right; split; [auto|intros X; contradiction]]. destruct (C2 W) as [_ C3].
    destruct fq01 as [Q|Q]; [right; split; auto|left; auto]. }
  assert (Aq : q l = 0 \/ allowed 1).
  { destruct (bool_dec wf true) as [W|W]; [|right; split; [auto|intros X; contradiction]]. destruct (C2 W) as [C3 _].
    destruct fq01 as [Q|Q]; [left; auto|right; split; auto]. }
  destruct (Nat.eq_dec (r * c) 1) as [R1|R1].
  - (* real channel: fold negative frequencies *)
    assert (r = 1%nat /\ c = 1%nat) as [A B] by (destruct Sh as [[A|A] [B|B]]; rewrite A, B in R1; try lia; auto).
    assert (k = 0%Z) as -> by lia.
    assert (E : forall mu, (Z.abs mu <= Z.of_nat F)%Z -> (exists t, mu = fr0 r c m n 0 + t * N)%Z -> (0 <= mu)%Z ->
       forall p q, (p = 0 \/ allowed 0) -> (q = 0 \/ allowed 1) ->
       lspan r c els (fun x => emb r c 0 (p * cos (IZR mu * x) - q * sin (IZR mu * x)) 0)).
    { intros mu Hmu Dmu Pmu p0 q0 Hp Hq. destruct (Z.eq_dec mu 0) as [M0|M0].
      - apply (lspan_ext r c els (fun x => emb r c 0 (p0 * cos (IZR mu * x) - 0 * sin (IZR mu * x)) (p0 * sin (IZR mu * x) + 0 * cos (IZR mu * x)))).
        + intros x i j _ _. rewrite A, B. unfold emb. rewrite M0, Rmult_0_l, sin_0. ring.
        + apply elem_pq; auto. destruct Hp as [->|Hp]; auto. right. apply Hels; auto. intros; split; lia.
      - apply (lspan_ext r c els (fun x => emb r c 0 (p0 * cos (IZR mu * x) - q0 * sin (IZR mu * x)) (p0 * sin (IZR mu * x) + q0 * cos (IZR mu * x)))).
        + intros x i j _ _. rewrite A, B. reflexivity.
        + apply elem_pq.
          * destruct Hp as [->|Hp]; auto. right. apply Hels; auto. intros; split; lia.
          * destruct Hq as [->|Hq]; auto. right. apply Hels; auto. intros; split; lia. }
    destruct (Z_le_gt_dec 0 l) as [Pl|Pl].
    + apply (lspan_ext r c els (fun x => emb r c 0 (p l * cos (IZR l * x) - q l * sin (IZR l * x)) 0)).
      * intros x i j _ _. rewrite A, B. reflexivity.
      * apply E; auto.
    + apply (lspan_ext r c els (fun x => emb r c 0 (p l * cos (IZR (- l) * x) - (- q l) * sin (IZR (- l) * x)) 0)).
      * intros x i j _ _. rewrite A, B. unfold emb. rewrite opp_IZR, Ropp_mult_distr_l_reverse, cos_neg, sin_neg. ring.
      * apply E; [lia| |lia|auto|destruct Aq as [->|Aq]; [left; ring|auto]].
        destruct (Hsym R1) as [d Hd']. destruct Hd as [t Ht]. unfold fr0 in *. rewrite A, B in *. exists (- t - d)%Z. lia.
  - apply elem_pq; [destruct Ap as [->|Ap]|destruct Aq as [->|Aq]]; auto; right; apply Hels; auto; intros; lia.
Qed.
End Complete.

(** *** continuous groups: no assumption on the kernel *)
Section CompleteCont.
Context {G : Type}.
Variables (el : G -> Prop) (inv : G -> G) (s : gspace) (code : G -> gelt) (th : G -> R) (fl : G -> Z) (axis : R).
Hypothesis HP : planar el s code th fl axis 0.
Variables (m n fo fi : Z) (iout iin : irrep G).
Hypothesis Ho : std el inv th fl m fo iout.
Hypothesis Hi : std el inv th fl n fi iin.
Notation r := (ir_size iout).
Notation c := (ir_size iin).
Variable K : R -> mat.
Hypothesis HK : angular_constraint s code el inv r c (ir_mat iout) (ir_mat iin) K.
Variables (wf : bool) (els : list kel).
Hypothesis Hrot : forall x, exists g, el g /\ fl g = 0%Z /\ th g = x.
Hypothesis Hflip : wf = true -> exists g, el g /\ fl g = 1%Z /\ th g = 0.
Hypothesis Hels : forall k q, (k = 0 \/ k = 1 /\ r = 2%nat /\ c = 2%nat)%Z -> allowed fo fi iout iin wf q ->
  ((r * c = 1)%nat -> q = 0)%Z -> has els k (fr0 r c m n k) q.

Lemma complete_cont : lspan r c els (fun x => K (axis + x)).
Proof.
  apply (by_channels el inv th fl axis 0 m n fo fi iout iin Ho Hi K).
  intros k Hk. assert (Hk' : (k = 0 \/ k = 1)%Z) by lia.
  set (z := fun x => ch r c k (K (axis + x))).
  assert (Z0 : forall x, z x = (cos (IZR (fr0 r c m n k) * x) * fst (z 0) - sin (IZR (fr0 r c m n k) * x) * snd (z 0),
                    sin (IZR (fr0 r c m n k) * x) * fst (z 0) + cos (IZR (fr0 r c m n k) * x) * snd (z 0))).
  { intros x. destruct (Hrot x) as [g [Hg [Hf Ht]]].
    assert (A := z_rot el inv s code th fl axis 0 HP m n fo fi iout iin Ho Hi K HK g k 0 Hg Hf Hk').
    rewrite Ht, Rplus_0_l in A. exact A. }
  assert (W : wf = true -> (fq r c fo fi = 0%Z -> snd (z 0) = 0) /\ (fq r c fo fi = 1%Z -> fst (z 0) = 0)).
  { intros W. destruct (Hflip W) as [g [Hg [Hf Ht]]].
    assert (A := z_flip el inv s code th fl axis 0 HP m n fo fi iout iin Ho Hi K HK g k 0 Hg Hf Ht Hk').
    cbn beta in A. rewrite Ropp_0 in A. fold (z 0) in A. assert (A1 := f_equal fst A). assert (A2 := f_equal snd A). cbn [fst snd] in A1, A2.
    unfold eps in *. split; intros Q; rewrite Q in A1, A2; cbn [Z.eqb] in A1, A2; lra. }
  assert (S1 : (r * c = 1)%nat -> snd (z 0) = 0).
  { intros R1. unfold z, ch. destruct (shapes el inv th fl axis 0 m n fo fi iout iin Ho Hi K) as [[A|A] [B|B]]; rewrite A, B in R1 |- *; try lia; auto. }
  assert (Q01 := fq01 el inv s code th fl axis m n fo fi iout iin Ho Hi K HK).
  apply (lspan_ext r c els (fun x => emb r c k (fst (z 0) * cos (IZR (fr0 r c m n k) * x) - snd (z 0) * sin (IZR (fr0 r c m n k) * x))
                                              (fst (z 0) * sin (IZR (fr0 r c m n k) * x) + snd (z 0) * cos (IZR (fr0 r c m n k) * x)))).
  { intros x i j _ _. change (ch r c k (K (axis + x))) with (z x); rewrite (Z0 x). cbn [fst snd]. f_equal; ring. }
  apply (elem_pq el inv th fl axis 0 m n fo fi iout iin Ho Hi K).
  - destruct wf eqn:E.
    + destruct Q01 as [Q|Q]; [right; apply Hels; auto; split; auto|left; apply W; auto].
    + right. apply Hels; auto. split; [auto|discriminate].
  - destruct (Nat.eq_dec (r * c) 1) as [R1|R1]; [left; auto|]. destruct wf eqn:E.
    + destruct Q01 as [Q|Q]; [left; apply W; auto|right; apply Hels; auto; [split; auto|intros; lia]].
    + right. apply Hels; auto; [split; [auto|discriminate]|intros; lia].
Qed.
End CompleteCont.

(** ** the five classes *)
Definition complete_for (no ni : nat) (K : R -> mat) (res : result kbasis) : Prop :=
  match res with
  | Ok b => in_span (kb_dim b) no ni (fun idx a => kb_sample b idx (Some a)) K
  | Err _ => forall a, meq no ni (K a) mzero
  end.

Lemma class_complete oax r c els K :
  lspan r c els (fun x => K (match oax with None => 0 | Some a => a end + x)) -> complete_for r c K (kb_make oax r c els).
Proof.
  intros [w H]. set (a0 := match oax with None => 0 | Some a => a end) in *.
  assert (H' : forall a i j, (i < r)%nat -> (j < c)%nat -> K a i j = rsum (length els) (fun b => w b * kmat r c (el_at els b) (a - a0) i j)).
  { intros a i j Hi Hj. rewrite <- H by auto. f_equal. ring. }
  unfold kb_make. destruct els as [|e els0]; cbn [complete_for].
  - intros a i j Hi Hj. rewrite H' by auto. reflexivity.
  - exists w. intros a i j Hi Hj. rewrite H' by auto. apply rsum_ext. intros b _. unfold kb_sample. rewrite kb_sample_Some. reflexivity.
Qed.

Lemma C26_flip axis F n m iin iout K : cyc_irrep 2 n = Ok iin -> cyc_irrep 2 m = Ok iout ->
  angular_constraint (SpFlip (GC 2) axis) EI (cyc_el 2) (cyc_inverse 2) (ir_size iout) (ir_size iin) (ir_mat iout) (ir_mat iin) K ->
  trig_poly_mat F (ir_size iout) (ir_size iin) K ->
  complete_for (ir_size iout) (ir_size iin) K (flips_basis axis (Some (Z.of_nat F)) None iin iout).
Proof.
  intros Hi Ho HK HT. assert (HB : bounds_ok (Some (Z.of_nat F)) None = true) by (unfold bounds_ok; cbn [andb]; rewrite andb_true_r; apply Z.leb_le; lia).
  destruct (flips_inv axis _ None n m iin iout Hi Ho HB) as [ts [I [_ ->]]].
  destruct (cyc_irrep2 _ _ Hi) as [_ [_ Si]]. destruct (cyc_irrep2 _ _ Ho) as [_ [_ So]].
  assert (E : lspan (ir_size iout) (ir_size iin) (els_keep ((n + m) mod 2) (map (fun t => (t, 0 + t * 1)%Z) ts)) (fun x => K (axis + x))).
  { apply (complete_discrete (cyc_el 2) (cyc_inverse 2) _ _ _ _ axis 1 (planar_flip axis) 0 0 m n iout iin (std_flip m iout Ho) (std_flip n iin Hi) K HK 1 F true); auto; try lia.
    - intros _. exists 1%Z. split; [reflexivity|auto].
    - intros k l q Hk Hl _ [Hq Aq] Hp. rewrite So, Si in *. specialize (Aq eq_refl). cbn [fq] in Aq. specialize (Hp eq_refl).
      assert (k = 0%Z) as -> by lia. exists l. apply in_els_keep. exists l. rewrite <- Aq.
      replace (0 + l * 1)%Z with l by lia. split; [apply I; unfold okt; cbn [le_opt]; split; [lia|auto]|]. split; [unfold keep; lia|auto].
    - intros _. exists 0%Z. lia. }
  rewrite So, Si in *. apply class_complete; auto.
Qed.

Lemma rot_generator N (HN : (0 < N)%Z) : N = 1%Z \/ exists g, cyc_el N g /\ 0%Z = 0%Z /\ thN N g = 2 * PI / IZR N.
Proof.
  destruct (Z.eq_dec N 1); [auto|right]. exists 1%Z. split; [unfold cyc_el, cyc_is_element; lia|]. split; auto.
  unfold thN. ring.
Qed.
Lemma half_sym N k (HN : (0 < N)%Z) : half_or_zero k N = true -> exists d, (2 * k = d * N)%Z.
Proof.
  unfold half_or_zero. intros H. apply orb_true_iff in H. destruct H as [H|H].
  - exists 0%Z. lia.
  - apply andb_true_iff in H. destruct H as [H1 H2]. exists 1%Z. assert (A := Z.div_mod N 2 ltac:(lia)). lia.
Qed.

Lemma C26_rotN N F n m iin iout K : (0 < N)%Z -> cyc_irrep N n = Ok iin -> cyc_irrep N m = Ok iout ->
  angular_constraint (SpRot (GC N)) EI (cyc_el N) (cyc_inverse N) (ir_size iout) (ir_size iin) (ir_mat iout) (ir_mat iin) K ->
  trig_poly_mat F (ir_size iout) (ir_size iin) K ->
  complete_for (ir_size iout) (ir_size iin) K (rotN_basis N (Some (Z.of_nat F)) None iin iout).
Proof.
  intros HN Hi Ho HK HT. assert (HB : bounds_ok (Some (Z.of_nat F)) None = true) by (unfold bounds_ok; cbn [andb]; rewrite andb_true_r; apply Z.leb_le; lia).
  destruct (rotN_inv N _ None n m iin iout HN Hi Ho HB) as [els [-> C]].
  apply class_complete.
  apply (complete_discrete (cyc_el N) (cyc_inverse N) _ _ _ _ 0 N (planar_rotN N HN) m n 0 0 iout iin (std_rotN N m iout HN Ho) (std_rotN N n iin HN Hi) K HK N F false); auto.
  - apply rot_generator; auto.
  - discriminate.
  - intros k l q Hk Hl [t Ht] [Hq _] Hp.
    destruct C as [[Si [So [t0 [t1 [_ [_ [I0 [I1 ->]]]]]]]]|[[SS [t0 [_ [I0 ->]]]]|[Si [So [t0 [_ [I0 ->]]]]]]].
    + rewrite So, Si in *. cbn [fr0] in Ht. exists t. destruct Hk as [-> | [-> _]]; unfold sgn in Ht; cbn [Z.eqb] in Ht;
      destruct Hq as [-> | ->]; unfold sh; rewrite !in_app_iff, !in_els_of.
      * left. exists t. split; [apply I0; cbn; split; [lia|auto]|f_equal; lia].
      * right; right; left. exists t. split; [apply I0; cbn; split; [lia|auto]|f_equal; lia].
      * right; left. exists t. split; [apply I1; cbn; split; [lia|auto]|f_equal; lia].
      * right; right; right. exists t. split; [apply I1; cbn; split; [lia|auto]|f_equal; lia].
    + assert (E : fr0 (ir_size iout) (ir_size iin) m n k = (n + m)%Z) by (destruct SS as [[-> ->]|[-> ->]]; reflexivity).
      rewrite E in Ht. assert (k = 0%Z) as -> by (destruct SS as [[Si So]|[Si So]]; rewrite Si, So in Hk; lia).
      exists t. unfold sh; rewrite in_app_iff, !in_els_of. destruct Hq as [-> | ->]; [left|right]; exists t; (split; [apply I0; cbn; split; [lia|auto]|f_equal; lia]).
    + rewrite So, Si in *. cbn [fr0] in Ht. specialize (Hp eq_refl). assert (k = 0%Z) as -> by lia.
      exists t. unfold sh; rewrite in_app_iff, !in_els_keep. destruct Hq as [-> | ->]; [left|right]; exists t; (split; [apply I0; cbn; split; [lia|auto]|]);
      (split; [unfold keep; lia|f_equal; lia]).
  - intros R1. assert (So : ir_size iout = 1%nat /\ ir_size iin = 1%nat).
    { destruct C as [[Si [So _]]|[[[[Si So]|[Si So]] _]|[Si [So _]]]]; rewrite Si, So in R1; try lia; auto. }
    destruct So as [So Si]. destruct (half_sym N m HN (half_or_zero_ok N m iout HN Ho So)) as [d1 D1].
    destruct (half_sym N n HN (half_or_zero_ok N n iin HN Hi Si)) as [d2 D2]. exists (d1 - d2)%Z. lia.
Qed.

Lemma C26_fliprotN N axis F ji n jo m iin iout K : (0 < N)%Z -> dih_irrep N ji n = Ok iin -> dih_irrep N jo m = Ok iout ->
  angular_constraint (SpFlipRot (GD N) axis) codeD (dih_el N) (dih_inverse N) (ir_size iout) (ir_size iin) (ir_mat iout) (ir_mat iin) K ->
  trig_poly_mat F (ir_size iout) (ir_size iin) K ->
  complete_for (ir_size iout) (ir_size iin) K (fliprotN_basis N axis (Some (Z.of_nat F)) None iin iout).
Proof.
  intros HN Hi Ho HK HT. assert (HB : bounds_ok (Some (Z.of_nat F)) None = true) by (unfold bounds_ok; cbn [andb]; rewrite andb_true_r; apply Z.leb_le; lia).
  destruct (fliprotN_inv N axis _ None ji n jo m iin iout HN Hi Ho HB) as [els [-> C]].
  apply class_complete.
  apply (complete_discrete (dih_el N) (dih_inverse N) _ _ _ _ axis N (planar_fliprotN N axis HN) m n jo ji iout iin (std_fliprotN N jo m iout HN Ho) (std_fliprotN N ji n iin HN Hi) K HK N F true); auto.
  - destruct (rot_generator N HN) as [E|[g [Hg [_ Ht]]]]; [auto|right]. exists (0%Z, g). split; [|split; [reflexivity|exact Ht]].
    unfold dih_el, dih_is_element; cbn [fst snd]. unfold cyc_el, cyc_is_element in Hg. lia.
  - intros _. exists (1%Z, 0%Z). split; [unfold dih_el, dih_is_element; cbn [fst snd]; lia|]. split; [reflexivity|]. unfold thN. cbn [snd]. ring.
  - intros k l q Hk Hl [t Ht] [Hq Aq] Hp. specialize (Aq eq_refl).
    destruct C as [[Si [So [t0 [t1 [_ [_ [I0 [I1 ->]]]]]]]]|[[SS [t0 [_ [I0 ->]]]]|[Si [So [t0 [_ [I0 ->]]]]]]].
    + rewrite So, Si in *. cbn [fr0 fq] in Ht, Aq. exists t. rewrite Aq. destruct Hk as [-> | [-> _]]; unfold sgn in Ht; cbn [Z.eqb] in Ht;
      unfold sh; rewrite !in_app_iff, !in_els_of.
      * left. exists t. split; [apply I0; cbn; split; [lia|auto]|f_equal; lia].
      * right. exists t. split; [apply I1; cbn; split; [lia|auto]|f_equal; lia].
    + assert (E : fr0 (ir_size iout) (ir_size iin) m n k = (n + m)%Z) by (destruct SS as [[-> ->]|[-> ->]]; reflexivity).
      rewrite E in Ht. assert (k = 0%Z) as -> by (destruct SS as [[Si So]|[Si So]]; rewrite Si, So in Hk; lia).
      assert (Q : (if (ir_size iin =? 2)%nat then jo else ji) = q) by (destruct SS as [[Si So]|[Si So]]; rewrite Si, So in Aq; rewrite Si; cbn [fq Nat.eqb] in *; auto).
      exists t. unfold sh; rewrite in_els_of, Q. exists t; (split; [apply I0; cbn; split; [lia|auto]|f_equal; lia]).
    + rewrite So, Si in *. cbn [fr0 fq] in Ht, Aq. specialize (Hp eq_refl). assert (k = 0%Z) as -> by lia.
      exists t. unfold sh; rewrite in_els_keep, <- Aq. exists t. split; [apply I0; cbn; split; [lia|auto]|].
      split; [unfold keep; lia|f_equal; lia].
  - intros R1. assert (So : ir_size iout = 1%nat /\ ir_size iin = 1%nat).
    { destruct C as [[Si [So _]]|[[[[Si So]|[Si So]] _]|[Si [So _]]]]; rewrite Si, So in R1; try lia; auto. }
    destruct So as [So Si]. destruct (half_sym N m HN (half_or_zero_okD N jo m iout HN Ho So)) as [d1 D1].
    destruct (half_sym N n HN (half_or_zero_okD N ji n iin HN Hi Si)) as [d2 D2]. exists (d1 - d2)%Z. lia.
Qed.

Lemma C26_rot B n m iin iout K : so2_irrep n = Ok iin -> so2_irrep m = Ok iout ->
  angular_constraint (SpRot (GSO2 B)) ER so2_el so2_inverse (ir_size iout) (ir_size iin) (ir_mat iout) (ir_mat iin) K ->
  complete_for (ir_size iout) (ir_size iin) K (rot_basis iin iout).
Proof.
  intros Hi Ho HK. destruct (rot_inv n m iin iout Hi Ho) as [els [-> C]].
  apply class_complete.
  apply (complete_cont so2_el so2_inverse _ _ _ _ 0 (planar_rot B) m n 0 0 iout iin (std_rot m iout Ho) (std_rot n iin Hi) K HK false).
  - intros x. exists x. split; [exact I|auto].
  - discriminate.
  - intros k q Hk [Hq _] Hp. exists 0%Z. destruct C as [[Si [So ->]]|[[SS ->]|[Si [So [-> [-> ->]]]]]].
    + rewrite Si, So in *. cbn [fr0]. destruct Hk as [-> | [-> _]]; unfold sgn; cbn [Z.eqb];
      [replace (m - 1 * n)%Z with (m - n)%Z by lia|replace (m - -1 * n)%Z with (m + n)%Z by lia]; destruct Hq as [-> | ->]; cbn; auto.
    + assert (E : fr0 (ir_size iout) (ir_size iin) m n k = (n + m)%Z) by (destruct SS as [[-> ->]|[-> ->]]; reflexivity).
      rewrite E. assert (k = 0%Z) as -> by (destruct SS as [[Si So]|[Si So]]; rewrite Si, So in Hk; lia).
      destruct Hq as [-> | ->]; cbn; auto.
    + rewrite Si, So in *. rewrite (Hp eq_refl). assert (k = 0%Z) as -> by lia. cbn. auto.
Qed.

Lemma C26_fliprot B axis ji n jo m iin iout K : o2_irrep ji n = Ok iin -> o2_irrep jo m = Ok iout ->
  angular_constraint (SpFlipRot (GO2 B) axis) codeO o2_el o2_inverse (ir_size iout) (ir_size iin) (ir_mat iout) (ir_mat iin) K ->
  complete_for (ir_size iout) (ir_size iin) K (fliprot_basis axis iin iout).
Proof.
  intros Hi Ho HK. destruct (fliprot_inv axis ji n jo m iin iout Hi Ho) as [els [-> C]].
  apply class_complete.
  apply (complete_cont o2_el o2_inverse _ _ _ _ axis (planar_fliprot B axis) m n jo ji iout iin (std_fliprot jo m iout Ho) (std_fliprot ji n iin Hi) K HK true).
  - intros x. exists (0%Z, x). split; [reflexivity|auto].
  - intros _. exists (1%Z, 0). split; [reflexivity|auto].
  - intros k q Hk [Hq Aq] Hp. specialize (Aq eq_refl). destruct C as [[Si [So ->]]|[[SS ->]|[Si [So [-> [-> ->]]]]]].
    + exists 0%Z. rewrite Si, So in *. cbn [fr0 fq] in *. rewrite Aq. destruct Hk as [-> | [-> _]]; unfold sgn; cbn [Z.eqb];
      [replace (m - 1 * n)%Z with (m - n)%Z by lia|replace (m - -1 * n)%Z with (m + n)%Z by lia]; cbn; auto.
    + exists 0%Z. assert (E : fr0 (ir_size iout) (ir_size iin) m n k = (n + m)%Z) by (destruct SS as [[-> ->]|[-> ->]]; reflexivity).
      rewrite E. assert (k = 0%Z) as -> by (destruct SS as [[Si So]|[Si So]]; rewrite Si, So in Hk; lia).
      left. f_equal. destruct SS as [[Si So]|[Si So]]; rewrite Si, So in Aq; rewrite Si; cbn [fq Nat.eqb] in *; auto.
    + exists 0%Z. rewrite Si, So in *. assert (k = 0%Z) as -> by lia. specialize (Hp eq_refl). cbn [fq] in Aq. rewrite <- Aq, Hp. cbn. auto.
Qed.
