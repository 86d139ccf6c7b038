(** For C67: every representation of a finite group whose irreps are irreducible and complete is a direct sum of irreps up to a change of basis. *)
From Coq Require Import Reals ZArith String List Bool Lia Lra Permutation RelationClasses.
From Verif Require Import Base LinAlg Spec Spec_Irred Model_Groups Model_Rep Model_Regular Proofs_Groups Proofs_Rep Proofs_Regular Proofs_Regular2 Proofs_Kernels2 Proofs_Decompose Proofs_Decompose2.
Import ListNotations.
Open Scope R_scope.

Lemma rsum_lsum_exch {A} n (l : list A) f : rsum n (fun k => lsum (map (fun a => f k a) l)) = lsum (map (fun a => rsum n (fun k => f k a)) l).
Proof.
  induction l as [|a l IH]; [apply rsum_0; reflexivity|]. cbn [map].
  transitivity (rsum n (fun k => f k a + lsum (map (fun a => f k a) l))); [apply rsum_ext; reflexivity|]. rewrite rsum_plus, IH. reflexivity.
Qed.
Lemma nodup_map_on {A B} (f : A -> B) l : (forall a b, In a l -> In b l -> f a = f b -> a = b) -> NoDup l -> NoDup (map f l).
Proof.
  induction l as [|a l IH]; intros I N; [constructor|]. inversion N as [|? ? N1 N2]; subst. cbn. constructor; [|apply IH; [intros; apply I; cbn; auto|exact N2]].
  rewrite in_map_iff. intros (b & E & Hb). apply N1. rewrite <- (I b a); cbn; auto.
Qed.

(** * columns side by side *)
Fixpoint hcat (l : list (nat * mat)) : mat := fun i j =>
  match l with
  | [] => 0
  | (d, A) :: l' => if (j <? d)%nat then A i j else hcat l' i (j - d)%nat
  end.
Lemma hcat_mvec d A l m x i : mvec (d + m) (hcat ((d, A) :: l)) x i = mvec d A x i + mvec m (hcat l) (fun j => x (d + j)%nat) i.
Proof.
  unfold mvec. rewrite rsum_split. f_equal; apply rsum_ext; intros k Hk; cbn [hcat].
  - destruct (Nat.ltb_spec k d); [reflexivity|lia].
  - destruct (Nat.ltb_spec (d + k) d); [lia|]. replace (d + k - d)%nat with k by lia. reflexivity.
Qed.

Section Reduce.
Context {G : Type} (grp : fgroup G).
Notation els := (fg_elements grp).
Notation el := (fun e => In e els).
Notation op := (fg_combine grp).
Notation inv := (fg_inverse grp).
Notation e0 := (fg_id grp).
Hypothesis OK : fgroup_ok grp.
Hypothesis COMP : forall g, In g els -> lsum (map (fun ir => INR (ir_size ir) * rsum (md ir) (fun a => ir_mat ir g a a)) (fg_irreps grp)) = if fg_eqb grp g e0 then INR (order grp) else 0.
Hypothesis MDLE : forall ir, In ir (fg_irreps grp) -> (md ir <= ir_size ir)%nat.
Hypothesis IRR : forall ir, In ir (fg_irreps grp) -> irreducible el (ir_size ir) (ir_mat ir).
Hypothesis POS : (0 < order grp)%nat.
Variables (n : nat) (rho : G -> mat).
Hypothesis REP : is_representation el op e0 n rho.

Lemma translate_sum (F : G -> R) h : el h -> lsum (map F els) = lsum (map (fun g => F (op h g)) els).
Proof.
  intros Hh. pose proof (fo_laws _ OK) as L. rewrite <- (map_map (op h) F). apply lsum_perm, Permutation_map, Permutation_sym, NoDup_Permutation.
  - apply nodup_map_on; [|apply (fo_nodup _ OK)]. intros a b Ha Hb E.
    rewrite <- (gl_id_l _ _ _ _ _ L a Ha), <- (gl_id_l _ _ _ _ _ L b Hb), <- (gl_inv_l _ _ _ _ _ L h Hh).
    rewrite !(gl_assoc _ _ _ _ _ L) by (auto; apply (gl_inv_el _ _ _ _ _ L); auto). rewrite E. reflexivity.
  - apply (fo_nodup _ OK).
  - intros g. rewrite in_map_iff. split.
    + intros (a & <- & Ha). apply (gl_op_el _ _ _ _ _ L); auto.
    + intros Hg. exists (op (inv h) g). assert (Hi : el (inv h)) by (apply (gl_inv_el _ _ _ _ _ L); auto). split; [|apply (gl_op_el _ _ _ _ _ L); auto].
      rewrite <- (gl_assoc _ _ _ _ _ L) by auto. rewrite (gl_inv_r _ _ _ _ _ L) by auto. apply (gl_id_l _ _ _ _ _ L); auto.
Qed.

(** the equivariant map from an irrep given by a vector and a column *)
Definition orbit (ir : irrep G) (b : nat) (v : vec) : mat := fun i a => lsum (map (fun g => ir_mat ir g a b * mvec n (rho g) v i) els).
Lemma orbit_intertwines ir b v : In ir (fg_irreps grp) -> (b < ir_size ir)%nat -> intertwines el (ir_size ir) (ir_mat ir) n rho (orbit ir b v).
Proof.
  intros Hir Hb h Hh i a Hi Ha. pose proof (fo_laws _ OK) as L. destruct (fo_irreps _ OK ir Hir) as [R1 O1]. set (d := ir_size ir) in *.
  assert (Hinv : el (inv h)) by (apply (gl_inv_el _ _ _ _ _ L); auto).
  transitivity (lsum (map (fun g => ir_mat ir (op (inv h) g) a b * mvec n (rho g) v i) els)).
  - unfold mmul, orbit. rewrite (rsum_ext d _ (fun c => lsum (map (fun g => ir_mat ir g c b * mvec n (rho g) v i * ir_mat ir h c a) els))) by (intros c _; apply lsum_mult_r).
    rewrite rsum_lsum_exch. apply lsum_ext. intros g Hg. rewrite (proj2 R1 (inv h) g Hinv Hg a b Ha Hb). unfold mmul. rewrite <- rsum_scal_r. apply rsum_ext. intros c Hc.
    rewrite (rep_inv_tr _ _ _ _ _ _ _ L R1 O1 ltac:(intros x y ->; reflexivity) h Hh a c Ha Hc). unfold mtr. ring.
  - rewrite (translate_sum _ h Hh). unfold mmul, orbit. rewrite (rsum_ext n _ (fun k => lsum (map (fun g => rho h i k * (ir_mat ir g a b * mvec n (rho g) v k)) els))) by (intros k _; symmetry; apply lsum_map_scal).
    rewrite rsum_lsum_exch. apply lsum_ext. intros g Hg. rewrite <- (gl_assoc _ _ _ _ _ L) by auto. rewrite (gl_inv_l _ _ _ _ _ L) by auto. rewrite (gl_id_l _ _ _ _ _ L) by auto.
    transitivity (ir_mat ir g a b * mvec n (mmul n (rho h) (rho g)) v i).
    + f_equal. apply (mvec_compat n n _ _ v v (proj2 REP h g Hh Hg) (reflexivity v) i Hi).
    + rewrite mvec_mmul. unfold mvec at 1. rewrite <- rsum_scal. apply rsum_ext. intros k _. ring.
Qed.
Lemma orbit_span v i : (i < n)%nat -> INR (order grp) * v i = lsum (map (fun ir => INR (ir_size ir) * rsum (md ir) (fun a => orbit ir a v i a)) (fg_irreps grp)).
Proof.
  intros Hi. symmetry.
  transitivity (lsum (map (fun ir => lsum (map (fun g => INR (ir_size ir) * rsum (md ir) (fun a => ir_mat ir g a a) * mvec n (rho g) v i) els)) (fg_irreps grp))).
  - apply lsum_ext. intros ir _. unfold orbit. rewrite rsum_lsum_exch, <- lsum_map_scal. apply lsum_ext. intros g _. rewrite rsum_scal_r. ring.
  - rewrite lsum_exch. transitivity (lsum (map (fun g => if fg_eqb grp g e0 then INR (order grp) * mvec n (rho g) v i else 0) els)).
    + apply lsum_ext. intros g Hg. rewrite <- lsum_mult_r, (COMP g Hg). destruct (fg_eqb grp g e0); ring.
    + rewrite (lsum_delta grp OK (fun g => INR (order grp) * mvec n (rho g) v i) e0) by apply (gl_id_el _ _ _ _ _ (fo_laws _ OK)). f_equal.
      rewrite (mvec_compat n n _ mid v v (proj1 REP) (reflexivity v) i Hi). apply mvec_id, Hi.
Qed.

(** * a growing list of independent equivariant maps *)
Definition cols (L : list (irrep G * mat)) : list (nat * mat) := map (fun p => (ir_size (fst p), snd p)) L.
Definition width (L : list (irrep G * mat)) : nat := isizes (map fst L).
Definition spans (L : list (irrep G * mat)) (v : vec) : Prop := exists x, veq n (mvec (width L) (hcat (cols L)) x) v.
Definition independent (L : list (irrep G * mat)) : Prop := forall x, veq n (mvec (width L) (hcat (cols L)) x) (fun _ => 0) -> veq (width L) x (fun _ => 0).
Definition equivariants (L : list (irrep G * mat)) : Prop := forall p, In p L -> In (fst p) (fg_irreps grp) /\ intertwines el (ir_size (fst p)) (ir_mat (fst p)) n rho (snd p).
Lemma hcat_intertwines L : equivariants L -> intertwines el (width L) (fun g => bdiag (blocks (map fst L) g)) n rho (hcat (cols L)).
Proof.
  induction L as [|[ir T] L IH]; intros EQ h Hh i j Hi Hj; [cbn in Hj; lia|]. destruct (EQ (ir, T) (or_introl eq_refl)) as [_ HT]. cbn [fst snd] in HT. specialize (IH (fun p Hp => EQ p (or_intror Hp)) h Hh).
  set (d := ir_size ir) in *. set (m := width L) in *. change (width ((ir, T) :: L)) with (d + m)%nat in *. change (cols ((ir, T) :: L)) with ((d, T) :: cols L). change (blocks (map fst ((ir, T) :: L)) h) with ((d, ir_mat ir h) :: blocks (map fst L) h).
  unfold mmul. rewrite rsum_split. destruct (Nat.lt_ge_cases j d) as [Jd|Jd].
  - transitivity (mmul d T (ir_mat ir h) i j).
    + rewrite (rsum_0 m); [rewrite Rplus_0_r; apply rsum_ext|]; intros k Hk; cbn [hcat bdiag].
      * destruct (Nat.ltb_spec k d), (Nat.ltb_spec j d); try lia. reflexivity.
      * destruct (Nat.ltb_spec (d + k) d), (Nat.ltb_spec j d); try lia. ring.
    + rewrite (HT h Hh i j Hi Jd). apply rsum_ext. intros k _. cbn [hcat]. destruct (Nat.ltb_spec j d); [reflexivity|lia].
  - transitivity (mmul m (hcat (cols L)) (bdiag (blocks (map fst L) h)) i (j - d)%nat).
    + rewrite (rsum_0 d); [rewrite Rplus_0_l; apply rsum_ext|]; intros k Hk; cbn [hcat bdiag].
      * destruct (Nat.ltb_spec (d + k) d), (Nat.ltb_spec j d); try lia. replace (d + k - d)%nat with k by lia. reflexivity.
      * destruct (Nat.ltb_spec k d), (Nat.ltb_spec j d); try lia. ring.
    + rewrite (IH i (j - d)%nat Hi) by lia. apply rsum_ext. intros k _. cbn [hcat]. destruct (Nat.ltb_spec j d); [lia|reflexivity].
Qed.
Lemma mvec_lin k A a b u v i : mvec k A (fun j => a * u j + b * v j) i = a * mvec k A u i + b * mvec k A v i.
Proof. unfold mvec. rewrite <- !rsum_scal, <- rsum_plus. apply rsum_ext. intros; ring. Qed.
Lemma mvec_zero k A i : mvec k A (fun _ => 0) i = 0.
Proof. unfold mvec. apply rsum_0. intros; ring. Qed.
Lemma spans_lin L a b u v : spans L u -> spans L v -> spans L (fun i => a * u i + b * v i).
Proof. intros [x Hx] [y Hy]. exists (fun j => a * x j + b * y j). intros i Hi. rewrite mvec_lin, (Hx i Hi), (Hy i Hi). reflexivity. Qed.
Lemma spans_zero L : spans L (fun _ => 0).
Proof. exists (fun _ => 0). intros i _. apply mvec_zero. Qed.
Lemma spans_ext L u v : veq n u v -> spans L u -> spans L v.
Proof. intros E [x Hx]. exists x. rewrite Hx. exact E. Qed.

Lemma step L ir T : equivariants L -> independent L -> In ir (fg_irreps grp) -> intertwines el (ir_size ir) (ir_mat ir) n rho T ->
  exists L', equivariants L' /\ independent L' /\ (forall v, spans L v -> spans L' v) /\ forall x, spans L' (mvec (ir_size ir) T x).
Proof.
  intros EQ IND Hir HT. set (d := ir_size ir) in *. pose proof (hcat_intertwines L EQ) as HI.
  destruct (proj2 (IRR ir Hir) (fun x => spans L (mvec d T x))) as [Z0|ALL].
  - split; [apply (spans_ext L (fun _ => 0)); [intros i _; symmetry; apply mvec_zero|apply spans_zero]|]. split.
    + intros a b u v Hu Hv. apply (spans_ext L (fun i => a * mvec d T u i + b * mvec d T v i)); [intros i _; symmetry; apply mvec_lin|apply spans_lin; assumption].
    + intros u v E Hu. apply (spans_ext L (mvec d T u)); [|exact Hu]. apply (mvec_compat n d T T u v); [reflexivity|exact E].
  - intros h v Hh [y Hy]. exists (mvec (width L) (bdiag (blocks (map fst L) h)) y). intros i Hi. fold d.
    rewrite <- !mvec_mmul. rewrite (mvec_compat n (width L) _ _ y y (HI h Hh) (reflexivity y) i Hi). rewrite (mvec_compat n d _ _ v v (HT h Hh) (reflexivity v) i Hi). rewrite !mvec_mmul.
    apply (mvec_compat n n (rho h) (rho h) _ _ (reflexivity _) Hy i Hi).
  - exists ((ir, T) :: L). split; [intros p [<-|Hp]; [split; assumption|apply EQ, Hp]|].
    change (cols ((ir, T) :: L)) with ((d, T) :: cols L). split; [|split].
    + intros x Hx. change (width ((ir, T) :: L)) with (d + width L)%nat in *. change (cols ((ir, T) :: L)) with ((d, T) :: cols L) in Hx.
      assert (X1 : veq d x (fun _ => 0)).
      { apply Z0. exists (fun j => - x (d + j)%nat). intros i Hi. specialize (Hx i Hi). rewrite hcat_mvec in Hx.
        transitivity (- mvec (width L) (hcat (cols L)) (fun j => x (d + j)%nat) i); [unfold mvec; rewrite <- rsum_opp; apply rsum_ext; intros; ring|]. lra. }
      assert (X2 : veq (width L) (fun j => x (d + j)%nat) (fun _ => 0)).
      { apply IND. intros i Hi. specialize (Hx i Hi). rewrite hcat_mvec in Hx. rewrite (mvec_compat n d T T x (fun _ => 0) (reflexivity T) X1 i Hi), mvec_zero in Hx. lra. }
      intros j Hj. destruct (Nat.lt_ge_cases j d) as [Jd|Jd]; [apply X1, Jd|]. specialize (X2 (j - d)%nat ltac:(lia)). cbn beta in X2. replace (d + (j - d))%nat with j in X2 by lia. exact X2.
    + intros v [y Hy]. exists (fun j => if (j <? d)%nat then 0 else y (j - d)%nat). intros i Hi. change (width ((ir, T) :: L)) with (d + width L)%nat. change (cols ((ir, T) :: L)) with ((d, T) :: cols L). rewrite hcat_mvec.
      rewrite <- (Hy i Hi). unfold mvec at 1. rewrite rsum_0; [rewrite Rplus_0_l|intros k Hk; destruct (Nat.ltb_spec k d); [ring|lia]].
      apply rsum_ext. intros k Hk. destruct (Nat.ltb_spec (d + k) d); [lia|]. replace (d + k - d)%nat with k by lia. reflexivity.
    + intros x. exists (fun j => if (j <? d)%nat then x j else 0). intros i Hi. change (width ((ir, T) :: L)) with (d + width L)%nat. change (cols ((ir, T) :: L)) with ((d, T) :: cols L). rewrite hcat_mvec.
      transitivity (mvec d T x i + 0); [|ring]. f_equal.
      * apply rsum_ext. intros k Hk. destruct (Nat.ltb_spec k d); [reflexivity|lia].
      * apply rsum_0. intros k Hk. destruct (Nat.ltb_spec (d + k) d); [lia|ring].
  - exists L. split; [exact EQ|]. split; [exact IND|]. split; [auto|exact ALL].
Qed.
Lemma steps (Ts : list (irrep G * mat)) : equivariants Ts -> exists L, equivariants L /\ independent L /\ forall p x, In p Ts -> spans L (mvec (ir_size (fst p)) (snd p) x).
Proof.
  induction Ts as [|[ir T] Ts IH]; intros EQ.
  - exists []. split; [intros p []|]. split; [intros x _ j Hj; cbn in Hj; lia|intros p x []].
  - destruct IH as (L & E & I & A); [intros p Hp; apply EQ; right; exact Hp|]. destruct (EQ (ir, T) (or_introl eq_refl)) as [Hir HT]. cbn [fst snd] in *.
    destruct (step L ir T E I Hir HT) as (L' & E' & I' & M & S1). exists L'. split; [exact E'|]. split; [exact I'|]. intros p x [<-|Hp]; [apply S1|apply M, A, Hp].
Qed.
Lemma spans_lsum {A} L (l : list A) (c : A -> R) (f : A -> vec) : (forall a, In a l -> spans L (f a)) -> spans L (fun i => lsum (map (fun a => c a * f a i) l)).
Proof.
  induction l as [|a l IH]; intros H; [apply spans_zero|]. apply (spans_ext L (fun i => c a * f a i + 1 * lsum (map (fun a => c a * f a i) l))); [intros i _; rewrite Rmult_1_l; reflexivity|].
  apply spans_lin; [apply H; left; reflexivity|apply IH; intros b Hb; apply H; right; exact Hb].
Qed.
Lemma choose_columns m (Q : nat -> vec -> Prop) : (forall i, (i < m)%nat -> exists x, Q i x) -> exists X : nat -> vec, forall i, (i < m)%nat -> Q i (X i).
Proof.
  induction m as [|m IH]; intros H; [exists (fun _ _ => 0); intros; lia|]. destruct IH as [X HX]; [intros; apply H; lia|]. destruct (H m ltac:(lia)) as [x Hx].
  exists (fun i => if (i =? m)%nat then x else X i). intros i Hi. destruct (Nat.eqb_spec i m) as [->|]; [exact Hx|apply HX; lia].
Qed.
Theorem reducible : exists irs D E, (forall ir, In ir irs -> In ir (fg_irreps grp)) /\ isizes irs = n /\ inverse_pair n D E /\
  forall e, In e els -> meq n n (mmul n (rho e) D) (mmul n D (bdiag (blocks irs e))).
Proof.
  set (unit := fun k : nat => (fun i => mid i k) : vec).
  set (Ts := flat_map (fun ir => flat_map (fun a => map (fun k => (ir, orbit ir a (unit k))) (seq 0 n)) (seq 0 (md ir))) (fg_irreps grp)).
  assert (TE : equivariants Ts).
  { intros p Hp. apply in_flat_map in Hp. destruct Hp as (ir & Hir & Hp). apply in_flat_map in Hp. destruct Hp as (a & Ha & Hp). apply in_map_iff in Hp. destruct Hp as (k & <- & Hk). cbn [fst snd].
    apply in_seq in Ha. pose proof (MDLE ir Hir). split; [exact Hir|]. apply orbit_intertwines; [exact Hir|lia]. }
  destruct (steps Ts TE) as (L & EQ & IND & SP).
  assert (ALL : forall k, (k < n)%nat -> spans L (unit k)).
  { intros k Hk. assert (P : 0 < INR (order grp)) by (apply lt_0_INR, POS).
    apply (spans_ext L (fun i => lsum (map (fun ir => (INR (ir_size ir) / INR (order grp)) * lsum (map (fun a => 1 * orbit ir a (unit k) i a) (seq 0 (md ir)))) (fg_irreps grp)))).
    - intros i Hi. apply (Rmult_eq_reg_l (INR (order grp))); [|lra]. rewrite (orbit_span (unit k) i Hi). rewrite <- lsum_map_scal. apply lsum_ext. intros ir _. rewrite rsum_lsum.
      rewrite (lsum_ext _ (fun a => 1 * orbit ir a (unit k) i a) (fun a => orbit ir a (unit k) i a)) by (intros; ring). field. lra.
    - apply (spans_lsum L (fg_irreps grp) (fun ir => INR (ir_size ir) / INR (order grp)) (fun ir i => lsum (map (fun a => 1 * orbit ir a (unit k) i a) (seq 0 (md ir))))).
      intros ir Hir. apply (spans_lsum L (seq 0 (md ir)) (fun _ => 1) (fun a i => orbit ir a (unit k) i a)). intros a Ha. assert (Ha' := Ha). apply in_seq in Ha'. pose proof (MDLE ir Hir).
      apply (spans_ext L (mvec (ir_size ir) (orbit ir a (unit k)) (fun c => mid c a))).
      + intros i _. unfold mvec. rewrite (rsum_single _ a) by (try lia; intros c _ Hc; unfold mid; rewrite (proj2 (Nat.eqb_neq c a) Hc); ring). unfold mid. rewrite Nat.eqb_refl. ring.
      + apply (SP (ir, orbit ir a (unit k))). apply in_flat_map. exists ir. split; [exact Hir|]. apply in_flat_map. exists a. split; [exact Ha|]. apply in_map_iff. exists k. split; [reflexivity|apply in_seq; lia]. }
  destruct (choose_columns n (fun k x => veq n (mvec (width L) (hcat (cols L)) x) (unit k)) ALL) as [X HX].
  set (C := hcat (cols L)) in *. set (m := width L) in *.
  assert (M1 : (m <= n)%nat).
  { destruct (Nat.le_gt_cases m n) as [|GT]; [assumption|]. destruct (homogeneous_solution n m C GT) as (x & (k & Hk & NZ) & Hx). contradiction NZ. apply (IND x); [|exact Hk]. intros i Hi. apply Hx, Hi. }
  assert (M2 : (n <= m)%nat).
  { destruct (Nat.le_gt_cases n m) as [|GT]; [assumption|]. destruct (homogeneous_solution m n (fun j i => X i j) GT) as (y & (k & Hk & NZ) & Hy). contradiction NZ.
    transitivity (rsum n (fun i => unit i k * y i)).
    - rewrite (rsum_single n k) by (try lia; intros i _ Hi; unfold unit, mid; rewrite (proj2 (Nat.eqb_neq k i) (not_eq_sym Hi)); ring). unfold unit, mid. rewrite Nat.eqb_refl. ring.
    - transitivity (rsum n (fun i => rsum m (fun j => C k j * X i j * y i))).
      + apply rsum_ext. intros i Hi. rewrite <- (HX i Hi k Hk). unfold mvec. rewrite rsum_scal_r. reflexivity.
      + rewrite rsum_swap. apply rsum_0. intros j Hj. rewrite (rsum_ext n _ (fun i => C k j * (X i j * y i))) by (intros; ring). rewrite rsum_scal, (Hy j Hj). ring. }
  assert (M : m = n) by lia. exists (map fst L), C, (fun j i => X i j). split; [|split; [exact M|split]].
  - intros ir Hir. apply in_map_iff in Hir. destruct Hir as (p & <- & Hp). apply EQ, Hp.
  - apply square_inverse_pair. intros i k Hi Hk. pose proof (HX k Hk i Hi) as Q. rewrite M in Q. exact Q.
  - intros e He. pose proof (hcat_intertwines L EQ e He) as Q. fold m C in Q. rewrite M in Q. symmetry. exact Q.
Qed.
End Reduce.
