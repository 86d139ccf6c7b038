(** For C58: rolls of images through a network. *)
From Coq Require Import Reals ZArith String List Bool Lia Lra FunctionalExtensionality Permutation.
From Verif Require Import Base LinAlg Spec Spec_Fields Model_Groups Model_Rep Model_FieldType Proofs_FieldType Model_GSpace Spec_GSpace Proofs_GSpace Model_Tensor Model_Utils Model_Modules Model_Conv
  Spec_Conv Proofs_Conv Proofs_Conv2 Proofs_Conv4 Proofs_Conv5 Proofs_Conv6 Proofs_Tensor Model_Fieldwise Spec_Fieldwise Spec_Fieldwise2 Proofs_Fieldwise8 Model_BatchNorm Spec_BatchNorm Proofs_BatchNorm Proofs_BatchNorm7 Model_Pool Spec_Pool Proofs_Pool Proofs_Pool2 Model_Upsample Proofs_Upsample Model_NormMax Spec_NormMax Proofs_NormMax
  Model_Net Spec_Net Proofs_Net Proofs_Net3 Proofs_Conv3 Proofs_Net5 Proofs_Net6 Spec_Move Proofs_Move Proofs_Move2 Proofs_Move3 Proofs_Move4 Proofs_Export.
Import ListNotations.
Open Scope R_scope.

(** ** one axis *)
Lemma pool_at h k p d s c : pool_legal h k p d s c = true -> (0 < k)%nat /\ (0 < s)%nat.
Proof. unfold pool_legal. rewrite !andb_true_iff, !Nat.ltb_lt. tauto. Qed.
Lemma roll_lt h i a : (i < h)%nat -> ((i + a) mod h < h)%nat.
Proof. intros H. apply Nat.mod_upper_bound. lia. Qed.
Lemma roll_stride s h' o a' c : (0 < h')%nat -> (c < s)%nat -> ((o + a') mod h' * s + c = (o * s + c + s * a') mod (s * h'))%nat.
Proof.
  intros H C. pose proof (Nat.div_mod (o + a') h' ltac:(lia)) as E. pose proof (Nat.mod_upper_bound (o + a') h' ltac:(lia)) as L. set (q := ((o + a') / h')%nat) in *. set (r := ((o + a') mod h')%nat) in *.
  apply (Nat.mod_unique _ _ q).
  - assert ((r + 1) * s <= h' * s)%nat by (apply Nat.mul_le_mono_r; lia). lia.
  - assert (o * s + s * a' = s * (h' * q + r))%nat by (rewrite <- E; lia). lia.
Qed.
Lemma roll_pad h' s o a' c : (0 < s)%nat -> (0 < h')%nat -> (((o + a') mod h' * s + c) mod (s * h') = ((o * s + c) mod (s * h') + s * a') mod (s * h'))%nat.
Proof.
  intros S H. assert (N : (s * h' <> 0)%nat) by (apply Nat.neq_mul_0; lia).
  pose proof (roll_stride s h' o a' 0 H S) as E. rewrite !Nat.add_0_r in E. rewrite E. rewrite !Nat.add_mod_idemp_l by exact N. f_equal. lia.
Qed.
Lemma turn_small s d k t : (t < k)%nat -> (d * (k - 1) + 1 <= s)%nat -> (t * d < s)%nat.
Proof. intros T L. assert (t * d <= (k - 1) * d)%nat by (apply Nat.mul_le_mono_r; lia). lia. Qed.
Lemma turns_tapped k s d u v o : turns k s 0 d false u v -> (o < fst v)%nat ->
  tapped (fst u) k 0 d s o (fun t => o * s + t * d)%nat /\ tapped (fst u) k 0 d s ((o + snd v) mod fst v) (fun t => ((o * s + t * d) + snd u) mod fst u)%nat.
Proof.
  intros (H & E1 & E2 & [[_ L]|[L _]]) O; [|discriminate]. rewrite E1, E2. assert (IN : forall o t, (o < fst v)%nat -> (t < k)%nat -> (o * s + t * d < s * fst v)%nat).
  { intros o' t O' T. pose proof (turn_small s d k t T L). assert ((o' + 1) * s <= fst v * s)%nat by (apply Nat.mul_le_mono_r; lia). lia. }
  split; intros t T.
  - split; [lia|apply IN; auto].
  - pose proof (roll_stride s (fst v) o (snd v) (t * d) H (turn_small s d k t T L)) as E. rewrite <- E. split; [lia|]. apply IN; [apply roll_lt; lia|exact T].
Qed.
Lemma turns_out k s p d c u v : (0 < s)%nat -> turns k s p d c u v -> ((fst u + 2 * p - (d * (k - 1) + 1)) / s + 1 = fst v)%nat.
Proof.
  intros SP (H & E1 & _ & L). rewrite E1. assert (E : exists r, (r < s)%nat /\ (s * fst v + 2 * p - (d * (k - 1) + 1) = s * (fst v - 1) + r)%nat).
  { assert (P : (s * fst v = s * (fst v - 1) + s)%nat) by (pose proof (Nat.mul_succ_r s (fst v - 1)) as Q; replace (S (fst v - 1)) with (fst v)%nat in Q by lia; exact Q).
    revert L P. generalize (d * (k - 1))%nat as f. generalize (s * fst v)%nat as A. generalize (s * (fst v - 1))%nat as A'. intros A' A f L P. destruct L as [[-> L]|[_ L]]; [exists (s - (f + 1))%nat; lia|exists (s - 1)%nat; lia]. }
  destruct E as (r & R & E). rewrite E. rewrite <- (Nat.div_unique _ s (fst v - 1) r R eq_refl). lia.
Qed.
Lemma turns_p k s p d u v : turns k s p d false u v -> p = 0%nat.
Proof. intros (_ & _ & _ & [[E _]|[E _]]); [exact E|discriminate]. Qed.
Lemma turns_pool k s d u v ceil : (0 < s)%nat -> (0 < k)%nat -> turns k s 0 d false u v -> pool_out (fst u) k 0 d s ceil = Z.of_nat (fst v).
Proof.
  intros SP K (H & E1 & _ & [[_ L]|[L _]]); [|discriminate]. unfold pool_out. rewrite E1. set (f := (d * (k - 1) + 1)%nat) in *. assert (F : (1 <= f)%nat) by (unfold f; rewrite Nat.add_comm; apply Nat.le_add_r).
  replace (Z.of_nat (s * fst v) + 2 * Z.of_nat 0 - Z.of_nat d * (Z.of_nat k - 1) - 1)%Z with (Z.of_nat s * Z.of_nat (fst v) - Z.of_nat f)%Z by (unfold f; replace (Z.of_nat k - 1)%Z with (Z.of_nat (k - 1)) by lia; rewrite Nat2Z.inj_add, !Nat2Z.inj_mul; lia).
  set (h := fst v) in *. clearbody h f. destruct ceil; cbn [andb].
  - destruct (Nat.eq_dec f s) as [->|NE].
    + replace (Z.of_nat s * Z.of_nat h - Z.of_nat s + (Z.of_nat s - 1))%Z with (Z.of_nat s * (Z.of_nat h - 1) + (Z.of_nat s - 1))%Z by lia.
      rewrite <- (Z.div_unique_pos (Z.of_nat s * (Z.of_nat h - 1) + (Z.of_nat s - 1)) (Z.of_nat s) (Z.of_nat h - 1) (Z.of_nat s - 1)) by lia.
      destruct (Z.leb_spec (Z.of_nat (s * h) + Z.of_nat 0) ((Z.of_nat h - 1 + 1 - 1) * Z.of_nat s)); [|lia]. rewrite Nat2Z.inj_mul in *. lia.
    + rewrite <- (Z.div_unique_pos (Z.of_nat s * Z.of_nat h - Z.of_nat f + (Z.of_nat s - 1)) (Z.of_nat s) (Z.of_nat h) (Z.of_nat s - 1 - Z.of_nat f)) by lia.
      destruct (Z.leb_spec (Z.of_nat (s * h) + Z.of_nat 0) ((Z.of_nat h + 1 - 1) * Z.of_nat s)); rewrite Nat2Z.inj_mul in *; lia.
  - rewrite Z.add_0_r. rewrite <- (Z.div_unique_pos (Z.of_nat s * Z.of_nat h - Z.of_nat f) (Z.of_nat s) (Z.of_nat h - 1) (Z.of_nat s - Z.of_nat f)) by lia. lia.
Qed.
(** what a roll does to all of an axis *)
Lemma roll_inj h a i j : (i < h)%nat -> (j < h)%nat -> ((i + a) mod h = (j + a) mod h)%nat -> i = j.
Proof.
  intros Hi Hj E. pose proof (Nat.div_mod (i + a) h ltac:(lia)) as E1. pose proof (Nat.div_mod (j + a) h ltac:(lia)) as E2. rewrite E in E1. set (q1 := ((i + a) / h)%nat) in *. set (q2 := ((j + a) / h)%nat) in *.
  destruct (Nat.lt_trichotomy q1 q2) as [L|[L|L]]; [|rewrite L in E1; lia|].
  - assert (h * (q1 + 1) <= h * q2)%nat by (apply Nat.mul_le_mono_l; lia). lia.
  - assert (h * (q2 + 1) <= h * q1)%nat by (apply Nat.mul_le_mono_l; lia). lia.
Qed.
Lemma roll_perm h a : (0 < h)%nat -> Permutation (map (fun i => (i + a) mod h)%nat (seq 0 h)) (seq 0 h).
Proof.
  intros H. assert (INJ : forall i j, (i < h)%nat -> (j < h)%nat -> ((i + a) mod h = (j + a) mod h)%nat -> i = j) by (intros i j; apply roll_inj).
  apply NoDup_Permutation_bis.
  - assert (ND : forall l, NoDup l -> (forall i, In i l -> (i < h)%nat) -> NoDup (map (fun i => (i + a) mod h)%nat l)).
    { induction l as [|i l IH]; intros N I; cbn [map]; [constructor|]. inversion N as [|? ? N1 N2]; subst. constructor.
      - intros C. apply in_map_iff in C as (j & E & Hj). apply INJ in E; [subst; auto|apply I; right; auto|apply I; left; auto].
      - apply IH; auto. intros j Hj. apply I. right. auto. }
    apply ND; [apply seq_NoDup|]. intros i Hi. apply in_seq in Hi. lia.
  - rewrite map_length. lia.
  - intros i Hi. apply in_map_iff in Hi as (j & <- & Hj). apply in_seq. apply in_seq in Hj. pose proof (roll_lt h j a ltac:(lia)). lia.
Qed.

(** ** layers *)
Section Rolling.
Context {G B : Type}.
Notation img := (arr (B -> vec)).
Notation alike := (@alike B).

Lemma rolled_at n a b (x x' : img) i j : rolled n a b x x' -> (i < a_h x)%nat -> (j < a_w x)%nat -> alike n x ((i + a) mod a_h x, (j + b) mod a_w x)%nat x' (i, j).
Proof. intros (_ & _ & V) Hi Hj bb c Hc. cbn [fst snd]. symmetry. apply V; auto. Qed.
Lemma rolled_by n a b (y y' : img) : a_h y' = a_h y -> a_w y' = a_w y -> (forall i j, (i < a_h y)%nat -> (j < a_w y)%nat -> alike n y ((i + a) mod a_h y, (j + b) mod a_w y)%nat y' (i, j)) -> rolled n a b y y'.
Proof. intros E1 E2 V. split; [exact E1|]. split; [exact E2|]. intros i j bb c Hi Hj Hc. symmetry. apply (V i j Hi Hj bb c Hc). Qed.

(** a pooling layer *)
Lemma roll_pool n k s p d (x x' y y' : img) u u2 v v2 :
  turns (fst k) (fst s) (fst p) (fst d) false u v -> turns (snd k) (snd s) (snd p) (snd d) false u2 v2 -> a_h x = fst u -> a_w x = fst u2 -> rolled n (snd u) (snd u2) x x' ->
  a_h y = fst v -> a_w y = fst v2 -> a_h y' = fst v -> a_w y' = fst v2 ->
  (forall o1 o2 o1' o2' f g f' g', tapped (a_h x) (fst k) (fst p) (fst d) (fst s) o1 f -> tapped (a_w x) (snd k) (snd p) (snd d) (snd s) o2 g ->
     tapped (a_h x') (fst k) (fst p) (fst d) (fst s) o1' f' -> tapped (a_w x') (snd k) (snd p) (snd d) (snd s) o2' g' -> (o1 < a_h y)%nat -> (o2 < a_w y)%nat -> (o1' < a_h y')%nat -> (o2' < a_w y')%nat ->
     (forall t0 t1, (t0 < fst k)%nat -> (t1 < snd k)%nat -> alike n x (f t0, g t1) x' (f' t0, g' t1)) -> alike n y (o1, o2) y' (o1', o2')) ->
  rolled n (snd v) (snd v2) y y'.
Proof.
  intros T T2 D1 D2 R D3 D4 D5 D6 L. pose proof (turns_p _ _ _ _ _ _ T) as P1. pose proof (turns_p _ _ _ _ _ _ T2) as P2. rewrite P1 in T, L. rewrite P2 in T2, L. apply rolled_by; [congruence|congruence|]. intros i j Hi Hj.
  rewrite D3 in Hi. rewrite D4 in Hj. destruct (turns_tapped _ _ _ _ _ _ T Hi) as [A1 A2]. destruct (turns_tapped _ _ _ _ _ _ T2 Hj) as [A3 A4]. pose proof R as (R1 & R2 & _).
  rewrite D3, D4. eapply L; [rewrite D1; exact A2|rewrite D2; exact A4|rewrite R1, D1; exact A1|rewrite R2, D2; exact A3|rewrite D3; apply roll_lt; exact Hi|rewrite D4; apply roll_lt; exact Hj|rewrite D5; exact Hi|rewrite D6; exact Hj|].
  intros t0 t1 H0 H1. destruct (A1 t0 H0) as [_ B1]. destruct (A3 t1 H1) as [_ B2]. rewrite <- D1, <- D2 in *. apply rolled_at; auto.
Qed.
End Rolling.

(** ** batch normalisation *)
Section Entries.
Context {G B : Type} (g : G) (bt : batch B) (NB : numbered bt) (a b : nat).
Notation teqb := (ft_eqb space_eqb rep_eqb).
Notation tensor := (arr (B -> vec) * ctype G)%type.
Definition rlaw (fwd fwd' : tensor -> result tensor) (tin tout : ctype G) (ok : arr (B -> vec) -> arr (B -> vec) -> Prop) : Prop :=
  still g tin -> forall tt x x' y t', teqb tt tin = true -> ct_size tt = ct_size tin -> rolled (ct_size tin) a b x x' -> ok x y -> fwd (x, tt) = Ok (y, t') ->
  t' = tout /\ a_h y = a_h x /\ a_w y = a_w x /\ exists y', fwd' (x', tt) = Ok (y', tout) /\ rolled (ct_size tout) a b y y'.
Definition rentry (h w p : nat) : nat := let q := unflat bt h w p in flat bt h w (fst q, ((fst (snd q) + a) mod h, (snd (snd q) + b) mod w))%nat.
Lemma rentry_facts h w p : (p < bt_n bt * (h * w))%nat -> let q := unflat bt h w p in (fst (snd q) < h)%nat /\ (snd (snd q) < w)%nat /\ flat bt h w q = p /\
  (rentry h w p < bt_n bt * (h * w))%nat /\ unflat bt h w (rentry h w p) = (fst q, ((fst (snd q) + a) mod h, (snd (snd q) + b) mod w))%nat.
Proof.
  intros Hp. cbv zeta. destruct (unflat_in bt NB _ _ p Hp) as [[Q1 Q2] Q3]. split; [auto|]. split; [auto|]. split; [auto|]. unfold rentry. cbv zeta. apply (flat_in bt NB); apply roll_lt; auto.
Qed.
Lemma rentry_bij h w : bij (bt_n bt * (h * w)) (rentry h w).
Proof.
  split; [intros p Hp; apply (rentry_facts h w p Hp)|]. intros p p' Hp Hp' E. destruct (rentry_facts h w p Hp) as (Q1 & Q2 & F & _ & U). destruct (rentry_facts h w p' Hp') as (Q1' & Q2' & F' & _ & U').
  rewrite E, U' in U. rewrite <- F, <- F'. apply f_equal. destruct (unflat bt h w p) as [b0 [i j]], (unflat bt h w p') as [b1 [i' j']]. cbn [fst snd] in *.
  pose proof (f_equal fst U) as U1. pose proof (f_equal (fun z => fst (snd z)) U) as U2. pose proof (f_equal (fun z => snd (snd z)) U) as U3. cbn [fst snd] in U1, U2, U3.
  apply roll_inj in U2; auto. apply roll_inj in U3; auto. congruence.
Qed.
Lemma still_mvec t v i : still g t -> (i < ct_size t)%nat -> mvec (ct_size t) (trep (ft_reps t) g) v i = v i.
Proof.
  intros S Hi. transitivity (mvec (ct_size t) mid v i); [|apply mvec_id; auto]. unfold mvec. apply rsum_ext. intros c Hc. rewrite (still_trep g t S i c Hi Hc). reflexivity.
Qed.
Lemma entries_roll S : entries_give g bt S rlaw.
Proof.
  intros fwd fwd' t ok N H ST tt x x' y t' E SZ (R1 & R2 & R3) OK F. unfold on_entries in *. cbn [fst snd] in *. rewrite SZ in *. rewrite R1, R2. set (n := (bt_n bt * (a_h x * a_w x))%nat) in *.
  destruct (H (rentry (a_h x) (a_w x)) (MkGT (flat_channels bt (ct_size t) x) tt) (MkGT (flat_channels bt (ct_size t) x') tt) x y OK) as (Y & Y' & s & s' & F1 & F2 & T1 & T2 & L & A).
  - split; [exact E|apply flat_channels_len].
  - split; [exact E|apply flat_channels_len].
  - apply rentry_bij.
  - apply acts_each_iff; [exact N|apply flat_channels_len|]. cbn [gt_data]. rewrite !flat_channels_len. split; [reflexivity|]. intros p i Hp Hi. rewrite still_mvec by auto.
    destruct (rentry_facts (a_h x) (a_w x) p Hp) as (Q1 & Q2 & _ & Q3 & Q4). rewrite !flat_channels_val by (auto; rewrite R1, R2; auto). cbv zeta. rewrite Q4, R1, R2. cbn [fst snd]. apply R3; auto.
  - unfold entries in F1, F2. fold n in F1, F2. rewrite F1 in F. cbn [rbind fst snd] in F. injection F as <- <-. split; [exact T1|]. split; [reflexivity|]. split; [reflexivity|].
    rewrite F2. cbn [rbind fst snd]. rewrite T2. eexists. split; [reflexivity|]. apply acts_each_iff in A as [L' V]; auto. split; [reflexivity|]. split; [reflexivity|]. cbn [flat_image a_h a_w a_px]. intros i j bb c Hi Hj Hc.
    destruct (flat_in bt NB (a_h x) (a_w x) bb i j Hi Hj) as [FI FU].
    change (val (gt_data Y') c (flat bt (a_h x) (a_w x) (bb, (i, j))) = val (gt_data Y) c (flat bt (a_h x) (a_w x) (bb, ((i + a) mod a_h x, (j + b) mod a_w x)%nat))).
    rewrite V by (auto; rewrite L; auto). rewrite L. rewrite still_mvec by auto. unfold rentry. rewrite FU. reflexivity.
Qed.
End Entries.

(** ** every layer *)
Section Net.
Context {G B : Type} (sp : space G) (isrep : rep G -> Prop) (PS : planar_space G sp isrep) (g : G) (argmax : list R -> nat) (cob_id : rep G -> bool) (bt : batch B).
Context (fits : space G -> rep G -> bool).
Notation e := (fg_identity (sp_group (sp_obj sp))).
Hypothesis Hg : sp_prj sp e = Some g.
Hypothesis AM : argmax_ok argmax.
Hypothesis NB : numbered bt.
Context (junk junk' : nat -> B * (nat * nat) -> R) (junkn junkn' : nat -> nat -> R).
Notation img := (arr (B -> vec)).
Notation fwd := (layer_forward argmax junk junkn cob_id bt).
Notation fwd' := (layer_forward argmax junk' junkn' cob_id bt).
Notation teqb := (ft_eqb space_eqb rep_eqb).
Notation made := (made sp isrep e g cob_id fits).

Definition rstep (l : layer G) (u v : axis * axis) : Prop := forall tt x x' y t', fwd l (x, tt) = Ok (y, t') -> a_h x = fst (fst u) -> a_w x = fst (snd u) ->
  rolled (ct_size tt) (snd (fst u)) (snd (snd u)) x x' ->
  a_h y = fst (fst v) /\ a_w y = fst (snd v) /\ exists y', fwd' l (x', tt) = Ok (y', t') /\ rolled (ct_size t') (snd (fst v)) (snd (snd v)) y y'.
Lemma norm_step l u : good_layer sp isrep e g cob_id fits l -> normalises l = true -> (forall r, In r (ft_reps (layer_in l)) -> (1 < rp_size r * (bt_n bt * (fst (fst u) * fst (snd u))))%nat) -> rstep l u u.
Proof.
  intros GL NR EN tt x x' y t' F D1 D2 R. pose proof (fwd_type argmax cob_id bt junk junkn _ _ _ _ F) as TE. pose proof (teqb_size _ _ TE) as SZ. pose proof GL as (M & O1 & O2). pose proof O1 as (S1 & N1 & K1).
  assert (He : fg_is_element (sp_group (sp_obj sp)) e = true).
  { destruct (space_ok _ _ _ PS) as [code [el [inv SF]]]. apply (identity_form _ (sf_constructed _ _ _ _ _ SF)). }
  rewrite SZ in R. assert (E1 : forall r, In r (ft_reps (layer_in l)) -> (1 < rp_size r * entries bt x)%nat) by (intros r Hr; unfold entries; rewrite D1, D2; auto).
  assert (E0 : (0 < entries bt x)%nat). { destruct (ft_reps (layer_in l)) as [|r rs] eqn:Q; [tauto|]. specialize (E1 r ltac:(left; reflexivity)). destruct (entries bt x); lia. }
  assert (ST : still g (layer_in l)) by (apply (ok_still sp isrep PS g Hg); exact O1).
  assert (END : forall ok, @rlaw G B g (snd (fst u)) (snd (snd u)) (fwd l) (fwd' l) (layer_in l) (layer_in l) ok -> ok x y -> layer_out l = layer_in l ->
    a_h y = fst (fst u) /\ a_w y = fst (snd u) /\ exists y', fwd' l (x', tt) = Ok (y', t') /\ rolled (ct_size t') (snd (fst u)) (snd (snd u)) y y').
  { intros ok L OK _. destruct (L ST tt x x' y t' TE SZ R OK F) as (-> & D3 & D4 & Y). rewrite D3, D4. auto. }
  destruct M; cbn [normalises] in NR; try discriminate; cbn [layer_in] in *.
  - destruct (norm_bn_law (B := B) isrep g bt _ (fun S => entries_roll g bt NB (snd (fst u)) (snd (snd u)) S) (nb_in m) training m H K1 N1) as [_ L]. exact (END _ L (fun _ => E0) eq_refl).
  - destruct (induced_bn_law (B := B) isrep g bt _ (fun S => entries_roll g bt NB (snd (fst u)) (snd (snd u)) S) (nb_in m) training m H H0 K1 N1) as [_ L]. exact (END _ L (fun _ => E0) eq_refl).
  - destruct (inner_bn_law (B := B) isrep g bt _ (fun S => entries_roll g bt NB (snd (fst u)) (snd (snd u)) S) (ib_in m) training m junkn junkn' H K1 N1) as [_ L]. exact (END _ L (fun _ => E1) eq_refl).
  - destruct (gnorm_bn_law (B := B) sp isrep PS e g bt He Hg _ (fun S => entries_roll g bt NB (snd (fst u)) (snd (snd u)) S) cob_id (gb_in m) training m junkn junkn' H H0 H1 K1 N1) as [_ L]. exact (END _ L (fun _ => E0) eq_refl).
Qed.

Ltac same_in H :=
  repeat match goal with M : assert_ _ _ = Ok _ |- _ => apply assert_ok in M as [_ M] | M : rbind _ _ = Ok _ |- _ => apply rbind_ok in M as (? & _ & M)
      | M : (if ?c then _ else _) = Ok _ |- _ => destruct c; try discriminate | M : match ?c with _ => _ end = Ok _ |- _ => destruct c; try discriminate | M : (let _ := _ in _) = Ok _ |- _ => cbv zeta in M end;
  injection H as <-; reflexivity.
Lemma mod_one i : (i mod 1 = 0)%nat.
Proof. apply Nat.mod_1_r. Qed.
Lemma wrap_step l u v : good_layer sp isrep e g cob_id fits l -> wraps (bt_n bt) l u v -> rstep l u v.
Proof.
  intros GL W. destruct W as [m st u u2 v v2 T T2|m u u2 v v2 T T2|m u u2 v v2 T T2|m u u2 v v2 T T2|m q u u2 Q1 Q2 Q3|m u u2 Q|l w PW|l w NR EN]; [| | | | | | |apply norm_step; auto];
    intros tt x x' y t' F D1 D2 R; pose proof (fwd_type argmax cob_id bt junk junkn _ _ _ _ F) as TE; pose proof (teqb_size _ _ TE) as SZ; cbn [fst snd layer_forward layer_in] in *; pose proof GL as (M & O1 & O2); pose proof R as (R1 & R2 & _).
  - destruct (conv_dims m st tt x y t' F) as (K & ST & -> & _ & P1 & P2 & _ & _ & D3 & D4 & EX). destruct (EX x' R1 R2) as [y' F']. destruct (conv_dims m st tt x' y' _ F') as (_ & _ & _ & _ & P3 & P4 & _ & _ & D5 & D6 & _).
    pose proof (turns_out _ _ _ _ _ _ _ ST T) as A1. pose proof (turns_out _ _ _ _ _ _ _ ST T2) as A2. rewrite D1 in D3. rewrite A1 in D3. rewrite D2 in D4. rewrite A2 in D4. rewrite R1, D1, A1 in D5. rewrite R2, D2, A2 in D6.
    split; [exact D3|]. split; [exact D4|]. exists y'. split; [exact F'|]. rewrite SZ in R. apply rolled_by; [congruence|congruence|]. intros i j Hi Hj. rewrite D3 in Hi. rewrite D4 in Hj.
    assert (AX : forall p h u v o, turns (cv_k m) (cv_stride m) p (cv_dil m) (match cv_mode m with MCircular => true | _ => false end) u v -> h = fst u -> pad_legal (cv_mode m) h p = true -> (o < fst v)%nat ->
      exists f, forall t, (t < cv_k m)%nat -> (f t < h)%nat /\ pad_index (cv_mode m) h p (o * cv_stride m + t * cv_dil m) = Some (f t) /\ pad_index (cv_mode m) h p ((o + snd v) mod fst v * cv_stride m + t * cv_dil m) = Some ((f t + snd u) mod h)%nat).
    { clear - ST. intros p h u v o (H & E1 & E2 & L) -> PL Ho. destruct L as [[-> L]|[C L]].
      - assert (T : turns (cv_k m) (cv_stride m) 0 (cv_dil m) false u v) by (split; [exact H|]; split; [exact E1|]; split; [exact E2|]; left; split; [reflexivity|exact L]). destruct (turns_tapped _ _ _ _ _ _ T Ho) as [T1 T2]. exists (fun t => o * cv_stride m + t * cv_dil m)%nat. intros t Ht. split; [apply (T1 t Ht)|].
        split; [exact (pad_tapped _ _ _ _ _ _ _ _ t T1 Ht (or_introl (Nat.le_0_l _)))|exact (pad_tapped _ _ _ _ _ _ _ _ t T2 Ht (or_introl (Nat.le_0_l _)))].
      - destruct (cv_mode m); try discriminate. cbn [pad_legal] in PL. apply andb_true_iff in PL as [PL1 PL2]. apply Nat.leb_le in PL1. apply Nat.ltb_lt in PL2. cbn [pad_index].
        exists (fun t => (o * cv_stride m + t * cv_dil m + (fst u - p)) mod fst u)%nat. intros t Ht. split; [apply Nat.mod_upper_bound; lia|]. split; [reflexivity|]. f_equal. rewrite E2. rewrite <- !Nat.add_assoc. generalize (t * cv_dil m + (fst u - p))%nat as c. intros c. rewrite E1. apply roll_pad; auto. }
    destruct (AX _ _ _ _ i T D1 P1 Hi) as [f Hf]. destruct (AX _ _ _ _ j T2 D2 P2 Hj) as [f2 Hf2]. rewrite D3, D4.
    refine (conv_local m st tt tt x x' y y' _ _ (fun t => (f t + snd u) mod a_h x)%nat (fun t => (f2 t + snd u2) mod a_w x)%nat f f2 _ _ _ _ F F' _ _ _ _ _); [intros t Ht; apply (Hf t Ht)|intros t Ht; apply (Hf2 t Ht)|rewrite R1; intros t Ht; apply (Hf t Ht)|rewrite R2; intros t Ht; apply (Hf2 t Ht)|].
    intros t t2 Ht Ht2. apply rolled_at; auto; [apply (Hf t Ht)|apply (Hf2 t2 Ht2)].
  - unfold maxpool_forward in F |- *. rewrite TE in F |- *. cbn [assert_] in F |- *. apply rbind_ok in F as (z & F & E). injection E as <- <-. rewrite SZ in R. pose proof (max_pool_dims _ _ _ _ _ x x' z R1 R2 F) as F'.
    match type of F' with _ = Ok ?z' => set (y' := z') in * end. destruct (max_pool_inv _ _ _ _ _ _ _ F) as (L1 & L2 & E). destruct (pool_at _ _ _ _ _ _ L1) as [K1 S1]. destruct (pool_at _ _ _ _ _ _ L2) as [K2 S2].
    pose proof (turns_p _ _ _ _ _ _ T) as P1. pose proof (turns_p _ _ _ _ _ _ T2) as P2.
    assert (D3 : a_h z = fst v). { rewrite E. cbn [wpool a_h]. rewrite D1, P1. rewrite P1 in T. rewrite (turns_pool _ _ _ _ _ _ S1 K1 T). apply Nat2Z.id. }
    assert (D4 : a_w z = fst v2). { rewrite E. cbn [wpool a_w]. rewrite D2, P2. rewrite P2 in T2. rewrite (turns_pool _ _ _ _ _ _ S2 K2 T2). apply Nat2Z.id. }
    clear E. split; [exact D3|]. split; [exact D4|]. rewrite F'. cbn [rbind]. exists y'. split; [reflexivity|].
    apply (roll_pool _ (mp_k m) (mp_s m) (mp_p m) (mp_d m) x x' z y' u u2 v v2 T T2 D1 D2 R D3 D4 D3 D4). intros o1 o2 o1' o2' f g0 f' g' T3 T4 T5 T6 _ _ _ _ A. exact (max_local _ _ _ _ _ _ x x' z y' f g0 f' g' o1 o2 o1' o2' F F' T3 T4 T5 T6 A).
  - unfold avgpool_forward in F |- *. rewrite TE in F |- *. cbn [assert_] in F |- *. apply rbind_ok in F as (z & F & E). injection E as <- <-. rewrite SZ in R. pose proof (avg_pool_dims _ _ _ _ x x' z R1 R2 F) as F'.
    match type of F' with _ = Ok ?z' => set (y' := z') in * end. destruct (avg_pool_inv _ _ _ _ _ _ F) as (L1 & L2 & E). destruct (pool_at _ _ _ _ _ _ L1) as [K1 S1]. destruct (pool_at _ _ _ _ _ _ L2) as [K2 S2].
    pose proof (turns_p _ _ _ _ _ _ T) as P1. pose proof (turns_p _ _ _ _ _ _ T2) as P2.
    assert (D3 : a_h z = fst v). { rewrite E. cbn [wpool a_h]. rewrite D1, P1. rewrite P1 in T. rewrite (turns_pool _ _ _ _ _ _ S1 K1 T). apply Nat2Z.id. }
    assert (D4 : a_w z = fst v2). { rewrite E. cbn [wpool a_w]. rewrite D2, P2. rewrite P2 in T2. rewrite (turns_pool _ _ _ _ _ _ S2 K2 T2). apply Nat2Z.id. }
    clear E. split; [exact D3|]. split; [exact D4|]. rewrite F'. cbn [rbind]. exists y'. split; [reflexivity|].
    apply (roll_pool _ (ap_k m) (ap_s m) (ap_p m) (1, 1)%nat x x' z y' u u2 v v2 T T2 D1 D2 R D3 D4 D3 D4). intros o1 o2 o1' o2' f g0 f' g' T3 T4 T5 T6 _ _ _ _ A. exact (avg_local _ _ _ _ _ x x' z y' f g0 f' g' o1 o2 o1' o2' F F' T3 T4 T5 T6 A).
  - destruct (made_nm sp isrep g cob_id fits m M) as (t & k & s & p & d & ceil & MK).
    assert (E : np_in m = t) by (unfold nmaxpool_make in MK; clear - MK; same_in MK). destruct O1 as (_ & NE & OK). cbn [layer_in] in NE, OK. rewrite E in *. assert (SP : size_pos t) by (intros r Hr; apply (OK r Hr)).
    assert (TT : forall jk (z : img), nmaxpool_forward space_eqb rep_eqb argmax jk m tt z = nmaxpool_forward space_eqb rep_eqb argmax jk m t z).
    { intros jk z. unfold nmaxpool_forward. rewrite E, TE, teqb_refl. reflexivity. }
    rewrite TT in F |- *. destruct (forward_inv _ _ argmax t k s p d ceil m junk x y t' MK NE F) as (TR & -> & SN & _ & _ & A1 & A2 & L).
    pose proof L as L'. unfold nm_legal in L'. rewrite !andb_true_iff in L'. destruct L' as [[[[[L1 L2] _] _] _] _]. destruct (pool_at _ _ _ _ _ _ L1) as [K1 S1]. destruct (pool_at _ _ _ _ _ _ L2) as [K2 S2].
    rewrite <- R1 in A1. rewrite <- R2 in A2. rewrite <- R1, <- R2 in L. destruct (forward_ok _ _ argmax AM t k s p d ceil m junk' x' (a_h y) (a_w y) MK SP TR SN A1 A2 L) as (y' & F' & D5 & D6 & _). rewrite R1 in A1. rewrite R2 in A2.
    pose proof (turns_p _ _ _ _ _ _ T) as P1. pose proof (turns_p _ _ _ _ _ _ T2) as P2.
    assert (D3 : a_h y = fst v). { rewrite P1 in T. pose proof (turns_pool _ _ _ _ _ false S1 K1 T) as Q. unfold announced in A1. unfold pool_out in Q. cbn [andb] in Q. rewrite Z.add_0_r in Q. rewrite P1, D1 in A1. rewrite Q in A1. apply Nat2Z.inj. exact A1. }
    assert (D4 : a_w y = fst v2). { rewrite P2 in T2. pose proof (turns_pool _ _ _ _ _ false S2 K2 T2) as Q. unfold announced in A2. unfold pool_out in Q. cbn [andb] in Q. rewrite Z.add_0_r in Q. rewrite P2, D2 in A2. rewrite Q in A2. apply Nat2Z.inj. exact A2. }
    split; [exact D3|]. split; [exact D4|]. exists y'. split; [exact F'|]. rewrite SZ in R. rewrite D3 in D5. rewrite D4 in D6.
    apply (roll_pool _ (np_k m) (np_s m) (np_p m) (np_d m) x x' y y' u u2 v v2 T T2 D1 D2 R D3 D4 D5 D6). intros o1 o2 o1' o2' f g0 f' g' T3 T4 T5 T6 B1 B2 B3 B4 A.
    exact (norm_max_local argmax junk junk' t k s p d ceil m x x' y y' _ _ f g0 f' g' o1 o2 o1' o2' AM MK NE SP F F' T3 T4 T5 T6 B1 B2 B3 B4 A).
  - unfold upsampling_forward in F |- *. rewrite TE in F |- *. cbn [assert_] in F |- *. apply rbind_ok in F as (z & F & E). injection E as <- <-. rewrite SZ in R. rewrite Q1, Q2, Q3 in F |- *.
    assert (EX : a_h z = (q * a_h x)%nat /\ a_w z = (q * a_w x)%nat /\ (0 < q)%nat /\ exists z', interpolate None (Some q) "nearest" (up_align m) x' = Ok z' /\ a_h z' = (q * a_h x)%nat /\ a_w z' = (q * a_w x)%nat).
    { clear - F R1 R2. unfold interpolate in F |- *. cbn [rbind] in F |- *. rewrite R1, R2. destruct (_ && _)%bool eqn:C in F; [|discriminate]. rewrite C. rewrite !andb_true_iff, !Nat.ltb_lt in C. destruct C as [[[_ _] C] _].
      injection F as <-. cbn [a_h a_w]. split; [lia|]. split; [lia|]. split; [destruct q; lia|]. eexists. split; [reflexivity|]. cbn [a_h a_w]. lia. }
    destruct EX as (D3 & D4 & Q & z' & F' & D5 & D6). rewrite F'. cbn [rbind]. split; [lia|]. split; [lia|]. exists z'. split; [reflexivity|]. apply rolled_by; [congruence|congruence|]. intros i j Hi Hj. rewrite D3 in *. rewrite D4 in *.
    assert (AX : forall h a i, (i < q * h)%nat -> ((i + q * a) mod (q * h) < q * h)%nat /\ (i / q < h)%nat /\ ((i + q * a) mod (q * h) / q = (i / q + a) mod h)%nat).
    { clear - Q. intros h a i Hi. assert (h <> 0)%nat by (intros ->; lia). split; [apply Nat.mod_upper_bound; apply Nat.neq_mul_0; lia|]. split; [apply Nat.div_lt_upper_bound; lia|].
      pose proof (Nat.div_mod i q ltac:(lia)) as E. pose proof (Nat.mod_upper_bound i q ltac:(lia)) as L. set (c := (i mod q)%nat) in *. set (o := (i / q)%nat) in *.
      rewrite E. replace (q * o + c + q * a)%nat with (o * q + c + q * a)%nat by lia. rewrite <- roll_stride by lia. rewrite Nat.div_add_l by lia. rewrite (Nat.div_small c q) by lia. lia. }
    destruct (AX _ (snd u) i Hi) as (B1 & B2 & B3). destruct (AX _ (snd u2) j Hj) as (B4 & B5 & B6).
    apply (nearest_local q _ x x' z z' _ _ _ _ _ F F'); auto; [rewrite R1; auto|rewrite R2; auto|]. rewrite B3, B6. apply rolled_at; auto.
  - unfold adpool_forward in F |- *. rewrite TE in F |- *. cbn [assert_] in F |- *. apply rbind_ok in F as (z & F & E). injection E as <- <-. rewrite SZ in R. rewrite Q in F |- *.
    pose proof (adaptive_inv _ _ _ _ F x eq_refl eq_refl) as E. rewrite F in E. injection E as E. pose proof (adaptive_inv _ _ _ _ F x' R1 R2) as F'. rewrite F'. cbn [rbind fst snd] in *.
    assert (POS : (0 < a_h x)%nat /\ (0 < a_w x)%nat). { clear - F. unfold adaptive_pool2d in F. destruct (_ && _)%bool eqn:C in F; [|discriminate]. apply andb_true_iff in C as [C1 C2]. apply Nat.ltb_lt in C1, C2. auto. } destruct POS as [H1 H2].
    rewrite E. split; [reflexivity|]. split; [reflexivity|]. eexists. split; [reflexivity|]. apply rolled_by; [reflexivity|reflexivity|]. intros i j Hi Hj. cbn [wpool a_h a_w] in *. rewrite !mod_one. assert (i = 0%nat) by lia. assert (j = 0%nat) by lia. subst i j.
    intros b c Hc. cbn [wpool a_px fst snd]. assert (AW : forall h, (0 < h)%nat -> adaptive_window h 1 0 = seq 0 h) by (intros h Hh; unfold adaptive_window; f_equal; rewrite !Nat.div_1_r; lia). rewrite !AW by auto.
    assert (PR : Permutation (at_window x (seq 0 (a_h x)) (seq 0 (a_w x)) b c) (at_window x' (seq 0 (a_h x)) (seq 0 (a_w x)) b c)).
    { transitivity (at_window x (map (fun i => (i + snd u) mod a_h x)%nat (seq 0 (a_h x))) (map (fun j => (j + snd u2) mod a_w x)%nat (seq 0 (a_w x))) b c).
      - symmetry. apply at_window_perm; apply roll_perm; auto.
      - unfold at_window. rewrite list_prod_map, map_map. erewrite map_ext_in; [reflexivity|]. intros [i j] Hij. apply in_prod_iff in Hij as [Hi2 Hj2]. apply in_seq in Hi2. apply in_seq in Hj2. cbn [fst snd]. apply (rolled_at _ _ _ x x' i j R ltac:(lia) ltac:(lia) b c Hc). }
    destruct (ad_max m); [apply max_list_perm|apply mean_list_perm]; exact PR.
  - destruct (pixel_step sp isrep PS g argmax cob_id bt fits Hg NB junk junk' junkn junkn' l GL PW tt x x' y t' F) as (D3 & D4 & y' & F' & D5 & D6 & V). split; [congruence|]. split; [congruence|]. exists y'. split; [exact F'|].
    apply rolled_by; [congruence|congruence|]. intros i j Hi Hj. rewrite D3, D4 in *. apply V; [| |apply rolled_at; auto]; unfold in_image; cbn [fst snd]; apply andb_true_iff; split; apply Nat.ltb_lt; rewrite ?R1, ?R2; auto; apply roll_lt; auto.
Qed.

(** ** a sequence of layers *)
Notation modules jk jkn ls := (map (layer_module argmax jk jkn cob_id bt) ls).
Lemma rolls_net ls u v : Forall (good_layer sp isrep e g cob_id fits) ls -> wraps_all (bt_n bt) ls u v -> forall tt x x' y t',
  run_all (modules junk junkn ls) (x, tt) = Ok (y, t') -> a_h x = fst (fst u) -> a_w x = fst (snd u) -> rolled (ct_size tt) (snd (fst u)) (snd (snd u)) x x' ->
  a_h y = fst (fst v) /\ a_w y = fst (snd v) /\ exists y', run_all (modules junk' junkn' ls) (x', tt) = Ok (y', t') /\ rolled (ct_size t') (snd (fst v)) (snd (snd v)) y y'.
Proof.
  intros GL S. induction S as [w|l ls u v w S _ IH]; intros tt x x' y t' F D1 D2 R; cbn [map run_all] in F |- *.
  - injection F as <- <-. eauto 10.
  - inversion GL as [|? ? GL1 GL2]; subst. apply rbind_ok in F as ([z s1] & F1 & F2). cbn [layer_module em_fwd] in F1 |- *.
    destruct (wrap_step l u v GL1 S tt x x' z s1 F1 D1 D2 R) as (E1 & E2 & z' & F1' & R'). rewrite F1'. cbn [rbind]. exact (IH GL2 s1 z z' y t' F2 E1 E2 R').
Qed.
End Net.
