(** For C58: windows of images through a network. *)
From Coq Require Import Reals ZArith String List Bool Lia Lra FunctionalExtensionality.
From Verif Require Import Prop_Pool Base LinAlg Spec Spec_Fields Model_Groups Model_Rep Model_FieldType Proofs_FieldType Model_GSpace Spec_GSpace Model_Tensor Model_Utils Model_Modules Model_Conv
  Spec_Conv Proofs_Conv Proofs_Conv2 Proofs_Conv5 Proofs_Tensor Model_ConvT Model_Fieldwise Spec_Fieldwise Spec_Fieldwise2 Model_Pool Spec_Pool Proofs_Pool Proofs_Pool2 Model_Upsample Proofs_Upsample Model_NormMax Spec_NormMax Proofs_NormMax
  Model_Net Spec_Net Proofs_Net6 Spec_Move Proofs_Move Proofs_Move2 Proofs_Move3 Proofs_Export.
Import ListNotations.
Open Scope R_scope.

Section Windows.
Context {G B : Type}.
Notation img := (arr (B -> vec)).
Notation alike := (@alike B).

Lemma reads_tapped k s p d a o q h h' : reads k s p d a o -> (forall u, (u < rg_len a)%nat -> (rg_from a + u < h)%nat /\ (rg_from' a + u < h')%nat) -> (q < rg_len o)%nat ->
  tapped h k p d s (rg_from o + q) (fun t => (rg_from o + q) * s + t * d - p)%nat /\ tapped h' k p d s (rg_from' o + q) (fun t => (rg_from' o + q) * s + t * d - p)%nat /\
  forall t, (t < k)%nat -> exists u, (u < rg_len a)%nat /\ ((rg_from o + q) * s + t * d - p = rg_from a + u)%nat /\ ((rg_from' o + q) * s + t * d - p = rg_from' a + u)%nat.
Proof.
  intros RD BD Hq. split; [|split]; intros t Ht; destruct (RD q t Hq Ht) as (u & Hu & E1 & E2); destruct (BD u Hu) as [B1 B2]; [lia|lia|]. exists u. lia.
Qed.
Lemma tapped_conv h k p d s o f : (0 < k)%nat -> (0 < s)%nat -> tapped h k p d s o f -> (o < (h + 2 * p - (d * (k - 1) + 1)) / s + 1)%nat.
Proof.
  intros K S T. destruct (T (k - 1)%nat ltac:(lia)) as [E L]. assert (o <= (h + 2 * p - (d * (k - 1) + 1)) / s)%nat; [|lia]. apply Nat.div_le_lower_bound; lia.
Qed.
Lemma tapped_pool h k p d s o f ceil : (0 < k)%nat -> (0 < s)%nat -> tapped h k p d s o f -> (Z.of_nat o < pool_out h k p d s ceil)%Z.
Proof.
  intros K S T. destruct (T (k - 1)%nat ltac:(lia)) as [E L]. destruct (T 0%nat K) as [E0 L0]. unfold pool_out.
  set (c := if ceil then (Z.of_nat s - 1)%Z else 0%Z). assert (C : (0 <= c)%Z) by (unfold c; destruct ceil; lia).
  set (num := (Z.of_nat h + 2 * Z.of_nat p - Z.of_nat d * (Z.of_nat k - 1) - 1 + c)%Z).
  assert (Z.of_nat o <= num / Z.of_nat s)%Z.
  { apply Z.div_le_lower_bound; [lia|]. unfold num. assert (Z.of_nat (o * s) + Z.of_nat d * (Z.of_nat k - 1) <= Z.of_nat p + Z.of_nat h - 1)%Z; [|lia]. replace (Z.of_nat k - 1)%Z with (Z.of_nat (k - 1)) by lia. rewrite <- Nat2Z.inj_mul. lia. }
  destruct ceil; cbn [andb]; [|lia]. destruct (Z.leb_spec (Z.of_nat h + Z.of_nat p) ((num / Z.of_nat s + 1 - 1) * Z.of_nat s)); [|lia].
  assert (Z.of_nat o * Z.of_nat s < (num / Z.of_nat s) * Z.of_nat s)%Z by lia. assert (Z.of_nat o < num / Z.of_nat s)%Z by (apply (Z.mul_lt_mono_pos_r (Z.of_nat s)); lia). lia.
Qed.

(** one axis of a window *)
Lemma window_axis n (x x' : img) a a2 : same_window n x x' a a2 -> (0 < rg_len a2)%nat -> forall u, (u < rg_len a)%nat -> (rg_from a + u < a_h x)%nat /\ (rg_from' a + u < a_h x')%nat.
Proof. intros W L u Hu. destruct (W u 0%nat Hu L) as (H1 & _ & H2 & _). auto. Qed.
Lemma window_axis2 n (x x' : img) a a2 : same_window n x x' a a2 -> (0 < rg_len a)%nat -> forall u, (u < rg_len a2)%nat -> (rg_from a2 + u < a_w x)%nat /\ (rg_from' a2 + u < a_w x')%nat.
Proof. intros W L u Hu. destruct (W 0%nat u L Hu) as (_ & H1 & _ & H2 & _). auto. Qed.
Lemma reads_len k s p d a o q : reads k s p d a o -> (q < rg_len o)%nat -> (0 < k)%nat -> (0 < rg_len a)%nat.
Proof. intros RD Hq K. destruct (RD q 0%nat Hq K) as (u & Hu & _). lia. Qed.

(** a layer with windows *)
Lemma window_layer n n' k k2 s s2 p p2 d d2 (x x' y y' : img) a a2 o o2 : (0 < k)%nat -> (0 < k2)%nat -> reads k s p d a o -> reads k2 s2 p2 d2 a2 o2 -> same_window n x x' a a2 ->
  (forall o1 o3 o1' o3' f g f' g', tapped (a_h x) k p d s o1 f -> tapped (a_w x) k2 p2 d2 s2 o3 g -> tapped (a_h x') k p d s o1' f' -> tapped (a_w x') k2 p2 d2 s2 o3' g' ->
     (forall t u, (t < k)%nat -> (u < k2)%nat -> alike n x (f t, g u) x' (f' t, g' u)) ->
     (o1 < a_h y)%nat /\ (o3 < a_w y)%nat /\ (o1' < a_h y')%nat /\ (o3' < a_w y')%nat /\ alike n' y (o1, o3) y' (o1', o3')) -> same_window n' y y' o o2.
Proof.
  intros K K2 R1 R2 W H i j Hi Hj. pose proof (reads_len _ _ _ _ _ _ _ R1 Hi K) as LA. pose proof (reads_len _ _ _ _ _ _ _ R2 Hj K2) as LA2.
  destruct (reads_tapped k s p d a o i (a_h x) (a_h x') R1 (window_axis n x x' a a2 W LA2) Hi) as (T1 & T2 & U). destruct (reads_tapped k2 s2 p2 d2 a2 o2 j (a_w x) (a_w x') R2 (window_axis2 n x x' a a2 W LA) Hj) as (T3 & T4 & U2).
  destruct (H _ _ _ _ _ _ _ _ T1 T3 T2 T4) as (D1 & D2 & D3 & D4 & V); [|do 4 (split; [assumption|]); exact V].
  intros t u Ht Hu b c Hc. cbn [fst snd]. destruct (U t Ht) as (u1 & L1 & -> & ->). destruct (U2 u Hu) as (u2 & L2 & -> & ->). destruct (W u1 u2 L1 L2) as (_ & _ & _ & _ & E). apply E. exact Hc.
Qed.
End Windows.

Section Net.
Context {G B : Type} (sp : space G) (isrep : rep G -> Prop) (PS : planar_space G sp isrep) (g : G) (argmax : list R -> nat) (cob_id : rep G -> bool) (bt : batch B).
Context (fits : space G -> rep G -> bool).
Notation e := (fg_identity (sp_group (sp_obj sp))).
Hypothesis Hg : sp_prj sp e = Some g.
Hypothesis AM : argmax_ok argmax.
Hypothesis NB : numbered bt.
Context (junk junk' : nat -> B * (nat * nat) -> R) (junkn junkn' : nat -> nat -> R).
Notation img := (arr (B -> vec)).
Notation fwd := (layer_forward argmax junk junkn cob_id bt).
Notation fwd' := (layer_forward argmax junk' junkn' cob_id bt).
Notation teqb := (ft_eqb space_eqb rep_eqb).

Lemma pool_pos h k p d s c : pool_legal h k p d s c = true -> (0 < k)%nat /\ (0 < s)%nat.
Proof. unfold pool_legal. rewrite !andb_true_iff, !Nat.ltb_lt. tauto. Qed.
Lemma max_window k s p d ceil n (x x' y y' : img) a a2 o o2 : max_pool2d k s p d ceil x = Ok y -> max_pool2d k s p d ceil x' = Ok y' -> same_window n x x' a a2 ->
  reads (fst k) (fst s) (fst p) (fst d) a o -> reads (snd k) (snd s) (snd p) (snd d) a2 o2 -> same_window n y y' o o2.
Proof.
  intros F F' W R1 R2. destruct (max_pool_inv _ _ _ _ _ _ _ F) as (P1 & P2 & E). destruct (max_pool_inv _ _ _ _ _ _ _ F') as (_ & _ & E').
  assert (D : a_h y = Z.to_nat (pool_out (a_h x) (fst k) (fst p) (fst d) (fst s) ceil) /\ a_w y = Z.to_nat (pool_out (a_w x) (snd k) (snd p) (snd d) (snd s) ceil) /\
    a_h y' = Z.to_nat (pool_out (a_h x') (fst k) (fst p) (fst d) (fst s) ceil) /\ a_w y' = Z.to_nat (pool_out (a_w x') (snd k) (snd p) (snd d) (snd s) ceil)) by (rewrite E, E'; auto). destruct D as (D1 & D2 & D3 & D4). clear E E'.
  destruct (pool_pos _ _ _ _ _ _ P1) as [K1 S1]. destruct (pool_pos _ _ _ _ _ _ P2) as [K2 S2].
  apply (window_layer n n _ _ _ _ _ _ _ _ x x' y y' a a2 o o2 K1 K2 R1 R2 W). intros o1 o3 o1' o3' f g0 f' g' T1 T2 T3 T4 A.
  pose proof (tapped_pool _ _ _ _ _ _ _ ceil K1 S1 T1). pose proof (tapped_pool _ _ _ _ _ _ _ ceil K2 S2 T2). pose proof (tapped_pool _ _ _ _ _ _ _ ceil K1 S1 T3). pose proof (tapped_pool _ _ _ _ _ _ _ ceil K2 S2 T4).
  split; [lia|]. split; [lia|]. split; [lia|]. split; [lia|]. exact (max_local k s p d ceil n x x' y y' f g0 f' g' o1 o3 o1' o3' F F' T1 T2 T3 T4 A).
Qed.
Lemma dw_window fs ff s p n (x x' y y' : img) a a2 o o2 : (0 < fs)%nat -> depthwise fs ff s p x = Ok y -> depthwise fs ff s p x' = Ok y' -> same_window n x x' a a2 ->
  reads fs (fst s) (fst p) 1 a o -> reads fs (snd s) (snd p) 1 a2 o2 -> same_window n y y' o o2.
Proof.
  intros K F F' W R1 R2. destruct (dw_inv _ _ _ _ _ _ F) as (S1 & S2 & _ & _ & E). destruct (dw_inv _ _ _ _ _ _ F') as (_ & _ & _ & _ & E').
  assert (D : a_h y = ((a_h x + 2 * fst p - fs) / fst s + 1)%nat /\ a_w y = ((a_w x + 2 * snd p - fs) / snd s + 1)%nat /\ a_h y' = ((a_h x' + 2 * fst p - fs) / fst s + 1)%nat /\ a_w y' = ((a_w x' + 2 * snd p - fs) / snd s + 1)%nat) by (rewrite E, E'; auto). destruct D as (D1 & D2 & D3 & D4). clear E E'.
  apply (window_layer n n _ _ _ _ _ _ _ _ x x' y y' a a2 o o2 K K R1 R2 W). intros o1 o3 o1' o3' f g0 f' g' T1 T2 T3 T4 A.
  pose proof (tapped_conv _ _ _ _ _ _ _ K S1 T1). pose proof (tapped_conv _ _ _ _ _ _ _ K S2 T2). pose proof (tapped_conv _ _ _ _ _ _ _ K S1 T3). pose proof (tapped_conv _ _ _ _ _ _ _ K S2 T4).
  replace (1 * (fs - 1) + 1)%nat with fs in * by lia. split; [lia|]. split; [lia|]. split; [lia|]. split; [lia|]. exact (dw_local fs ff s p n x x' y y' f g0 f' g' o1 o3 o1' o3' F F' T1 T2 T3 T4 A).
Qed.

Definition wstep (l : layer G) (u v : range * range) : Prop := forall tt x x' y y' t1 t2, fwd l (x, tt) = Ok (y, t1) -> fwd' l (x', tt) = Ok (y', t2) ->
  same_window (ct_size tt) x x' (fst u) (snd u) -> t1 = t2 /\ same_window (ct_size t1) y y' (fst v) (snd v).
Ltac same_in H :=
  repeat match goal with M : assert_ _ _ = Ok _ |- _ => apply assert_ok in M as [_ M] | M : rbind _ _ = Ok _ |- _ => apply rbind_ok in M as (? & _ & M)
      | M : (if ?c then _ else _) = Ok _ |- _ => destruct c; try discriminate | M : match ?c with _ => _ end = Ok _ |- _ => destruct c; try discriminate | M : (let _ := _ in _) = Ok _ |- _ => cbv zeta in M end;
  injection H as <-; reflexivity.
Notation made := (made sp isrep e g cob_id fits).
Lemma last_of n : (0 < n)%nat -> (n - 1 < n)%nat.
Proof. lia. Qed.
Lemma tr_bound r n q l h s c op p o0 : (0 < n)%nat -> (r + (n - 1) < h)%nat -> (q < l)%nat -> (2 * p + o0 + l <= s * (r + n - 1) + c + 1)%nat -> (o0 + q < (h - 1) * s + c + 1 + op - 2 * p)%nat.
Proof. intros Hn Hr Hq Ho. assert (s * (r + n - 1) <= (h - 1) * s)%nat by (rewrite Nat.mul_comm; apply Nat.mul_le_mono_r; lia). lia. Qed.
Lemma made_nm m : made (LNormMax m) -> exists t k s p d ceil, nmaxpool_make t k s p d ceil = Ok m.
Proof. intros M. inversion M; subst. eauto 10. Qed.
Lemma amake_fs (t : ctype G) k s p d ceil sigma (m : amaxpool (GS := space G) (G := G)) : amaxpool_make t k s p d ceil sigma = Ok m -> (0 < am_fs m)%nat.
Proof.
  intros H. unfold amaxpool_make in H. destruct d as [[|[|]]|]; try discriminate. apply rbind_ok in H as (m0 & _ & H). apply assert_ok in H as [SG H]. destruct (Rlt_dec 0 sigma) as [SP|]; [|discriminate].
  match type of H with Ok ?Y = _ => assert (E : m = Y) by congruence; rewrite E end. cbn [am_fs]. assert (A : 0 <= 4 * sigma) by lra. pose proof (round_nonneg (4 * sigma) A). lia.
Qed.
Lemma aamake_fs (t : ctype G) sigma s p (m : aavgpool (GS := space G) (G := G)) : aavgpool_make t sigma s p = Ok m -> (0 < aa_fs m)%nat.
Proof.
  intros H. unfold aavgpool_make in H. apply assert_ok in H as [SG H]. destruct (Rlt_dec 0 sigma) as [SP|]; [|discriminate]. cbv zeta in H.
  match type of H with Ok ?Y = _ => assert (E : m = Y) by congruence; rewrite E end. cbn [aa_fs]. assert (A : 0 <= 3 * sigma) by lra. pose proof (round_nonneg (3 * sigma) A). lia.
Qed.
Lemma made_am m : made (LMaxPoolA m) -> (0 < am_fs m)%nat.
Proof. intros M. inversion M; subst. eapply amake_fs; eauto. Qed.
Lemma made_aa m : made (LAvgPoolA m) -> (0 < aa_fs m)%nat.
Proof. intros M. inversion M; subst. eapply aamake_fs; eauto. Qed.
Lemma sees_step l u v : good_layer sp isrep e g cob_id fits l -> sees l u v -> wstep l u v.
Proof.
  intros GL S tt x x' y y' t1 t2 F F' W. pose proof (fwd_type argmax cob_id bt junk junkn _ _ _ _ F) as TE. pose proof (teqb_size _ _ TE) as SZ.
  pose proof GL as (M & O1 & O2). destruct S; cbn [fst snd layer_forward layer_in] in *.
  - destruct (conv_dims m st tt x y t1 F) as (K & ST & -> & _ & P1 & P2 & _ & _ & D1 & D2 & _). destruct (conv_dims m st tt x' y' t2 F') as (_ & _ & -> & _ & P3 & P4 & _ & _ & D3 & D4 & _). split; [reflexivity|]. rewrite SZ in W.
    apply (window_layer _ _ _ _ _ _ _ _ _ _ x x' y y' a a2 o o2 K K H H0 W). intros o1 o3 o1' o3' f g0 f' g' T1 T2 T3 T4 A.
    pose proof (tapped_conv _ _ _ _ _ _ _ K ST T1). pose proof (tapped_conv _ _ _ _ _ _ _ K ST T2). pose proof (tapped_conv _ _ _ _ _ _ _ K ST T3). pose proof (tapped_conv _ _ _ _ _ _ _ K ST T4).
    split; [lia|]. split; [lia|]. split; [lia|]. split; [lia|].
    assert (PL : forall h p, pad_legal (cv_mode m) h p = true -> (p <= h)%nat \/ cv_mode m <> MCircular).
    { intros h p L. destruct (cv_mode m); try (right; discriminate). left. cbn [pad_legal] in L. apply andb_true_iff in L as [L _]. apply Nat.leb_le in L. exact L. }
    refine (conv_local m st tt tt x x' y y' _ _ f g0 f' g' o1 o3 o1' o3' F F' _ _ _ _ A); intros t Ht;
      [exact (pad_tapped _ _ _ _ _ _ _ f t T1 Ht (PL _ _ P1))|exact (pad_tapped _ _ _ _ _ _ _ g0 t T2 Ht (PL _ _ P2))|exact (pad_tapped _ _ _ _ _ _ _ f' t T3 Ht (PL _ _ P3))|exact (pad_tapped _ _ _ _ _ _ _ g' t T4 Ht (PL _ _ P4))].
  - assert (D : forall jt z (q : img) t3, tconv_forward m st jt z = Ok (q, t3) -> t3 = tc_out m /\ (0 < tc_stride m)%nat /\ a_h q = ((a_h z - 1) * tc_stride m + tc_dil m * (tc_k m - 1) + 1 + tc_opad m - 2 * tc_pad m)%nat /\ a_w q = ((a_w z - 1) * tc_stride m + tc_dil m * (tc_k m - 1) + 1 + tc_opad m - 2 * tc_pad m)%nat).
    { clear. intros jt z q t3 F. unfold tconv_forward in F. apply assert_ok in F as [_ F]. apply rbind_ok in F as (fb & _ & F). apply rbind_ok in F as (r & F & E). injection E as <- <-. unfold run_tconv, conv_transpose in F.
      destruct (_ && _)%bool eqn:C in F; [|discriminate]. rewrite !andb_true_iff, !Nat.ltb_lt in C. destruct C as [[[[[[[[[[C _] _] _] _] _] _] _] _] _] _]. match type of F with Ok ?Y = _ => assert (E : r = Y) by congruence; rewrite E; clear E F end. auto. }
    destruct (D _ _ _ _ F) as (-> & ST & D1 & D2). destruct (D _ _ _ _ F') as (-> & _ & D3 & D4). clear D. split; [reflexivity|]. rewrite SZ in W.
    destruct H as (LA & E1 & E1' & R1), H0 as (LA2 & E2 & E2' & R2). intros i j Hi Hj.
    destruct (W (rg_len a - 1)%nat (rg_len a2 - 1)%nat (last_of _ LA) (last_of _ LA2)) as (W1 & W2 & W3 & W4 & _). rewrite D1, D2, D3, D4.
    split; [exact (tr_bound _ _ _ _ _ _ _ _ _ _ LA W1 Hi E1)|]. split; [exact (tr_bound _ _ _ _ _ _ _ _ _ _ LA2 W2 Hj E2)|]. split; [exact (tr_bound _ _ _ _ _ _ _ _ _ _ LA W3 Hi E1')|]. split; [exact (tr_bound _ _ _ _ _ _ _ _ _ _ LA2 W4 Hj E2')|].
    clear E1 E1' E2 E2' D1 D2 D3 D4 W1 W2 W3 W4.
    refine (tconv_local m st tt tt x x' y y' _ _ (fun p p' => exists u, (u < rg_len a)%nat /\ p = (rg_from a + u)%nat /\ p' = (rg_from' a + u)%nat) (fun p p' => exists u, (u < rg_len a2)%nat /\ p = (rg_from a2 + u)%nat /\ p' = (rg_from' a2 + u)%nat) (rg_from o + i)%nat (rg_from o2 + j)%nat (rg_from' o + i)%nat (rg_from' o2 + j)%nat F F' _ _ _).
    + intros t Ht. destruct (R1 i t Hi Ht) as [(u & Hu & Q1 & Q2)|N]; [left|right; intros k; destruct (N k) as [N1 N2]; clear N; split; intros EQ; [apply N1|apply N2]; rewrite ?(Nat.mul_comm (tc_stride m)), ?(Nat.mul_comm (tc_dil m)); lia].
      destruct (W u 0%nat Hu ltac:(lia)) as (B1 & _ & B2 & _). exists (rg_from a + u)%nat, (rg_from' a + u)%nat. split; [eauto|]. lia.
    + intros t Ht. destruct (R2 j t Hj Ht) as [(u & Hu & Q1 & Q2)|N]; [left|right; intros k; destruct (N k) as [N1 N2]; clear N; split; intros EQ; [apply N1|apply N2]; rewrite ?(Nat.mul_comm (tc_stride m)), ?(Nat.mul_comm (tc_dil m)); lia].
      destruct (W 0%nat u ltac:(lia) Hu) as (_ & B1 & _ & B2 & _). exists (rg_from a2 + u)%nat, (rg_from' a2 + u)%nat. split; [eauto|]. lia.
    + intros p p' q q' (u & Hu & -> & ->) (v & Hv & -> & ->). exact (proj2 (proj2 (proj2 (proj2 (W u v Hu Hv))))).
  - unfold maxpool_forward in F, F'. rewrite TE in F, F'. cbn [assert_] in F, F'. apply rbind_ok in F as (z & F & E). injection E as <- <-. apply rbind_ok in F' as (z' & F' & E). injection E as <- <-. split; [reflexivity|]. rewrite SZ in W.
    exact (max_window _ _ _ _ _ _ x x' z z' a a2 o o2 F F' W H H0).
  - unfold amaxpool_forward in F, F'. rewrite TE in F, F'. cbn [assert_] in F, F'. apply rbind_ok in F as (w & F1 & F2). apply rbind_ok in F2 as (q & F2 & E). injection E as <- <-.
    apply rbind_ok in F' as (w' & F1' & F2'). apply rbind_ok in F2' as (q' & F2' & E). injection E as <- <-. split; [reflexivity|]. rewrite SZ in W.
    assert (FS : (0 < am_fs m)%nat) by (apply made_am; exact M).
    apply (dw_window _ _ _ _ _ w w' q q' z z2 o o2 FS F2 F2'); auto. exact (max_window _ (1, 1)%nat _ _ _ _ x x' w w' a a2 z z2 F1 F1' W H H0).
  - unfold avgpool_forward in F, F'. rewrite TE in F, F'. cbn [assert_] in F, F'. apply rbind_ok in F as (z & F & E). injection E as <- <-. apply rbind_ok in F' as (z' & F' & E). injection E as <- <-. split; [reflexivity|]. rewrite SZ in W.
    destruct (avg_pool_inv _ _ _ _ _ _ F) as (P1 & P2 & E). destruct (avg_pool_inv _ _ _ _ _ _ F') as (_ & _ & E').
    assert (D : a_h z = Z.to_nat (pool_out (a_h x) (fst (ap_k m)) (fst (ap_p m)) 1 (fst (ap_s m)) (ap_ceil m)) /\ a_w z = Z.to_nat (pool_out (a_w x) (snd (ap_k m)) (snd (ap_p m)) 1 (snd (ap_s m)) (ap_ceil m)) /\
      a_h z' = Z.to_nat (pool_out (a_h x') (fst (ap_k m)) (fst (ap_p m)) 1 (fst (ap_s m)) (ap_ceil m)) /\ a_w z' = Z.to_nat (pool_out (a_w x') (snd (ap_k m)) (snd (ap_p m)) 1 (snd (ap_s m)) (ap_ceil m))) by (rewrite E, E'; auto). destruct D as (D1 & D2 & D3 & D4). clear E E'.
    destruct (pool_pos _ _ _ _ _ _ P1) as [K1 S1]. destruct (pool_pos _ _ _ _ _ _ P2) as [K2 S2].
    apply (window_layer _ _ _ _ _ _ _ _ _ _ x x' z z' a a2 o o2 K1 K2 H H0 W). intros o1 o3 o1' o3' f g0 f' g' T1 T2 T3 T4 A.
    pose proof (tapped_pool _ _ _ _ _ _ _ (ap_ceil m) K1 S1 T1). pose proof (tapped_pool _ _ _ _ _ _ _ (ap_ceil m) K2 S2 T2). pose proof (tapped_pool _ _ _ _ _ _ _ (ap_ceil m) K1 S1 T3). pose proof (tapped_pool _ _ _ _ _ _ _ (ap_ceil m) K2 S2 T4).
    split; [lia|]. split; [lia|]. split; [lia|]. split; [lia|]. exact (avg_local _ _ _ _ _ x x' z z' f g0 f' g' o1 o3 o1' o3' F F' T1 T2 T3 T4 A).
  - unfold aavgpool_forward in F, F'. rewrite TE in F, F'. cbn [assert_] in F, F'. apply rbind_ok in F as (z & F & E). injection E as <- <-. apply rbind_ok in F' as (z' & F' & E). injection E as <- <-. split; [reflexivity|]. rewrite SZ in W.
    assert (FS : (0 < aa_fs m)%nat) by (apply made_aa; exact M). exact (dw_window _ _ _ _ _ x x' z z' a a2 o o2 FS F F' W H H0).
  - destruct (made_nm m M) as (t & k & s & p & d & ceil & MK).
    assert (E : np_in m = t) by (unfold nmaxpool_make in MK; clear - MK; same_in MK). destruct O1 as (_ & NE & OK). rewrite E in *.
    assert (SP : size_pos t) by (intros r Hr; apply (OK r Hr)).
    assert (TT : forall jk (z : img), nmaxpool_forward space_eqb rep_eqb argmax jk m tt z = nmaxpool_forward space_eqb rep_eqb argmax jk m t z).
    { intros jk z. unfold nmaxpool_forward. rewrite E, TE, teqb_refl. reflexivity. }
    rewrite TT in F, F'.
    destruct (forward_inv _ _ argmax t k s p d ceil m junk x y t1 MK NE F) as (_ & -> & _ & _ & _ & D1 & D2 & L). destruct (forward_inv _ _ argmax t k s p d ceil m junk' x' y' t2 MK NE F') as (_ & -> & _ & _ & _ & D3 & D4 & L').
    split; [reflexivity|]. rewrite SZ in W. unfold nm_legal in L. rewrite !andb_true_iff in L. destruct L as [[[[[L1 L2] _] _] _] _]. destruct (pool_pos _ _ _ _ _ _ L1) as [K1 S1]. destruct (pool_pos _ _ _ _ _ _ L2) as [K2 S2].
    apply (window_layer _ _ _ _ _ _ _ _ _ _ x x' y y' a a2 o o2 K1 K2 H H0 W). intros o1 o3 o1' o3' f g0 f' g' T1 T2 T3 T4 A.
    pose proof (tapped_pool _ _ _ _ _ _ _ false K1 S1 T1) as B1. pose proof (tapped_pool _ _ _ _ _ _ _ false K2 S2 T2) as B2. pose proof (tapped_pool _ _ _ _ _ _ _ false K1 S1 T3) as B3. pose proof (tapped_pool _ _ _ _ _ _ _ false K2 S2 T4) as B4.
    unfold pool_out in B1, B2, B3, B4. cbn [andb] in B1, B2, B3, B4. rewrite Z.add_0_r in B1, B2, B3, B4. unfold announced in D1, D2, D3, D4.
    assert (Q1 : (o1 < a_h y)%nat) by lia. assert (Q2 : (o3 < a_w y)%nat) by lia. assert (Q3 : (o1' < a_h y')%nat) by lia. assert (Q4 : (o3' < a_w y')%nat) by lia.
    do 4 (split; [assumption|]). exact (norm_max_local argmax junk junk' t k s p d ceil m x x' y y' _ _ f g0 f' g' o1 o3 o1' o3' AM MK NE SP F F' T1 T2 T3 T4 Q1 Q2 Q3 Q4 A).
  - unfold upsampling_forward in F, F'. rewrite TE in F, F'. cbn [assert_] in F, F'. apply rbind_ok in F as (z & F & E). injection E as <- <-. apply rbind_ok in F' as (z' & F' & E). injection E as <- <-. split; [reflexivity|]. rewrite SZ in W.
    rewrite H, H0, H1 in F, F'. destruct H2 as (E1 & E2 & E3), H3 as (E4 & E5 & E6).
    assert (D : a_h z = (q * a_h x)%nat /\ a_w z = (q * a_w x)%nat /\ a_h z' = (q * a_h x')%nat /\ a_w z' = (q * a_w x')%nat).
    { clear - F F'. unfold interpolate in F, F'. cbn [rbind] in F, F'. destruct (_ && _)%bool in F; [|discriminate]. destruct (_ && _)%bool in F'; [|discriminate]. injection F as <-. injection F' as <-. cbn [a_h a_w]. lia. }
    destruct D as (D1 & D2 & D3 & D4). intros i j Hi Hj. rewrite E3 in Hi. rewrite E6 in Hj. assert (Q : (0 < q)%nat) by (destruct q; lia).
    assert (AX : forall n r i, (i < q * n)%nat -> (i / q < n)%nat /\ ((q * r + i) / q = r + i / q)%nat /\ forall h, (r + i / q < h)%nat -> (q * r + i < q * h)%nat).
    { intros n r k Hk. split; [apply Nat.div_lt_upper_bound; lia|]. split; [rewrite Nat.mul_comm, Nat.div_add_l by lia; reflexivity|].
      intros h Hh. pose proof (Nat.mul_succ_div_gt k q ltac:(lia)). assert (q * (r + k / q + 1) <= q * h)%nat by (apply Nat.mul_le_mono_l; lia). lia. }
    destruct (AX _ (rg_from a) i Hi) as (I1 & I2 & I3). destruct (AX _ (rg_from' a) i Hi) as (_ & I4 & I5). destruct (AX _ (rg_from a2) j Hj) as (J1 & J2 & J3). destruct (AX _ (rg_from' a2) j Hj) as (_ & J4 & J5).
    destruct (W _ _ I1 J1) as (W1 & W2 & W3 & W4 & V). rewrite E1, E2, E4, E5, D1, D2, D3, D4.
    apply I3 in W1. apply J3 in W2. apply I5 in W3. apply J5 in W4. do 4 (split; [assumption|]).
    apply (nearest_local q _ x x' z z' _ _ _ _ _ F F' W1 W2 W3 W4). rewrite I2, I4, J2, J4. exact V.
  - destruct (pixel_step sp isrep PS g argmax cob_id bt fits Hg NB junk junk' junkn junkn' l GL H tt x x' y t1 F) as (D1 & D2 & z & Fz & D3 & D4 & V). rewrite F' in Fz. injection Fz as <- <-. split; [reflexivity|].
    intros i j Hi Hj. destruct (W i j Hi Hj) as (W1 & W2 & W3 & W4 & A). rewrite D1, D2, D3, D4. do 4 (split; [assumption|]). intros b c Hc.
    apply (V (rg_from (fst w) + i, rg_from (snd w) + j)%nat (rg_from' (fst w) + i, rg_from' (snd w) + j)%nat); auto; unfold in_image; cbn [fst snd]; apply andb_true_iff; split; apply Nat.ltb_lt; auto.
Qed.

(** ** a sequence of layers *)
Notation modules jk jkn ls := (map (layer_module argmax jk jkn cob_id bt) ls).
Lemma windows_net ls u v : Forall (good_layer sp isrep e g cob_id fits) ls -> sees_all ls u v -> forall tt x x' y y' t1 t2,
  run_all (modules junk junkn ls) (x, tt) = Ok (y, t1) -> run_all (modules junk' junkn' ls) (x', tt) = Ok (y', t2) -> same_window (ct_size tt) x x' (fst u) (snd u) ->
  t1 = t2 /\ same_window (ct_size t1) y y' (fst v) (snd v).
Proof.
  intros GL S. induction S as [w|l ls u v w S _ IH]; intros tt x x' y y' t1 t2 F F' W; cbn [map run_all] in F, F'.
  - injection F as <- <-. injection F' as <- <-. auto.
  - inversion GL as [|? ? GL1 GL2]; subst. apply rbind_ok in F as ([z s1] & F1 & F2). apply rbind_ok in F' as ([z' s2] & F1' & F2'). cbn [layer_module em_fwd] in F1, F1'.
    destruct (sees_step l u v GL1 S tt x x' z z' s1 s2 F1 F1' W) as [<- W2]. exact (IH GL2 s1 z z' y y' t1 t2 F2 F2' W2).
Qed.
End Net.
