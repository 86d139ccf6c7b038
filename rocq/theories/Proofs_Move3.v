(** For C58: what convolutions, pooling and upsampling layers compute at a pixel, from the pixels they read. *)
From Coq Require Import Reals ZArith String List Bool Lia Lra FunctionalExtensionality.
From Verif Require Import Base LinAlg Spec Spec_Fields Model_Groups Model_Rep Model_FieldType Proofs_FieldType Model_GSpace Spec_GSpace Model_Tensor Model_Utils Model_Modules Model_Conv
  Proofs_Conv Proofs_Conv5 Proofs_Tensor Model_ConvT Model_Fieldwise Spec_Fieldwise Spec_Fieldwise2 Proofs_Utils Proofs_Fieldwise Proofs_Fieldwise8 Model_Pool Spec_Pool Proofs_Pool Proofs_Pool2 Model_Upsample Proofs_Upsample Model_NormMax Spec_NormMax Proofs_NormMax
  Model_Net Spec_Move Proofs_Move Proofs_Export.
Import ListNotations.
Open Scope R_scope.

Section Local.
Context {G B : Type}.
Notation img := (arr (B -> vec)).
Notation alike := (@alike B).
Notation tensor := (img * ctype G)%type.
Notation teqb := (ft_eqb space_eqb rep_eqb).

(** ** convolutions *)
Lemma conv_local (m : r2conv G) st tt tt' (x x' y y' : img) t1 t2 f g f' g' o1 o2 o1' o2' :
  conv_forward m st tt x = Ok (y, t1) -> conv_forward m st tt' x' = Ok (y', t2) ->
  (forall t, (t < cv_k m)%nat -> pad_index (cv_mode m) (a_h x) (fst (cv_pad m)) (o1 * cv_stride m + t * cv_dil m) = Some (f t)) ->
  (forall t, (t < cv_k m)%nat -> pad_index (cv_mode m) (a_w x) (snd (cv_pad m)) (o2 * cv_stride m + t * cv_dil m) = Some (g t)) ->
  (forall t, (t < cv_k m)%nat -> pad_index (cv_mode m) (a_h x') (fst (cv_pad m)) (o1' * cv_stride m + t * cv_dil m) = Some (f' t)) ->
  (forall t, (t < cv_k m)%nat -> pad_index (cv_mode m) (a_w x') (snd (cv_pad m)) (o2' * cv_stride m + t * cv_dil m) = Some (g' t)) ->
  (forall t u, (t < cv_k m)%nat -> (u < cv_k m)%nat -> alike (ct_size (cv_in m)) x (f t, g u) x' (f' t, g' u)) -> alike (ct_size (cv_out m)) y (o1, o2) y' (o1', o2').
Proof.
  intros F F' P1 P2 P3 P4 A. unfold conv_forward in F, F'. apply assert_ok in F as [_ F]. apply assert_ok in F' as [_ F']. apply rbind_ok in F as (fb & U & F). rewrite U in F'. cbn [rbind] in F'.
  apply rbind_ok in F as (z & F & E). injection E as <- <-. apply rbind_ok in F' as (z' & F' & E). injection E as <- <-.
  unfold run_conv in F, F'. rewrite pad2d_eq in F, F'. destruct (_ && _)%bool; [|discriminate]. destruct (_ && _)%bool in F'; [|discriminate]. cbn [rbind] in F, F'.
  unfold conv_valid in F, F'. destruct (_ && _)%bool eqn:C in F; [|discriminate]. destruct (_ && _)%bool in F'; [|discriminate]. injection F as <-. injection F' as <-.
  rewrite !andb_true_iff, !Nat.ltb_lt, !Nat.leb_le, !Nat.eqb_eq in C. destruct C as [[[[[[[C1 C2] C3] C4] C5] C6] _] _].
  intros b c Hc. cbn [fst snd a_px]. f_equal. apply rsum_ext. intros ky Hky. apply rsum_ext. intros kx Hkx. apply rsum_ext. intros ci Hci. f_equal. cbn [pads a_px].
  rewrite P1, P2, P3, P4 by auto. apply (A ky kx Hky Hkx b). apply Nat.div_exact in C5, C6; [|lia|lia].
  set (gr := cv_groups m) in *. set (ng := (ct_size (cv_in m) / gr)%nat) in *. set (og := (ct_size (cv_out m) / gr)%nat) in *.
  assert (c / og < gr)%nat. { apply Nat.div_lt_upper_bound; [|lia]. intros Z. rewrite Z in C6. lia. }
  assert ((c / og + 1) * ng <= gr * ng)%nat by (apply Nat.mul_le_mono_r; lia). lia.
Qed.
Lemma conv_dims (m : r2conv G) st tt (x y : img) t1 : conv_forward m st tt x = Ok (y, t1) ->
  (0 < cv_k m)%nat /\ (0 < cv_stride m)%nat /\ t1 = cv_out m /\ teqb tt (cv_in m) = true /\
  pad_legal (cv_mode m) (a_h x) (fst (cv_pad m)) = true /\ pad_legal (cv_mode m) (a_w x) (snd (cv_pad m)) = true /\
  (cv_dil m * (cv_k m - 1) + 1 <= a_h x + 2 * fst (cv_pad m))%nat /\ (cv_dil m * (cv_k m - 1) + 1 <= a_w x + 2 * snd (cv_pad m))%nat /\
  a_h y = ((a_h x + 2 * fst (cv_pad m) - (cv_dil m * (cv_k m - 1) + 1)) / cv_stride m + 1)%nat /\ a_w y = ((a_w x + 2 * snd (cv_pad m) - (cv_dil m * (cv_k m - 1) + 1)) / cv_stride m + 1)%nat /\
  forall x' : img, a_h x' = a_h x -> a_w x' = a_w x -> exists y', conv_forward m st tt x' = Ok (y', t1).
Proof.
  intros F. unfold conv_forward in F |- *. apply assert_ok in F as [T F]. rewrite T. cbn [assert_]. apply rbind_ok in F as (fb & U & F). rewrite U. cbn [rbind]. apply rbind_ok in F as (z & F & E). injection E as <- <-.
  unfold run_conv in F |- *. rewrite pad2d_eq in F. destruct (_ && _)%bool eqn:L; [|discriminate]. apply andb_true_iff in L as [L1 L2]. cbn [rbind] in F.
  unfold conv_valid in F. destruct (_ && _)%bool eqn:C in F; [|discriminate]. injection F as <-. pose proof C as C'. cbn [pads a_h a_w] in C' |- *.
  rewrite !andb_true_iff, !Nat.ltb_lt, !Nat.leb_le, !Nat.eqb_eq in C'. destruct C' as [[[[[[[C1 C2] C3] C4] C5] C6] C7] C8].
  do 10 (split; [first [exact C1|exact C2|exact C7|exact C8|exact L1|exact L2|reflexivity|exact T]|]).
  intros x' E1 E2. rewrite pad2d_eq, E1, E2, L1, L2. cbn [andb rbind]. unfold conv_valid. cbn [pads a_h a_w] in C |- *. rewrite E1, E2, C. cbn [rbind]. eauto.
Qed.

(** ** windows of pixels *)
Definition tapped (h k p d s o : nat) (f : nat -> nat) : Prop := forall t, (t < k)%nat -> (o * s + t * d = p + f t)%nat /\ (f t < h)%nat.
Lemma window_full h k p d s o f : tapped h k p d s o f -> window h k p d s o = map f (seq 0 k).
Proof.
  intros H. unfold window. assert (H' : forall t, In t (seq 0 k) -> (o * s + t * d = p + f t)%nat /\ (f t < h)%nat) by (intros t Ht; apply in_seq in Ht; apply H; lia). clear H.
  induction (seq 0 k) as [|t l IH]; [reflexivity|]. cbn [flat_map map]. destruct (H' t (or_introl eq_refl)) as [E L]. cbv zeta. rewrite E.
  destruct (Nat.leb_spec p (p + f t)); [|lia]. destruct (Nat.ltb_spec (p + f t) (p + h)); [|lia]. cbn [andb app]. f_equal; [lia|]. apply IH. intros; apply H'; right; auto.
Qed.
Lemma pad_tapped m h k p d s o f t : tapped h k p d s o f -> (t < k)%nat -> (p <= h)%nat \/ m <> MCircular -> pad_index m h p (o * s + t * d) = Some (f t).
Proof.
  intros H Ht PL. destruct (H t Ht) as [-> L]. destruct m; cbn [pad_index].
  - destruct (Nat.leb_spec p (p + f t)); [|lia]. destruct (Nat.ltb_spec (p + f t) (p + h)); [|lia]. cbn [andb]. f_equal. lia.
  - destruct (Nat.ltb_spec (p + f t) p); [lia|]. destruct (Nat.ltb_spec (p + f t) (p + h)); [|lia]. f_equal. lia.
  - destruct (Nat.ltb_spec (p + f t) p); [lia|]. destruct (Nat.ltb_spec (p + f t) (p + h)); [|lia]. f_equal. lia.
  - f_equal. destruct PL as [PL|PL]; [|congruence]. replace (p + f t + (h - p))%nat with (f t + 1 * h)%nat by lia. rewrite Nat.mod_add by lia. apply Nat.mod_small. exact L.
Qed.
Lemma at_window_same n (x x' : img) k l f g f' g' b c : (forall t u, (t < k)%nat -> (u < l)%nat -> alike n x (f t, g u) x' (f' t, g' u)) -> (c < n)%nat ->
  at_window x (map f (seq 0 k)) (map g (seq 0 l)) b c = at_window x' (map f' (seq 0 k)) (map g' (seq 0 l)) b c.
Proof.
  intros A Hc. unfold at_window. rewrite !list_prod_map, !map_map. apply map_ext_in. intros [t u] H. apply in_prod_iff in H as [H1 H2]. apply in_seq in H1, H2. cbn [fst snd]. apply (A t u); auto; lia.
Qed.
Lemma max_local k s p d ceil n (x x' y y' : img) f g f' g' o1 o2 o1' o2' : max_pool2d k s p d ceil x = Ok y -> max_pool2d k s p d ceil x' = Ok y' ->
  tapped (a_h x) (fst k) (fst p) (fst d) (fst s) o1 f -> tapped (a_w x) (snd k) (snd p) (snd d) (snd s) o2 g ->
  tapped (a_h x') (fst k) (fst p) (fst d) (fst s) o1' f' -> tapped (a_w x') (snd k) (snd p) (snd d) (snd s) o2' g' ->
  (forall t u, (t < fst k)%nat -> (u < snd k)%nat -> alike n x (f t, g u) x' (f' t, g' u)) -> alike n y (o1, o2) y' (o1', o2').
Proof.
  intros F F' T1 T2 T3 T4 A b c Hc. apply max_pool_inv in F as (_ & _ & ->). apply max_pool_inv in F' as (_ & _ & ->). cbn [wpool a_px fst snd].
  rewrite (window_full _ _ _ _ _ _ f T1), (window_full _ _ _ _ _ _ g T2), (window_full _ _ _ _ _ _ f' T3), (window_full _ _ _ _ _ _ g' T4).
  f_equal. apply (at_window_same n); auto.
Qed.
Lemma span_full h k p s o f : (0 < k)%nat -> tapped h k p 1 s o f -> span h k p s o = k.
Proof. intros K T. destruct (T (k - 1)%nat ltac:(lia)) as [E L]. unfold span. rewrite Nat.min_l by lia. lia. Qed.
Lemma avg_local k s p ceil n (x x' y y' : img) f g f' g' o1 o2 o1' o2' : avg_pool2d k s p ceil x = Ok y -> avg_pool2d k s p ceil x' = Ok y' ->
  tapped (a_h x) (fst k) (fst p) 1 (fst s) o1 f -> tapped (a_w x) (snd k) (snd p) 1 (snd s) o2 g ->
  tapped (a_h x') (fst k) (fst p) 1 (fst s) o1' f' -> tapped (a_w x') (snd k) (snd p) 1 (snd s) o2' g' ->
  (forall t u, (t < fst k)%nat -> (u < snd k)%nat -> alike n x (f t, g u) x' (f' t, g' u)) -> alike n y (o1, o2) y' (o1', o2').
Proof.
  intros F F' T1 T2 T3 T4 A b c Hc. apply avg_pool_inv in F as (L1 & L2 & ->). apply avg_pool_inv in F' as (_ & _ & ->). cbn [wpool a_px fst snd].
  unfold pool_legal in L1, L2. rewrite !andb_true_iff, !Nat.ltb_lt in L1, L2.
  rewrite (window_full _ _ _ _ _ _ f T1), (window_full _ _ _ _ _ _ g T2), (window_full _ _ _ _ _ _ f' T3), (window_full _ _ _ _ _ _ g' T4).
  unfold avg_red. rewrite (span_full _ _ _ _ _ f), (span_full _ _ _ _ _ g), (span_full _ _ _ _ _ f'), (span_full _ _ _ _ _ g') by (auto; apply L1 || apply L2).
  f_equal. f_equal. apply (at_window_same n); auto.
Qed.
Lemma dw_local fs ff s p n (x x' y y' : img) f g f' g' o1 o2 o1' o2' : depthwise fs ff s p x = Ok y -> depthwise fs ff s p x' = Ok y' ->
  tapped (a_h x) fs (fst p) 1 (fst s) o1 f -> tapped (a_w x) fs (snd p) 1 (snd s) o2 g -> tapped (a_h x') fs (fst p) 1 (fst s) o1' f' -> tapped (a_w x') fs (snd p) 1 (snd s) o2' g' ->
  (forall t u, (t < fs)%nat -> (u < fs)%nat -> alike n x (f t, g u) x' (f' t, g' u)) -> alike n y (o1, o2) y' (o1', o2').
Proof.
  intros F F' T1 T2 T3 T4 A b c Hc. apply dw_inv in F as (_ & _ & _ & _ & ->). apply dw_inv in F' as (_ & _ & _ & _ & ->). cbn [dwo a_px fst snd]. apply rsum_ext. intros t Ht. apply rsum_ext. intros u Hu. f_equal. cbn [pads a_px].
  assert (NC : MZeros <> MCircular) by discriminate.
  pose proof (pad_tapped MZeros _ _ _ _ _ _ f t T1 Ht (or_intror NC)) as Q1. pose proof (pad_tapped MZeros _ _ _ _ _ _ g u T2 Hu (or_intror NC)) as Q2.
  pose proof (pad_tapped MZeros _ _ _ _ _ _ f' t T3 Ht (or_intror NC)) as Q3. pose proof (pad_tapped MZeros _ _ _ _ _ _ g' u T4 Hu (or_intror NC)) as Q4.
  rewrite !Nat.mul_1_r in Q1, Q2, Q3, Q4. rewrite Q1, Q2, Q3, Q4. apply (A t u); auto.
Qed.

(** ** the largest norm *)
Lemma vnorm_at {X Y} (b : list (X -> R)) (c : list (Y -> R)) p p' : length b = length c -> (forall a, (a < length b)%nat -> val b a p = val c a p') -> vnorm b p = vnorm c p'.
Proof.
  intros L V. unfold vnorm. f_equal. revert c L V. induction b as [|u b IH]; intros [|v c] L V; cbn in L; try discriminate; [reflexivity|]. cbn [map fold_right].
  pose proof (V 0%nat ltac:(cbn; lia)) as V0. cbn in V0. rewrite V0. f_equal. apply IH; [lia|]. intros a Ha. apply (V (S a)). cbn. lia.
Qed.
Lemma winner_same argmax (m : nmaxpool (GS := space G) (G := G)) h w h' w' (v v' : B * (nat * nat) -> R) b o1 o2 o1' o2' f g f' g' : argmax_ok argmax -> (0 < fst (np_k m))%nat -> (0 < snd (np_k m))%nat ->
  tapped h (fst (np_k m)) (fst (np_p m)) (fst (np_d m)) (fst (np_s m)) o1 f -> tapped w (snd (np_k m)) (snd (np_p m)) (snd (np_d m)) (snd (np_s m)) o2 g ->
  tapped h' (fst (np_k m)) (fst (np_p m)) (fst (np_d m)) (fst (np_s m)) o1' f' -> tapped w' (snd (np_k m)) (snd (np_p m)) (snd (np_d m)) (snd (np_s m)) o2' g' ->
  (forall t u, (t < fst (np_k m))%nat -> (u < snd (np_k m))%nat -> v (b, (f t, g u)) = v' (b, (f' t, g' u))) ->
  exists t u, (t < fst (np_k m))%nat /\ (u < snd (np_k m))%nat /\ winner argmax m h w v (b, (o1, o2)) = (f t, g u) /\ winner argmax m h' w' v' (b, (o1', o2')) = (f' t, g' u).
Proof.
  intros AM K1 K2 T1 T2 T3 T4 V. unfold winner. cbn [fst snd]. cbv zeta.
  rewrite (window_full _ _ _ _ _ _ f T1), (window_full _ _ _ _ _ _ g T2), (window_full _ _ _ _ _ _ f' T3), (window_full _ _ _ _ _ _ g' T4). rewrite !list_prod_map, !map_map. cbn [fst snd].
  set (P := list_prod (seq 0 (fst (np_k m))) (seq 0 (snd (np_k m)))).
  assert (E : map (fun q => v (b, (f (fst q), g (snd q)))) P = map (fun q => v' (b, (f' (fst q), g' (snd q)))) P).
  { apply map_ext_in. intros [t u] H. apply in_prod_iff in H as [H1 H2]. apply in_seq in H1, H2. cbn [fst snd]. apply V; lia. }
  rewrite E. set (l := map (fun q => v' (b, (f' (fst q), g' (snd q)))) P).
  assert (NE : P <> []). { unfold P. destruct (fst (np_k m)); [lia|]. destruct (snd (np_k m)); [lia|]. discriminate. }
  destruct (AM l) as [AL _]. { unfold l. destruct P; [congruence|discriminate]. } unfold l in AL. rewrite map_length in AL. fold l in AL.
  destruct (nth_error P (argmax l)) as [[t u]|] eqn:EN; [|apply nth_error_None in EN; lia]. pose proof (nth_error_In _ _ EN) as IN. apply in_prod_iff in IN as [H1 H2]. apply in_seq in H1, H2.
  exists t, u. split; [lia|]. split; [lia|]. split; (erewrite nth_error_nth; [|rewrite nth_error_map, EN; reflexivity]); reflexivity.
Qed.
Lemma norm_max_local argmax junk junk' (t : ctype G) k s p d ceil (m : nmaxpool (GS := space G) (G := G)) (x x' y y' : img) t1 t2 f g f' g' o1 o2 o1' o2' : argmax_ok argmax -> nmaxpool_make t k s p d ceil = Ok m -> ft_reps t <> [] -> size_pos t ->
  nmaxpool_forward space_eqb rep_eqb argmax junk m t x = Ok (y, t1) -> nmaxpool_forward space_eqb rep_eqb argmax junk' m t x' = Ok (y', t2) ->
  tapped (a_h x) (fst (np_k m)) (fst (np_p m)) (fst (np_d m)) (fst (np_s m)) o1 f -> tapped (a_w x) (snd (np_k m)) (snd (np_p m)) (snd (np_d m)) (snd (np_s m)) o2 g ->
  tapped (a_h x') (fst (np_k m)) (fst (np_p m)) (fst (np_d m)) (fst (np_s m)) o1' f' -> tapped (a_w x') (snd (np_k m)) (snd (np_p m)) (snd (np_d m)) (snd (np_s m)) o2' g' ->
  (o1 < a_h y)%nat -> (o2 < a_w y)%nat -> (o1' < a_h y')%nat -> (o2' < a_w y')%nat ->
  (forall t0 u, (t0 < fst (np_k m))%nat -> (u < snd (np_k m))%nat -> alike (ct_size t) x (f t0, g u) x' (f' t0, g' u)) -> alike (ct_size t) y (o1, o2) y' (o1', o2').
Proof.
  intros AM M NE SP F F' T1 T2 T3 T4 B1 B2 B3 B4 A b c Hc.
  destruct (forward_inv _ _ argmax t k s p d ceil m junk x y t1 M NE F) as (TE & _ & SS & _ & _ & E1 & E2 & L).
  destruct (forward_inv _ _ argmax t k s p d ceil m junk' x' y' t2 M NE F') as (_ & _ & _ & _ & _ & E3 & E4 & L').
  destruct (forward_ok _ _ argmax AM t k s p d ceil m junk x _ _ M SP TE SS E1 E2 L) as (z & Fz & D1 & D2 & _ & V). rewrite F in Fz. injection Fz as <- _.
  destruct (forward_ok _ _ argmax AM t k s p d ceil m junk' x' _ _ M SP TE SS E3 E4 L') as (z & Fz & D3 & D4 & _ & V'). rewrite F' in Fz. injection Fz as <- _.
  destruct (channel_in_field (ft_reps t) c Hc) as (ff & r & a & Hr & Ha & ->).
  destruct (fields_at (ft_reps t) (chans (ft_chans t) x) ff r Hr) as [bl Hb]. destruct (fields_at (ft_reps t) (chans (ft_chans t) x') ff r Hr) as [bl' Hb'].
  change (field_offset (ft_reps t) ff) with (start (ft_reps t) ff) in *. cbn [fst snd].
  specialize (V o1 o2 b ff r bl B1 B2 Hr Hb a Ha). specialize (V' o1' o2' b ff r bl' B3 B4 Hr Hb' a Ha). cbv zeta in V, V'. rewrite V, V'.
  assert (LC : forall z : img, length (chans (ft_chans t) z) = nsum (map rp_size (ft_reps t))) by (intros z; apply chans_len).
  destruct (fields_val _ _ _ _ _ (LC x) Hr Hb) as [LB VB]. destruct (fields_val _ _ _ _ _ (LC x') Hr Hb') as [LB' VB'].
  assert (OFF : forall a', (a' < rp_size r)%nat -> (start (ft_reps t) ff + a' < ct_size t)%nat).
  { intros a' Ha'. clear - Hr Ha'. unfold start, ct_size. apply nth_error_split in Hr as (l1 & l2 & -> & <-). rewrite firstn_app, Nat.sub_diag, firstn_all. cbn [firstn]. rewrite app_nil_r, map_app, nsum_app. cbn [map].
    change (nsum (rp_size r :: map rp_size l2)) with (rp_size r + nsum (map rp_size l2))%nat. lia. }
  assert (KK : (0 < fst (np_k m))%nat /\ (0 < snd (np_k m))%nat). { clear - L. unfold nm_legal, pool_legal in L. rewrite !andb_true_iff, !Nat.ltb_lt in L. tauto. }
  destruct (winner_same argmax m (a_h x) (a_w x) (a_h x') (a_w x') (vnorm bl) (vnorm bl') b o1 o2 o1' o2' f g f' g' AM (proj1 KK) (proj2 KK) T1 T2 T3 T4) as (t0 & u & H1 & H2 & W & W').
  { intros t0 u H1 H2. apply vnorm_at; [lia|]. intros a' Ha'. rewrite LB in Ha'. rewrite VB, VB' by auto. change (field_offset (ft_reps t) ff) with (start (ft_reps t) ff). rewrite !chans_val by (apply OFF; auto). apply (A t0 u H1 H2 b). apply OFF; auto. }
  rewrite W, W'. apply (A t0 u H1 H2 b). auto.
Qed.

(** ** upsampling *)
Lemma nearest_local q n (x x' y y' : img) align o1 o2 o1' o2' : interpolate None (Some q) "nearest" align x = Ok y -> interpolate None (Some q) "nearest" align x' = Ok y' ->
  (o1 < q * a_h x)%nat -> (o2 < q * a_w x)%nat -> (o1' < q * a_h x')%nat -> (o2' < q * a_w x')%nat ->
  alike n x (o1 / q, o2 / q)%nat x' (o1' / q, o2' / q)%nat -> alike n y (o1, o2) y' (o1', o2').
Proof.
  intros F F' B1 B2 B3 B4 A b c Hc. unfold interpolate in F, F'. cbn [rbind] in F, F'. destruct (_ && _)%bool in F; [|discriminate]. destruct (_ && _)%bool in F'; [|discriminate]. injection F as <-. injection F' as <-. cbn [a_px fst snd].
  assert (Q : (0 < q)%nat) by (destruct q; lia).
  assert (N : forall h i, (i < q * h)%nat -> Nat.min (Z.to_nat (Int_part (INR i * (1 / INR q)))) (h - 1) = (i / q)%nat).
  { intros h i Hi. pose proof (nearest_idx h q i Q Hi _ eq_refl) as E. unfold nearest_taps in E. exact (f_equal (fun l => match l with q :: _ => fst q | [] => 0%nat end) E). }
  rewrite !N by auto. pose proof (A b c Hc) as E. cbn [fst snd] in E. rewrite E. reflexivity.
Qed.

(** ** transposed convolutions *)
Lemma tap_one h s c v i0 F : (0 < s)%nat -> (i0 < h)%nat -> (i0 * s + c = v)%nat -> rsum h (fun i => if (i * s + c =? v)%nat then F i else 0) = F i0.
Proof.
  intros S I E. rewrite (rsum_single h i0 _ I); [destruct (Nat.eqb_spec (i0 * s + c) v); [reflexivity|lia]|].
  intros i Hi N. destruct (Nat.eqb_spec (i * s + c) v) as [E'|]; [|reflexivity]. exfalso. apply N. apply (Nat.mul_cancel_r _ _ s); lia.
Qed.
Lemma tap_none h s c v F : (forall i, (i * s + c <> v)%nat) -> rsum h (fun i => if (i * s + c =? v)%nat then F i else 0) = 0.
Proof. intros N. apply rsum_0. intros i _. destruct (Nat.eqb_spec (i * s + c) v) as [E|]; [elim (N i E)|reflexivity]. Qed.
Lemma tap_pair h w s c1 c2 v1 v2 (F : nat -> nat -> R) :
  rsum h (fun i => rsum w (fun j => if ((i * s + c1 =? v1) && (j * s + c2 =? v2))%nat%bool then F i j else 0)) =
  rsum h (fun i => if (i * s + c1 =? v1)%nat then rsum w (fun j => if (j * s + c2 =? v2)%nat then F i j else 0) else 0).
Proof. apply rsum_ext. intros i _. destruct (i * s + c1 =? v1)%nat; cbn [andb]; [reflexivity|]. apply rsum_0. auto. Qed.
Lemma taps_first h w k (F : nat -> nat -> nat -> nat -> R) :
  rsum h (fun i => rsum w (fun j => rsum k (fun a => rsum k (fun b => F i j a b)))) = rsum k (fun a => rsum k (fun b => rsum h (fun i => rsum w (fun j => F i j a b)))).
Proof.
  transitivity (rsum h (fun i => rsum k (fun a => rsum k (fun b => rsum w (fun j => F i j a b))))).
  - apply rsum_ext. intros i _. rewrite rsum_swap. apply rsum_ext. intros a _. apply rsum_swap.
  - rewrite rsum_swap. apply rsum_ext. intros a _. apply rsum_swap.
Qed.
Lemma tconv_local (m : tconv G) st tt tt' (x x' y y' : img) t1 t2 (RI CI : nat -> nat -> Prop) o1 o2 o1' o2' :
  tconv_forward m st tt x = Ok (y, t1) -> tconv_forward m st tt' x' = Ok (y', t2) ->
  (forall t, (t < tc_k m)%nat -> (exists i i', RI i i' /\ (i < a_h x)%nat /\ (i' < a_h x')%nat /\ (i * tc_stride m + t * tc_dil m = o1 + tc_pad m)%nat /\ (i' * tc_stride m + t * tc_dil m = o1' + tc_pad m)%nat) \/
     (forall i, (i * tc_stride m + t * tc_dil m <> o1 + tc_pad m)%nat /\ (i * tc_stride m + t * tc_dil m <> o1' + tc_pad m)%nat)) ->
  (forall t, (t < tc_k m)%nat -> (exists i i', CI i i' /\ (i < a_w x)%nat /\ (i' < a_w x')%nat /\ (i * tc_stride m + t * tc_dil m = o2 + tc_pad m)%nat /\ (i' * tc_stride m + t * tc_dil m = o2' + tc_pad m)%nat) \/
     (forall i, (i * tc_stride m + t * tc_dil m <> o2 + tc_pad m)%nat /\ (i * tc_stride m + t * tc_dil m <> o2' + tc_pad m)%nat)) ->
  (forall i i' j j', RI i i' -> CI j j' -> alike (ct_size (tc_in m)) x (i, j) x' (i', j')) -> alike (ct_size (tc_out m)) y (o1, o2) y' (o1', o2').
Proof.
  intros F F' H1 H2 A. unfold tconv_forward in F, F'. apply assert_ok in F as [_ F]. apply assert_ok in F' as [_ F']. apply rbind_ok in F as (fb & U & F). rewrite U in F'. cbn [rbind] in F'.
  apply rbind_ok in F as (z & F & E). injection E as <- <-. apply rbind_ok in F' as (z' & F' & E). injection E as <- <-. unfold run_tconv in F, F'.
  unfold conv_transpose in F, F'. destruct (_ && _)%bool eqn:C in F; [|discriminate]. destruct (_ && _)%bool in F'; [|discriminate].
  rewrite !andb_true_iff, !Nat.ltb_lt, !Nat.eqb_eq in C. destruct C as [[[[[[[[[[C1 C2] C3] C4] C5] C6] _] _] _] _] _].
  intros b c Hc. cbn [fst snd]. match type of F with Ok ?Y = _ => assert (E : z = Y) by congruence; rewrite E; clear E F end. match type of F' with Ok ?Y = _ => assert (E : z' = Y) by congruence; rewrite E; clear E F' end.
  cbn [a_px]. f_equal.
  rewrite !taps_first. apply rsum_ext. intros ky Hky. apply rsum_ext. intros kx Hkx. rewrite !tap_pair.
  destruct (H1 ky Hky) as [(i & i' & RR & L1 & L1' & E1 & E1')|N1].
  2:{ rewrite (tap_none (a_h x)) by (intros i; apply N1). rewrite (tap_none (a_h x')) by (intros i; apply N1). reflexivity. }
  rewrite (tap_one (a_h x) _ _ _ i _ C1 L1 E1), (tap_one (a_h x') _ _ _ i' _ C1 L1' E1').
  destruct (H2 kx Hkx) as [(j & j' & CC & L2 & L2' & E2 & E2')|N2].
  2:{ rewrite (tap_none (a_w x)) by (intros j; apply N2). rewrite (tap_none (a_w x')) by (intros j; apply N2). reflexivity. }
  rewrite (tap_one (a_w x) _ _ _ j _ C1 L2 E2), (tap_one (a_w x') _ _ _ j' _ C1 L2' E2'). apply rsum_ext. intros ci Hci. cbv zeta. f_equal. apply (A i i' j j' RR CC b).
  apply Nat.div_exact in C5, C6; [|lia|lia]. set (gr := tc_groups m) in *. set (ng := (ct_size (tc_in m) / gr)%nat) in *. set (og := (ct_size (tc_out m) / gr)%nat) in *.
  assert (c / og < gr)%nat. { apply Nat.div_lt_upper_bound; [|lia]. intros Z. rewrite Z in C6. lia. }
  assert ((c / og + 1) * ng <= gr * ng)%nat by (apply Nat.mul_le_mono_r; lia). lia.
Qed.
End Local.
