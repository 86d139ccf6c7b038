(** NormNonLinearity and InducedNormNonLinearity, field by field. *)
From Coq Require Import Reals ZArith String Ascii Decimal DecimalString List Bool Lia Lra Permutation Sorted FunctionalExtensionality.
From Verif Require Import Base Spec_Fields Model_Groups Model_Rep Model_FieldType Model_Utils Model_Modules Model_Fieldwise Spec_Fieldwise Spec_Fieldwise2
  Proofs_FieldType Proofs_FieldType2 Proofs_Utils Proofs_Modules Proofs_Modules2 Proofs_Modules3 Proofs_Fieldwise Proofs_Fieldwise2 Proofs_Fieldwise3.
Import ListNotations.
Open Scope nat_scope.

Section Norm.
Context {X : Type}.
Notation chan := (X -> R).

Lemma vnorm_spec (b : list chan) : vnorm b = norm_of b.
Proof.
  apply functional_extensionality. intros p. unfold vnorm, norm_of. f_equal.
  induction b as [|c b IH]; [reflexivity|]. cbn [map fold_right length]. rewrite rsum_S_l. rewrite IH. reflexivity.
Qed.
Lemma norm_mult_spec n m : (0 <= n)%R -> norm_mult n m = (if Rle_dec n nl_eps then 0 else m / n)%R.
Proof.
  intros H. unfold norm_mult. destruct (Rle_dec n nl_eps); [reflexivity|]. rewrite Rmax_left; [reflexivity|lra].
Qed.
Lemma norm_of_pos (b : list chan) p : (0 <= norm_of b p)%R.
Proof. apply sqrt_pos. Qed.

Definition shifted (f : R -> R) (b : option R) (t : R) : R := match b with Some c => f (t - c)%R | None => f t end.
Definition norm_blk (f : R -> R) (lb : option (list R)) (s j : nat) (b : list chan) : list chan :=
  concat (map (fun sb => repeat (fun p => norm_mult (vnorm sb p) (shifted f (bias_at lb j) (vnorm sb p))) s) (blocks s b)).

Lemma combine_map_fst {A B C} (h : A * B -> C) : forall (l : list A) (l' : list B), combine l (map h (combine l l')) = map (fun z => (fst z, h z)) (combine l l').
Proof. induction l as [|a l IH]; intros [|b l']; cbn; auto. f_equal. auto. Qed.
Lemma combine_map_self {A B} (h : A -> B) : forall (l : list A), combine l (map h l) = map (fun z => (z, h z)) l.
Proof. induction l as [|a l IH]; cbn; congruence. Qed.
Lemma combine_app {A B} (a c : list A) (b d : list B) : length a = length b -> combine (a ++ c) (b ++ d) = combine a b ++ combine c d.
Proof. revert b. induction a as [|x a IH]; intros [|y b] H; try discriminate; [reflexivity|]. cbn. f_equal. apply IH. cbn in H. congruence. Qed.
Lemma combine_repeat {A B} (l : list A) (b : B) : combine l (repeat b (length l)) = map (fun a => (a, b)) l.
Proof. induction l; cbn; congruence. Qed.

Lemma norm_group_ok f lb s k next (fm : list chan) bl : s <> 0 -> view_fields (k * s) fm = Ok bl ->
  match lb with Some l => next + length bl <= length l | None => True end ->
  norm_group f lb s (length bl) k next fm = Ok (concat (map (fun p => norm_blk f lb s (next + fst p) (snd p)) (enumerate bl))).
Proof.
  intros S0 V L. destruct (view_sub s k fm bl S0 V) as (V' & LB). unfold norm_group. rewrite V'. cbn [rbind].
  assert (KB : forall b, In b bl -> length (blocks s b) = k). { intros b Hb. rewrite blocks_len2, (LB b Hb), Nat.div_mul; auto. }
  destruct lb as [l|]; unfold new_norms.
  - assert (SL : sub_list (map exp l) next (next + length bl) = map (fun i => exp (nth (next + i) l 0%R)) (seq 0 (length bl))).
    { apply nth_error_ext. intros i. rewrite sub_list_nth, !nth_error_map. replace (next + length bl - next) with (length bl) by lia.
      destruct (Nat.ltb_spec i (length bl)).
      - rewrite (nth_error_nth' (seq 0 (length bl)) 0) by (rewrite seq_length; lia). rewrite seq_nth by auto. cbn [option_map Nat.add].
        rewrite (nth_error_nth' l 0%R) by lia. reflexivity.
      - assert (nth_error (seq 0 (length bl)) i = None) as ->; [|reflexivity]. apply nth_error_None. rewrite seq_length. auto. }
    rewrite SL. clear SL.
    assert (E : forall i0 bl, (forall b, In b bl -> length (blocks s b) = k) ->
      length (map (@vnorm X) (concat (map (blocks s) bl))) = length (concat (map (fun b => repeat b k) (map (fun i => exp (nth (next + i) l 0%R)) (seq i0 (length bl))))) /\
      combine (map (@vnorm X) (concat (map (blocks s) bl))) (concat (map (fun b => repeat b k) (map (fun i => exp (nth (next + i) l 0%R)) (seq i0 (length bl))))) =
      concat (map (fun ib => map (fun sb => (vnorm sb, exp (nth (next + fst ib) l 0%R))) (blocks s (snd ib))) (combine (seq i0 (length bl)) bl))).
    { intros i0 bl0. revert i0. induction bl0 as [|b bl0 IH]; intros i0 H; [split; reflexivity|]. cbn [length seq map concat combine].
      destruct (IH (S i0)) as [I1 I2]. { intros c Hc. apply H. cbn; auto. }
      rewrite map_app, !app_length, I1, map_length, repeat_length. rewrite (H b) by (cbn; auto). split; [reflexivity|].
      rewrite combine_app by (rewrite map_length, repeat_length; apply H; cbn; auto). rewrite I2. f_equal. cbn [fst snd].
      rewrite <- (H b) by (cbn; auto). rewrite <- (map_length (@vnorm X) (blocks s b)), combine_repeat, map_map. reflexivity. }
    destruct (E 0 bl KB) as [E1 E2]. unfold zip_eq. rewrite E1, Nat.eqb_refl. cbn [rbind]. rewrite combine_map_fst, E2. clear E E1 E2.
    f_equal. unfold enumerate. generalize (combine (seq 0 (length bl)) bl) as L0. intros L0. induction L0 as [|[i b] L0 IH]; [reflexivity|].
    cbn [map concat fst snd]. rewrite !map_app, concat_app, IH. f_equal. rewrite !map_map. unfold norm_blk. f_equal.
  - cbn [rbind]. rewrite combine_map_self. f_equal. unfold enumerate. generalize 0 as i0. clear V V' L LB KB. induction bl as [|b bl IH]; intros i0; [reflexivity|].
    cbn [length seq combine map concat fst snd]. rewrite !map_app, concat_app, (IH (S i0)). f_equal. unfold norm_blk. rewrite !map_map. reflexivity.
Qed.

Lemma blk_times f lb s k j (b : list chan) : s <> 0 -> length b = k * s ->
  map (fun cm : chan * chan => fun p => (fst cm p * snd cm p)%R) (combine b (norm_blk f lb s j b)) = induced_norm_act nl_eps f (bias_at lb j) s b /\
  length (norm_blk f lb s j b) = length b.
Proof.
  intros S0 L. unfold induced_norm_act, norm_blk. rewrite L, Nat.div_mul by auto. rewrite <- (blocks_cut s k) by auto.
  cut (forall B, (forall c, In c B -> length c = s) ->
     map (fun cm : chan * chan => fun p => (fst cm p * snd cm p)%R) (combine (concat B)
       (concat (map (fun sb => repeat (fun p => norm_mult (vnorm sb p) (shifted f (bias_at lb j) (vnorm sb p))) s) B))) =
     concat (map (norm_act nl_eps f (bias_at lb j)) B) /\
     length (concat (map (fun sb => repeat (fun p => norm_mult (vnorm sb p) (shifted f (bias_at lb j) (vnorm sb p))) s) B)) = length (concat B)).
  { intros H. specialize (H (blocks s b) (fun c => blocks_len s b c)). rewrite (blocks_join s k S0 b L) in H. rewrite <- L. exact H. }
  clear b L.
  intros B BL. revert BL.
  induction B as [|c B IH]; intros BL; [split; reflexivity|]. cbn [map concat].
  destruct IH as [I1 I2]. { intros d Hd. apply BL. cbn; auto. } rewrite !app_length, I2, repeat_length, (BL c) by (cbn; auto). split; [|reflexivity].
  rewrite combine_app by (rewrite repeat_length; apply BL; cbn; auto). rewrite map_app, I1. f_equal.
  rewrite <- (BL c) at 1 by (cbn; auto). rewrite combine_repeat, map_map. unfold norm_act, scaled. apply map_ext. intros a.
  apply functional_extensionality. intros p. cbn [fst snd]. rewrite vnorm_spec. rewrite norm_mult_spec by apply norm_of_pos. reflexivity.
Qed.
Lemma induced_one f b s (v : list chan) : s <> 0 -> length v = s -> induced_norm_act nl_eps f b s v = norm_act nl_eps f b v.
Proof.
  intros S0 L. unfold induced_norm_act. rewrite L, Nat.div_same by auto. cbn [repeat cut map concat]. rewrite app_nil_r. rewrite firstn_all2 by lia. reflexivity.
Qed.
Lemma same_refl (b : list chan) : same_chans b b.
Proof. split; auto. Qed.
End Norm.

Lemma fs_fields {G A K} (reps : list (rep G)) (kf : list (K * nat)) (key : K -> string) (d : list A) : map snd kf = map rp_size reps ->
  forall f, f < length reps -> nth_error (fields reps d) f = Some (field (map (fun p => (key (fst p), snd p)) kf) d f).
Proof.
  intros E f H. unfold fields. rewrite <- E. rewrite <- (fs_snd key kf). apply cut_field.
  rewrite map_length, <- (map_length snd kf), E, map_length. auto.
Qed.
Lemma fields_len {G A} (reps : list (rep G)) (d : list A) f b : nth_error (fields reps d) f = Some b -> f < length reps.
Proof. intros H. assert (N : nth_error (fields reps d) f <> None) by congruence. apply nth_error_Some in N. unfold fields in N. rewrite cut_len, map_length in N. auto. Qed.

Section Modules.
Context {GS G X : Type} (gs_eqb : GS -> GS -> bool) (rp_eqb : rep G -> rep G -> bool).
Notation chan := (X -> R).
Notation ftype := (ftype GS (rep G)).
Notation gtensor := (gtensor GS (rep G) chan).
Notation type_eqb := (ft_eqb gs_eqb rp_eqb).

(** the loop and the final multiplication, for both modules *)
Lemma norm_loop {K} (leb eqb : K -> K -> bool) (key : K -> string) (idx : list (string * chan_set)) (kf : list (K * nat)) (ks : K -> nat * nat)
  (f : R -> R) (lb : option (list R)) (t : ftype) (d out : list chan) :
  (forall a b, reflect (a = b) (eqb a b)) -> (forall a b, leb a b = true \/ leb b a = true) ->
  (forall a b c, leb a b = true -> leb b c = true -> leb a c = true) -> (forall a b, leb a b = true -> leb b a = true -> a = b) ->
  (forall a b, key a = key b -> a = b) ->
  map snd kf = map rp_size (ft_reps t) ->
  (forall k m, In (k, m) kf -> m = fst (ks k) * snd (ks k) /\ 0 < m) ->
  good_index (map (fun p => (key (fst p), snd p)) kf) (map fst (map (fun p => (key (fst p), snd p)) kf)) idx ->
  length d = ft_chans t -> length out = ft_chans t ->
  match lb with Some l => length l = length (ft_reps t) | None => True end ->
  exists mult, group_loop key idx idx (fun k => count_label (key k) (map (fun p => (key (fst p), snd p)) kf))
      (fun k next fm => norm_group f lb (snd (ks k)) (count_label (key k) (map (fun p => (key (fst p), snd p)) kf)) (fst (ks k)) next fm)
      d (sorted_keys leb eqb (map fst kf)) 0 out = Ok mult /\
    exists y, times d mult = Ok y /\ mk_gt rp_size y t = Ok (MkGT y t) /\ length y = nsum (map rp_size (ft_reps t)) /\
      forall i k m b, nth_error kf i = Some (k, m) -> nth_error (fields (ft_reps t) d) i = Some b ->
        nth_error (fields (ft_reps t) y) i =
        Some (induced_norm_act nl_eps f (bias_at lb (place (ltb_of leb) eqb (map fst kf) i)) (snd (ks k)) b).
Proof.
  intros eqbP TT TR AN KI ES KS GI LD LO LL. set (fs := map (fun p => (key (fst p), snd p)) kf) in *.
  assert (LK : length kf = length (ft_reps t)) by (rewrite <- (map_length snd kf), ES, map_length; auto).
  assert (LD' : length d = nsum (map snd kf)) by (rewrite LD, ES; reflexivity).
  assert (KM : forall k, In k (map fst kf) -> exists m, In (k, m) kf). { intros k Hk. apply in_map_iff in Hk as ([k' m] & <- & H). eauto. }
  destruct (grouped_sorted leb eqb key idx idx (fun k next fm => norm_group f lb (snd (ks k)) (count_label (key k) fs) (fst (ks k)) next fm) d kf kf
    (fun k => fst (ks k) * snd (ks k)) (fun k => fst (ks k) * snd (ks k)) (fun k j b => norm_blk f lb (snd (ks k)) j b)) with (out := out) as (mult & M1 & M2 & M3); auto.
  - intros k m H. apply KS; auto.
  - intros k m H. apply KS; auto.
  - intros k Hk. destruct (KM k Hk) as [m Hm]. destruct (KS k m Hm) as [-> ?]. auto.
  - intros k j b Hk Hb. destruct (KM k Hk) as [m Hm]. destruct (KS k m Hm) as [-> ?]. rewrite <- Hb. eapply (proj2 (blk_times f lb _ (fst (ks k)) j b _ Hb)).
    Unshelve. nia.
  - rewrite LO, ES. reflexivity.
  - intros k next fm bl Hk V LB NX. destruct (KM k Hk) as [m Hm]. destruct (KS k m Hm) as [E P].
    assert (C : count_label (key k) fs = length bl). { rewrite LB. apply (label_fields_keys eqb eqbP key KI). }
    rewrite C. apply norm_group_ok; auto. { nia. } destruct lb; auto. rewrite LL, LB, <- LK. auto.
  - exists mult. split; [exact M1|]. fold fs in M3.
    assert (LM : length d = length mult) by congruence. unfold times, zip_eq. rewrite LM, Nat.eqb_refl. cbn [rbind].
    eexists. split; [reflexivity|].
    assert (LY : length (map (fun cm : chan * chan => fun p => (fst cm p * snd cm p)%R) (combine d mult)) = ft_chans t) by (rewrite map_length, combine_length; lia).
    split; [apply mk_gt_fwd; auto|]. split; [auto|].
    intros i k m b Hi Hb. assert (Hl : i < length (ft_reps t)) by (apply fields_len in Hb; auto).
    rewrite (fs_fields _ kf key) in Hb |- * by auto. injection Hb as <-. f_equal. fold fs. rewrite field_map, field_combine, (M3 i k m Hi).
    apply (proj1 (blk_times f lb (snd (ks k)) (fst (ks k)) _ (field fs d i) ltac:(destruct (KS k m (nth_error_In _ _ Hi)); nia)
      ltac:(destruct (KS k m (nth_error_In _ _ Hi)) as [<- _]; eapply field_length; [unfold fs; rewrite fs_snd; auto|unfold fs; rewrite nth_error_map, Hi; reflexivity]))).
Qed.
End Modules.
