(** NormMaxPool takes every field from a pixel of its window where the norm is largest. *)
From Coq Require Import Reals ZArith String Ascii Decimal DecimalString List Bool Lia Lra Permutation FunctionalExtensionality.
From Verif Require Import Base LinAlg Spec_Fields Model_Groups Model_Rep Model_FieldType Model_Utils Model_Modules Model_GSpace Spec_GSpace Proofs_GSpace Model_Conv Proofs_Conv Proofs_Conv4 Proofs_Conv5 Proofs_Conv6
  Proofs_Tensor Model_Fieldwise Spec_Fieldwise Spec_Fieldwise2
  Proofs_FieldType Proofs_FieldType2 Proofs_Utils Proofs_Modules Proofs_Modules2 Proofs_Modules3 Proofs_Fieldwise Proofs_Fieldwise2 Proofs_Fieldwise3 Proofs_Fieldwise4 Proofs_Fieldwise5 Proofs_Fieldwise6 Proofs_Fieldwise8
  Model_Pool Spec_Pool Proofs_Pool Proofs_Pool2 Model_NormMax Spec_NormMax.
Import ListNotations.
Open Scope R_scope.

Lemma window_iff h k p d s i r : In r (window h k p d s i) <-> in_window h k p d s i r.
Proof.
  unfold window, in_window. rewrite in_flat_map. split.
  - intros (ky & K & H). apply in_seq in K. cbv zeta in H.
    destruct (Nat.leb_spec p (i * s + ky * d)); destruct (Nat.ltb_spec (i * s + ky * d) (p + h)); cbn [andb In] in H; try contradiction; destruct H as [H|[]].
    split; [lia|]. exists ky. lia.
  - intros (R & ky & K & E). exists ky. split; [apply in_seq; lia|]. cbv zeta.
    destruct (Nat.leb_spec p (i * s + ky * d)); destruct (Nat.ltb_spec (i * s + ky * d) (p + h)); cbn [andb In]; lia.
Qed.

(** ** when max_pool2d of any image of a size succeeds with the announced number of windows *)
Definition nm_legal (k s p d : nat * nat) (ceil : bool) (ho wo h w : nat) : bool :=
  (pool_legal h (fst k) (fst p) (fst d) (fst s) ceil && pool_legal w (snd k) (snd p) (snd d) (snd s) ceil &&
   some_pixel (window h (fst k) (fst p) (fst d) (fst s)) (Z.to_nat (pool_out h (fst k) (fst p) (fst d) (fst s) ceil)) &&
   some_pixel (window w (snd k) (snd p) (snd d) (snd s)) (Z.to_nat (pool_out w (snd k) (snd p) (snd d) (snd s) ceil)) &&
   (Z.to_nat (pool_out h (fst k) (fst p) (fst d) (fst s) ceil) =? ho)%nat && (Z.to_nat (pool_out w (snd k) (snd p) (snd d) (snd s) ceil) =? wo)%nat)%bool.

Section Val.
Context {GS G B : Type} (gs_eqb : GS -> GS -> bool) (rp_eqb : rep G -> rep G -> bool) (argmax : list R -> nat) (AM : argmax_ok argmax).
Notation ftype := (ftype GS (rep G)).
Notation X := (B * (nat * nat))%type.
(** the pixel chosen for the window q of an image of size h x w with values v *)
Definition winner (m : @nmaxpool GS G) (h w : nat) (v : X -> R) (q : X) : nat * nat :=
  let P := list_prod (window h (fst (np_k m)) (fst (np_p m)) (fst (np_d m)) (fst (np_s m)) (fst (snd q))) (window w (snd (np_k m)) (snd (np_p m)) (snd (np_d m)) (snd (np_s m)) (snd (snd q))) in
  nth (argmax (map (fun rc => v (fst q, rc)) P)) P (0, 0)%nat.
Definition take (m : @nmaxpool GS G) (h w : nat) (b : list (X -> R)) : list (X -> R) := map (fun (c : X -> R) q => c (fst q, winner m h w (vnorm b) q)) b.

Lemma group_ok (m : @nmaxpool GS G) h w ho wo s (fm : list (X -> R)) bl : view_fields s fm = Ok bl -> nm_legal (np_k m) (np_s m) (np_p m) (np_d m) (np_ceil m) ho wo h w = true ->
  nmax_group argmax m h w ho wo s fm = Ok (concat (map (fun p => take m h w (snd p)) (enumerate bl))).
Proof.
  intros V L. unfold nm_legal in L. rewrite !andb_true_iff, !Nat.eqb_eq in L. destruct L as [[[[[L1 L2] L3] L4] L5] L6].
  unfold nmax_group. rewrite V. cbn [rbind]. unfold max_pool2d_idx, max_pool2d. cbn [image a_h a_w]. rewrite L1, L2. cbn [andb]. rewrite L3, L4. cbn [andb rbind a_h a_w].
  rewrite L5, L6, !Nat.eqb_refl. cbn [andb a_px]. apply f_equal, f_equal. apply map_ext_in. intros [f b] H. apply enumerate_nth in H. cbn [fst snd].
  unfold take. apply map_ext. intros c. apply functional_extensionality. intros [bb [i j]]. cbn [fst snd]. unfold winner. cbn [fst snd].
  apply f_equal, f_equal. f_equal. apply f_equal. unfold at_window. apply map_ext. intros [u v]. cbn [image a_px fst snd].
  rewrite (nth_error_nth (map vnorm bl) f (fun _ => 0) (x := vnorm b)); [reflexivity|]. rewrite nth_error_map, H. reflexivity.
Qed.
Lemma group_inv (m : @nmaxpool GS G) h w ho wo s (fm z : list (X -> R)) : nmax_group argmax m h w ho wo s fm = Ok z -> nm_legal (np_k m) (np_s m) (np_p m) (np_d m) (np_ceil m) ho wo h w = true.
Proof.
  unfold nmax_group. intros H. apply rbind_ok in H as (bl & V & H). apply rbind_ok in H as (idx & I & H). unfold max_pool2d_idx in I. apply rbind_ok in I as (y & I & E).
  injection E as <-. cbn [a_h a_w] in H. unfold max_pool2d in I. cbn [image a_h a_w] in I.
  match type of I with (if ?c then _ else _) = _ => destruct c eqn:L1; [|discriminate] end. cbv zeta in I. match type of I with (if ?c then _ else _) = _ => destruct c eqn:L2; [|discriminate] end. unfold nm_legal. injection I as <-. cbn [a_h a_w] in H.
  match type of H with (if ?c then _ else _) = _ => destruct c eqn:L3; [|discriminate] end. apply andb_true_iff in L1 as [? ?], L2 as [? ?], L3 as [? ?]. rewrite !andb_true_iff. auto 8.
Qed.

Lemma chans_len n (x : arr (B -> vec)) : length (chans n x) = n.
Proof. unfold chans. rewrite map_length, seq_length. reflexivity. Qed.
Lemma chans_val n (x : arr (B -> vec)) c b u v : (c < n)%nat -> val (chans n x) c (b, (u, v)) = a_px x u v b c.
Proof.
  intros H. unfold val, chans. rewrite (nth_error_nth _ c (fun _ => 0) (x := fun q => a_px x (fst (snd q)) (snd (snd q)) (fst q) c)); [reflexivity|].
  rewrite nth_error_map. rewrite (nth_error_nth' (seq 0 n) 0%nat) by (rewrite seq_length; auto). rewrite seq_nth by auto. reflexivity.
Qed.

Lemma loop_value t m ho wo junk (x : arr (B -> vec)) idx : np_in m = t -> group_index (by_size t) = Ok idx -> np_idx m = idx -> size_pos t ->
  nm_legal (np_k m) (np_s m) (np_p m) (np_d m) (np_ceil m) ho wo (a_h x) (a_w x) = true ->
  exists l, group_loop py_str (np_idx m) (np_idx m) (fun _ => 0%nat) (fun s _ fm => nmax_group argmax m (a_h x) (a_w x) ho wo s fm)
            (chans (ft_chans t) x) (first_seen Nat.eqb (map rp_size (ft_reps t))) 0 (empty junk (ft_chans t)) = Ok l /\
    fieldwise (ft_reps t) (ft_reps t) (fun _ => take m (a_h x) (a_w x)) (chans (ft_chans t) x) l.
Proof.
  intros E GI EI SP L. rewrite EI. apply group_index_good in GI. rewrite by_size_kf in GI.
  destruct (grouped_loop Nat.eqb py_str idx idx (fun _ => 0%nat) (fun s _ fm => nmax_group argmax m (a_h x) (a_w x) ho wo s fm) (chans (ft_chans t) x) (kf_size t) (kf_size t)
    (fun s => s) (fun s => s) (fun _ _ b => take m (a_h x) (a_w x) b) (first_seen Nat.eqb (map rp_size (ft_reps t)))) with (out := empty junk (ft_chans t)) as (y & Y1 & Y2 & Y3); auto.
  - apply Nat.eqb_spec. - apply py_str_inj.
  - intros k q H. apply kf_size_in in H as (-> & ?). auto.
  - intros k q H. apply kf_size_in in H as (-> & ?). auto.
  - intros k Hk. apply (proj1 (first_seen_in Nat.eqb Nat.eqb_spec k _)) in Hk. apply in_map_iff in Hk as (r & <- & Hr). auto.
  - apply first_seen_nodup, Nat.eqb_spec.
  - intros k. rewrite kf_size_fst. apply first_seen_in, Nat.eqb_spec.
  - intros k j b _ LB. unfold take. rewrite map_length. auto.
  - rewrite chans_len, kf_size_snd. reflexivity.
  - rewrite empty_length, kf_size_snd. reflexivity.
  - intros pre k post fm bl _ V _. apply group_ok; auto.
  - exists y. split; [exact Y1|]. split; [reflexivity|]. split; [rewrite Y2; apply empty_length|]. intros f b Hb. pose proof (fields_len _ _ _ _ Hb) as Hf.
    destruct (nth_error (ft_reps t) f) as [r|] eqn:Er; [|apply nth_error_None in Er; lia].
    rewrite (fs_fields _ (kf_size t) py_str) in Hb by (auto using kf_size_snd). injection Hb as <-.
    eexists. split; [apply (fs_fields _ (kf_size t) py_str); auto using kf_size_snd|].
    assert (Hk : In (rp_size r) (first_seen Nat.eqb (map rp_size (ft_reps t)))).
    { apply first_seen_in; [apply Nat.eqb_spec|]. apply in_map. eapply nth_error_In; eauto. }
    apply in_split in Hk as (pre & post & EO). rewrite (Y3 pre _ post f _ EO (kf_size_nth _ _ _ Er)). apply same_refl.
Qed.

Lemma some_pixel_in w n i : some_pixel w n = true -> (i < n)%nat -> w i <> [].
Proof. unfold some_pixel. rewrite forallb_forall. intros H Hi E. specialize (H i). rewrite in_seq, E in H. cbn in H. specialize (H ltac:(lia)). discriminate. Qed.
Lemma winner_spec m h w ho wo v q : nm_legal (np_k m) (np_s m) (np_p m) (np_d m) (np_ceil m) ho wo h w = true -> (fst (snd q) < ho)%nat -> (snd (snd q) < wo)%nat ->
  in_window h (fst (np_k m)) (fst (np_p m)) (fst (np_d m)) (fst (np_s m)) (fst (snd q)) (fst (winner m h w v q)) /\
  in_window w (snd (np_k m)) (snd (np_p m)) (snd (np_d m)) (snd (np_s m)) (snd (snd q)) (snd (winner m h w v q)) /\
  forall u' v', in_window h (fst (np_k m)) (fst (np_p m)) (fst (np_d m)) (fst (np_s m)) (fst (snd q)) u' ->
    in_window w (snd (np_k m)) (snd (np_p m)) (snd (np_d m)) (snd (np_s m)) (snd (snd q)) v' -> v (fst q, (u', v')) <= v (fst q, winner m h w v q).
Proof.
  intros L H1 H2. unfold nm_legal in L. rewrite !andb_true_iff, !Nat.eqb_eq in L. destruct L as [[[[[_ _] L3] L4] L5] L6]. rewrite L5 in L3. rewrite L6 in L4.
  pose proof (some_pixel_in _ _ _ L3 H1) as N1. pose proof (some_pixel_in _ _ _ L4 H2) as N2. unfold winner. cbv zeta.
  set (rows := window h _ _ _ _ _) in *. set (cols := window w _ _ _ _ _) in *. set (P := list_prod rows cols).
  assert (NP : map (fun rc => v (fst q, rc)) P <> []).
  { unfold P. destruct rows as [|a rows']; [congruence|]. destruct cols as [|c cols']; [congruence|]. cbn. discriminate. }
  destruct (AM _ NP) as [A1 A2]. rewrite map_length in A1. set (n := argmax _) in *.
  assert (IN : In (nth n P (0, 0)%nat) P) by (apply nth_In; auto). destruct (nth n P (0, 0)%nat) as [u v0] eqn:EQ. cbn [fst snd]. pose proof IN as IN'. unfold P in IN'. apply in_prod_iff in IN' as [I1 I2].
  split; [apply window_iff; exact I1|]. split; [apply window_iff; exact I2|]. intros u' v' W1 W2. apply window_iff in W1, W2.
  assert (IP : In (u', v') P) by (apply in_prod; auto). destruct (In_nth _ _ (0, 0)%nat IP) as (k & K1 & K2).
  specialize (A2 k ltac:(rewrite map_length; auto)). rewrite !(nth_indep _ 0 (v (fst q, (0, 0)%nat))) in A2 by (rewrite map_length; auto).
  rewrite !(map_nth (fun rc => v (fst q, rc))) in A2. rewrite K2, EQ in A2. exact A2.
Qed.
Lemma field_norm t (x : arr (B -> vec)) f r b u v bb : nth_error (ft_reps t : list (rep G)) f = Some r -> nth_error (fields (ft_reps t) (chans (@ft_chans GS G t) x)) f = Some b ->
  (forall a, (a < rp_size r)%nat -> val b a (bb, (u, v)) = a_px x u v bb (start (ft_reps t) f + a)%nat) /\ vnorm b (bb, (u, v)) = sqrt (norm2 (rp_size r) (start (ft_reps t) f) (a_px x u v bb)).
Proof.
  intros Hr Hb. destruct (fields_val _ _ _ _ _ (chans_len (ft_chans t) x) Hr Hb) as [LB VB].
  assert (V : forall a, (a < rp_size r)%nat -> val b a (bb, (u, v)) = a_px x u v bb (start (ft_reps t) f + a)%nat).
  { intros a Ha. rewrite VB by auto. change (field_offset (ft_reps t) f) with (start (ft_reps t) f). apply chans_val.
    assert (Hf : (f < length (ft_reps t))%nat) by (apply nth_error_Some; congruence).
    pose proof (field_lt 1 ltac:(lia) (ft_reps t) f r a (length (ft_reps t)) Hr Ha Hf) as Q. unfold field_offset in Q at 2. rewrite firstn_all in Q. exact Q. }
  split; [exact V|]. rewrite vnorm_spec. unfold norm_of, norm2. rewrite LB. apply f_equal, rsum_ext. intros a Ha. rewrite V by auto. reflexivity.
Qed.
Lemma norm2_nonneg n o v : 0 <= norm2 n o v.
Proof. unfold norm2. apply rsum_nonneg. intros. apply Rle_0_sqr. Qed.

Lemma forward_inv t k s p d ceil m junk (x y : arr (B -> vec)) t' : nmaxpool_make t k s p d ceil = Ok m -> ft_reps t <> [] ->
  nmaxpool_forward gs_eqb rp_eqb argmax junk m t x = Ok (y, t') ->
  ft_eqb gs_eqb rp_eqb t t = true /\ t' = t /\ (fst (np_s m) <> 0 /\ snd (np_s m) <> 0)%nat /\
  (0 <= announced (Z.of_nat (a_h x)) (fst (np_k m)) (fst (np_p m)) (fst (np_d m)) (fst (np_s m)) false)%Z /\
  (0 <= announced (Z.of_nat (a_w x)) (snd (np_k m)) (snd (np_p m)) (snd (np_d m)) (snd (np_s m)) false)%Z /\
  Z.of_nat (a_h y) = announced (Z.of_nat (a_h x)) (fst (np_k m)) (fst (np_p m)) (fst (np_d m)) (fst (np_s m)) false /\
  Z.of_nat (a_w y) = announced (Z.of_nat (a_w x)) (snd (np_k m)) (snd (np_p m)) (snd (np_d m)) (snd (np_s m)) false /\
  nm_legal (np_k m) (np_s m) (np_p m) (np_d m) (np_ceil m) (a_h y) (a_w y) (a_h x) (a_w x) = true.
Proof.
  intros M Hne F. unfold nmaxpool_make in M. apply rbind_ok in M as (idx & GI & M). injection M as <-.
  unfold nmaxpool_forward in F. apply assert_ok in F as [TE F]. cbn [np_in] in TE. apply rbind_ok in F as (sh & S & F). unfold nmaxpool_shape, pool_shape in S. apply assert_ok in S as [_ S].
  match type of S with (if ?c then _ else _) = _ => destruct c eqn:S0; [discriminate|] end. injection S as <-. apply orb_false_iff in S0 as [S1 S2]. apply Nat.eqb_neq in S1, S2.
  match type of F with (if ?c then _ else _) = _ => destruct c eqn:N0; [discriminate|] end. apply orb_false_iff in N0 as [N1 N2]. apply Z.ltb_ge in N1, N2.
  apply rbind_ok in F as (l & Lp & E). injection E as <- <-. cbn [np_in image a_h a_w]. rewrite !Z2Nat.id by auto.
  do 7 (split; [auto|]). destruct (ft_reps t) as [|r0 reps] eqn:ER; [congruence|]. cbn [np_in] in Lp. rewrite ER in Lp. cbn [map] in Lp.
  destruct (first_seen Nat.eqb (rp_size r0 :: map rp_size reps)) as [|s0 order] eqn:FS.
  { assert (I : In (rp_size r0) (first_seen Nat.eqb (rp_size r0 :: map rp_size reps))) by (apply first_seen_in; [apply Nat.eqb_spec|now left]). rewrite FS in I. destruct I. }
  cbn [group_loop] in Lp. apply rbind_ok in Lp as (ci & _ & Lp). apply rbind_ok in Lp as (fm & _ & Lp). apply rbind_ok in Lp as (vals & O & _). apply group_inv in O. exact O.
Qed.
Lemma forward_ok t k s p d ceil m junk (x : arr (B -> vec)) ho wo : nmaxpool_make t k s p d ceil = Ok m -> size_pos t ->
  ft_eqb gs_eqb rp_eqb t t = true -> (fst (np_s m) <> 0 /\ snd (np_s m) <> 0)%nat ->
  Z.of_nat ho = announced (Z.of_nat (a_h x)) (fst (np_k m)) (fst (np_p m)) (fst (np_d m)) (fst (np_s m)) false ->
  Z.of_nat wo = announced (Z.of_nat (a_w x)) (snd (np_k m)) (snd (np_p m)) (snd (np_d m)) (snd (np_s m)) false ->
  nm_legal (np_k m) (np_s m) (np_p m) (np_d m) (np_ceil m) ho wo (a_h x) (a_w x) = true ->
  exists y, nmaxpool_forward gs_eqb rp_eqb argmax junk m t x = Ok (y, t) /\ a_h y = ho /\ a_w y = wo /\ norm_pooled (ft_reps t) (np_k m) (np_s m) (np_p m) (np_d m) x y /\
    forall i j b f r bl, (i < ho)%nat -> (j < wo)%nat -> nth_error (ft_reps t) f = Some r -> nth_error (fields (ft_reps t) (chans (ft_chans t) x)) f = Some bl ->
    forall a, (a < rp_size r)%nat -> let w := winner m (a_h x) (a_w x) (vnorm bl) (b, (i, j)) in a_px y i j b (start (ft_reps t) f + a)%nat = a_px x (fst w) (snd w) b (start (ft_reps t) f + a)%nat.
Proof.
  intros M SP TE [S1 S2] A1 A2 L. unfold nmaxpool_make in M. apply rbind_ok in M as (idx & GI & M).
  assert (E1 : np_in m = t) by (injection M as <-; reflexivity). assert (E2 : np_idx m = idx) by (injection M as <-; reflexivity). clear M.
  unfold nmaxpool_forward. rewrite E1, TE. cbn [assert_]. unfold nmaxpool_shape, pool_shape. rewrite E1, Z.eqb_refl. cbn [assert_].
  destruct (Nat.eqb_spec (fst (np_s m)) 0); [contradiction|]. destruct (Nat.eqb_spec (snd (np_s m)) 0); [contradiction|]. cbn [orb rbind].
  rewrite <- A1, <- A2. destruct (Z.ltb_spec (Z.of_nat ho) 0); [lia|]. destruct (Z.ltb_spec (Z.of_nat wo) 0); [lia|]. cbn [orb]. rewrite !Nat2Z.id.
  destruct (loop_value t m ho wo junk x idx E1 GI E2 SP L) as (l & Lp & LL & LN & FW). rewrite Lp. cbn [rbind]. eexists. split; [reflexivity|]. split; [reflexivity|]. split; [reflexivity|].
  assert (TK : forall i j b f r bl, (i < ho)%nat -> (j < wo)%nat -> nth_error (ft_reps t) f = Some r -> nth_error (fields (ft_reps t) (chans (ft_chans t) x)) f = Some bl ->
    forall a, (a < rp_size r)%nat -> let w := winner m (a_h x) (a_w x) (vnorm bl) (b, (i, j)) in
      a_px (image ho wo l) i j b (start (ft_reps t) f + a)%nat = a_px x (fst w) (snd w) b (start (ft_reps t) f + a)%nat).
  { intros i j b f r bl Hi Hj Hr HB a Ha w.
    destruct (FW f bl HB) as (b' & HB' & LB' & VB'). destruct (fields_val _ _ _ _ _ LN Hr HB') as [LB1 VB1]. destruct (fields_val _ _ _ _ _ (chans_len (ft_chans t) x) Hr HB) as [LB2 _].
    transitivity (val l (field_offset (ft_reps t) f + a) (b, (i, j))); [reflexivity|]. rewrite <- VB1 by auto. rewrite VB' by lia.
    unfold take, val. set (F := fun (c : X -> R) q => c (fst q, winner m (a_h x) (a_w x) (vnorm bl) q)).
    assert (EF : nth a (map F bl) (fun _ => 0) = F (nth a bl (fun _ => 0))) by (apply (map_nth F bl (fun _ => 0) a)). rewrite EF. unfold F. cbn [fst]. fold w. destruct w as [u v].
    apply (proj1 (field_norm t x f r bl u v b Hr HB) a Ha). }
  split; [|exact TK]. intros i j b f r Hi Hj Hr. cbn [image a_h a_w] in Hi, Hj.
  assert (Hf : (f < length (ft_reps t))%nat) by (apply nth_error_Some; congruence).
  assert (HB : exists bl, nth_error (fields (ft_reps t) (chans (ft_chans t) x)) f = Some bl).
  { rewrite (fs_fields _ (kf_size t) py_str) by (auto using kf_size_snd). eauto. } destruct HB as [bl HB].
  destruct (winner_spec m (a_h x) (a_w x) ho wo (vnorm bl) (b, (i, j)) L Hi Hj) as (W1 & W2 & W3). cbn [fst snd] in W1, W2, W3.
  destruct (winner m (a_h x) (a_w x) (vnorm bl) (b, (i, j))) as [u v] eqn:EW. cbn [fst snd] in W1, W2. exists u, v. split.
  - split; [split; auto|]. intros u' v' [I1 I2]. specialize (W3 u' v' I1 I2). destruct (field_norm t x f r bl u v b Hr HB) as [_ F1]. destruct (field_norm t x f r bl u' v' b Hr HB) as [_ F2].
    rewrite F1, F2 in W3. apply sqrt_le_0; auto using norm2_nonneg.
  - intros a Ha. pose proof (TK i j b f r bl Hi Hj Hr HB a Ha) as E. cbv zeta in E. rewrite EW in E. exact E.
Qed.
End Val.
