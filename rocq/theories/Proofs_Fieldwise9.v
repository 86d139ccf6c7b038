(** Equivariance of the modules that treat every field separately. *)
From Coq Require Import Reals ZArith String List Bool Lia Lra FunctionalExtensionality.
From Verif Require Import Base Spec_Fields Model_Groups Model_Rep Model_FieldType Model_Tensor Model_Utils Model_Fieldwise Spec_Fieldwise Spec_Fieldwise2
  Proofs_FieldType Proofs_Tensor Proofs_Utils Proofs_Fieldwise Proofs_Fieldwise2 Proofs_Fieldwise3 Proofs_Fieldwise4 Proofs_Fieldwise5 Proofs_Fieldwise6
  Proofs_Fieldwise7 Proofs_Fieldwise8.
Import ListNotations.
Open Scope R_scope.

Lemma follows_nil {X} (pi : X -> X) : follows pi [] [].
Proof. split; [reflexivity|]. intros [|a] p; reflexivity. Qed.
Lemma follows_app {X} (pi : X -> X) b b' c c' : follows pi b b' -> follows pi c c' -> follows pi (b ++ c) (b' ++ c').
Proof.
  intros [L H] [L' H']. split; [rewrite !app_length; lia|]. intros a p. unfold val in *. destruct (Nat.lt_ge_cases a (length b)).
  - rewrite !app_nth1 by lia. apply H.
  - rewrite !app_nth2 by lia. rewrite <- L. apply H'.
Qed.
Lemma channels_where_follows {X B} (pi : X -> X) (sel : B -> bool) : forall labels (fs fs' : list (list (X -> R))), length fs = length fs' ->
  (forall f l b b', nth_error labels f = Some l -> sel l = true -> nth_error fs f = Some b -> nth_error fs' f = Some b' -> follows pi b b') ->
  follows pi (channels_where sel labels fs) (channels_where sel labels fs').
Proof.
  unfold channels_where. induction labels as [|l labels IH]; intros [|b fs] [|b' fs'] L H; try discriminate; try apply follows_nil.
  cbn [combine filter fst]. assert (IH' : follows pi (concat (map snd (filter (fun p => sel (fst p)) (combine labels fs)))) (concat (map snd (filter (fun p => sel (fst p)) (combine labels fs'))))).
  { apply IH; [cbn in L; lia|]. intros f l0 c c' H1 H2 H3 H4. apply (H (S f) l0); auto. }
  destruct (sel l) eqn:E; [|exact IH']. cbn [map snd concat]. apply follows_app; [|exact IH']. apply (H O l); auto.
Qed.

Lemma ids_nth {G} pre (reps : list (rep G)) ids f r : rmap (field_id pre) reps = Ok ids -> nth_error reps f = Some r ->
  field_id pre r = Ok (nth f ids (0, 0)%nat) /\ fst (nth f ids (0, 0)%nat) = rp_size r.
Proof.
  intros H Hr. apply rmap_all in H. revert f Hr. induction H as [|q i rs is H _ IH]; intros [|f] Hr; try discriminate.
  - injection Hr as ->. cbn [nth]. split; auto. apply field_id_ok in H. tauto.
  - apply IH. exact Hr.
Qed.

Section Modules.
Context {GS G X : Type} (fits : GS -> rep G -> bool) (gs_eqb : GS -> GS -> bool) (rp_eqb : rep G -> rep G -> bool)
        (is_triv : rep G -> bool) (trivial_repr : GS -> rep G).
Notation chan := (X -> R).
Notation ftype := (ftype GS (rep G)).
Notation gtensor := (gtensor GS (rep G) chan).
Implicit Types (t : ftype) (x y : gtensor) (pi : X -> X) (g : G).

Lemma trivial_acts (reps : list (rep G)) g pi (d d' : list chan) : length d = nsum (map rp_size reps) ->
  (forall r, In r reps -> rp_size r = 1%nat /\ rp_mat r g 0%nat 0%nat = 1) -> acts reps g pi d d' -> follows pi d d'.
Proof.
  intros L H (L' & t' & T & V). split; [auto|]. intros a p. destruct (Nat.lt_ge_cases a (length d)) as [Ha|Ha].
  - rewrite V by auto. rewrite L in Ha. destruct (channel_in_field reps a Ha) as (f & r & e & Hr & He & ->).
    destruct (H r (nth_error_In _ _ Hr)) as [H1 H2]. rewrite (transform_fieldwise _ _ _ _ T p f r e Hr He). rewrite H1 in *. assert (e = 0)%nat by lia. subst e.
    cbn [rsum]. rewrite H2. ring.
  - unfold val. rewrite !nth_overflow by lia. reflexivity.
Qed.
Lemma gate_follows pi (c c' : chan) b : (forall p, c' p = c (pi p)) -> forall p, gate c' b p = gate c b (pi p).
Proof. intros H p. unfold gate. rewrite H. reflexivity. Qed.

Lemma norm_equiv t fn bias m lb g pi junk junk' x x' : norm_make t fn bias = Ok m -> ft_reps t <> [] -> size_pos t -> same_shape (nn_logb m) lb ->
  typed gs_eqb rp_eqb t x -> typed gs_eqb rp_eqb t x' -> (forall r, In r (ft_reps t) -> orthogonal (rp_size r) (rp_mat r g)) ->
  acts (ft_reps t) g pi (gt_data x) (gt_data x') ->
  exists y y', norm_forward gs_eqb rp_eqb junk (set_logb m lb) x = Ok y /\ norm_forward gs_eqb rp_eqb junk' (set_logb m lb) x' = Ok y' /\
    gt_type y = t /\ gt_type y' = t /\ acts (ft_reps t) g pi (gt_data y) (gt_data y').
Proof.
  intros MK NE SP SS TX TX' O A. destruct (norm_fieldwise gs_eqb rp_eqb t fn bias m lb junk x MK SP SS TX) as (y & F & T & W).
  destruct (norm_fieldwise gs_eqb rp_eqb t fn bias m lb junk' x' MK SP SS TX') as (y' & F' & T' & W').
  exists y, y'. split; [auto|]. split; [auto|]. split; [auto|]. split; [auto|]. eapply fieldwise_acts; [exact NE|apply TX|exact A|exact W|exact W'|].
  intros f r r' b b' Hr Hr' Hb Hb' M. rewrite Hr in Hr'. injection Hr' as <-. cbn beta. apply moved_norm_act; auto. apply O. eapply nth_error_In; eauto.
Qed.

Lemma inorm_equiv t fn bias m lb g pi junk junk' x x' : inorm_make t fn bias = Ok m -> ft_reps t <> [] -> size_pos t -> same_shape (in_logb m) lb ->
  typed gs_eqb rp_eqb t x -> typed gs_eqb rp_eqb t x' ->
  (forall r S s, In r (ft_reps t) -> field_id "induced_norm" r = Ok (S, s) -> is_block_perm (S / s) s (rp_mat r g)) ->
  acts (ft_reps t) g pi (gt_data x) (gt_data x') ->
  exists y y', inorm_forward gs_eqb rp_eqb junk (set_ilogb m lb) x = Ok y /\ inorm_forward gs_eqb rp_eqb junk' (set_ilogb m lb) x' = Ok y' /\
    gt_type y = t /\ gt_type y' = t /\ acts (ft_reps t) g pi (gt_data y) (gt_data y').
Proof.
  intros MK NE SP SS TX TX' O A. destruct (inorm_fieldwise gs_eqb rp_eqb t fn bias m lb junk x MK SP SS TX) as (y & F & T & ID & W).
  destruct (inorm_fieldwise gs_eqb rp_eqb t fn bias m lb junk' x' MK SP SS TX') as (y' & F' & T' & _ & W').
  exists y, y'. split; [auto|]. split; [auto|]. split; [auto|]. split; [auto|]. eapply fieldwise_acts; [exact NE|apply TX|exact A|exact W|exact W'|].
  intros f r r' b b' Hr Hr' Hb Hb' M. rewrite Hr in Hr'. injection Hr' as <-. cbn beta.
  destruct (ids_nth _ _ _ _ _ ID Hr) as [I1 I2]. destruct (nth f (in_ids m) (0, 0)%nat) as [S s] eqn:EI. cbn [fst snd] in *.
  destruct (field_id_ok _ _ _ I1) as (J1 & J2 & J3). cbn [fst snd] in *.
  assert (ES : rp_size r = (S / s * s)%nat) by (rewrite <- J1; pose proof (Nat.div_mod S s J2); lia).
  rewrite ES in *. apply moved_induced; auto. apply (O r S s); auto. eapply nth_error_In; eauto.
Qed.

Lemma gated2_equiv tg t bias m b g pi junk junk' gx gx' x x' :
  (forall r, is_triv r = true -> rp_size r = 1%nat /\ rp_mat r g 0%nat 0%nat = 1) ->
  gated2_make gs_eqb is_triv tg t bias = Ok m -> ft_reps t <> [] -> size_pos t -> length b = length (g2_bias m) ->
  typed gs_eqb rp_eqb tg gx -> typed gs_eqb rp_eqb tg gx' -> typed gs_eqb rp_eqb t x -> typed gs_eqb rp_eqb t x' ->
  acts (ft_reps tg) g pi (gt_data gx) (gt_data gx') -> acts (ft_reps t) g pi (gt_data x) (gt_data x') ->
  exists y y', gated2_forward gs_eqb rp_eqb junk (set_bias2 m b) gx x = Ok y /\ gated2_forward gs_eqb rp_eqb junk' (set_bias2 m b) gx' x' = Ok y' /\
    gt_type y = t /\ gt_type y' = t /\ acts (ft_reps t) g pi (gt_data y) (gt_data y').
Proof.
  intros TR MK NE SP SS TG TG' TX TX' AG A.
  destruct (gated2_fieldwise gs_eqb rp_eqb is_triv tg t bias m b junk gx x (fun r H => proj1 (TR r H)) MK SP SS TG TX) as (y & F & T & W).
  destruct (gated2_fieldwise gs_eqb rp_eqb is_triv tg t bias m b junk' gx' x' (fun r H => proj1 (TR r H)) MK SP SS TG' TX') as (y' & F' & T' & W').
  exists y, y'. split; [auto|]. split; [auto|]. split; [auto|]. split; [auto|]. eapply fieldwise_acts; [exact NE|apply TX|exact A|exact W|exact W'|].
  intros f r r' c c' Hr Hr' Hc Hc' M. rewrite Hr in Hr'. injection Hr' as <-. cbv zeta beta.
  assert (FO : follows pi (gt_data gx) (gt_data gx')).
  { eapply trivial_acts; [apply TG| |exact AG]. unfold gated2_make in MK. apply assert_ok in MK as [_ MK]. apply assert_ok in MK as [MK _]. rewrite forallb_forall in MK. auto. }
  apply moved_scaled; auto. apply gate_follows. apply (proj2 FO).
Qed.

Lemma gated1_labels t gates drop bias m gs : gated1_make fits is_triv t gates drop bias = Ok m -> gate_labels gates (length (ft_reps t)) = Ok gs ->
  forall f r l, nth_error gs f = Some l -> nth_error (ft_reps t) f = Some r -> (l = GATES /\ is_triv r = true) \/ l = GATED.
Proof.
  intros MK GL f r l Hl Hr. unfold gated1_make in MK. rewrite GL in MK. cbn [rbind] in MK. apply rbind_ok in MK as (us & CK & _). apply rmap_all in CK.
  assert (HI : nth_error (combine gs (ft_reps t)) f = Some (l, r)).
  { clear -Hl Hr. revert f Hl Hr. generalize (ft_reps t). induction gs as [|g gs IH]; intros [|q rs] [|f] Hl Hr; try discriminate; cbn in *; [congruence|]. apply IH; auto. }
  apply nth_error_In in HI. clear -CK HI. induction CK as [|p q ps qs H _ IH]; [destruct HI|]. destruct HI as [->|HI]; auto. cbn [fst snd] in H.
  destruct (String.eqb_spec l GATES) as [El|N]; [apply assert_ok in H as [H _]; auto|]. destruct (String.eqb_spec l GATED) as [El|N']; [auto|discriminate].
Qed.
Lemma filter_nth_inv {A B} (P : A -> bool) : forall (l : list A) (rs : list B) f' r, length l = length rs ->
  nth_error (map snd (filter (fun p => P (fst p)) (combine l rs))) f' = Some r ->
  exists f a, nth_error l f = Some a /\ P a = true /\ nth_error rs f = Some r /\ length (filter P (firstn f l)) = f'.
Proof.
  induction l as [|a l IH]; intros [|q rs] f' r L H; try discriminate; [destruct f'; discriminate|].
  cbn [combine filter fst] in H. destruct (P a) eqn:E.
  - cbn [map snd] in H. destruct f' as [|f']; [injection H as ->; exists O, a; auto|]. destruct (IH rs f' r ltac:(cbn in L; lia) H) as (f & a' & H1 & H2 & H3 & H4).
    exists (S f), a'. cbn [nth_error firstn filter]. rewrite E. cbn [length]. auto.
  - destruct (IH rs f' r ltac:(cbn in L; lia) H) as (f & a' & H1 & H2 & H3 & H4). exists (S f), a'. cbn [nth_error firstn filter]. rewrite E. auto.
Qed.
Lemma gated1_equiv t gates drop bias m b g pi junk junk' x x' :
  (forall r, is_triv r = true -> rp_size r = 1%nat /\ rp_mat r g 0%nat 0%nat = 1) ->
  gated1_make fits is_triv t gates drop bias = Ok m -> ft_reps (g1_out m) <> [] -> size_pos t -> length b = length (g1_bias m) ->
  typed gs_eqb rp_eqb t x -> typed gs_eqb rp_eqb t x' -> acts (ft_reps t) g pi (gt_data x) (gt_data x') ->
  exists y y', gated1_forward gs_eqb rp_eqb junk (set_bias1 m b) x = Ok y /\ gated1_forward gs_eqb rp_eqb junk' (set_bias1 m b) x' = Ok y' /\
    gt_type y = g1_out m /\ gt_type y' = g1_out m /\ acts (ft_reps (g1_out m)) g pi (gt_data y) (gt_data y').
Proof.
  intros TR MK NE SP SS TX TX' A. assert (GL : exists gs, gate_labels gates (length (ft_reps t)) = Ok gs).
  { unfold gated1_make in MK. apply rbind_ok in MK as (gs & GL & _). eauto. }
  destruct GL as [gs GL]. pose proof (gate_labels_len _ _ _ GL) as LG. pose proof (gated1_labels _ _ _ _ _ _ MK GL) as LB.
  destruct (gated1_fieldwise fits gs_eqb rp_eqb is_triv (fun r H => proj1 (TR r H)) t gates drop bias m gs b junk x MK GL SP SS TX) as (y & F & T & L & O & W1 & W2).
  destruct (gated1_fieldwise fits gs_eqb rp_eqb is_triv (fun r H => proj1 (TR r H)) t gates drop bias m gs b junk' x' MK GL SP SS TX') as (y' & F' & T' & L' & _ & W1' & W2').
  exists y, y'. split; [auto|]. split; [auto|]. split; [auto|]. split; [auto|].
  assert (FO : follows pi (channels_where isgate gs (fields (ft_reps t) (gt_data x))) (channels_where isgate gs (fields (ft_reps t) (gt_data x')))).
  { apply channels_where_follows; [unfold fields; rewrite !cut_len; auto|]. intros f l c c' Hl Sl Hc Hc'.
    pose proof (fields_len _ _ _ _ Hc) as Hf. destruct (nth_error (ft_reps t) f) as [r|] eqn:Hr; [|apply nth_error_None in Hr; lia].
    destruct (LB f r l Hl Hr) as [[El Tr]|El]; [|subst l; discriminate]. destruct (TR r Tr) as [T1 T2].
    pose proof (acts_moved _ _ _ _ _ (proj2 TX) A f r c c' Hr Hc Hc') as M. rewrite T1 in M. pose proof (trivial_moved _ _ _ _ T2 M) as V. destruct M as (M1 & M2 & _).
    split; [congruence|]. intros [|a] p; [apply V|]. unfold val. rewrite !nth_overflow by lia. reflexivity. }
  apply moved_acts; auto. intros f' r' c c' Hr' Hc Hc'.
  assert (CASE : exists f l, nth_error gs f = Some l /\ nth_error (ft_reps t) f = Some r' /\ ((l <> GATES /\ f' = if drop then before isgated gs f else f) \/ (l = GATES /\ drop = false /\ f' = f))).
  { destruct drop.
    - rewrite O in Hr'. destruct (filter_nth_inv isgated gs (ft_reps t) f' r' LG Hr') as (f & l & H1 & H2 & H3 & H4). exists f, l. split; [auto|]. split; [auto|]. left.
      split; [|symmetry; exact H4]. intros ->. discriminate.
    - rewrite O in Hr'. assert (f' < length gs)%nat by (rewrite LG; apply nth_error_Some; congruence). destruct (nth_error gs f') as [l|] eqn:E; [|apply nth_error_None in E; lia].
      exists f', l. split; [auto|]. split; [auto|]. destruct (String.eqb_spec l GATES); auto. }
  destruct CASE as (f & l & Hl & Hr & CASE). destruct (fields_at (ft_reps t) (gt_data x) f r' Hr) as [v Hv]. destruct (fields_at (ft_reps t) (gt_data x') f r' Hr) as [v' Hv'].
  pose proof (acts_moved _ _ _ _ _ (proj2 TX) A f r' v v' Hr Hv Hv') as M. destruct CASE as [[NG Ef]|(El & Ed & Ef)].
  - subst f'. destruct (W1 f l v Hl NG Hv) as (w & Ew & Sw). destruct (W1' f l v' Hl NG Hv') as (w' & Ew' & Sw'). rewrite Ew in Hc. rewrite Ew' in Hc'. injection Hc as ->. injection Hc' as ->.
    cbv zeta in Sw, Sw'. eapply moved_same; [exact Sw|exact Sw'|]. apply moved_scaled; auto. apply gate_follows. apply (proj2 FO).
  - subst l drop f'. specialize (W2 f eq_refl Hl). specialize (W2' f eq_refl Hl). cbv zeta in W2, W2'. rewrite O in Hc, Hc'. rewrite W2 in Hc. rewrite W2' in Hc'. injection Hc as <-. injection Hc' as <-.
    destruct (LB f r' GATES Hl Hr) as [[_ Tr]|]; [|discriminate]. destruct (TR r' Tr) as [T1 T2]. rewrite T1. apply moved_trivial; auto. apply gate_follows. apply (proj2 FO).
Qed.

(** * Pointwise *)
Lemma cut_map {A B} (h : A -> B) : forall ss (d : list A), cut ss (map h d) = map (map h) (cut ss d).
Proof. induction ss as [|s ss IH]; intros d; [reflexivity|]. cbn [cut map]. rewrite firstn_map, skipn_map, IH. reflexivity. Qed.
Lemma pointwise_fieldwise (m : pointwise) x : typed gs_eqb rp_eqb (pw_in m) x -> exists y, pointwise_forward gs_eqb rp_eqb m x = Ok y /\ gt_type y = pw_in m /\
  fieldwise (ft_reps (pw_in m)) (ft_reps (pw_in m)) (fun _ b => map (fun c : chan => fun p => pw_fun m (c p)) b) (gt_data x) (gt_data y).
Proof.
  intros [TY LX]. unfold pointwise_forward. rewrite TY. cbn [assert_]. rewrite mk_gt_fwd by (rewrite map_length; exact LX). eexists. split; [reflexivity|]. split; [reflexivity|].
  cbn [gt_data]. split; [auto|]. split; [rewrite map_length; auto|]. intros f b Hb. unfold fields in *. rewrite cut_map, nth_error_map, Hb. cbn. eexists. split; [reflexivity|]. apply same_refl.
Qed.
Lemma pointwise_equiv (m : pointwise) g pi x x' : ft_reps (pw_in m) <> [] ->
  typed gs_eqb rp_eqb (pw_in m) x -> typed gs_eqb rp_eqb (pw_in m) x' -> (forall r, In r (ft_reps (pw_in m)) -> is_perm (rp_size r) (rp_mat r g)) ->
  acts (ft_reps (pw_in m)) g pi (gt_data x) (gt_data x') ->
  exists y y', pointwise_forward gs_eqb rp_eqb m x = Ok y /\ pointwise_forward gs_eqb rp_eqb m x' = Ok y' /\
    gt_type y = pw_in m /\ gt_type y' = pw_in m /\ acts (ft_reps (pw_in m)) g pi (gt_data y) (gt_data y').
Proof.
  intros NE TX TX' O A. destruct (pointwise_fieldwise m x TX) as (y & F & T & W). destruct (pointwise_fieldwise m x' TX') as (y' & F' & T' & W').
  exists y, y'. split; [auto|]. split; [auto|]. split; [auto|]. split; [auto|]. eapply fieldwise_acts; [exact NE|apply TX|exact A|exact W|exact W'|].
  intros f r r' b b' Hr Hr' Hb Hb' M. rewrite Hr in Hr'. injection Hr' as <-. cbn beta. apply moved_pointwise; auto. apply O. eapply nth_error_In; eauto.
Qed.

(** * Pools *)
Lemma pool_equiv (red : list chan -> chan) t m g pi junk junk' x x' :
  rp_size (trivial_repr (ft_gs t)) = 1%nat -> rp_mat (trivial_repr (ft_gs t)) g 0%nat 0%nat = 1 ->
  pool_make_with fits trivial_repr t = Ok m -> ft_reps t <> [] -> size_pos t -> typed gs_eqb rp_eqb t x -> typed gs_eqb rp_eqb t x' ->
  (forall r b b', In r (ft_reps t) -> moved (rp_size r) (rp_mat r g) pi b b' -> forall p, red b' p = red b (pi p)) ->
  acts (ft_reps t) g pi (gt_data x) (gt_data x') ->
  exists y y', pool_forward gs_eqb rp_eqb red junk m x = Ok y /\ pool_forward gs_eqb rp_eqb red junk' m x' = Ok y' /\
    gt_type y = MkFT (ft_gs t) (repeat (trivial_repr (ft_gs t)) (length (ft_reps t))) /\ gt_type y' = gt_type y /\
    length (gt_data y) = length (ft_reps t) /\ follows pi (gt_data y) (gt_data y').
Proof.
  intros T1 T2 MK NE SP TX TX' RD A. destruct (pool_fieldwise fits gs_eqb rp_eqb trivial_repr t m red junk x T1 MK SP TX) as (y & F & T & W).
  destruct (pool_fieldwise fits gs_eqb rp_eqb trivial_repr t m red junk' x' T1 MK SP TX') as (y' & F' & T' & W').
  exists y, y'. split; [auto|]. split; [auto|]. split; [auto|]. split; [congruence|].
  assert (LY : length (gt_data y) = length (ft_reps t)).
  { destruct W as (_ & W & _). rewrite W, T. cbn [ft_reps]. clear -T1. induction (length (ft_reps t)) as [|n IH]; [reflexivity|]. cbn [repeat map].
    change (nsum (rp_size (trivial_repr (ft_gs t)) :: map rp_size (repeat (trivial_repr (ft_gs t)) n))) with (rp_size (trivial_repr (ft_gs t)) + nsum (map rp_size (repeat (trivial_repr (ft_gs t)) n)))%nat. lia. }
  split; [auto|]. rewrite T' in W'. rewrite T in W. cbn [ft_reps] in *.
  eapply trivial_acts; [apply W| |eapply (fieldwise_acts _ _ g pi); [exact NE|apply TX|exact A|exact W|exact W'|]].
  - intros r Hr. apply repeat_spec in Hr. subst r. auto.
  - intros f r r' b b' Hr Hr' Hb Hb' M. apply nth_error_In, repeat_spec in Hr'. subst r'. rewrite T1. apply moved_trivial; auto. intros p. apply (RD r); auto. eapply nth_error_In; eauto.
Qed.
Lemma ipool_equiv t m g pi junk junk' x x' :
  rp_size (trivial_repr (ft_gs t)) = 1%nat -> rp_mat (trivial_repr (ft_gs t)) g 0%nat 0%nat = 1 ->
  ipool_make fits trivial_repr t = Ok m -> ft_reps t <> [] -> size_pos t -> typed gs_eqb rp_eqb t x -> typed gs_eqb rp_eqb t x' ->
  (forall r S s, In r (ft_reps t) -> field_id "induced_norm" r = Ok (S, s) -> is_block_perm (S / s) s (rp_mat r g)) ->
  acts (ft_reps t) g pi (gt_data x) (gt_data x') ->
  exists y y', ipool_forward gs_eqb rp_eqb junk m x = Ok y /\ ipool_forward gs_eqb rp_eqb junk' m x' = Ok y' /\
    gt_type y = MkFT (ft_gs t) (repeat (trivial_repr (ft_gs t)) (length (ft_reps t))) /\ gt_type y' = gt_type y /\
    length (gt_data y) = length (ft_reps t) /\ follows pi (gt_data y) (gt_data y').
Proof.
  intros T1 T2 MK NE SP TX TX' O A. destruct (ipool_fieldwise fits gs_eqb rp_eqb trivial_repr t m junk x T1 MK SP TX) as (y & F & T & ID & W).
  destruct (ipool_fieldwise fits gs_eqb rp_eqb trivial_repr t m junk' x' T1 MK SP TX') as (y' & F' & T' & _ & W').
  exists y, y'. split; [auto|]. split; [auto|]. split; [auto|]. split; [congruence|].
  assert (LY : length (gt_data y) = length (ft_reps t)).
  { destruct W as (_ & W & _). rewrite W, T. cbn [ft_reps]. clear -T1. induction (length (ft_reps t)) as [|n IH]; [reflexivity|]. cbn [repeat map].
    change (nsum (rp_size (trivial_repr (ft_gs t)) :: map rp_size (repeat (trivial_repr (ft_gs t)) n))) with (rp_size (trivial_repr (ft_gs t)) + nsum (map rp_size (repeat (trivial_repr (ft_gs t)) n)))%nat. lia. }
  split; [auto|]. rewrite T' in W'. rewrite T in W. cbn [ft_reps] in *.
  eapply trivial_acts; [apply W| |eapply (fieldwise_acts _ _ g pi); [exact NE|apply TX|exact A|exact W|exact W'|]].
  - intros r Hr. apply repeat_spec in Hr. subst r. auto.
  - intros f r r' b b' Hr Hr' Hb Hb' M. apply nth_error_In, repeat_spec in Hr'. subst r'. rewrite T1. cbv zeta beta. apply moved_trivial; auto. intros p.
    destruct (ids_nth _ _ _ _ _ ID Hr) as [I1 I2]. destruct (nth f (ip_ids m) (0, 0)%nat) as [S s] eqn:EI. cbn [fst snd] in *.
    destruct (field_id_ok _ _ _ I1) as (J1 & J2 & J3). cbn [fst snd] in *.
    assert (ES : rp_size r = (S / s * s)%nat) by (rewrite <- J1; pose proof (Nat.div_mod S s J2); lia).
    assert (PS : (0 < rp_size r)%nat) by (apply SP; eapply nth_error_In; eauto). rewrite ES in M, PS.
    assert (PK : (0 < S / s)%nat) by (apply Nat.neq_0_lt_0; intros E0; rewrite E0 in PS; cbn in PS; lia). pose proof M as (M1 & M2 & _).
    rewrite M1, M2, Nat.div_mul by auto. rewrite <- !(blocks_cut s (S / s)) by auto. apply (induced_max_moved (S / s) s (rp_mat r g)); auto.
    apply (O r S s); auto. eapply nth_error_In; eauto.
Qed.
End Modules.
