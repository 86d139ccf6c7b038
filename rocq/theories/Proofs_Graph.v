(** For C61: the operations on tensors. *)
From Coq Require Import Reals ZArith String List Bool Lia Lra FunctionalExtensionality.
From Verif Require Import Base LinAlg Spec Spec_Fields Model_Groups Model_Rep Proofs_Rep Proofs_Restrict Model_FieldType Proofs_FieldType Proofs_FieldType2 Model_GSpace Spec_GSpace Proofs_GSpace Model_Tensor Model_Conv Spec_Conv
  Proofs_Conv Proofs_Conv4 Proofs_Tensor Model_Fieldwise Spec_Fieldwise Spec_Fieldwise2 Proofs_Fieldwise8 Proofs_Fieldwise9 Model_NormMax Model_Net Spec_Net Proofs_Net Proofs_Net2 Proofs_Net3 Proofs_Net6 Model_Graph Spec_Graph.
Import ListNotations.
Open Scope R_scope.

(** ** expanded tensors and turns *)
Definition keeps_or_reverses (r : nat -> nat -> nat) : Prop := (r = fun _ i => i) \/ (r = fun n i => (n - 1 - i)%nat).
Lemma kr_same : keeps_or_reverses (fun _ i => i).
Proof. left. reflexivity. Qed.
Lemma kr_rev : keeps_or_reverses (fun n i => n - 1 - i)%nat.
Proof. right. reflexivity. Qed.
Lemma origin_shape f k : exists (sw : bool) r1 r2, keeps_or_reverses r1 /\ keeps_or_reverses r2 /\ forall h w,
  a_h (turn f k (coords h w)) = (if sw then w else h) /\ a_w (turn f k (coords h w)) = (if sw then h else w) /\
  forall i j, (i < if sw then w else h)%nat -> (j < if sw then h else w)%nat -> origin f k h w (i, j) = (r1 h (if sw then j else i), r2 w (if sw then i else j)).
Proof.
  unfold origin, turn. assert (D : forall n i, (i < n)%nat -> (n - 1 - (n - 1 - i) = i)%nat) by (intros; lia).
  destruct (mod4 k) as [Q|[Q|[Q|Q]]]; destruct f.
  - exists false, (fun n i => n - 1 - i)%nat, (fun _ i => i). split; [apply kr_rev|]. split; [apply kr_same|]. intros h w. rewrite rot90_red, Q. cbn. auto.
  - exists false, (fun _ i => i), (fun _ i => i). split; [apply kr_same|]. split; [apply kr_same|]. intros h w. rewrite rot90_red, Q. cbn. auto.
  - exists true, (fun n i => n - 1 - i)%nat, (fun n i => n - 1 - i)%nat. split; [apply kr_rev|]. split; [apply kr_rev|]. intros h w. rewrite rot90_red, Q. cbn. auto.
  - exists true, (fun _ i => i), (fun n i => n - 1 - i)%nat. split; [apply kr_same|]. split; [apply kr_rev|]. intros h w. rewrite rot90_red, Q. cbn. auto.
  - exists false, (fun _ i => i), (fun n i => n - 1 - i)%nat. split; [apply kr_same|]. split; [apply kr_rev|]. intros h w. rewrite rot90_red, Q. cbn.
    split; [auto|]. split; [auto|]. intros i j Hi Hj. rewrite D by auto. reflexivity.
  - exists false, (fun n i => n - 1 - i)%nat, (fun n i => n - 1 - i)%nat. split; [apply kr_rev|]. split; [apply kr_rev|]. intros h w. rewrite rot90_red, Q. cbn. auto.
  - exists true, (fun _ i => i), (fun _ i => i). split; [apply kr_same|]. split; [apply kr_same|]. intros h w. rewrite rot90_red, Q. cbn.
    split; [auto|]. split; [auto|]. intros i j Hi Hj. rewrite D by auto. reflexivity.
  - exists true, (fun n i => n - 1 - i)%nat, (fun _ i => i). split; [apply kr_rev|]. split; [apply kr_same|]. intros h w. rewrite rot90_red, Q. cbn. auto.
Qed.
Lemma bdim_spec h h' H : bdim h h' = Some H -> (h = H \/ h = 1%nat) /\ (h' = H \/ h' = 1%nat).
Proof. unfold bdim. destruct (Nat.eqb_spec h h'); [|destruct (Nat.eqb_spec h 1); [|destruct (Nat.eqb_spec h' 1); [|discriminate]]]; intros E; injection E as <-; auto. Qed.
Lemma bidx_lt h H i : (h = H \/ h = 1%nat) -> (i < H)%nat -> (bidx h i < h)%nat.
Proof. unfold bidx. intros [->| ->] Hi; [destruct (Nat.eqb_spec H 1)|rewrite Nat.eqb_refl]; lia. Qed.
Lemma bidx_rev r h H i : keeps_or_reverses r -> (h = H \/ h = 1%nat) -> (i < H)%nat -> bidx h (r H i) = r h (bidx h i).
Proof. unfold bidx. intros [->| ->] [->| ->] Hi; [destruct (Nat.eqb_spec H 1)| |destruct (Nat.eqb_spec H 1)|]; cbn; lia. Qed.

Section Ops.
Context {G B : Type} (sp : space G) (isrep : rep G -> Prop) (PS : planar_space G sp isrep) (e : gelt) (g : G) (kk : Z) (fits : space G -> rep G -> bool).
Notation tensor := (arr (B -> vec) * ctype G)%type.
Notation rel := (@rel G B sp e g kk).
Notation fl := (gflip (sp_obj sp) e).
Notation ok_type := (ok_type sp isrep g).
Notation teqb := (ft_eqb space_eqb rep_eqb).

Definition linear (f : R -> R -> R) : Prop := forall n (a u v : nat -> R), rsum n (fun i => a i * f (u i) (v i)) = f (rsum n (fun i => a i * u i)) (rsum n (fun i => a i * v i)).
Lemma plus_linear : linear Rplus.
Proof. intros n a u v. rewrite <- rsum_plus. apply rsum_ext. intros. ring. Qed.
Lemma minus_linear : linear Rminus.
Proof. intros n a u v. rewrite <- rsum_minus. apply rsum_ext. intros. ring. Qed.

Lemma rel_px t x x' (sw : bool) (r1 r2 : nat -> nat -> nat) : rel t x x' ->
  (forall h w, a_h (turn fl kk (coords h w)) = (if sw then w else h) /\ a_w (turn fl kk (coords h w)) = (if sw then h else w) /\
    forall i j, (i < if sw then w else h)%nat -> (j < if sw then h else w)%nat -> origin fl kk h w (i, j) = (r1 h (if sw then j else i), r2 w (if sw then i else j))) ->
  a_h x' = (if sw then a_w x else a_h x) /\ a_w x' = (if sw then a_h x else a_w x) /\
  forall i j b c, (i < a_h x')%nat -> (j < a_w x')%nat -> (c < ct_size t)%nat ->
    a_px x' i j b c = rsum (ct_size t) (fun a => trep (ft_reps t) g c a * a_px x (r1 (a_h x) (if sw then j else i)) (r2 (a_w x) (if sw then i else j)) b a).
Proof.
  intros R SH. destruct (rel_dims sp e g kk _ _ _ R) as [D1 D2]. destruct (SH (a_h x) (a_w x)) as (S1 & S2 & S3). rewrite S1 in D1. rewrite S2 in D2. split; [exact D1|]. split; [exact D2|].
  intros i j b c Hi Hj Hc. destruct R as (_ & _ & R3). rewrite R3 by auto. cbn [amap a_px]. unfold mvec. apply rsum_ext. intros a Ha. f_equal. rewrite turn_origin. rewrite D1 in Hi. rewrite D2 in Hj.
  rewrite S3 by auto. reflexivity.
Qed.
Lemma px_rel t (x x' : arr (B -> vec)) (sw : bool) (r1 r2 : nat -> nat -> nat) :
  (forall h w, a_h (turn fl kk (coords h w)) = (if sw then w else h) /\ a_w (turn fl kk (coords h w)) = (if sw then h else w) /\
    forall i j, (i < if sw then w else h)%nat -> (j < if sw then h else w)%nat -> origin fl kk h w (i, j) = (r1 h (if sw then j else i), r2 w (if sw then i else j))) ->
  a_h x' = (if sw then a_w x else a_h x) -> a_w x' = (if sw then a_h x else a_w x) ->
  (forall i j b c, (i < a_h x')%nat -> (j < a_w x')%nat -> (c < ct_size t)%nat ->
    a_px x' i j b c = rsum (ct_size t) (fun a => trep (ft_reps t) g c a * a_px x (r1 (a_h x) (if sw then j else i)) (r2 (a_w x) (if sw then i else j)) b a)) -> rel t x x'.
Proof.
  intros SH D1 D2 P. destruct (SH (a_h x) (a_w x)) as (S1 & S2 & S3). destruct (turn_h fl kk x) as [T1 T2]. rewrite S1 in T1. rewrite S2 in T2.
  split; [exact (eq_trans D1 (eq_sym T1))|]. split; [exact (eq_trans D2 (eq_sym T2))|]. intros i j b c Hi Hj Hc. rewrite P by auto. cbn [amap a_px]. unfold mvec.
  apply rsum_ext. intros a Ha. f_equal. rewrite turn_origin. rewrite D1 in Hi. rewrite D2 in Hj. rewrite S3 by auto. reflexivity.
Qed.

Lemma elementwise_rel f t x x' y y' z : linear f -> rel t x x' -> rel t y y' -> elementwise f x y = Ok z -> exists z', elementwise f x' y' = Ok z' /\ rel t z z'.
Proof.
  intros LF RX RY E. destruct (origin_shape fl kk) as (sw & r1 & r2 & K1 & K2 & SH). destruct (rel_px _ _ _ _ _ _ RX SH) as (X1 & X2 & X3). destruct (rel_px _ _ _ _ _ _ RY SH) as (Y1 & Y2 & Y3).
  unfold elementwise in *. destruct (bdim (a_h x) (a_h y)) as [H|] eqn:EH; [|discriminate]. destruct (bdim (a_w x) (a_w y)) as [W|] eqn:EW; [|discriminate]. injection E as <-.
  assert (EH' : bdim (a_h x') (a_h y') = Some (if sw then W else H)) by (rewrite X1, Y1; destruct sw; assumption).
  assert (EW' : bdim (a_w x') (a_w y') = Some (if sw then H else W)) by (rewrite X2, Y2; destruct sw; assumption).
  rewrite EH', EW'. eexists. split; [reflexivity|]. apply (px_rel t _ _ sw r1 r2 SH); cbn [a_h a_w a_px]; auto.
  destruct (bdim_spec _ _ _ EH) as [BX1 BY1]. destruct (bdim_spec _ _ _ EW) as [BX2 BY2]. destruct (bdim_spec _ _ _ EH') as [BX1' BY1']. destruct (bdim_spec _ _ _ EW') as [BX2' BY2'].
  intros i j b c Hi Hj Hc. rewrite LF. unfold bpx. f_equal.
  - rewrite X3 by (auto; eapply bidx_lt; eauto). apply rsum_ext. intros a Ha. f_equal. rewrite X1, X2. destruct sw; rewrite (bidx_rev r1 _ H), (bidx_rev r2 _ W); auto.
  - rewrite Y3 by (auto; eapply bidx_lt; eauto). apply rsum_ext. intros a Ha. f_equal. rewrite Y1, Y2. destruct sw; rewrite (bidx_rev r1 _ H), (bidx_rev r2 _ W); auto.
Qed.
Lemma mul_rel t (x x' : arr (B -> vec)) k : rel t x x' -> rel t (MkArr (a_h x) (a_w x) (fun i j b c => a_px x i j b c * k)) (MkArr (a_h x') (a_w x') (fun i j b c => a_px x' i j b c * k)).
Proof.
  intros RX. destruct (origin_shape fl kk) as (sw & r1 & r2 & K1 & K2 & SH). destruct (rel_px _ _ _ _ _ _ RX SH) as (X1 & X2 & X3).
  apply (px_rel t _ _ sw r1 r2 SH); cbn [a_h a_w a_px]; auto. intros i j b c Hi Hj Hc. rewrite X3 by auto. rewrite <- rsum_scal_r. apply rsum_ext. intros. ring.
Qed.

(** two values of a variable *)
Definition corr (p p' : tensor) : Prop := ok_type (snd p) /\ snd p' = snd p /\ rel (snd p) (fst p) (fst p').

Lemma rel_back (t t' : ctype G) x x' : ok_type t -> ok_type t' -> teqb t t' = true -> rel t' x x' -> rel t x x'.
Proof.
  intros (_ & _ & O) (_ & _ & O') E (R1 & R2 & R3). unfold ft_eqb in E. apply andb_true_iff in E as [_ E].
  destruct (reps_eqb_mat sp isrep (ft_reps t) (ft_reps t') PS) as [Z M]; auto; try (apply Forall_forall; intros r Hr; apply (O r Hr) || apply (O' r Hr)).
  change (ct_size t = ct_size t') in Z. change (nsum (map rp_size (ft_reps t))) with (ct_size t) in M. unfold Proofs_Net2.rel in *. rewrite <- Z in R3.
  split; [exact R1|]. split; [exact R2|]. intros i j b c Hi Hj Hc. rewrite R3 by auto. cbn [amap a_px]. unfold mvec. apply rsum_ext. intros a Ha. f_equal. symmetry. apply M; auto.
Qed.
Lemma binary_corr f p p' q q' z : linear f -> corr p p' -> corr q q' -> t_binary f p q = Ok z -> exists z', t_binary f p' q' = Ok z' /\ corr z z'.
Proof.
  intros LF (O & E & R) (O' & E' & R') F. unfold t_binary in *. apply assert_ok in F as [T F]. apply rbind_ok in F as (y & F & Y). injection Y as <-.
  apply (rel_back (snd p) (snd q)) in R'; auto. destruct (elementwise_rel f _ _ _ _ _ _ LF R R' F) as (y' & F' & RY).
  rewrite E, E', T, F'. cbn [assert_ rbind negb]. eexists. split; [reflexivity|]. split; [exact O|]. split; [reflexivity|exact RY].
Qed.
Lemma dims_corr p p' q q' : corr p p' -> corr q q' -> a_h (fst p) = a_h (fst q) -> a_w (fst p) = a_w (fst q) -> a_h (fst p') = a_h (fst q') /\ a_w (fst p') = a_w (fst q').
Proof.
  intros (_ & _ & R) (_ & _ & R') D1 D2. destruct (rel_dims sp e g kk _ _ _ R) as [P1 P2]. destruct (rel_dims sp e g kk _ _ _ R') as [Q1 Q2].
  rewrite P1, P2, Q1, Q2, D1, D2. auto.
Qed.
Lemma inplace_corr f p p' q q' z : linear f -> corr p p' -> corr q q' -> t_inplace f p q = Ok z -> exists z', t_inplace f p' q' = Ok z' /\ corr z z'.
Proof.
  intros LF C C' F. unfold t_inplace in *. apply rbind_ok in F as (y & F & Y). destruct (((_ =? _) && _)%nat%bool) eqn:D in Y; [|discriminate]. injection Y as <-.
  destruct (binary_corr f _ _ _ _ _ LF C C' F) as (y' & F' & CY). rewrite F'. cbn [rbind]. apply andb_true_iff in D as [D1 D2]. apply Nat.eqb_eq in D1, D2.
  destruct (dims_corr _ _ _ _ CY C D1 D2) as [D1' D2']. rewrite D1', D2', !Nat.eqb_refl. exists y'. auto.
Qed.
Lemma mul_corr p p' s z : corr p p' -> t_mul p s = Ok z -> exists z', t_mul p' s = Ok z' /\ corr z z'.
Proof.
  intros (O & E & R) F. assert (K : exists c, z = (MkArr (a_h (fst p)) (a_w (fst p)) (fun i j b k => a_px (fst p) i j b k * c), snd p) /\
    t_mul p' s = Ok (MkArr (a_h (fst p')) (a_w (fst p')) (fun i j b k => a_px (fst p') i j b k * c), snd p')).
  { unfold t_mul in *. destruct s as [c|[|c [|d l]]]; try discriminate; injection F as <-; exists c; auto. }
  destruct K as (c & -> & ->). eexists. split; [reflexivity|]. rewrite E. split; [exact O|]. split; [reflexivity|]. apply mul_rel. exact R.
Qed.

(** ** direct sums *)
Lemma acts_app (r1 r2 : list (rep G)) {X} (pi : X -> X) d1 d1' d2 d2' : r1 <> [] -> r2 <> [] -> length d1 = nsum (map rp_size r1) -> length d2 = nsum (map rp_size r2) ->
  acts r1 g pi d1 d1' -> acts r2 g pi d2 d2' -> acts (r1 ++ r2) g pi (d1 ++ d2) (d1' ++ d2').
Proof.
  intros N1 N2 L1 L2 A1 A2. assert (L1' : length d1' = nsum (map rp_size r1)) by (destruct A1 as [E _]; congruence). assert (L2' : length d2' = nsum (map rp_size r2)) by (destruct A2 as [E _]; congruence).
  apply moved_acts.
  - destruct r1; [congruence|discriminate].
  - rewrite app_length, map_app, nsum_app. lia.
  - rewrite app_length, map_app, nsum_app. lia.
  - intros f r b b' Hr Hb Hb'. unfold fields in Hb, Hb'. rewrite map_app, cut_app in Hb, Hb' by auto.
    assert (C1 : forall (A : Type) (d : list A), length (cut (map rp_size r1) d) = length r1) by (intros; rewrite cut_length, map_length; reflexivity).
    destruct (Nat.lt_ge_cases f (length r1)) as [Hf|Hf].
    + rewrite nth_error_app1 in Hr by auto. rewrite nth_error_app1 in Hb, Hb' by (rewrite C1; auto). exact (acts_moved r1 g pi d1 d1' L1 A1 f r b b' Hr Hb Hb').
    + rewrite nth_error_app2 in Hr by auto. rewrite nth_error_app2 in Hb, Hb' by (rewrite C1; auto). rewrite C1 in Hb, Hb'. exact (acts_moved r2 g pi d2 d2' L2 A2 _ r b b' Hr Hb Hb').
Qed.
Definition chan_of (x : tensor) : gtensor (space G) (rep G) (B * (nat * nat) -> R) := MkGT (channels (ct_size (snd x)) (fst x)) (snd x).
Lemma source_dims (x x' y y' : arr (B -> vec)) : a_h x = a_h y -> a_w x = a_w y -> a_h x' = a_h y' -> a_w x' = a_w y' -> source sp e kk x x' = source sp e kk y y'.
Proof. intros E1 E2 E3 E4. apply functional_extensionality. intros q. unfold source, in_image. rewrite E1, E2, E3, E4. reflexivity. Qed.
Lemma concat_acts (x0 x0' : tensor) l l' : corr x0 x0' -> Forall2 corr l l' -> l <> [] -> Forall (fun x : tensor => a_h (fst x) = a_h (fst x0) /\ a_w (fst x) = a_w (fst x0)) l ->
  length (concat (map gt_data (map chan_of l))) = nsum (map rp_size (concat (map (fun x : tensor => ft_reps (snd x)) l))) /\ concat (map (fun x : tensor => ft_reps (snd x)) l) <> [] /\
  acts (concat (map (fun x : tensor => ft_reps (snd x)) l)) g (source sp e kk (fst x0) (fst x0')) (concat (map gt_data (map chan_of l))) (concat (map gt_data (map chan_of l'))).
Proof.
  intros C0 F NE D. induction F as [|p p' l l' C F IH]; [congruence|]. inversion D as [|? ? [D1 D2] DL]; subst. clear NE.
  assert (A : acts (ft_reps (snd p)) g (source sp e kk (fst x0) (fst x0')) (channels (ct_size (snd p)) (fst p)) (channels (ct_size (snd p')) (fst p'))).
  { destruct (dims_corr _ _ _ _ C C0 D1 D2) as [D1' D2']. rewrite <- (source_dims (fst p) (fst p') (fst x0) (fst x0')) by auto.
    destruct C as ((_ & N & _) & E & R). rewrite E. apply rel_acts; auto. }
  pose proof C as ((_ & N & _) & E & R). cbn [map concat chan_of gt_data]. assert (LP : length (channels (ct_size (snd p)) (fst p)) = nsum (map rp_size (ft_reps (snd p)))) by apply channels_len.
  destruct F as [|q q' l l' C1 F].
  - cbn [map concat]. rewrite !app_nil_r. auto.
  - destruct IH as (I1 & I2 & I3); [discriminate|exact DL|]. split; [rewrite app_length, map_app, nsum_app, LP, I1; reflexivity|]. split; [destruct (ft_reps (snd p)); [congruence|discriminate]|].
    apply acts_app; auto.
Qed.
Lemma cat_corr l l' z : Forall2 corr l l' -> t_cat fits l = Ok z -> exists z', t_cat fits l' = Ok z' /\ corr z z'.
Proof.
  intros F H. destruct F as [|x0 x0' l l' C0 F]; [discriminate|]. set (L := x0 :: l) in *. set (L' := x0' :: l') in *. assert (FL : Forall2 corr L L') by (constructor; auto).
  unfold t_cat, L, L' in *. fold L L' in H |- *. apply assert_ok in H as [D H]. rewrite forallb_forall in D.
  assert (DL : Forall (fun x : tensor => a_h (fst x) = a_h (fst x0) /\ a_w (fst x) = a_w (fst x0)) L).
  { apply Forall_forall. intros x Hx. apply D, andb_true_iff in Hx as [H1 H2]. apply Nat.eqb_eq in H1, H2. auto. }
  assert (D' : forallb (fun x : tensor => (a_h (fst x) =? a_h (fst x0'))%nat && (a_w (fst x) =? a_w (fst x0'))%nat) L' = true).
  { apply forallb_forall. clear - FL DL C0. induction FL as [|p p' m m' C F IH]; [intros ? []|]. inversion DL as [|? ? [D1 D2] DM]; subst. intros x [<-|Hx]; [|apply IH; auto].
    destruct (dims_corr _ _ _ _ C C0 D1 D2) as [-> ->]. rewrite !Nat.eqb_refl. reflexivity. }
  unfold assert_ at 1. rewrite D'. destruct (concat_acts x0 x0' L L' C0 FL ltac:(discriminate) DL) as (CL & CN & CA).
  assert (ER : map (fun x : tensor => ft_reps (snd x)) L' = map (fun x : tensor => ft_reps (snd x)) L).
  { clear - FL. induction FL as [|p p' m m' (_ & E & _) F IH]; cbn [map]; [reflexivity|]. exact (f_equal2 cons (f_equal ft_reps E) IH). }
  apply rbind_ok in H as (y & H & Y). injection Y as <-. change (map (fun x : tensor => MkGT (channels (ct_size (snd x)) (fst x)) (snd x)) L) with (map chan_of L) in H.
  change (map (fun x : tensor => MkGT (channels (ct_size (snd x)) (fst x)) (snd x)) L') with (map chan_of L').
  unfold tensor_directsum in *. unfold L at 1 in H. unfold L' at 1. cbn [map] in H |- *. fold chan_of in *. change (chan_of x0 :: map chan_of l) with (map chan_of L) in H. change (chan_of x0' :: map chan_of l') with (map chan_of L').
  apply assert_ok in H as [GE H]. apply rbind_ok in H as (t & MT & H). apply mk_gt_ok in H as [-> LD]. rewrite !map_map in *. cbn [chan_of gt_type gt_data] in *.
  pose proof C0 as (O0 & E0 & R0).
  assert (GE' : forallb (fun x : gtensor (space G) (rep G) (B * (nat * nat) -> R) => space_eqb (ft_gs (snd x0')) (ft_gs (gt_type x))) (map chan_of l') = true).
  { apply forallb_forall. intros w Hw. apply in_map_iff in Hw as (w0 & <- & Hw). rewrite E0. destruct O0 as (-> & _ & _). cbn [chan_of gt_type].
    assert (Ow : ft_gs (snd w0) = sp).
    { clear - F Hw. induction F as [|p p' m m' (Op & Ep & _) F IH]; [destruct Hw|]. destruct Hw as [<-|Hw]; [|auto]. exact (eq_trans (f_equal ft_gs Ep) (proj1 Op)). }
    rewrite Ow. pose proof (teqb_refl (MkFT sp [])) as RF. unfold ft_eqb in RF. apply andb_true_iff in RF as [RF _]. exact RF. }
  rewrite GE'. cbn [assert_ negb]. rewrite ER, E0, MT. cbn [rbind]. apply mk_ftype_ok in MT as [-> _].
  assert (LD' : length (concat (map (fun x : tensor => channels (ct_size (snd x)) (fst x)) L')) = ft_size rp_size (MkFT (ft_gs (snd x0)) (concat (map (fun x : tensor => ft_reps (snd x)) L)))).
  { rewrite <- LD. destruct CA as [CA _]. exact CA. }
  rewrite mk_gt_fwd by exact LD'. cbn [rbind gt_type gt_data]. eexists. split; [reflexivity|].
  assert (OT : ok_type (MkFT (ft_gs (snd x0)) (concat (map (fun x : tensor => ft_reps (snd x)) L)))).
  { split; [apply O0|]. split; [exact CN|]. cbn [ft_reps]. intros r Hr. apply in_concat in Hr as (rs & Hrs & Hr). apply in_map_iff in Hrs as (x & <- & Hx).
    clear - FL Hx Hr. induction FL as [|p p' m m' (Op & _) F IH]; [destruct Hx|]. destruct Hx as [<-|Hx]; [apply Op; auto|auto]. }
  split; [exact OT|]. split; [reflexivity|]. cbn [fst snd]. apply (image_rel sp e g kk _ (snd x0)); auto.
Qed.

(** ** fields of a tensor *)
Lemma getitem_fits {A} (x y : gtensor (space G) (rep G) A) i : getitem rp_size fits x i = Ok y -> getitem rp_size (fun _ _ => true) x i = Ok y.
Proof.
  assert (M : forall gs reps (t : ctype G), mk_ftype fits gs reps = Ok t -> mk_ftype (fun _ _ => true) gs reps = Ok t).
  { intros gs reps t H. apply mk_ftype_ok in H as [-> [N _]]. apply mk_ftype_fwd; [exact N|]. apply forallb_forall. reflexivity. }
  unfold getitem. destruct (int_to_slice (ft_len (gt_type x)) i) as [[a b] c]. destruct (match c with None => true | Some s => (s =? 1)%Z end).
  - intros H. apply rbind_ok in H as (u & -> & H). cbn [rbind]. apply rbind_ok in H as (v & -> & H). cbn [rbind]. apply rbind_ok in H as (t & H & H').
    destruct ((match a with None => 0%Z | Some s => s end =? 0)%Z && _)%bool; [rewrite H; exact H'|]. apply rbind_ok in H as (idx & -> & H). cbn [rbind]. rewrite (M _ _ _ H). exact H'.
  - intros H. apply rbind_ok in H as (u & -> & H). cbn [rbind]. apply rbind_ok in H as (v & -> & H). cbn [rbind]. apply rbind_ok in H as (t & H & H'). rewrite (M _ _ _ H). exact H'.
Qed.
Lemma take_at_map {A A'} (h : A -> A') (l : list A) idx : take_at (map h l) idx = map h (take_at l idx).
Proof. unfold take_at. rewrite concat_map, map_map. f_equal. apply map_ext. intros i. rewrite nth_error_map. destruct (nth_error l (Z.to_nat i)); reflexivity. Qed.
Lemma mk_gt_map {A A'} (h : A -> A') (d : list A) (t : ctype G) : mk_gt rp_size (map h d) t = rbind (mk_gt rp_size d t) (fun y => Ok (MkGT (map h (gt_data y)) (gt_type y))).
Proof. unfold mk_gt, assert_. rewrite map_length. destruct (_ =? _)%Z; reflexivity. Qed.
Lemma getitem_map {A A'} (h : A -> A') (d : list A) (t : ctype G) i :
  getitem rp_size fits (MkGT (map h d) t) i = rbind (getitem rp_size fits (MkGT d t) i) (fun y => Ok (MkGT (map h (gt_data y)) (gt_type y))).
Proof.
  assert (RA : forall A B C (a : result A) (f : A -> result B) (k : B -> result C), rbind (rbind a f) k = rbind a (fun x => rbind (f x) k)) by (intros ? ? ? [] ? ?; reflexivity).
  unfold getitem. cbn [gt_type gt_data]. destruct (int_to_slice (ft_len t) i) as [[a b] c]. destruct (match c with None => true | Some s => (s =? 1)%Z end).
  - rewrite RA. destruct (py_index _ _) as [u|]; cbn [rbind]; [|reflexivity]. rewrite RA. destruct (py_index _ _) as [v|]; cbn [rbind]; [|reflexivity]. rewrite RA.
    match goal with |- rbind ?r _ = _ => destruct r as [t'|]; cbn [rbind]; [|reflexivity] end. unfold sub_list. rewrite skipn_map, firstn_map. apply mk_gt_map.
  - rewrite RA. destruct (py_slice _ _ _ _) as [u|]; cbn [rbind]; [|reflexivity]. rewrite RA. destruct (rmap _ _) as [v|]; cbn [rbind]; [|reflexivity]. rewrite RA.
    destruct (mk_ftype _ _ _) as [t'|]; cbn [rbind]; [|reflexivity]. rewrite take_at_map. apply mk_gt_map.
Qed.
Lemma getitem_fields {A} (x y : gtensor (space G) (rep G) A) i : ft_reps (gt_type x) <> [] -> length (gt_data x) = ct_size (gt_type x) -> getitem rp_size fits x i = Ok y ->
  exists F, F <> [] /\ picks_fields (space G) (rep G) rp_size x F y.
Proof.
  intros N L H. apply getitem_fits in H.
  assert (W : wf (space G) (rep G) rp_size (fun _ _ => true) x) by (split; [split; [exact N|apply forallb_forall; reflexivity]|exact L]).
  destruct i as [z|a b c].
  - set (n := length (ft_reps (gt_type x))) in *. set (idx := if (z <? 0)%Z then (Z.of_nat n + z)%Z else z).
    assert (H' : getitem rp_size (fun _ _ => true) x (ISlice (Some idx) (Some (idx + 1)%Z) (Some 1%Z)) = Ok y) by exact H.
    apply getitem_unit in H' as (s0 & e0 & Hse & He & Hs & He' & P); auto. exists (seq s0 (e0 - s0)). split; [|exact P]. destruct (e0 - s0)%nat eqn:EE; [lia|discriminate].
  - apply getitem_spec in H as (F & _ & NF & P); auto. exists F. auto. exact I.
Qed.
Lemma get_corr p p' i z : corr p p' -> t_get fits p i = Ok z -> exists z', t_get fits p' i = Ok z' /\ corr z z'.
Proof.
  intros C F. pose proof C as (O & E & R). unfold t_get, on_channels in *. apply rbind_ok in F as (Y & F & Z). injection Z as <-. rewrite E.
  set (t := snd p) in *. set (n := ct_size t) in *.
  set (hx := fun (x : arr (B -> vec)) (c : nat) (q : B * (nat * nat)) => if in_image x (snd q) then a_px x (fst (snd q)) (snd (snd q)) (fst q) c else 0).
  change (channels n (fst p)) with (map (hx (fst p)) (seq 0 n)) in F. change (channels n (fst p')) with (map (hx (fst p')) (seq 0 n)).
  rewrite getitem_map in F. rewrite getitem_map. apply rbind_ok in F as (y0 & F & Z). injection Z as <-. rewrite F. cbn [rbind gt_type gt_data]. eexists. split; [reflexivity|].
  destruct (getitem_fields (MkGT (seq 0 n) t) y0 i) as (FF & NF & P1 & P2 & bs & P3 & P4); auto; [apply O|apply seq_length|]. cbn [gt_type gt_data] in *.
  assert (OT : ok_type (gt_type y0)).
  { destruct O as (O1 & O2 & O3). split; [congruence|]. split.
    - intros N. rewrite N in P2. unfold picks in P2. destruct FF; [congruence|discriminate].
    - intros r Hr. apply O3. apply (in_map Some) in Hr. unfold picks in P2. rewrite P2 in Hr. apply in_map_iff in Hr as (f & Hf & _). eapply nth_error_In; eauto. }
  split; [exact OT|]. split; [reflexivity|]. cbn [fst snd]. pose proof OT as (_ & NT & _).
  assert (LY : length (gt_data y0) = nsum (map rp_size (ft_reps (gt_type y0))) /\ fields (ft_reps (gt_type y0)) (gt_data y0) = bs).
  { assert (LB : Forall2 (fun (r : rep G) (b : list nat) => length b = rp_size r) (ft_reps (gt_type y0)) bs).
    { clear - P2 P3. revert P2 P3. generalize (ft_reps (gt_type y0)). revert bs. induction FF as [|f FF IH]; intros bs rs P2 P3; destruct rs as [|r rs], bs as [|b bs]; try discriminate; constructor.
      - unfold picks in *. cbn [map] in *. injection P2 as P2 _. injection P3 as P3 _.
        assert (Hf : (f < length (ft_reps t))%nat) by (apply nth_error_Some; congruence).
        rewrite (cut_nth (rep G) rp_size) in P3 by (auto; apply seq_length). injection P3 as ->. rewrite sub_list_length.
        + rewrite (off_S (rep G) rp_size _ _ r) by auto. lia.
        + rewrite seq_length. apply (off_le (rep G) rp_size).
        + apply off_mono. lia.
      - unfold picks in *. cbn [map] in *. injection P2 as _ P2. injection P3 as _ P3. apply IH; auto. }
    rewrite P4. split.
    - clear - LB. induction LB as [|r b rs bs L LB IH]; [reflexivity|]. cbn [concat map]. rewrite app_length, IH, L. reflexivity.
    - unfold fields. clear - LB. induction LB as [|r b rs bs L LB IH]; [reflexivity|]. cbn [concat map cut]. rewrite <- L, firstn_app, Nat.sub_diag, firstn_all, firstn_O, app_nil_r, skipn_app, skipn_all, Nat.sub_diag. cbn [skipn app].
      rewrite IH. reflexivity. }
  destruct LY as [LY CY].
  apply (image_rel sp e g kk _ t); auto; [rewrite map_length; exact LY|].
  apply moved_acts; [exact NT|rewrite map_length; exact LY|rewrite map_length; exact LY|].
  intros f r b b' Hr Hb Hb'. unfold fields in Hb, Hb', CY. rewrite cut_map, CY, nth_error_map in Hb, Hb'. destruct (nth_error bs f) as [b0|] eqn:Eb; [|discriminate]. injection Hb as <-. injection Hb' as <-.
  assert (K : forall (A : Type) (l m : list A), picks l FF m -> forall v, nth_error m f = Some v -> exists k, nth_error FF f = Some k /\ nth_error l k = Some v).
  { intros A l m P v Hv. apply (f_equal (fun s => nth_error s f)) in P. rewrite !nth_error_map, Hv in P. destruct (nth_error FF f) as [k|]; [|discriminate]. exists k. split; [reflexivity|]. cbn in P. congruence. }
  destruct (K _ _ _ P2 r Hr) as (k & K1 & K2). destruct (K _ _ _ P3 b0 Eb) as (k' & K1' & K2'). assert (k' = k) by congruence. subst k'.
  destruct O as (_ & NO & _).
  apply (acts_moved (ft_reps t) g (source sp e kk (fst p) (fst p')) (channels n (fst p)) (channels n (fst p')) (channels_len _ _) (rel_acts sp e g kk t _ _ NO R) k r).
  - exact K2.
  - unfold fields. change (channels n (fst p)) with (map (hx (fst p)) (seq 0 n)). rewrite cut_map, nth_error_map, K2'. reflexivity.
  - unfold fields. change (channels n (fst p')) with (map (hx (fst p')) (seq 0 n)). rewrite cut_map, nth_error_map, K2'. reflexivity.
Qed.
End Ops.
