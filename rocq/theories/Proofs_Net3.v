(** For C56: the layers that act on every pixel separately. *)
From Coq Require Import Reals ZArith String List Bool Lia Lra FunctionalExtensionality.
From Verif Require Import Base LinAlg Spec Spec_Fields Model_Groups Model_Rep Proofs_Rep Proofs_Restrict Model_FieldType Proofs_FieldType Model_GSpace Spec_GSpace Proofs_GSpace Model_Tensor Model_Conv Spec_Conv
  Proofs_Conv Proofs_Conv2 Proofs_Conv3 Proofs_Conv4 Proofs_Conv5 Proofs_Conv6 Proofs_Tensor Model_Fieldwise Spec_Fieldwise Spec_Fieldwise2 Proofs_Fieldwise8 Prop_Fieldwise2 Model_NormMax Model_Net Spec_Net Proofs_Net Proofs_Net2.
Import ListNotations.
Open Scope R_scope.

(** ** transformation of channels, as a matrix *)
Lemma acts_iff {G X} (reps : list (rep G)) g (pi : X -> X) d d' : reps <> [] -> length d = nsum (map rp_size reps) ->
  acts reps g pi d d' <-> length d' = length d /\ forall p i, (i < length d)%nat -> val d' i p = mvec (length d) (trep reps g) (fun a => val d a (pi p)) i.
Proof.
  intros Hne L. unfold acts, transform_fibers, type_representation.
  assert (D : exists rho, directsum reps (Some "FiberRepresentation"%string) = Ok rho) by (destruct reps; [tauto|]; eexists; reflexivity). destruct D as [rho D]. rewrite D. cbn [rbind].
  pose proof (ds_size _ _ _ D) as S. pose proof (directsum_mat _ _ _ g D) as M. rewrite <- L in S, M. rewrite S.
  assert (E : forall (v : vec) i, (i < length d)%nat -> mvec (length d) (rp_mat rho g) v i = mvec (length d) (trep reps g) v i).
  { intros v i Hi. unfold mvec. apply rsum_ext. intros a Ha. rewrite (M i a Hi Ha). reflexivity. }
  split.
  - intros (L' & t' & T & V). split; [exact L'|]. injection T as <-. intros p i Hi. rewrite V by auto. apply E; auto.
  - intros (L' & V). split; [exact L'|]. eexists. split; [reflexivity|]. intros p i Hi. rewrite V by auto. symmetry. apply E; auto.
Qed.

(** ** where the pixels of the transformed image come from *)
Definition coords (h w : nat) : arr (nat * nat) := MkArr h w (fun i j => (i, j)).
Definition origin (f : bool) (k : Z) (h w : nat) (q : nat * nat) : nat * nat := a_px (turn f k (coords h w)) (fst q) (snd q).
Lemma turn_origin {A} f k (x : arr A) i j : a_px (turn f k x) i j = let p := origin f k (a_h x) (a_w x) (i, j) in a_px x (fst p) (snd p).
Proof.
  unfold origin. cbn [fst snd]. assert (E : x = amap (fun p => a_px x (fst p) (snd p)) (coords (a_h x) (a_w x))) by (destruct x; reflexivity).
  rewrite E at 1. rewrite turn_amap. reflexivity.
Qed.
Lemma turn_h {A} f k (x : arr A) : a_h (turn f k x) = a_h (turn f k (coords (a_h x) (a_w x))) /\ a_w (turn f k x) = a_w (turn f k (coords (a_h x) (a_w x))).
Proof.
  assert (E : x = amap (fun p => a_px x (fst p) (snd p)) (coords (a_h x) (a_w x))) by (destruct x; reflexivity).
  split; rewrite E at 1; rewrite turn_amap; reflexivity.
Qed.
Lemma origin_in f k h w q : (fst q < a_h (turn f k (coords h w)))%nat -> (snd q < a_w (turn f k (coords h w)))%nat ->
  (fst (origin f k h w q) < h /\ snd (origin f k h w q) < w)%nat.
Proof.
  destruct q as [i j]. unfold origin, turn. rewrite !rot90_red. destruct (mod4 k) as [Q|[Q|[Q|Q]]]; rewrite Q; destruct f; cbn; lia.
Qed.
Lemma origin_inj f k h w q q' : (fst q < a_h (turn f k (coords h w)))%nat -> (snd q < a_w (turn f k (coords h w)))%nat ->
  (fst q' < a_h (turn f k (coords h w)))%nat -> (snd q' < a_w (turn f k (coords h w)))%nat -> origin f k h w q = origin f k h w q' -> q = q'.
Proof.
  destruct q as [i j], q' as [i' j']. unfold origin, turn. rewrite !rot90_red. destruct (mod4 k) as [Q|[Q|[Q|Q]]]; rewrite Q; destruct f; cbn; intros H1 H2 H3 H4 E; injection E as E1 E2;
    (replace i' with i by lia; replace j' with j by lia; reflexivity).
Qed.

(** a law that modules working on channels obey if they commute with the transformations of the channels *)
Definition channels_give {G B} (g : G) (law : (arr (B -> vec) * ctype G -> result (arr (B -> vec) * ctype G)) -> (arr (B -> vec) * ctype G -> result (arr (B -> vec) * ctype G)) -> ctype G -> ctype G -> (arr (B -> vec) -> arr (B -> vec) -> Prop) -> Prop) : Prop :=
  forall (fwd fwd' : gtensor (space G) (rep G) (B * (nat * nat) -> R) -> result (gtensor (space G) (rep G) (B * (nat * nat) -> R))) tin tout (ok : arr (B -> vec) -> arr (B -> vec) -> Prop),
  ft_reps tin <> [] -> ft_reps tout <> [] ->
  (forall X Y, fwd X = Ok Y -> gt_type Y = tout -> length (gt_data Y) = ct_size tout) ->
  (forall pi (X X' : gtensor (space G) (rep G) (B * (nat * nat) -> R)) x y, gt_data X = channels (ct_size tin) x -> ok x y -> typed space_eqb rep_eqb tin X -> typed space_eqb rep_eqb tin X' ->
     acts (ft_reps tin) g pi (gt_data X) (gt_data X') ->
     exists Y Y', fwd X = Ok Y /\ fwd' X' = Ok Y' /\ gt_type Y = tout /\ gt_type Y' = tout /\ acts (ft_reps tout) g pi (gt_data Y) (gt_data Y')) ->
  law (on_channels fwd) (on_channels fwd') tin tout ok.

Section Pixels.
Context {G B : Type} (sp : space G) (e : gelt) (g : G) (kk : Z).
Notation tensor := (arr (B -> vec) * ctype G)%type.
Notation gtensor := (gtensor (space G) (rep G) (B * (nat * nat) -> R)).
Notation fl := (gflip (sp_obj sp) e).
Notation teqb := (ft_eqb space_eqb rep_eqb).
Notation rel := (@rel G B sp e g kk).
Notation law := (@law G B sp e g kk).

Lemma channels_len n (x : arr (B -> vec)) : length (channels n x) = n.
Proof. unfold channels. rewrite map_length, seq_length. reflexivity. Qed.
Lemma channels_val n (x : arr (B -> vec)) c q : (c < n)%nat -> val (channels n x) c q = if in_image x (snd q) then a_px x (fst (snd q)) (snd (snd q)) (fst q) c else 0.
Proof.
  intros Hc. unfold val, channels. rewrite (nth_indep _ _ ((fun (c : nat) (q : B * (nat * nat)) => if in_image x (snd q) then a_px x (fst (snd q)) (snd (snd q)) (fst q) c else 0) 0%nat)) by (rewrite map_length, seq_length; auto).
  rewrite (map_nth (fun c q => if in_image x (snd q) then a_px x (fst (snd q)) (snd (snd q)) (fst q) c else 0)). rewrite seq_nth by auto. reflexivity.
Qed.
(** the point of x that a point of x' comes from; points outside of the image come from points outside *)
Definition source (x x' : arr (B -> vec)) (q : B * (nat * nat)) : B * (nat * nat) :=
  if in_image x' (snd q) then (fst q, origin fl kk (a_h x) (a_w x) (snd q)) else (fst q, (a_h x, a_w x)).
Lemma rel_dims (t : ctype G) x x' : rel t x x' -> a_h x' = a_h (turn fl kk (coords (a_h x) (a_w x))) /\ a_w x' = a_w (turn fl kk (coords (a_h x) (a_w x))).
Proof. intros (H1 & H2 & _). cbn [amap a_h a_w] in H1, H2. rewrite H1, H2. apply turn_h. Qed.
Lemma source_in (t : ctype G) x x' q : rel t x x' -> in_image x (snd (source x x' q)) = in_image x' (snd q).
Proof.
  intros R. apply rel_dims in R as [R1 R2]. unfold source. destruct (in_image x' (snd q)) eqn:I; cbn [snd].
  - unfold in_image in I |- *. apply andb_true_iff in I as [I1 I2]. apply Nat.ltb_lt in I1, I2. rewrite R1 in I1. rewrite R2 in I2. destruct (origin_in fl kk _ _ _ I1 I2) as [O1 O2].
    apply Nat.ltb_lt in O1, O2. rewrite O1, O2. reflexivity.
  - unfold in_image. cbn [fst snd]. rewrite Nat.ltb_irrefl. reflexivity.
Qed.
Lemma rel_acts (t : ctype G) x x' : ft_reps t <> [] -> rel t x x' -> acts (ft_reps t) g (source x x') (channels (ct_size t) x) (channels (ct_size t) x').
Proof.
  intros Hne R. apply acts_iff; [exact Hne|apply channels_len|]. rewrite !channels_len. split; [reflexivity|]. intros p i Hi. rewrite channels_val by auto.
  pose proof (source_in t x x' p R) as SI. destruct (in_image x' (snd p)) eqn:I.
  - destruct R as (R1 & R2 & R3). destruct p as [b [u v]]. unfold in_image in I. cbn [fst snd] in *. apply andb_true_iff in I as [I1 I2]. apply Nat.ltb_lt in I1, I2.
    rewrite R3 by auto. cbn [amap a_px]. unfold mvec. apply rsum_ext. intros a Ha. f_equal. rewrite channels_val by auto. rewrite SI.
    unfold source. cbn [fst snd]. unfold in_image. cbn [fst snd]. rewrite (proj2 (Nat.ltb_lt _ _) I1), (proj2 (Nat.ltb_lt _ _) I2). cbn [andb fst snd]. rewrite turn_origin. reflexivity.
  - unfold mvec. symmetry. apply rsum_0. intros a Ha. rewrite channels_val by auto. rewrite SI. ring.
Qed.
Lemma image_rel (t tin : ctype G) x x' (d d' : list (B * (nat * nat) -> R)) : ft_reps t <> [] -> rel tin x x' -> length d = ct_size t ->
  acts (ft_reps t) g (source x x') d d' -> rel t (image (a_h x) (a_w x) d) (image (a_h x') (a_w x') d').
Proof.
  intros Hne R L A. apply acts_iff in A as [L' V]; auto. destruct (rel_dims _ _ _ R) as [D1 D2]. destruct (turn_h fl kk (image (a_h x) (a_w x) d)) as [T1 T2]. cbn [image a_h a_w] in T1, T2.
  split; [cbn [image amap a_h a_w]; rewrite T1; exact D1|]. split; [cbn [image amap a_h a_w]; rewrite T2; exact D2|]. cbn [image amap a_h a_w a_px]. intros i j b c Hi Hj Hc.
  change (nth c d' (fun _ => 0) (b, (i, j))) with (val d' c (b, (i, j))). rewrite V by (rewrite L; auto). rewrite L. unfold mvec. apply rsum_ext. intros a Ha. f_equal.
  rewrite turn_origin. cbn [image a_h a_w a_px]. unfold source, in_image. cbn [fst snd]. rewrite (proj2 (Nat.ltb_lt _ _) Hi), (proj2 (Nat.ltb_lt _ _) Hj). cbn [andb].
  destruct (origin fl kk (a_h x) (a_w x) (i, j)). reflexivity.
Qed.

(** a module that works on channels *)
Lemma channel_law : channels_give g law.
Proof.
  intros fwd fwd' tin tout ok N1 N2 LEN H tt x x' y t' E _ SZ R F OK. unfold on_channels in *. cbn [fst snd] in *. rewrite SZ in *.
  destruct (H (source x x') (MkGT (channels (ct_size tin) x) tt) (MkGT (channels (ct_size tin) x') tt) x y eq_refl OK) as (Y & Y' & F1 & F2 & T1 & T2 & A).
  - split; [exact E|apply channels_len].
  - split; [exact E|apply channels_len].
  - apply rel_acts; auto.
  - rewrite F1 in F. cbn [rbind] in F. injection F as <- <-. split; [exact T1|]. rewrite F2. cbn [rbind]. rewrite T2. eexists. split; [reflexivity|].
    apply (image_rel tout tin); auto. eapply LEN; eauto.
Qed.
End Pixels.
