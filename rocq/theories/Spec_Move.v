(** Specification for C58: moving an image moves the output of a network. *)
From Coq Require Import Reals ZArith String List Bool.
From Verif Require Import Base Model_Groups Model_Rep Model_FieldType Model_Utils Model_Modules Model_GSpace Model_Conv Model_ConvT Model_Fieldwise Model_BatchNorm Model_Pool Model_Upsample Model_NormMax Model_Mask
  Model_Disentangle Model_Dropout Model_Net.
Import ListNotations.
Open Scope R_scope.

(** ** Windows: a range of rows (or columns) of one image and a range of the same length of another image *)
Record range : Type := MkRange { rg_from : nat; rg_from' : nat; rg_len : nat }.
(** the windows lie in the images x and x', and the first n channels are the same in both *)
Definition same_window {B} (n : nat) (x x' : arr (B -> vec)) (rows cols : range) : Prop :=
  forall i j, (i < rg_len rows)%nat -> (j < rg_len cols)%nat ->
    (rg_from rows + i < a_h x)%nat /\ (rg_from cols + j < a_w x)%nat /\ (rg_from' rows + i < a_h x')%nat /\ (rg_from' cols + j < a_w x')%nat /\
    forall b c, (c < n)%nat -> a_px x (rg_from rows + i)%nat (rg_from cols + j)%nat b c = a_px x' (rg_from' rows + i)%nat (rg_from' cols + j)%nat b c.

(** a filter of k taps with stride s, padding p and dilation d: all that the outputs of the range o read lies in the range a, at the
    same place of both ranges *)
Definition reads (k s p d : nat) (a o : range) : Prop :=
  forall q t, (q < rg_len o)%nat -> (t < k)%nat -> exists u, (u < rg_len a)%nat /\
    (s * (rg_from o + q) + d * t = p + rg_from a + u)%nat /\ (s * (rg_from' o + q) + d * t = p + rg_from' a + u)%nat.
(** a transposed convolution: every tap that falls on an output of the range o comes from the range a, at the same place of both
    ranges; the range o ends before the outputs do *)
Definition writes (k s p d : nat) (a o : range) : Prop :=
  (0 < rg_len a)%nat /\ (2 * p + rg_from o + rg_len o <= s * (rg_from a + rg_len a - 1) + d * (k - 1) + 1)%nat /\
  (2 * p + rg_from' o + rg_len o <= s * (rg_from' a + rg_len a - 1) + d * (k - 1) + 1)%nat /\
  forall q t, (q < rg_len o)%nat -> (t < k)%nat ->
    (exists u, (u < rg_len a)%nat /\ (s * (rg_from a + u) + d * t = p + rg_from o + q)%nat /\ (s * (rg_from' a + u) + d * t = p + rg_from' o + q)%nat) \/
    (forall i, (s * i + d * t <> p + rg_from o + q)%nat /\ (s * i + d * t <> p + rg_from' o + q)%nat).
(** q times as many rows *)
Definition enlarged (q : nat) (a o : range) : Prop := rg_from o = (q * rg_from a)%nat /\ rg_from' o = (q * rg_from' a)%nat /\ rg_len o = (q * rg_len a)%nat.

Section Layers.
Context {G : Type}.
(** the layers that treat every pixel alone *)
Definition pixelwise (l : layer G) : bool :=
  match l with
  | LPointwise _ | LNorm _ | LInducedNorm _ | LGated _ | LConcatenated _ | LVectorField _ | LGroupPool _ | LNormPool _ | LInducedPool _ | LDisentangle _ | LFieldDropout _ | LPointwiseDropout _ => true
  | LNormBatchNorm training _ | LInducedBatchNorm training _ | LGNormBatchNorm training _ => negb training
  | LInnerBatchNorm training m => (negb training && ib_track m)%bool
  | _ => false
  end.
(** what a layer computes in the windows (o, o2) comes from the windows (a, a2) of its input *)
Inductive sees : layer G -> range * range -> range * range -> Prop :=
| sees_conv m st a a2 o o2 :
    reads (cv_k m) (cv_stride m) (fst (cv_pad m)) (cv_dil m) a o -> reads (cv_k m) (cv_stride m) (snd (cv_pad m)) (cv_dil m) a2 o2 -> sees (LConv m st) (a, a2) (o, o2)
| sees_transposed m st a a2 o o2 :
    writes (tc_k m) (tc_stride m) (tc_pad m) (tc_dil m) a o -> writes (tc_k m) (tc_stride m) (tc_pad m) (tc_dil m) a2 o2 -> sees (LConvT m st) (a, a2) (o, o2)
| sees_maxpool m a a2 o o2 :
    reads (fst (mp_k m)) (fst (mp_s m)) (fst (mp_p m)) (fst (mp_d m)) a o -> reads (snd (mp_k m)) (snd (mp_s m)) (snd (mp_p m)) (snd (mp_d m)) a2 o2 -> sees (LMaxPool m) (a, a2) (o, o2)
| sees_maxpool_antialiased m a a2 z z2 o o2 : (* the maxima, with stride 1, then the filter *)
    reads (fst (mp_k (am_base m))) 1 (fst (mp_p (am_base m))) (fst (mp_d (am_base m))) a z -> reads (snd (mp_k (am_base m))) 1 (snd (mp_p (am_base m))) (snd (mp_d (am_base m))) a2 z2 ->
    reads (am_fs m) (fst (mp_s (am_base m))) (fst (am_pad m)) 1 z o -> reads (am_fs m) (snd (mp_s (am_base m))) (snd (am_pad m)) 1 z2 o2 -> sees (LMaxPoolA m) (a, a2) (o, o2)
| sees_avgpool m a a2 o o2 :
    reads (fst (ap_k m)) (fst (ap_s m)) (fst (ap_p m)) 1 a o -> reads (snd (ap_k m)) (snd (ap_s m)) (snd (ap_p m)) 1 a2 o2 -> sees (LAvgPool m) (a, a2) (o, o2)
| sees_avgpool_antialiased m a a2 o o2 :
    reads (aa_fs m) (fst (aa_s m)) (fst (aa_p m)) 1 a o -> reads (aa_fs m) (snd (aa_s m)) (snd (aa_p m)) 1 a2 o2 -> sees (LAvgPoolA m) (a, a2) (o, o2)
| sees_norm_max m a a2 o o2 :
    reads (fst (np_k m)) (fst (np_s m)) (fst (np_p m)) (fst (np_d m)) a o -> reads (snd (np_k m)) (snd (np_s m)) (snd (np_p m)) (snd (np_d m)) a2 o2 -> sees (LNormMax m) (a, a2) (o, o2)
| sees_upsampling m q a a2 o o2 : up_mode m = "nearest"%string -> up_size m = None -> up_scale m = Some q -> enlarged q a o -> enlarged q a2 o2 -> sees (LUpsampling m) (a, a2) (o, o2)
| sees_pixelwise l w : pixelwise l = true -> sees l w w.
(** a chain of layers *)
Inductive sees_all : list (layer G) -> range * range -> range * range -> Prop :=
| sees_nil w : sees_all [] w w
| sees_cons l ls u v w : sees l u v -> sees_all ls v w -> sees_all (l :: ls) u w.
End Layers.

(** ** Rolls: the image wrapped around *)
Definition rolled {B} (n a b : nat) (x x' : arr (B -> vec)) : Prop :=
  a_h x' = a_h x /\ a_w x' = a_w x /\
  forall i j bb c, (i < a_h x)%nat -> (j < a_w x)%nat -> (c < n)%nat -> a_px x' i j bb c = a_px x ((i + a) mod a_h x)%nat ((j + b) mod a_w x)%nat bb c.
(** one axis: its length and how far it is rolled.  A filter of k taps with stride s, padding p and dilation d takes the axis u to the
    axis v if the stride divides the length and the roll, and if the filter fits into its stride without padding, or pads circularly to
    as much as it covers *)
Definition axis : Type := (nat * nat)%type.
Definition turns (k s p d : nat) (circular : bool) (u v : axis) : Prop :=
  (0 < fst v)%nat /\ fst u = (s * fst v)%nat /\ snd u = (s * snd v)%nat /\ (p = 0%nat /\ (d * (k - 1) + 1 <= s)%nat \/ circular = true /\ (2 * p = d * (k - 1))%nat).
Section Rolls.
Context {G : Type}.
(** batch normalisation, in training or evaluation mode *)
Definition normalises (l : layer G) : bool := match l with LNormBatchNorm _ _ | LInducedBatchNorm _ _ | LInnerBatchNorm _ _ | LGNormBatchNorm _ _ => true | _ => false end.
(** the layer l takes rolls of images of the axes u, u2 (in a batch of n images) to rolls of its outputs, of axes v, v2 *)
Inductive wraps (n : nat) : layer G -> axis * axis -> axis * axis -> Prop :=
| wraps_conv m st u u2 v v2 :
    turns (cv_k m) (cv_stride m) (fst (cv_pad m)) (cv_dil m) (match cv_mode m with MCircular => true | _ => false end) u v ->
    turns (cv_k m) (cv_stride m) (snd (cv_pad m)) (cv_dil m) (match cv_mode m with MCircular => true | _ => false end) u2 v2 -> wraps n (LConv m st) (u, u2) (v, v2)
| wraps_maxpool m u u2 v v2 :
    turns (fst (mp_k m)) (fst (mp_s m)) (fst (mp_p m)) (fst (mp_d m)) false u v -> turns (snd (mp_k m)) (snd (mp_s m)) (snd (mp_p m)) (snd (mp_d m)) false u2 v2 -> wraps n (LMaxPool m) (u, u2) (v, v2)
| wraps_avgpool m u u2 v v2 :
    turns (fst (ap_k m)) (fst (ap_s m)) (fst (ap_p m)) 1 false u v -> turns (snd (ap_k m)) (snd (ap_s m)) (snd (ap_p m)) 1 false u2 v2 -> wraps n (LAvgPool m) (u, u2) (v, v2)
| wraps_norm_max m u u2 v v2 :
    turns (fst (np_k m)) (fst (np_s m)) (fst (np_p m)) (fst (np_d m)) false u v -> turns (snd (np_k m)) (snd (np_s m)) (snd (np_p m)) (snd (np_d m)) false u2 v2 -> wraps n (LNormMax m) (u, u2) (v, v2)
| wraps_upsampling m q u u2 : up_mode m = "nearest"%string -> up_size m = None -> up_scale m = Some q ->
    wraps n (LUpsampling m) (u, u2) ((q * fst u, q * snd u), (q * fst u2, q * snd u2))%nat
| wraps_global m u u2 : ad_o m = (1, 1)%nat -> wraps n (LAdaptive m) (u, u2) ((1, 0), (1, 0))%nat (* global pooling: what comes out stays as it is *)
| wraps_pixelwise l w : pixelwise l = true -> wraps n l w w
| wraps_normalisation l w : normalises l = true -> (forall r, In r (ft_reps (layer_in l)) -> (1 < rp_size r * (n * (fst (fst w) * fst (snd w))))%nat) -> wraps n l w w.
Inductive wraps_all (n : nat) : list (layer G) -> axis * axis -> axis * axis -> Prop :=
| wraps_nil w : wraps_all n [] w w
| wraps_cons l ls u v w : wraps n l u v -> wraps_all n ls v w -> wraps_all n (l :: ls) u w.
End Rolls.
