(** Model of a network: a SequentialModule (sequential_module.py) whose modules are the layers of e2cnn.nn.  A tensor of shape
    (batch, channels, height, width) is an image [arr (B -> vec)] (Model_Conv); the modules that Model_Fieldwise and
    Model_BatchNorm describe on lists of channels get the channels of that image. *)
From Coq Require Import Reals ZArith String List Bool.
From Verif Require Import Base Model_Groups Model_Rep Model_FieldType Model_Utils Model_Modules Model_GSpace Model_Conv Model_ConvT Model_Fieldwise Model_BatchNorm Model_Pool
  Model_Upsample Model_NormMax Model_Mask Model_Disentangle Model_Dropout.
Import ListNotations.
Open Scope R_scope.

(** the batch: its size, and the numbering of its images *)
Record batch (B : Type) : Type := MkBatch { bt_n : nat; bt_num : B -> nat; bt_at : nat -> B }.
Arguments MkBatch {B} _ _ _.
Arguments bt_n {B} _.
Arguments bt_num {B} _ _.
Arguments bt_at {B} _ _.

(** the channels of an image, as functions of batch index and pixel ([image], Model_NormMax: the way back); they are zero outside of the image, where
    tensors have no entries *)
Definition in_image {A} (x : arr A) (q : nat * nat) : bool := ((fst q <? a_h x) && (snd q <? a_w x))%nat%bool.
Definition channels {B} (n : nat) (x : arr (B -> vec)) : list (B * (nat * nat) -> R) :=
  map (fun c q => if in_image x (snd q) then a_px x (fst (snd q)) (snd (snd q)) (fst q) c else 0) (seq 0 n).
(** the same with the entries of a channel numbered row by row (torch's view(-1)): entry (b, i, j) is number (b * height + i) * width + j *)
Definition flat {B} (bt : batch B) (h w : nat) (q : B * (nat * nat)) : nat := ((bt_num bt (fst q) * h + fst (snd q)) * w + snd (snd q))%nat.
Definition unflat {B} (bt : batch B) (h w p : nat) : B * (nat * nat) := (bt_at bt (p / (h * w)), (p mod (h * w) / w, p mod w))%nat.
Definition flat_channels {B} (bt : batch B) (n : nat) (x : arr (B -> vec)) : list (nat -> R) :=
  map (fun c p => if (p <? bt_n bt * (a_h x * a_w x))%nat then let q := unflat bt (a_h x) (a_w x) p in a_px x (fst (snd q)) (snd (snd q)) (fst q) c else 0) (seq 0 n).
Definition flat_image {B} (bt : batch B) (h w : nat) (l : list (nat -> R)) : arr (B -> vec) :=
  MkArr h w (fun i j b c => nth c l (fun _ => 0) (flat bt h w (b, (i, j)))).

Section Net.
Context {G B : Type}.
Notation ft := (ctype G).
Notation tensor := (arr (B -> vec) * ctype G)%type.

(** The layers, with their parameters and states: R2Conv and R2Diffop, R2ConvTransposed; the pooling layers; R2Upsampling; MaskModule; the
    non-linearities; the group pooling layers; the batch normalisations; DisentangleModule; the dropouts in evaluation mode *)
Inductive layer : Type :=
| LConv (m : r2conv G) (st : cstate)
| LConvT (m : tconv G) (st : cstate)
| LMaxPool (m : maxpool (GS := space G) (G := G))
| LMaxPoolA (m : amaxpool (GS := space G) (G := G))
| LAvgPool (m : avgpool (GS := space G) (G := G))
| LAvgPoolA (m : aavgpool (GS := space G) (G := G))
| LAdaptive (m : adpool (GS := space G) (G := G))
| LNormMax (m : nmaxpool (GS := space G) (G := G))
| LUpsampling (m : upsampling (GS := space G) (G := G))
| LMask (t : ctype G) (s : nat) (margin : R)
| LPointwise (m : pointwise (GS := space G) (G := G))
| LNorm (m : norm_nl (GS := space G) (G := G))
| LInducedNorm (m : inorm_nl (GS := space G) (G := G))
| LGated (m : gated1 (GS := space G) (G := G))
| LConcatenated (m : concatenated (GS := space G) (G := G))
| LVectorField (m : vfield (GS := space G) (G := G))
| LGroupPool (m : pool (GS := space G) (G := G))
| LNormPool (m : pool (GS := space G) (G := G))
| LInducedPool (m : ipool (GS := space G) (G := G))
| LNormBatchNorm (training : bool) (m : nbn (GS := space G) (G := G) (K := nat))
| LInducedBatchNorm (training : bool) (m : nbn (GS := space G) (G := G) (K := nat * nat))
| LInnerBatchNorm (training : bool) (m : ibn (GS := space G) (G := G))
| LGNormBatchNorm (training : bool) (m : gbn (GS := space G) (G := G))
| LDisentangle (m : dis_mod (GS := space G) (G := G))
| LFieldDropout (m : fdrop (GS := space G) (G := G))
| LPointwiseDropout (m : pdrop (GS := space G) (G := G)).

Definition layer_in (l : layer) : ft :=
  match l with
  | LConv m _ => cv_in m | LConvT m _ => tc_in m | LMaxPool m => mp_in m | LMaxPoolA m => mp_in (am_base m) | LAvgPool m => ap_in m | LAvgPoolA m => aa_in m
  | LAdaptive m => ad_in m | LNormMax m => np_in m | LUpsampling m => up_in m | LMask t _ _ => t | LPointwise m => pw_in m | LNorm m => nn_in m
  | LInducedNorm m => in_in m | LGated m => g1_in m | LConcatenated m => cc_in m | LVectorField m => vf_in m | LGroupPool m => po_in m | LNormPool m => po_in m
  | LInducedPool m => ip_in m | LNormBatchNorm _ m => nb_in m | LInducedBatchNorm _ m => nb_in m | LInnerBatchNorm _ m => ib_in m | LGNormBatchNorm _ m => gb_in m
  | LDisentangle m => dm_in m | LFieldDropout m => fd_in m | LPointwiseDropout m => pd_in m
  end.
Definition layer_out (l : layer) : ft :=
  match l with
  | LConv m _ => cv_out m | LConvT m _ => tc_out m | LGated m => g1_out m | LConcatenated m => cc_out m | LVectorField m => vf_out m | LGroupPool m => po_out m
  | LNormPool m => po_out m | LInducedPool m => ip_out m | LDisentangle m => dm_out m
  | _ => layer_in l
  end.

(** a module that works on channels *)
Definition on_channels (fwd : gtensor (space G) (rep G) (B * (nat * nat) -> R) -> result (gtensor (space G) (rep G) (B * (nat * nat) -> R))) (x : tensor) : result tensor :=
  rbind (fwd (MkGT (channels (ct_size (snd x)) (fst x)) (snd x))) (fun y => Ok (image (a_h (fst x)) (a_w (fst x)) (gt_data y), gt_type y)).
(** a module that works on numbered entries; of the result (output and new state) only the output is kept here *)
Definition on_entries {S} (bt : batch B) (fwd : nat -> gtensor (space G) (rep G) (nat -> R) -> result (gtensor (space G) (rep G) (nat -> R) * S)) (x : tensor) : result tensor :=
  rbind (fwd (bt_n bt * (a_h (fst x) * a_w (fst x)))%nat (MkGT (flat_channels bt (ct_size (snd x)) (fst x)) (snd x)))
    (fun y => Ok (flat_image bt (a_h (fst x)) (a_w (fst x)) (gt_data (fst y)), gt_type (fst y))).

(** The forward of a layer.  [argmax]: torch's choice among equal values; [junk]: what torch.empty finds in memory; [cob_id]: the attribute
    of a representation that says that its change of basis is the identity (Model_BatchNorm); [bt]: the batch *)
Section Forward.
Variables (argmax : list R -> nat) (junk : nat -> B * (nat * nat) -> R) (junkn : nat -> nat -> R) (cob_id : rep G -> bool) (bt : batch B).
Definition layer_forward (l : layer) (x : tensor) : result tensor :=
  match l with
  | LConv m st => conv_forward m st (snd x) (fst x)
  | LConvT m st => tconv_forward m st (snd x) (fst x)
  | LMaxPool m => maxpool_forward space_eqb rep_eqb m (snd x) (fst x)
  | LMaxPoolA m => amaxpool_forward space_eqb rep_eqb m (snd x) (fst x)
  | LAvgPool m => avgpool_forward space_eqb rep_eqb m (snd x) (fst x)
  | LAvgPoolA m => aavgpool_forward space_eqb rep_eqb m (snd x) (fst x)
  | LAdaptive m => adpool_forward space_eqb rep_eqb m (snd x) (fst x)
  | LNormMax m => nmaxpool_forward space_eqb rep_eqb argmax junk m (snd x) (fst x)
  | LUpsampling m => upsampling_forward space_eqb rep_eqb m (snd x) (fst x)
  (* masking_module.py:65-71 *)
  | LMask t s margin => assert_ (ft_eqb space_eqb rep_eqb (snd x) t) (rbind (mask_forward s margin (fst x)) (fun y => Ok (y, t)))
  | LPointwise m => on_channels (pointwise_forward space_eqb rep_eqb m) x
  | LNorm m => on_channels (norm_forward space_eqb rep_eqb junk m) x
  | LInducedNorm m => on_channels (inorm_forward space_eqb rep_eqb junk m) x
  | LGated m => on_channels (gated1_forward space_eqb rep_eqb junk m) x
  | LConcatenated m => on_channels (conc_forward space_eqb rep_eqb m) x
  | LVectorField m => on_channels (vfield_forward space_eqb rep_eqb argmax m) x
  | LGroupPool m => on_channels (gpool_forward space_eqb rep_eqb junk m) x
  | LNormPool m => on_channels (npool_forward space_eqb rep_eqb junk m) x
  | LInducedPool m => on_channels (ipool_forward space_eqb rep_eqb junk m) x
  | LNormBatchNorm tr m => on_entries bt (fun n => nbn_forward space_eqb rep_eqb Nat.eqb (fun s => py_str s) (fun s => s) (fun s => s) tr n m) x
  | LInducedBatchNorm tr m => on_entries bt (fun n => nbn_forward space_eqb rep_eqb pair_eqb pair_str fst snd tr n m) x
  | LInnerBatchNorm tr m => on_entries bt (fun n => inner_forward space_eqb rep_eqb tr n junkn m) x
  | LGNormBatchNorm tr m => on_entries bt (fun n => gnorm_forward space_eqb rep_eqb cob_id tr n junkn m) x
  | LDisentangle m => on_channels (dismod_forward space_eqb rep_eqb junk m) x
  | LFieldDropout m => on_channels (fun x => rbind (fdrop_forward space_eqb rep_eqb false junk (fun _ _ _ => 0) m x) (fun y => Ok (fst y))) x
  | LPointwiseDropout m => on_channels (pdrop_forward space_eqb rep_eqb false (fun _ _ => 0) m) x
  end.
(** the layer as a module of a SequentialModule *)
Definition layer_module (l : layer) : emodule ft tensor := MkEM (layer_in l) (layer_out l) (layer_forward l).
End Forward.
End Net.
Arguments layer : clear implicits.
