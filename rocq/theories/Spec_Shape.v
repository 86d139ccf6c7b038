(** Specification for C33 and networks: the shape of a tensor, and the modules that announce the shapes of their outputs. *)
From Coq Require Import Reals ZArith String List Bool.
From Verif Require Import Base Model_Groups Model_Rep Model_FieldType Model_Utils Model_Modules Model_GSpace Model_Conv Model_R2Diffop Model_ConvT Model_Fieldwise Model_BatchNorm Model_Pool
  Model_Upsample Model_NormMax Model_Mask Model_Disentangle Model_Dropout Model_Net Spec_Net Model_Export Model_Shape.
Import ListNotations.
Open Scope R_scope.

(** The shape of a tensor: the size of the batch, the channels of its type (GeometricTensor checks them), height and width *)
Definition shape_of {G B} (batch : Z) (x : arr (B -> vec) * ctype G) : shape4 :=
  (batch, Z.of_nat (ct_size (snd x)), DInt (Z.of_nat (a_h (fst x))), DInt (Z.of_nat (a_w (fst x)))).

Section Shape.
Context {G : Type}.
(** The modules, with any parameters and in any state.  Excluded are those whose announcement is known to be wrong (the C33 theorems with
    suffix _refuted): R2Conv and R2Diffop with a tuple as padding, most R2ConvTransposed, PointwiseMaxPool with ceil_mode,
    PointwiseMaxPoolAntialiased with padding or ceil_mode, PointwiseAvgPool, adaptive pooling. *)
Inductive announces : xlayer G -> Prop :=
| an_conv tin tout k p stride dil mode groups bias sigma fco rings mo bf m st :
    r2conv_make tin tout k (PadInt p) stride dil mode groups bias sigma fco rings mo bf = Ok m -> announces (MOther (LConv m st))
| an_diffop tin tout ks mo acc p stride dil mode groups bias bf moff mpow smo aoff m st :
    r2diffop_make tin tout ks mo acc (PadInt p) stride dil mode groups bias bf moff mpow smo aoff = Ok m -> announces (MOther (LConv m st))
| an_transposed tin tout k p dil groups bias sigma fco rings mo bf m st :
    tconv_make tin tout k p 0 1 dil groups bias sigma fco rings mo bf = Ok m -> (2 * p = dil * (k - 1))%nat -> announces (MOther (LConvT m st))
| an_maxpool t k s p d m : maxpool_make t k s p d false = Ok m -> announces (MOther (LMaxPool m))
| an_maxpool_antialiased t k s sigma m : amaxpool_make t k s (IInt 0) (IInt 1) false sigma = Ok m -> announces (MOther (LMaxPoolA m))
| an_avgpool_antialiased t sigma s p m : aavgpool_make t sigma s p = Ok m -> announces (MOther (LAvgPoolA m))
| an_norm_max t k s p d ceil m : nmaxpool_make t k s p d ceil = Ok m -> ft_reps t <> [] -> announces (MOther (LNormMax m))
| an_upsampling t scale size mode align m : upsampling_make t scale size mode align = Ok m -> announces (MOther (LUpsampling m))
| an_mask t s margin : announces (MOther (LMask t s margin))
| an_pointwise m : announces (MOther (LPointwise m))
| an_relu m : announces (MReLU m)
| an_elu alpha m : announces (MELU alpha m)
| an_norm m : announces (MOther (LNorm m))
| an_induced_norm m : announces (MOther (LInducedNorm m))
| an_gated m : announces (MOther (LGated m))
| an_concatenated m : announces (MOther (LConcatenated m))
| an_vectorfield m : announces (MOther (LVectorField m))
| an_group_pool m : announces (MOther (LGroupPool m))
| an_norm_pool m : announces (MOther (LNormPool m))
| an_induced_pool m : announces (MOther (LInducedPool m))
| an_norm_bn training m : announces (MOther (LNormBatchNorm training m))
| an_induced_bn training m : announces (MOther (LInducedBatchNorm training m))
| an_inner_bn training m : announces (MOther (LInnerBatchNorm training m))
| an_gnorm_bn training m : announces (MOther (LGNormBatchNorm training m))
| an_disentangle t uniq m : dismod_make t uniq = Ok m -> lists_reps uniq t -> (forall r, In r (ft_reps t) -> rep_accepted r) -> announces (MOther (LDisentangle m))
| an_field_dropout m : announces (MOther (LFieldDropout m))
| an_pointwise_dropout m : announces (MOther (LPointwiseDropout m))
| an_identity t : announces (MIdentity t).
End Shape.
