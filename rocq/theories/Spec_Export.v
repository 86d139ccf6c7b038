(** Specification for C48: the networks whose conversion is claimed to be faithful. *)
From Coq Require Import Reals ZArith String List Bool.
From Verif Require Import Base Spec_Fields Model_Groups Model_Rep Model_FieldType Model_Utils Model_Modules Model_GSpace Spec_GSpace Model_Conv Model_ConvT Model_Fieldwise Model_BatchNorm Model_Pool
  Model_Upsample Model_NormMax Model_Dropout Model_Net Spec_Net Model_Export.
Import ListNotations.
Open Scope R_scope.

(** Both networks raise, or both return the same numbers: the plain tensor has as many channels as the type of the geometric tensor says,
    the same height and width, and the same entries. *)
Definition same_outcome {G B} (r : result (arr (B -> vec) * ctype G)) (r' : result (nat * arr (B -> vec))) : Prop :=
  match r, r' with
  | Ok (y, t), Ok (n, y') => n = ct_size t /\ same_field n y y'
  | Err _, Err _ => True
  | _, _ => False
  end.

Section Export.
Context {G : Type}.
Definition sizes_positive (t : ctype G) : Prop := forall r, In r (ft_reps t) -> (0 < rp_size r)%nat.
(** The modules: what their constructors return, after any history of training, evaluation, changes of parameters.  Excluded are the
    arguments with which export is known to be wrong (C48_transposed_refuted, C48_maxpool_ceil_refuted, C48_upsampling_size_refuted). *)
Inductive exportable : xlayer G -> Prop :=
| ex_conv m w b ops : exportable (MOther (LConv m (conv_history m (initial_state m w b) ops)))
| ex_transposed m w b ops : tc_opad m = 0%nat -> exportable (MOther (LConvT m (tconv_history m (initial_state_t m w b) ops)))
| ex_maxpool t k s p d m : maxpool_make t k s p d false = Ok m -> exportable (MOther (LMaxPool m))
| ex_maxpool_antialiased t k s p d ceil sigma m : amaxpool_make t k s p d ceil sigma = Ok m -> exportable (MOther (LMaxPoolA m))
| ex_adaptive mx t o m : adpool_make mx t o = Ok m -> exportable (MOther (LAdaptive m))
| ex_upsampling t scale mode align m : upsampling_make t scale None mode align = Ok m -> exportable (MOther (LUpsampling m))
| ex_relu t m : relu_make t = Ok m -> exportable (MReLU m)
| ex_elu t alpha m : elu_make t alpha = Ok m -> exportable (MELU alpha m)
| ex_group_pool fits triv t m : gpool_make fits triv t = Ok m -> rp_size (triv (ft_gs t)) = 1%nat -> sizes_positive t -> exportable (MOther (LGroupPool m))
| ex_inner_bn training m : inner_bn_reached (ib_in m) m -> sizes_positive (ib_in m) -> exportable (MOther (LInnerBatchNorm training m))
| ex_dropout t p m : pdrop_make t p = Ok m -> exportable (MOther (LPointwiseDropout m))
| ex_identity t : exportable (MIdentity t).
End Export.
