(** Specification for C65: training on images and on transformed images. *)
From Coq Require Import Reals ZArith String List Bool.
From Verif Require Import Base Spec_Fields Model_Groups Model_Rep Model_FieldType Model_Utils Model_Modules Model_GSpace Spec_GSpace Model_Conv Spec_Conv Model_ConvT Model_Fieldwise Spec_Fieldwise Spec_Fieldwise2
  Model_BatchNorm Spec_BatchNorm Model_NormMax Model_Net Model_Support Spec_Net Model_Train.
Import ListNotations.
Open Scope R_scope.

Section Train.
Context {G : Type} (sp : space G) (isrep : rep G -> Prop) (argmax : list R -> nat) (cob_id : rep G -> bool) (fits : space G -> rep G -> bool).

(** the same layer with other values of its parameters and buffers: parameters have a fixed shape; buffers are such as batches and
    changes of parameters leave them *)
Inductive variant : layer G -> layer G -> Prop :=
| v_same l : variant l l
| v_conv m st st' : cs_training st' = true -> length (cs_w st') = length (cs_w st) -> length (cs_b st') = length (cs_b st) -> variant (LConv m st) (LConv m st')
| v_transposed m st st' : cs_training st' = true -> length (cs_w st') = length (cs_w st) -> length (cs_b st') = length (cs_b st) -> variant (LConvT m st) (LConvT m st')
| v_norm m lb : same_shape (nn_logb m) lb -> variant (LNorm m) (LNorm (set_logb m lb))
| v_induced_norm m lb : same_shape (in_logb m) lb -> variant (LInducedNorm m) (LInducedNorm (set_ilogb m lb))
| v_gated m b : length b = length (g1_bias m) -> variant (LGated m) (LGated (set_bias1 m b))
| v_norm_bn tr m m' : nb_in m' = nb_in m -> norm_bn_reached (nb_in m) m' -> variant (LNormBatchNorm tr m) (LNormBatchNorm tr m')
| v_induced_bn tr m m' : nb_in m' = nb_in m -> induced_bn_reached (nb_in m) m' -> variant (LInducedBatchNorm tr m) (LInducedBatchNorm tr m')
| v_inner_bn tr m m' : ib_in m' = ib_in m -> ib_track m' = ib_track m -> inner_bn_reached (ib_in m) m' -> variant (LInnerBatchNorm tr m) (LInnerBatchNorm tr m')
| v_gnorm_bn tr m m' : gb_in m' = gb_in m -> gnorm_bn_reached cob_id (gb_in m) m' -> variant (LGNormBatchNorm tr m) (LGNormBatchNorm tr m').
Definition variants : list (layer G) -> list (layer G) -> Prop := Forall2 variant.

(** an optimiser: it looks at the loss only as a function of the parameters and buffers of the network, and changes only these *)
Definition optimiser {St} (opt : St -> list (layer G) -> list (layer G) -> (list (layer G) -> result R) -> St * list (layer G)) : Prop :=
  forall s net net1 loss loss', variants net net1 -> (forall th, variants net th -> loss th = loss' th) ->
    opt s net net1 loss = opt s net net1 loss' /\ variants net (snd (opt s net net1 loss)).

(** Two iterations: a batch with its loss, and another batch of the same size with its loss *)
Record iteration2 : Type := MkIt2 {
  i2_B : Type; i2_bt : batch i2_B; i2_type : ctype G; i2_x : arr (i2_B -> vec); i2_x' : arr (i2_B -> vec);
  i2_loss : arr (i2_B -> vec) * ctype G -> R; i2_loss' : arr (i2_B -> vec) * ctype G -> R;
  i2_junk : nat -> i2_B * (nat * nat) -> R; i2_junk' : nat -> i2_B * (nat * nat) -> R; i2_junkn : nat -> nat -> R; i2_junkn' : nat -> nat -> R }.
Definition first_of (p : iteration2) : iteration G := MkIt (i2_B p) (i2_bt p) (i2_x p, i2_type p) (i2_loss p) (i2_junk p) (i2_junkn p).
Definition second_of (p : iteration2) : iteration G := MkIt (i2_B p) (i2_bt p) (i2_x' p, i2_type p) (i2_loss' p) (i2_junk' p) (i2_junkn' p).

(** the network net runs on the first batch, with every value of its parameters and buffers, and its layers are equivariant there *)
Definition runs (net : list (layer G)) (p : iteration2) : Prop := forall th, variants net th ->
  (exists y, run_all (map (layer_module argmax (i2_junk p) (i2_junkn p) cob_id (i2_bt p)) th) (i2_x p, i2_type p) = Ok y) /\
  suits_all argmax cob_id (i2_bt p) (i2_junk p) (i2_junkn p) th (i2_x p, i2_type p).
(** e is an element of the group that maps the pixel grid to itself, for which the layers of net are equivariant *)
Definition usable (net : list (layer G)) (t : ctype G) (e : gelt) : Prop := exists g,
  fg_is_element (sp_group (sp_obj sp)) e = true /\ sp_prj sp e = Some g /\ grid_exact (sp_obj sp) e /\
  Forall (good_layer sp isrep e g cob_id fits) net /\ ok_type sp isrep g t.
(** the second batch is the first one, transformed by e *)
Definition moved_batch (interp : forall A : Type, R -> R -> arr A -> arr A) (e : gelt) (p : iteration2) : Prop :=
  exists x1, field_transform interp (i2_type p) (i2_x p) e = Ok x1 /\ same_field (ct_size (i2_type p)) (i2_x' p) x1.
(** the second loss gives a transformed output the value that the first loss gives the output (a loss that compares the output with a target,
    for the transformed target) *)
Definition loss_moved (interp : forall A : Type, R -> R -> arr A -> arr A) (net : list (layer G)) (e : gelt) (p : iteration2) : Prop :=
  forall th y t y1 y', variants net th -> run_all (map (layer_module argmax (i2_junk p) (i2_junkn p) cob_id (i2_bt p)) th) (i2_x p, i2_type p) = Ok (y, t) ->
    field_transform interp t y e = Ok y1 -> same_field (ct_size t) y' y1 -> i2_loss' p (y', t) = i2_loss p (y, t).
(** a classifier: with every value of its parameters, its output is one pixel with scalar fields *)
Definition classifies (net : list (layer G)) (p : iteration2) : Prop :=
  forall th y t, variants net th -> run_all (map (layer_module argmax (i2_junk p) (i2_junkn p) cob_id (i2_bt p)) th) (i2_x p, i2_type p) = Ok (y, t) ->
    (forall r, In r (ft_reps t) -> is_trivial r = true) /\ a_h y = 1%nat /\ a_w y = 1%nat.
(** the losses of the two batches are the same function of the numbers in the output *)
Definition same_loss (p : iteration2) : Prop := forall t y y', same_field (ct_size t) y y' -> i2_loss' p (y', t) = i2_loss p (y, t).
End Train.
Arguments iteration2 : clear implicits.
