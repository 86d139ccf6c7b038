(** Model of [evaluate_output_shape] for the modules of a network and for the SequentialModule of them.  A shape is (batch, channels,
    height, width); the adaptive pooling layers put pairs in the places of height and width ([dim], Model_Pool). *)
From Coq Require Import Reals ZArith String List Bool.
From Verif Require Import Base Model_Groups Model_Rep Model_FieldType Model_Utils Model_Modules Model_GSpace Model_Conv Model_ConvT Model_Fieldwise Model_BatchNorm Model_Pool
  Model_Upsample Model_NormMax Model_Mask Model_Disentangle Model_Dropout Model_Net Model_Export Model_IGated.
Import ListNotations.

Definition shape4 : Type := (Z * Z * dim * dim)%type.
(** a formula with height and width: arithmetic with a pair raises *)
Definition with_ints (c_in : nat) (f : Z * Z * Z * Z -> result (Z * Z * Z * Z)) (s : shape4) : result shape4 :=
  let '(b, c, h, w) := s in
  assert_ (c =? Z.of_nat c_in)%Z
  (match h, w with
   | DInt h, DInt w => rbind (f (b, c, h, w)) (fun o => let '(b', c', h', w') := o in Ok (b', c', DInt h', DInt w'))
   | _, _ => Err "TypeError"%string
   end).
(** norm.py:197-203, pointwise.py:82-88, relu.py:67-73, elu.py:69-75, gated1.py:252-259, induced_norm.py:211-217, concatenated.py:84-91,
    vectorfield.py:95-101, invariantmaps/{gpool.py:125-131, norm.py:110-116, induced_norm.py:145-151}, batchnormalization/{norm.py:256-262,
    induced_norm.py:271-277, inner.py:151-157, gnorm.py:273-279}: the height and width of the input, the channels of the output type *)
Definition new_channels (c_in c_out : nat) (s : shape4) : result shape4 :=
  let '(b, c, h, w) := s in assert_ (c =? Z.of_nat c_in)%Z (Ok (b, Z.of_nat c_out, h, w)).
(** dropout/field.py:168-172, dropout/pointwise.py:72-75, identity_module.py:46-51 *)
Definition same_channels (c_in : nat) (s : shape4) : result shape4 :=
  let '(b, c, h, w) := s in assert_ (c =? Z.of_nat c_in)%Z (Ok s).
(** gated2.py:198-213: the shapes of the gates and of the features *)
Definition dim_eqb (a b : dim) : bool :=
  match a, b with DInt x, DInt y => (x =? y)%Z | DPair x y, DPair x' y' => ((x =? x') && (y =? y'))%Z%bool | _, _ => false end.
Definition gated2_shape {GS G} (m : gated2 (GS := GS) (G := G)) (sg s : shape4) : result shape4 :=
  let '(bg, cg, hg, wg) := sg in
  let '(b, c, h, w) := s in
  assert_ (cg =? Z.of_nat (ft_size rp_size (g2_gates m)))%Z
  (assert_ (c =? Z.of_nat (ft_size rp_size (g2_in m)))%Z
  (assert_ (bg =? b)%Z (assert_ (dim_eqb hg h && dim_eqb wg w) (Ok (b, Z.of_nat (ft_size rp_size (g2_in m)), h, w))))).
(** induced_gated1.py:266-273 *)
Definition igated1_shape {GS G} (m : igated1 (GS := GS) (G := G)) (s : shape4) : result shape4 := new_channels (ft_size rp_size (ig_in m)) (ft_size rp_size (ig_out m)) s.
(** reshuffle_module.py:75-83 *)
Definition reshuffle_shape {GS Rp} (sz : Rp -> nat) (m : reshuffle (GS := GS) (Rp := Rp)) (s : shape4) : result shape4 := new_channels (ft_size sz (rs_in m)) (ft_size sz (rs_out m)) s.
(** merge_module.py:106-126: the submodules (their [evaluate_output_shape] and their labels), the shapes of the inputs *)
Fixpoint add_shapes (o : shape4) (os : list shape4) : result shape4 :=
  match os with
  | [] => Ok o
  | (b', c', h', w') :: os' => let '(b, c, h, w) := o in assert_ (b =? b')%Z (assert_ (dim_eqb h h' && dim_eqb w w') (add_shapes (b, (c + c')%Z, h, w) os'))
  end.
Definition merge_shape (mods : list ((list shape4 -> result shape4) * list string)) (shapes : list (string * shape4)) : result shape4 :=
  rbind (rmap (fun p => rbind (rmap (dget shapes) (snd p)) (fst p)) mods) (fun os =>
  match os with [] => Err "IndexError"%string | o :: os' => add_shapes o os' end).

Section Shape.
Context {G : Type}.
Definition layer_shape (l : layer G) (s : shape4) : result shape4 :=
  match l with
  | LConv m _ => with_ints (ct_size (cv_in m)) (conv_output_shape m) s
  | LConvT m _ => with_ints (ct_size (tc_in m)) (tconv_output_shape m) s
  | LMaxPool m => with_ints (ct_size (mp_in m)) (maxpool_shape m) s
  | LMaxPoolA m => with_ints (ct_size (mp_in (am_base m))) (amaxpool_shape m) s
  | LAvgPool m => with_ints (ct_size (ap_in m)) (avgpool_shape m) s
  | LAvgPoolA m => with_ints (ct_size (aa_in m)) (aavgpool_shape m) s
  | LNormMax m => with_ints (ct_size (np_in m)) (nmaxpool_shape m) s
  | LUpsampling m =>
      let '(b, c, h, w) := s in
      match up_size m with
      | None => with_ints (ct_size (up_in m)) (upsampling_shape m) s     (* a pair times an int is a longer tuple: not a shape; taken as an error *)
      | Some o => assert_ (c =? Z.of_nat (ct_size (up_in m)))%Z (Ok (b, Z.of_nat (ct_size (up_in m)), DInt (Z.of_nat (fst o)), DInt (Z.of_nat (snd o))))
      end
  | LAdaptive m =>
      let '(b, c, h, w) := s in
      assert_ (c =? Z.of_nat (ct_size (ad_in m)))%Z (let o := DPair (Z.of_nat (fst (ad_o m))) (Z.of_nat (snd (ad_o m))) in Ok (b, Z.of_nat (ct_size (ad_in m)), o, o))
  (* masking_module.py:75-76, disentangle_module.py:119-120 *)
  | LMask _ _ _ | LDisentangle _ => Ok s
  | LFieldDropout _ | LPointwiseDropout _ => same_channels (ct_size (layer_in l)) s
  | _ => new_channels (ct_size (layer_in l)) (ct_size (layer_out l)) s
  end.
Definition xlayer_shape (l : xlayer G) (s : shape4) : result shape4 :=
  match l with
  | MReLU _ | MELU _ _ => new_channels (ct_size (xlayer_in l)) (ct_size (xlayer_out l)) s
  | MIdentity t => same_channels (ct_size t) s
  | MOther l => layer_shape l s
  end.
(** sequential_module.py:102-112: the loop over the modules, and the whole method; without modules in_type is None *)
Fixpoint shape_all (ls : list (xlayer G)) (s : shape4) : result shape4 :=
  match ls with [] => Ok s | l :: ls' => rbind (xlayer_shape l s) (shape_all ls') end.
Definition net_shape (ls : list (xlayer G)) (s : shape4) : result shape4 :=
  match ls with
  | [] => Err "AttributeError"%string
  | l :: _ => let '(b, c, h, w) := s in assert_ (c =? Z.of_nat (ct_size (xlayer_in l)))%Z (shape_all ls s)
  end.
End Shape.
