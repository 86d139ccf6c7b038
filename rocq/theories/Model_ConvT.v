(** Model of e2cnn/nn/modules/r2_conv/r2_transposed_convolution.py: R2ConvTransposed, with torch's conv_transpose2d on exact reals. *)
From Coq Require Import Reals ZArith String List Bool.
From Verif Require Import Base Model_Groups Model_Rep Model_FieldType Model_Tensor Model_GSpace Model_Kernels Model_Utils Model_Expansion Model_Conv.
Import ListNotations.
Open Scope R_scope.

(** r2_transposed_convolution.py:475: [grid] is points.T, of shape (2, k * k), and the sum is over axis 1: the root of the sum of
    the squares of one coordinate over all the points, not the largest radius of a point as in R2Conv *)
Definition coord_norm (f : R * R -> R) (k dil : nat) : R := sqrt (rsum (k * k) (fun s => f (grid_point k dil s) * f (grid_point k dil s))).
Definition max_radius_t (k dil : nat) : R := Rmax (coord_norm fst k dil) (coord_norm snd k dil).

(** r2_transposed_convolution.py:464-533 [compute_basis_params]; 414-441 [bandlimiting_filter], 536-596 [_manual_fco3],
    [_manual_fco2], [_manual_fco1] and 444-461 [get_grid_coords] are copies of the functions of r2convolution.py.  The default rings
    (494) are not multiplied by the dilation.  The assertion of 460 fails for k = 0. *)
Definition compute_basis_params_t (k : nat) (fco : fco_arg) (rings : option (list R)) (sigma : sigma_arg) (dil : nat)
    (custom : option (kattr -> bool)) : result ((kattr -> bool) * list R * list R * Z) :=
  assert_ (0 <? k)%nat
  (let rings := match rings with
                | Some l => l
                | None => linspace0 (INR ((k - 1) / 2)) ((k + 1) / 2)
                end in
  assert_ (forallb (fun r => (Rleb r (max_radius_t k dil) && Rleb 0 r)%bool) rings)
  (let sigma := match sigma with
                | SigNone => map (fun p => if Reqb (fst p) 0 then 5 / 1000 else snd p)
                                 (combine rings (repeat (6 / 10) (length rings - 1) ++ [4 / 10]))
                | SigFloat s => repeat s (length rings)
                | SigList l => l
                end in
   let m := INR (k / 2) in
   let f := match fco with FcoNone => FcoFloat (-1) | _ => fco end in
   let cut := match f with
              | FcoFun g => g
              | FcoFloat x => if Reqb x (-3) then manual_fco3 m else if Reqb x (-2) then manual_fco2 m
                              else if Reqb x (-1) then manual_fco1 m else fun r => x * r
              | FcoNone => fun r => r
              end in
   rbind (rmaximum (map cut rings)) (fun M =>
   let bl := fun a => Rleb (Rabs (IZR (ka_freq a))) (cut (ka_radius a)) in
   let keep := match custom with Some c => fun a => (c a && bl a)%bool | None => bl end in
   Ok (keep, rings, sigma, py_trunc M)))).

(** torch.nn.functional.conv_transpose2d.  The filter is an array (in, out / groups, k * k): the pixel (i, j) of the input adds
    filter(ky, kx) times its value to the pixel (i * stride + ky * dil - p, j * stride + kx * dil - p) of the output.  torch raises
    for an empty image, for an output of no pixels, and for an output padding that is smaller neither than the stride nor than the
    dilation. *)
Definition conv_transpose {B} (cin cout k : nat) (f : nat -> nat -> nat -> R) (bias : option vec) (stride dil groups p op : nat)
    (x : arr (B -> vec)) : result (arr (B -> vec)) :=
  let full := fun n => ((n - 1) * stride + dil * (k - 1) + 1 + op)%nat in
  if ((0 <? stride) && (0 <? k) && (0 <? dil) && (0 <? groups) && (cin mod groups =? 0) && (cout mod groups =? 0) &&
      (0 <? a_h x) && (0 <? a_w x) && ((op <? stride) || (op <? dil)) && (2 * p <? full (a_h x)) && (2 * p <? full (a_w x)))%nat%bool
  then Ok (MkArr (full (a_h x) - 2 * p) (full (a_w x) - 2 * p) (fun u v b o =>
         (match bias with Some v => v o | None => 0 end) +
         rsum (a_h x) (fun i => rsum (a_w x) (fun j => rsum k (fun ky => rsum k (fun kx =>
           if ((i * stride + ky * dil =? u + p) && (j * stride + kx * dil =? v + p))%nat%bool
           then rsum (cin / groups) (fun c =>
                  let ch := ((o / (cout / groups)) * (cin / groups) + c)%nat in
                  f ch (o mod (cout / groups))%nat (ky * k + kx)%nat * a_px x i j b ch)
           else 0))))))
  else Err "RuntimeError".

Section ConvT.
Context {G : Type}.

Record tconv : Type := MkTConv {
  tc_in : ctype G; tc_out : ctype G; tc_k : nat; tc_pad : nat; tc_opad : nat; tc_stride : nat; tc_dil : nat; tc_groups : nat;
  tc_bias : option (list vec);                   (* columns of bias_expansion *)
  tc_exp : @bexp (rep G) kattr kid }.

(** r2_transposed_convolution.py:94-111: the checks for grouped convolutions are those of R2Conv; the fields of one OUTPUT group *)
Definition group_out (tin tout : ctype G) (groups : nat) : result (list (rep G)) :=
  rbind (group_in tin tout groups) (fun _ =>
  Ok (if (1 <? groups)%nat then firstn (length (ft_reps tout) / groups) (ft_reps tout) else ft_reps tout)).

(** r2_transposed_convolution.py:29-186 [__init__], without the initialisation of the weights (C47) and without the caches (C34).
    Unlike R2Conv there is no check that the basis is not empty. *)
Definition tconv_make (tin tout : ctype G) (k p op stride dil groups : nat) (bias : bool) (sigma : sigma_arg) (fco : fco_arg)
    (rings : option (list R)) (maximum_offset : option Z) (basis_filter : option (kattr -> bool)) : result tconv :=
  assert_ (space_eqb (ft_gs tin) (ft_gs tout))
  (rbind (group_out tin tout groups) (fun out_reps =>
   let cols := bias_cols 0 (ft_reps tout) in
   let b := if (bias && (0 <? length cols)%nat)%bool then Some cols else None in
   rbind (compute_basis_params_t k fco rings sigma dil basis_filter) (fun '(keep, rings, sigma, maxf) =>
   let build := fun rin rout => sp_build (ft_gs tin) rin rout rings sigma (Some maxf) maximum_offset in
   rbind (be_make rp_name rp_size rep_eqb ka_id (ft_reps tin) out_reps (k * k) (pair_block build k dil keep)) (fun e =>
   Ok (MkTConv tin tout k p op stride dil groups b e))))).

(** r2_transposed_convolution.py:192-202 [expand_parameters]: the first two axes of the filter are exchanged (195) *)
Definition expand_parameters_t (m : tconv) (w bias : list R) : result (filter_t * option vec) :=
  rbind (be_forward rp_name rp_size kid_eqb (tc_exp m) w) (fun f =>
  Ok (fun c o s => f o c s, match tc_bias m with Some cols => Some (expand_bias cols bias) | None => None end)).

(** r2_transposed_convolution.py:215-222 *)
Definition run_tconv {B} (m : tconv) (fb : filter_t * option vec) (x : arr (B -> vec)) : result (arr (B -> vec)) :=
  conv_transpose (ct_size (tc_in m)) (ct_size (tc_out m)) (tc_k m) (fst fb) (snd fb) (tc_stride m) (tc_dil m) (tc_groups m)
    (tc_pad m) (tc_opad m) x.

(** state after the constructor: buffers of zeros *)
Definition initial_state_t (m : tconv) (w bias : list R) : cstate :=
  MkCS true w bias (Some (fun _ _ _ => 0)) (Some (match tc_bias m with Some _ => Some (fun _ => 0) | None => None end)).

(** r2_transposed_convolution.py:207-212 *)
Definition used_params_t (m : tconv) (st : cstate) : result (filter_t * option vec) :=
  if cs_training st then expand_parameters_t m (cs_w st) (cs_b st)
  else rbind (attribute (cs_filter st)) (fun f => rbind (attribute (cs_bias st)) (fun b => Ok (f, b))).
(** r2_transposed_convolution.py:204-224 [forward(input)] *)
Definition tconv_forward {B} (m : tconv) (st : cstate) (t : ctype G) (x : arr (B -> vec)) : result (arr (B -> vec) * ctype G) :=
  assert_ (ft_eqb space_eqb rep_eqb t (tc_in m))
  (rbind (used_params_t m st) (fun fb => rbind (run_tconv m fb x) (fun y => Ok (y, tc_out m)))).

(** r2_transposed_convolution.py:226-245 [train(mode)] *)
Definition tconv_train (m : tconv) (mode : bool) (st : cstate) : result cstate :=
  if mode then Ok (MkCS true (cs_w st) (cs_b st) None None)
  else if cs_training st
  then rbind (expand_parameters_t m (cs_w st) (cs_b st)) (fun fb =>
       Ok (MkCS false (cs_w st) (cs_b st) (Some (fst fb)) (Some (snd fb))))
  else Ok st.

(** r2_transposed_convolution.py:247-256 [evaluate_output_shape]: the formula of a convolution, not of a transposed one *)
Definition tconv_output_shape (m : tconv) (shape : Z * Z * Z * Z) : result (Z * Z * Z * Z) :=
  let '(b, c, hi, wi) := shape in
  assert_ (c =? Z.of_nat (ct_size (tc_in m)))%Z
  (if (tc_stride m =? 0)%nat then Err "ZeroDivisionError"
   else
     let out := fun n => ((n + 2 * Z.of_nat (tc_pad m) - Z.of_nat (tc_dil m) * (Z.of_nat (tc_k m) - 1) - 1) / Z.of_nat (tc_stride m) + 1)%Z in
     Ok (b, Z.of_nat (ct_size (tc_out m)), out hi, out wi)).

(** torch.nn.ConvTranspose2d; [ct_opad]: its argument output_padding, 0 by default *)
Record convt2d_mod : Type := MkCT2 {
  ct_in : nat; ct_out : nat; ct_k : nat; ct_pad : nat; ct_opad : nat; ct_stride : nat; ct_dil : nat; ct_groups : nat;
  ct_weight : filter_t; ct_bias : option vec }.
Definition convt2d_forward {B} (c : convt2d_mod) (x : arr (B -> vec)) : result (arr (B -> vec)) :=
  conv_transpose (ct_in c) (ct_out c) (ct_k c) (ct_weight c) (ct_bias c) (ct_stride c) (ct_dil c) (ct_groups c) (ct_pad c) (ct_opad c) x.
(** r2_transposed_convolution.py:354-382 [export]: output_padding is not passed on (368-375).  Also returns the new state. *)
Definition tconv_export (m : tconv) (st : cstate) : result (convt2d_mod * cstate) :=
  rbind (tconv_train m false st) (fun st =>
  rbind (attribute (cs_filter st)) (fun f =>
  rbind (attribute (cs_bias st)) (fun b =>
  Ok (MkCT2 (ct_size (tc_in m)) (ct_size (tc_out m)) (tc_k m) (tc_pad m) 0 (tc_stride m) (tc_dil m) (tc_groups m) f
            (match tc_bias m with Some _ => b | None => None end), st)))).

(** Histories, as for R2Conv *)
Definition tconv_step (m : tconv) (st : cstate) (op : conv_op) : cstate :=
  match op with
  | OpTrain mode => match tconv_train m mode st with Ok st' => st' | Err _ => st end
  | OpUpdate w b => MkCS (cs_training st) w b (cs_filter st) (cs_bias st)
  | OpForward => st
  | OpExport => match tconv_train m false st with Ok st' => st' | Err _ => st end
  end.
Definition tconv_history (m : tconv) (st : cstate) (ops : list conv_op) : cstate := fold_left (tconv_step m) ops st.
End ConvT.
Arguments tconv : clear implicits.
