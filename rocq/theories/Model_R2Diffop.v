(** Model of e2cnn/nn/modules/r2_conv/r2diffop.py: R2Diffop, and of diffops/basis.py:84-150 (the discretisation of a basis). *)
From Coq Require Import Reals ZArith String List Bool Arith.
From Verif Require Import Base Model_Groups Model_Rep Model_FieldType Model_Tensor Model_GSpace Model_Kernels Model_Diffops Model_Diffops2 Model_Utils Model_Expansion Model_Conv.
Import ListNotations.
Open Scope R_scope.

(** * Derivatives of Gaussians *)
(** rbf.basis.ga (not part of the repository) is exp(-(eps r)^2), and its argument [diff] = (n, m) asks for the derivative
    d^n/dx^n d^m/dy^m.  It is the product of the derivatives of two functions of one variable: [gauss1 eps n x] is the n-th
    derivative of exp(-(eps x)^2), computed by g_(n+1) = -2 eps^2 (x g_n + n g_(n-1)); that this is the derivative is proved in
    Prop_R2Diffop.v ([gauss1_derivative]). *)
Fixpoint gauss2 (eps : R) (n : nat) (x : R) : R * R :=      (* (n-th, (n-1)-th) *)
  match n with
  | O => (exp (- (eps * x) ^ 2), 0)
  | S m => let '(g, h) := gauss2 eps m x in (- 2 * eps ^ 2 * (x * g + INR m * h), g)
  end.
Definition gauss1 (eps : R) (n : nat) (x : R) : R := fst (gauss2 eps n x).
(** utils.py:259-279 [gaussian_derivative]; 1/std**2 *)
Definition gaussian_derivative (coeffs : list R) (points : list (R * R)) (std : R) : result (list R) :=
  let n := (length coeffs - 1)%nat in
  let idx := filter (fun k => if Req_EM_T (nth k coeffs 0) 0 then false else true) (seq 0 (n + 1)) in
  match idx with
  | [] => Ok (repeat 0 (length points))
  | _ =>
    if Req_EM_T std 0 then Err "ZeroDivisionError"
    else Ok (map (fun p => lsum (map (fun k => nth k coeffs 0 * (gauss1 (1 / std ^ 2) (n - k) (fst p) * gauss1 (1 / std ^ 2) k (snd p))) idx)) points)
  end.

(** * Discretisation *)
(** basis.py:14-33 [DiscretizationArgs]: the method, and [angle_offset].  method "rbffd" calls the external package rbf and is not
    modelled. *)
Inductive dmethod : Type := DFd | DGauss (smoothing : R).
Record disc_args : Type := MkDisc { ds_method : dmethod; ds_offset : option R }.
(** utils.py:64-168 [discretize_homogeneous_polynomial] *)
Definition discretize (m : dmethod) (points : list (R * R)) (coeffs : list R) : result (list R) :=
  match m with
  | DFd => discretize_fd points coeffs
  | DGauss s => gaussian_derivative coeffs points s
  end.
(** basis.py:120-126: the rotated coefficients *)
Definition offset_poly (o : option R) (c : list R) : list R :=
  match o with None => c | Some a => transform_polynomial c (rot_matrix a) end.
(** basis.py:135-147: the array of one element, of shape (rows, cols, points) *)
Definition sample_dop (ds : disc_args) (rows cols : nat) (points : list (R * R)) (d : dop) : result (nat -> mat) :=
  rbind (rmap (fun i => rmap (fun j => discretize (ds_method ds) points (offset_poly (ds_offset ds) (dp_coef d i j))) (seq 0 cols)) (seq 0 rows)) (fun t =>
  Ok (fun s i j => nth s (nth j (nth i t []) []) 0)).
(** basis.py:95-150 [sample_masked]: only the selected elements are discretised.  The attributes are kept beside the samples. *)
Definition sample_masked {G} (ds : disc_args) (rows cols : nat) (points : list (R * R)) (keep : tattr -> bool) (t : tbasis G)
  : result (list (tattr * (nat -> mat))) :=
  rmap (fun p => rbind (sample_dop ds rows cols points (snd p)) (fun f => Ok (fst p, f)))
       (filter (fun p => keep (fst p)) (combine (tb_iter t) (tb_coefficients t))).

(** basisexpansion_singleblock.py:91-105: the attributes that enter the normalisation and the id; there is no attribute "radius",
    and "order" takes its place *)
Definition dop_attr {G} (t : tbasis G) (a : tattr) : kattr :=
  let '(ii, oo) := ta_irreps a in
  let '(_, rows, cols) := sk_attr_freq (tb_1 t) (ii, oo, ta_inner a, ta_idx1 a) in
  MkKA (INR (ta_order a)) 0 ii oo (ta_inner a) (ta_freq a) rows cols (ta_idx1 a) (ta_idx2 a) (ta_idx a).
(** basisexpansion_blocks.py:70-77 and basisexpansion_singleblock.py:151-185 without the caches *)
Definition dop_block {G} (build : rep G -> rep G -> result (tbasis G)) (ds : disc_args) (k dil : nat) (keep : tattr -> bool)
    (rin rout : rep G) : result (sblock kattr) :=
  rbind (build rin rout) (fun t =>
  rbind (sample_masked ds (rp_size rout) (rp_size rin) (grid_coords k dil) keep t) (fun l =>
  single_block (rp_size rout) (rp_size rin) (k * k) ka_rows (fun _ => true) (map (fun p => (dop_attr t (fst p), snd p)) l))).

(** * Parameters *)
(** r2diffop.py:228-259: kernel size and maximum order; the warnings are left out *)
Definition diffop_sizes (kernel_size maximum_order accuracy : option Z) : result (Z * Z) :=
  match kernel_size, maximum_order, accuracy with
  | None, None, _ => Err "AssertionError"
  | None, Some o, a => Ok (required_points o (match a with Some a => a | None => if (0 <? o)%Z then 2 else 1 end), o)
  | Some k, None, a => rbind (largest_possible_order k (match a with Some a => a | None => if (1 <? k)%Z then 2 else 1 end)) (fun o => Ok (k, o))
  | Some k, Some o, None => Ok (k, o)
  | Some _, Some _, Some _ => Err "ValueError"
  end%Z.
(** r2diffop.py:701-751 [compute_basis_params]: (basis_filter, max_power, maximum_frequency, discretization); 749-751
    [order_filter].  [get_grid_coords] (678-698) fails on an empty grid. *)
Definition diffop_params (k : Z) (custom : option (tattr -> bool)) (maximum_order : Z) (maximum_power : option Z)
    (smoothing : option R) (angle_offset : option R) : result ((tattr -> bool) * Z * Z * disc_args) :=
  assert_ (0 <? k)%Z
  (let by_order := fun a => (Z.of_nat (ta_order a) <=? maximum_order)%Z in
   let keep := match custom with None => by_order | Some f => fun a => (f a && by_order a)%bool end in
   let power := match maximum_power with Some p => Z.min p (maximum_order / 2) | None => (maximum_order / 2)%Z end in
   let m := match smoothing with Some s => DGauss s | None => DFd end in
   Ok (keep, power, maximum_order, MkDisc m angle_offset)).

(** * R2Diffop *)
(** r2diffop.py:215-384 [__init__], without the initialisation of the weights and the caches.  The methods (expand_parameters
    402-417, forward 419-458, train 460-500, evaluate_output_shape 502-511, export 605-651) repeat those of R2Conv word by word, so
    that the object is an [r2conv] record with another basis. *)
Definition r2diffop_make {G} (tin tout : ctype G) (kernel_size maximum_order accuracy : option Z) (padding : padding_arg) (stride dil : nat)
    (padding_mode : string) (groups : nat) (bias : bool) (basis_filter : option (tattr -> bool)) (maximum_offset maximum_power : option Z)
    (smoothing : option R) (angle_offset : option R) : result (r2conv G) :=
  assert_ (space_eqb (ft_gs tin) (ft_gs tout))
  (rbind (diffop_sizes kernel_size maximum_order accuracy) (fun '(ks, order) =>
   rbind (parse_padding padding) (fun pad =>
   rbind (parse_mode padding_mode) (fun mode =>
   rbind (group_in tin tout groups) (fun in_reps =>
   let cols := bias_cols 0 (ft_reps tout) in
   let b := if (bias && (0 <? length cols)%nat)%bool then Some cols else None in
   rbind (diffop_params ks basis_filter order maximum_power smoothing angle_offset) (fun '(keep, power, maxf, ds) =>
   let k := Z.to_nat ks in
   let build := fun rin rout => sp_dbuild (ft_gs tin) rin rout power (Some maxf) maximum_offset in
   rbind (be_make rp_name rp_size rep_eqb ka_id in_reps (ft_reps tout) (k * k) (dop_block build ds k dil keep)) (fun e =>
   if (be_dimension kid_eqb e =? 0)%nat then Err "ValueError"
   else Ok (MkConv tin tout k padding pad mode stride dil groups b e)))))))).
