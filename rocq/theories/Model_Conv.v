(** Model of e2cnn/nn/modules/r2_conv/r2convolution.py: R2Conv, with torch's pad and conv2d on exact reals. *)
From Coq Require Import Reals ZArith String List Bool.
From Verif Require Import Base Model_Groups Model_Rep Model_FieldType Model_Tensor Model_GSpace Model_Kernels Model_Diffops2 Model_Utils Model_Expansion.
Import ListNotations.
Open Scope R_scope.

(** * Parameters of the bases *)

(** r2convolution.py:606-623 [get_grid_coords]: point number s (y = s / k, x = s mod k) *)
Definition grid_point (k dil s : nat) : R * R :=
  let actual_size := INR dil * (INR k - 1) + 1 in
  let origin := actual_size / 2 - 1 / 2 in
  let y := INR ((s / k) * dil)%nat in
  let x := INR ((s mod k) * dil)%nat in
  (x - origin, - y + origin).
Definition grid_coords (k dil : nat) : list (R * R) := map (grid_point k dil) (seq 0 (k * k)).

(** [frequencies_cutoff]: None, a float or a function; [sigma]: None, a float or a list *)
Inductive fco_arg : Type := FcoNone | FcoFloat (f : R) | FcoFun (f : R -> R).
Inductive sigma_arg : Type := SigNone | SigFloat (s : R) | SigList (l : list R).

Definition Reqb (a b : R) : bool := if Req_EM_T a b then true else false.

(** r2convolution.py:699-718, 721-740, 743-762 [_manual_fco3], [_manual_fco2], [_manual_fco1] *)
Definition manual_fco3 (m r : R) : R := if Reqb r 0 then 0 else if Reqb r m then 1 else 2.
Definition manual_fco2 (m r : R) : R := if Reqb r 0 then 0 else Rmin (2 * r) (if Reqb r m then 1 else 2 * r - rmod (r + 1) 2).
Definition manual_fco1 (m r : R) : R := if Reqb r 0 then 0 else Rmin (2 * r) (if Reqb r m then 2 else 2 * r - rmod (r + 1) 2).

(** torch.linspace(0, b, n) *)
Definition linspace0 (b : R) (n : nat) : list R :=
  map (fun i => match n with 1%nat => 0 | _ => INR i * b / (INR n - 1) end) (seq 0 n).
(** Python int() of a float: truncation *)
Definition py_trunc (x : R) : Z := if Rle_dec 0 x then Int_part x else (- Int_part (- x))%Z.
Definition rmaximum (l : list R) : result R :=
  match l with [] => Err "ValueError" | x :: l' => Ok (fold_left Rmax l' x) end.

(** Attributes of an element of a kernel basis (basis.py:302-332, steerable_basis.py:222-273, irreps_basis.py:168 etc.). *)
Record kattr : Type := MkKA {
  ka_radius : R; ka_sigma : R; ka_in : nat; ka_out : nat; ka_inner : nat; ka_freq : Z; ka_rows : nat; ka_cols : nat;
  ka_idx1 : nat; ka_idx2 : nat; ka_idx : nat }.

(** r2convolution.py:626-696 [compute_basis_params]; returns (basis_filter, rings, sigma, maximum_frequency).
    550-573 [bandlimiting_filter] is the test on the frequency. *)
Definition compute_basis_params (k : nat) (fco : fco_arg) (rings : option (list R)) (sigma : sigma_arg) (dil : nat)
    (custom : option (kattr -> bool)) : result ((kattr -> bool) * list R * list R * Z) :=
  rbind (rmaximum (map radius_of (grid_coords k dil))) (fun max_radius =>
  let rings := match rings with
               | Some l => l
               | None => map (fun r => r * INR dil) (linspace0 (INR ((k - 1) / 2)) ((k + 1) / 2))
               end in
  assert_ (forallb (fun r => (Rleb r max_radius && Rleb 0 r)%bool) rings)
  (let sigma := match sigma with
                | SigNone => map (fun p => if Reqb (fst p) 0 then 5 / 1000 else snd p)
                                 (combine rings (repeat (6 / 10) (length rings - 1) ++ [4 / 10]))
                | SigFloat s => repeat s (length rings)
                | SigList l => l
                end in
   let m := INR (k / 2) in
   let f := match fco with FcoNone => FcoFloat (-1) | _ => fco end in
   let cut := match f with
              | FcoFun g => g
              | FcoFloat x => if Reqb x (-3) then manual_fco3 m else if Reqb x (-2) then manual_fco2 m
                              else if Reqb x (-1) then manual_fco1 m else fun r => x * r
              | FcoNone => fun r => r
              end in
   rbind (rmaximum (map cut rings)) (fun M =>
   let bl := fun a => Rleb (Rabs (IZR (ka_freq a))) (cut (ka_radius a)) in
   let keep := match custom with Some c => fun a => (c a && bl a)%bool | None => bl end in
   Ok (keep, rings, sigma, py_trunc M)))).

(** * The bases of one pair of representations *)
Section Basis.
Context {G : Type}.

(** the attributes of the elements of a PolarBasis, in the order of the iteration (basis.py:320-332) *)
Definition sk_attr_freq (s : skbasis G) (a : skattr) : Z * nat * nat :=
  let '(ii, oo, r, _) := a in
  match nth_error (sk_bases s) ii with
  | Some row => match nth_error row oo with
                | Some (Some kb) => (ke_mu (nth r (kb_els kb) (MkKel 0 0 0 0)), kb_rows kb, kb_cols kb)
                | _ => (0%Z, 0%nat, 0%nat)
                end
  | None => (0%Z, 0%nat, 0%nat)
  end.
Definition r2_attr (b : r2basis G) (i1 : nat) (a : skattr) : kattr :=
  let ring := nth i1 (r2_radial b) (0, 1) in
  let '(ii, oo, r, i2) := a in
  let '(mu, rows, cols) := sk_attr_freq (r2_angular b) a in
  MkKA (fst ring) (snd ring) ii oo r mu rows cols i1 i2 (i1 * sk_dim (r2_angular b) + i2)%nat.
Definition r2_attrs (b : r2basis G) : list kattr :=
  concat (map (fun i1 => map (r2_attr b i1) (sk_iter (r2_angular b))) (seq 0 (length (r2_radial b)))).
(** attributes and samples on the grid of each element *)
Definition r2_elements (b : r2basis G) (k dil : nat) : list (kattr * (nat -> mat)) :=
  map (fun p => (snd p, fun s => r2_sample b (fst p) (nth s (grid_coords k dil) (0, 0)))) (enumerate (r2_attrs b)).

(** basisexpansion_blocks.py:70-77 and basisexpansion_singleblock.py:151-185 without the caches: the sampled basis of a pair *)
Definition pair_block (build : rep G -> rep G -> result (r2basis G)) (k dil : nat) (keep : kattr -> bool) (rin rout : rep G)
  : result (sblock kattr) :=
  rbind (build rin rout) (fun b => single_block (rp_size rout) (rp_size rin) (k * k) ka_rows keep (r2_elements b k dil)).

(** representation.py:328-336 [__eq__]: name, group, change of basis, irreps and supported nonlinearities; np.allclose is equality *)
Definition irrep_same (a b : irrep G) : bool :=
  ((ir_flip a =? ir_flip b)%Z && (ir_freq a =? ir_freq b)%Z && (ir_size a =? ir_size b)%nat)%bool.
Definition rep_eqb (a b : rep G) : bool :=
  (String.eqb (rp_name a) (rp_name b) && list_eqb irrep_same (rp_irreps a) (rp_irreps b) &&
   forallb (fun i => forallb (fun j => Reqb (rp_cob a i j) (rp_cob b i j)) (seq 0 (rp_size a))) (seq 0 (rp_size a)) &&
   (forallb (fun x => existsb (String.eqb x) (rp_nonlin b)) (rp_nonlin a) && forallb (fun x => existsb (String.eqb x) (rp_nonlin a)) (rp_nonlin b)))%bool.
End Basis.

(** the part of the id that comes from the attributes (basisexpansion_singleblock.py:97-105); the names of the irreps are
    determined by their positions in the representations, whose names are in the id too *)
Definition kid : Type := (nat * nat * R * Z * nat)%type.
Definition ka_id (a : kattr) : kid := (ka_in a, ka_out a, ka_radius a, ka_freq a, ka_inner a).
Definition kid_eqb (x y : kid) : bool :=
  let '(a, b, r, f, i) := x in
  let '(a', b', r', f', i') := y in
  ((a =? a')%nat && (b =? b')%nat && Reqb r r' && (f =? f')%Z && (i =? i')%nat)%bool.

(** * torch.nn.functional.pad and conv2d *)
Inductive pmode : Type := MZeros | MReflect | MReplicate | MCircular.

(** index read at position y of an axis of length h padded by p on both sides; None is the value 0 *)
Definition pad_index (m : pmode) (h p y : nat) : option nat :=
  match m with
  | MZeros => if ((p <=? y) && (y <? p + h))%nat%bool then Some (y - p)%nat else None
  | MReflect => if (y <? p)%nat then Some (p - y)%nat
                else if (y <? p + h)%nat then Some (y - p)%nat else Some (h - 1 - (y - (p + h) + 1))%nat
  | MReplicate => if (y <? p)%nat then Some 0%nat
                  else if (y <? p + h)%nat then Some (y - p)%nat else Some (h - 1)%nat
  | MCircular => Some ((y + (h - p)) mod h)%nat
  end.
(** torch raises for an empty image, for a reflection as long as the axis, for a circular padding longer than the axis *)
Definition pad_legal (m : pmode) (h p : nat) : bool :=
  match m with
  | MZeros => true
  | MReflect => (p <? h)%nat
  | MReplicate => (0 <? h)%nat
  | MCircular => ((p <=? h) && (0 <? h))%nat%bool
  end.
Definition pad2d {B} (m : pmode) (ph pw : nat) (x : arr (B -> vec)) : result (arr (B -> vec)) :=
  if (pad_legal m (a_h x) ph && pad_legal m (a_w x) pw)%bool
  then Ok (MkArr (a_h x + 2 * ph) (a_w x + 2 * pw) (fun i j b c =>
         match pad_index m (a_h x) ph i, pad_index m (a_w x) pw j with
         | Some i', Some j' => a_px x i' j' b c
         | _, _ => 0
         end))
  else Err "RuntimeError".

(** The filter is an array (out, in / groups, k * k); [cin], [cout]: numbers of channels.  The image has been padded. *)
Definition conv_valid {B} (cin cout k : nat) (f : nat -> nat -> nat -> R) (bias : option vec) (stride dil groups : nat)
    (x : arr (B -> vec)) : result (arr (B -> vec)) :=
  let eff := (dil * (k - 1) + 1)%nat in
  if ((0 <? stride) && (0 <? k) && (0 <? dil) && (0 <? groups) && (cin mod groups =? 0) && (cout mod groups =? 0) &&
      (eff <=? a_h x) && (eff <=? a_w x))%nat%bool
  then Ok (MkArr ((a_h x - eff) / stride + 1) ((a_w x - eff) / stride + 1) (fun i j b o =>
         (match bias with Some v => v o | None => 0 end) +
         rsum k (fun ky => rsum k (fun kx => rsum (cin / groups) (fun c =>
           f o c (ky * k + kx)%nat *
           a_px x (i * stride + ky * dil)%nat (j * stride + kx * dil)%nat b ((o / (cout / groups)) * (cin / groups) + c)%nat)))))
  else Err "RuntimeError".

(** * R2Conv *)
(** [padding]: an int, a tuple, or something else *)
Inductive padding_arg : Type := PadInt (p : nat) | PadTuple (l : list nat) | PadOther.
Definition parse_padding (p : padding_arg) : result (nat * nat) :=
  match p with
  | PadInt n => Ok (n, n)
  | PadTuple [a; b] => Ok (a, b)
  | _ => Err "ValueError"
  end.
Definition parse_mode (s : string) : result pmode :=
  if String.eqb s "zeros" then Ok MZeros else if String.eqb s "reflect" then Ok MReflect
  else if String.eqb s "replicate" then Ok MReplicate else if String.eqb s "circular" then Ok MCircular
  else Err "ValueError".

Section Conv.
Context {G : Type}.

(** A gspace object with the type of the elements of its group: [sp_obj]; [sp_prj]: the element in a dynamically typed value;
    [sp_build]: [build_kernel_basis] (general_r2.py:44-126) without its memory, i.e. [_basis_generator];
    [sp_dbuild]: [build_diffop_basis] (general_r2.py:128-199) without its memory, i.e. [_diffop_basis_generator]; the argument
    [discretization] is only stored in the basis and is passed to the sampling instead. *)
Record space : Type := MkSpace {
  sp_obj : gspace;
  sp_prj : gelt -> option G;
  sp_build : rep G -> rep G -> list R -> list R -> option Z -> option Z -> result (r2basis G);
  sp_dbuild : rep G -> rep G -> Z -> option Z -> option Z -> result (tbasis G) }.
Definition space_eqb (a b : space) : bool := sp_eqb (sp_obj a) (sp_obj b).

Definition ctype : Type := ftype space (rep G).
Definition ct_size (t : ctype) : nat := nsum (map rp_size (ft_reps t)).

(** field_type.py:202-240 [transform(input, element)], geometric_tensor.py:310-331; conversions between torch and numpy, and
    the rounding to float32, are dropped *)
Definition field_transform {B} (interp : forall A : Type, R -> R -> arr A -> arr A) (t : ctype) (x : arr (B -> vec)) (e : gelt)
  : result (arr (B -> vec)) :=
  rbind (type_representation (ft_reps t)) (fun rho =>
  featurefield_action interp (sp_obj (ft_gs t)) (sp_group (sp_obj (ft_gs t))) (rp_size rho)
    (fun e => match sp_prj (ft_gs t) e with Some g => rp_mat rho g | None => mzero end) x e).

Record r2conv : Type := MkConv {
  cv_in : ctype; cv_out : ctype; cv_k : nat; cv_padding : padding_arg; cv_pad : nat * nat; cv_mode : pmode;
  cv_stride : nat; cv_dil : nat; cv_groups : nat;
  cv_bias : option (list vec);                   (* columns of bias_expansion *)
  cv_exp : @bexp (rep G) kattr kid }.

(** representation.py:247-256 [is_trivial] of an irrep *)
Definition irrep_trivial (i : irrep G) : bool := ((ir_freq i =? 0)%Z && (ir_flip i =? 0)%Z)%bool.
(** r2convolution.py:221-232: the columns of the trivial irreps of one field; [pi]: position in the field, [p]: position of
    the field in the type *)
Fixpoint bias_cols_field (p : nat) (r : rep G) (pi : nat) (l : list (irrep G)) : list vec :=
  match l with
  | [] => []
  | i :: l' =>
    (if irrep_trivial i
     then [fun row => if ((p <=? row) && (row <? p + rp_size r))%nat%bool then rp_cob r (row - p)%nat pi else 0]
     else []) ++ bias_cols_field p r (pi + ir_size i) l'
  end.
Fixpoint bias_cols (p : nat) (reps : list (rep G)) : list vec :=
  match reps with [] => [] | r :: reps' => bias_cols_field p r 0 (rp_irreps r) ++ bias_cols (p + rp_size r) reps' end.

(** r2convolution.py:177-197, the checks for grouped convolutions; returns the fields of one input group *)
Definition all_repeat (reps : list (rep G)) (n : nat) : bool :=
  forallb (fun i => match nth_error reps i, nth_error reps (i mod n) with Some a, Some b => rep_eqb a b | _, _ => false end)
          (seq 0 (length reps)).
Definition group_in (tin tout : ctype) (groups : nat) : result (list (rep G)) :=
  if (1 <? groups)%nat
  then
    let ni := length (ft_reps tin) in
    let no := length (ft_reps tout) in
    assert_ (ni mod groups =? 0)%nat
    (assert_ (no mod groups =? 0)%nat
    (assert_ (all_repeat (ft_reps tin) (ni / groups))
    (assert_ (all_repeat (ft_reps tout) (no / groups))
     (Ok (firstn (ni / groups) (ft_reps tin))))))
  else Ok (ft_reps tin).

(** r2convolution.py:152-279 [__init__], without the initialisation of the weights (C47) and without the caches (C34).
    [bias]: the argument; the result also has no bias if there is no trivial irrep. *)
Definition r2conv_make (tin tout : ctype) (k : nat) (padding : padding_arg) (stride dil : nat) (padding_mode : string) (groups : nat)
    (bias : bool) (sigma : sigma_arg) (fco : fco_arg) (rings : option (list R)) (maximum_offset : option Z)
    (basis_filter : option (kattr -> bool)) : result r2conv :=
  assert_ (space_eqb (ft_gs tin) (ft_gs tout))
  (rbind (parse_padding padding) (fun pad =>
   rbind (parse_mode padding_mode) (fun mode =>
   rbind (group_in tin tout groups) (fun in_reps =>
   let cols := bias_cols 0 (ft_reps tout) in
   let b := if (bias && (0 <? length cols)%nat)%bool then Some cols else None in
   rbind (compute_basis_params k fco rings sigma dil basis_filter) (fun '(keep, rings, sigma, maxf) =>
   let build := fun rin rout => sp_build (ft_gs tin) rin rout rings sigma (Some maxf) maximum_offset in
   rbind (be_make rp_name rp_size rep_eqb ka_id in_reps (ft_reps tout) (k * k) (pair_block build k dil keep)) (fun e =>
   if (be_dimension kid_eqb e =? 0)%nat then Err "ValueError"
   else Ok (MkConv tin tout k padding pad mode stride dil groups b e))))))).

(** r2convolution.py:294-312 [expand_parameters] *)
Definition filter_t : Type := nat -> nat -> nat -> R.
Definition expand_bias (cols : list vec) (bias : list R) : vec :=
  fun row => rsum (length cols) (fun c => nth c cols (fun _ => 0) row * nth c bias 0).
Definition expand_parameters (m : r2conv) (w bias : list R) : result (filter_t * option vec) :=
  rbind (be_forward rp_name rp_size kid_eqb (cv_exp m) w) (fun f =>
  Ok (f, match cv_bias m with Some cols => Some (expand_bias cols bias) | None => None end)).

(** r2convolution.py:337-353: the convolution of [forward] *)
Definition run_conv {B} (m : r2conv) (fb : filter_t * option vec) (x : arr (B -> vec)) : result (arr (B -> vec)) :=
  rbind (pad2d (cv_mode m) (fst (cv_pad m)) (snd (cv_pad m)) x) (fun y =>
  conv_valid (ct_size (cv_in m)) (ct_size (cv_out m)) (cv_k m) (fst fb) (snd fb) (cv_stride m) (cv_dil m) (cv_groups m) y).

(** State of a module: nn.Module.training, the parameters, and the stored filter and bias (None: no such attribute; a
    stored bias may be None) *)
Record cstate : Type := MkCS {
  cs_training : bool; cs_w : list R; cs_b : list R; cs_filter : option filter_t; cs_bias : option (option vec) }.

(** state after the constructor: buffers of zeros *)
Definition initial_state (m : r2conv) (w bias : list R) : cstate :=
  MkCS true w bias (Some (fun _ _ _ => 0)) (Some (match cv_bias m with Some _ => Some (fun _ => 0) | None => None end)).

Definition attribute {A} (o : option A) : result A := match o with Some a => Ok a | None => Err "AttributeError" end.

(** r2convolution.py:327-333: the filter and bias that [forward] uses *)
Definition used_params (m : r2conv) (st : cstate) : result (filter_t * option vec) :=
  if cs_training st then expand_parameters m (cs_w st) (cs_b st)
  else rbind (attribute (cs_filter st)) (fun f => rbind (attribute (cs_bias st)) (fun b => Ok (f, b))).
(** r2convolution.py:314-353 [forward(input)] *)
Definition conv_forward {B} (m : r2conv) (st : cstate) (t : ctype) (x : arr (B -> vec)) : result (arr (B -> vec) * ctype) :=
  assert_ (ft_eqb space_eqb rep_eqb t (cv_in m))
  (rbind (used_params m st) (fun fb => rbind (run_conv m fb x) (fun y => Ok (y, cv_out m)))).

(** r2convolution.py:355-395 [train(mode)] *)
Definition conv_train (m : r2conv) (mode : bool) (st : cstate) : result cstate :=
  if mode then Ok (MkCS true (cs_w st) (cs_b st) None None)
  else if cs_training st
  then rbind (expand_parameters m (cs_w st) (cs_b st)) (fun fb =>
       Ok (MkCS false (cs_w st) (cs_b st) (Some (fst fb)) (Some (snd fb))))
  else Ok st.

(** torch.nn.Conv2d *)
Record conv2d_mod : Type := MkC2 {
  c2_in : nat; c2_out : nat; c2_k : nat; c2_pad : nat * nat; c2_mode : pmode; c2_stride : nat; c2_dil : nat; c2_groups : nat;
  c2_weight : filter_t; c2_bias : option vec }.
Definition conv2d_forward {B} (c : conv2d_mod) (x : arr (B -> vec)) : result (arr (B -> vec)) :=
  rbind (pad2d (c2_mode c) (fst (c2_pad c)) (snd (c2_pad c)) x) (fun y =>
  conv_valid (c2_in c) (c2_out c) (c2_k c) (c2_weight c) (c2_bias c) (c2_stride c) (c2_dil c) (c2_groups c) y).
(** r2convolution.py:500-546 [export]; [version]: the first two numbers of torch.__version__.  Also returns the new state. *)
Definition conv_export (version : Z * Z) (m : r2conv) (st : cstate) : result (conv2d_mod * cstate) :=
  rbind (conv_train m false st) (fun st =>
  rbind (attribute (cs_filter st)) (fun f =>
  rbind (attribute (cs_bias st)) (fun b =>
  if (match cv_mode m with MZeros => false | _ => ((fst version <? 1) || (snd version <? 5))%Z%bool end) then Err "ImportError"
  else Ok (MkC2 (ct_size (cv_in m)) (ct_size (cv_out m)) (cv_k m) (cv_pad m) (cv_mode m) (cv_stride m) (cv_dil m) (cv_groups m) f
                (match cv_bias m with Some _ => b | None => None end), st)))).

(** Histories of a module: train(mode), an assignment of the parameters (optimiser step, load_state_dict), forward(x),
    export().  A call that raises leaves the state as it was (expand_parameters is called before anything is stored; in
    export the version is tested after eval). *)
Inductive conv_op : Type := OpTrain (mode : bool) | OpUpdate (w bias : list R) | OpForward | OpExport.
Definition conv_step (m : r2conv) (st : cstate) (op : conv_op) : cstate :=
  match op with
  | OpTrain mode => match conv_train m mode st with Ok st' => st' | Err _ => st end
  | OpUpdate w b => MkCS (cs_training st) w b (cs_filter st) (cs_bias st)
  | OpForward => st
  | OpExport => match conv_train m false st with Ok st' => st' | Err _ => st end
  end.
Definition conv_history (m : r2conv) (st : cstate) (ops : list conv_op) : cstate := fold_left (conv_step m) ops st.

(** r2convolution.py:397-406 [evaluate_output_shape]; the padding attribute is the argument of the constructor *)
Definition conv_output_shape (m : r2conv) (shape : Z * Z * Z * Z) : result (Z * Z * Z * Z) :=
  let '(b, c, hi, wi) := shape in
  assert_ (c =? Z.of_nat (ct_size (cv_in m)))%Z
  (match cv_padding m with
   | PadInt p =>
     if (cv_stride m =? 0)%nat then Err "ZeroDivisionError"
     else
       let out := fun n => ((n + 2 * Z.of_nat p - Z.of_nat (cv_dil m) * (Z.of_nat (cv_k m) - 1) - 1) / Z.of_nat (cv_stride m) + 1)%Z in
       Ok (b, Z.of_nat (ct_size (cv_out m)), out hi, out wi)
   | _ => Err "TypeError"                         (* 2 * (a, b) is a 4-tuple; int + tuple raises *)
   end).
End Conv.
Arguments space : clear implicits.
Arguments r2conv : clear implicits.
Arguments ctype : clear implicits.

(** * The spaces of e2cnn/gspaces/r2: [_basis_generator] and [_diffop_basis_generator] *)
Definition opt_nonneg (x : option Z) : bool := match x with None => true | Some z => (0 <=? z)%Z end.
(** the checks shared by the finite groups *)
Definition check_limits {A} (F T : option Z) (r : result A) : result A :=
  assert_ (opt_nonneg F) (assert_ (opt_nonneg T) (assert_ (match F, T with None, None => false | _, _ => true end) r)).
(** general_r2.py:108-109: the checks of [build_kernel_basis] on the widths of the rings *)
Definition check_sigma {A} (rings sigma : list R) (r : result A) : result A :=
  assert_ (forallb (fun s => Rltb 0 s) sigma) (assert_ (length sigma =? length rings)%nat r).
(** rot2d_on_r2.py:106-155, 156-205 *)
Definition space_CN (N : Z) : space Z :=
  MkSpace (SpRot (GC N)) prj_EI (fun rin rout rings sigma F T => check_sigma rings sigma (check_limits F T (kernels_CN_act_R2 N rin rout rings sigma F T)))
    (fun rin rout P F T => check_limits F T (diffops_CN_act_R2 N rin rout P F T)).
Definition space_SO2 (B : Z) : space R :=
  MkSpace (SpRot (GSO2 B)) prj_ER (fun rin rout rings sigma _ _ => check_sigma rings sigma (kernels_SO2_act_R2 rin rout rings sigma))
    (fun rin rout P _ _ => diffops_SO2_act_R2 rin rout P).
(** fliprot2d_on_r2.py:168-217, 219-269 *)
Definition space_DN (N : Z) (axis : R) : space (Z * Z) :=
  MkSpace (SpFlipRot (GD N) axis) prj_EFI (fun rin rout rings sigma F T => check_sigma rings sigma (check_limits F T (kernels_DN_act_R2 N rin rout rings sigma axis F T)))
    (fun rin rout P F T => check_limits F T (diffops_DN_act_R2 N rin rout P axis F T)).
Definition space_O2 (B : Z) (axis : R) : space (Z * R) :=
  MkSpace (SpFlipRot (GO2 B) axis) prj_EFR (fun rin rout rings sigma _ _ => check_sigma rings sigma (kernels_O2_act_R2 rin rout rings sigma axis))
    (fun rin rout P _ _ => diffops_O2_act_R2 rin rout P axis).
(** flip2d_on_r2.py:88-134, 136-181 *)
Definition space_flip (axis : R) : space Z :=
  MkSpace (SpFlip (GC 2) axis) prj_EI (fun rin rout rings sigma F T => check_sigma rings sigma (check_limits F T (kernels_Flip_act_R2 2 rin rout rings sigma axis F T)))
    (fun rin rout P F T => check_limits F T (diffops_Flip_act_R2 2 rin rout P axis F T)).
(** trivial_on_r2.py:76-121, 123-167 *)
Definition space_trivial : space Z :=
  MkSpace (SpTrivial (GC 1)) prj_EI (fun rin rout rings sigma F T => check_sigma rings sigma (check_limits F T (kernels_Trivial_act_R2 1 rin rout rings sigma F T)))
    (fun rin rout P F T => check_limits F T (diffops_Trivial_act_R2 1 rin rout P F T)).
