(** Model of e2cnn/nn/modules/pooling/{pointwise_max,pointwise_avg,pointwise_adaptive_max,pointwise_adaptive_avg}.py, with torch's
    pooling functions on exact reals.  A tensor is an image whose pixels hold, for each batch index, the vector of channels. *)
From Coq Require Import Reals ZArith String List Bool.
From Verif Require Import Base Model_Groups Model_Rep Model_FieldType Model_GSpace Model_Conv Model_Fieldwise.
Import ListNotations.
Open Scope R_scope.

(** an argument that is an int or a pair; pointwise_max.py:61-81, pointwise_avg.py:56-71 *)
Inductive iarg : Type := IInt (n : nat) | IPair (a b : nat).
Definition pair_of (a : iarg) : nat * nat := match a with IInt n => (n, n) | IPair a b => (a, b) end.

(** * torch *)
(** torch's pooling_output_shape on one axis: with ceil_mode the last window must start inside the image or its left padding *)
Definition pool_out (h k p d s : nat) (ceil : bool) : Z :=
  let num := (Z.of_nat h + 2 * Z.of_nat p - Z.of_nat d * (Z.of_nat k - 1) - 1 + (if ceil then Z.of_nat s - 1 else 0))%Z in
  let o := (num / Z.of_nat s + 1)%Z in
  if (ceil && (Z.of_nat h + Z.of_nat p <=? (o - 1) * Z.of_nat s)%Z)%bool then (o - 1)%Z else o.
(** torch raises for empty images, windows, strides and dilations, for a padding above half the window and for an empty output *)
Definition pool_legal (h k p d s : nat) (ceil : bool) : bool :=
  ((0 <? h)%nat && (0 <? k)%nat && (0 <? d)%nat && (0 <? s)%nat && (p <=? k / 2)%nat && (1 <=? pool_out h k p d s ceil)%Z)%bool.
(** the pixels of an axis of length h in the i-th window *)
Definition window (h k p d s i : nat) : list nat :=
  flat_map (fun ky => let z := (i * s + ky * d)%nat in if ((p <=? z) && (z <? p + h))%nat%bool then [(z - p)%nat] else []) (seq 0 k).
(** the largest of the values of a non-empty list *)
Definition max_list (l : list R) : R := match l with [] => 0 | a :: l' => fold_left Rmax l' a end.
Definition sum_list (l : list R) : R := fold_right Rplus 0 l.
(** the values of channel c at the pixels of a window *)
Definition at_window {B} (x : arr (B -> vec)) (rows cols : list nat) (b : B) (c : nat) : list R :=
  map (fun q => a_px x (fst q) (snd q) b c) (list_prod rows cols).
Definition some_pixel (w : nat -> list nat) (n : nat) : bool := forallb (fun i => negb (length (w i) =? 0)%nat) (seq 0 n).
(** max_pool2d; a window without pixels has the value -inf, which is represented by an error *)
Definition max_pool2d {B} (k s p d : nat * nat) (ceil : bool) (x : arr (B -> vec)) : result (arr (B -> vec)) :=
  if (pool_legal (a_h x) (fst k) (fst p) (fst d) (fst s) ceil && pool_legal (a_w x) (snd k) (snd p) (snd d) (snd s) ceil)%bool then
    let ho := Z.to_nat (pool_out (a_h x) (fst k) (fst p) (fst d) (fst s) ceil) in
    let wo := Z.to_nat (pool_out (a_w x) (snd k) (snd p) (snd d) (snd s) ceil) in
    let rows := window (a_h x) (fst k) (fst p) (fst d) (fst s) in
    let cols := window (a_w x) (snd k) (snd p) (snd d) (snd s) in
    if (some_pixel rows ho && some_pixel cols wo)%bool
    then Ok (MkArr ho wo (fun i j b c => max_list (at_window x (rows i) (cols j) b c)))
    else Err "-inf"
  else Err "RuntimeError".
(** avg_pool2d with count_include_pad: the divisor counts the padding but not what lies beyond it *)
Definition span (h k p s i : nat) : nat := (Nat.min (i * s + k) (h + 2 * p) - i * s)%nat.
Definition avg_pool2d {B} (k s p : nat * nat) (ceil : bool) (x : arr (B -> vec)) : result (arr (B -> vec)) :=
  if (pool_legal (a_h x) (fst k) (fst p) 1 (fst s) ceil && pool_legal (a_w x) (snd k) (snd p) 1 (snd s) ceil)%bool then
    let ho := Z.to_nat (pool_out (a_h x) (fst k) (fst p) 1 (fst s) ceil) in
    let wo := Z.to_nat (pool_out (a_w x) (snd k) (snd p) 1 (snd s) ceil) in
    Ok (MkArr ho wo (fun i j b c =>
      sum_list (at_window x (window (a_h x) (fst k) (fst p) 1 (fst s) i) (window (a_w x) (snd k) (snd p) 1 (snd s) j) b c) /
      INR (span (a_h x) (fst k) (fst p) (fst s) i * span (a_w x) (snd k) (snd p) (snd s) j)))
  else Err "RuntimeError".
(** adaptive pooling: the i-th of o windows of an axis of length h is floor(i h / o) .. ceil((i+1) h / o) - 1 *)
Definition adaptive_window (h o i : nat) : list nat := seq (i * h / o) (((i + 1) * h + o - 1) / o - i * h / o).
Definition adaptive_pool2d {B} (red : list R -> R) (o : nat * nat) (x : arr (B -> vec)) : result (arr (B -> vec)) :=
  if ((0 <? a_h x) && (0 <? a_w x))%nat%bool
  then Ok (MkArr (fst o) (snd o) (fun i j b c => red (at_window x (adaptive_window (a_h x) (fst o) i) (adaptive_window (a_w x) (snd o) j) b c)))
  else Err "RuntimeError".
Definition mean_list (l : list R) : R := sum_list l / INR (length l).
(** conv2d with one fs x fs filter applied to every channel (groups = number of channels) *)
Definition depthwise {B} (fs : nat) (f : nat -> nat -> R) (s p : nat * nat) (x : arr (B -> vec)) : result (arr (B -> vec)) :=
  rbind (pad2d MZeros (fst p) (snd p) x) (fun z =>
  if ((0 <? fst s) && (0 <? snd s) && (fs <=? a_h z) && (fs <=? a_w z))%nat%bool
  then Ok (MkArr ((a_h z - fs) / fst s + 1) ((a_w z - fs) / snd s + 1) (fun i j b c =>
         rsum fs (fun ky => rsum fs (fun kx => f ky kx * a_px z (i * fst s + ky)%nat (j * snd s + kx)%nat b c))))
  else Err "RuntimeError").
(** Python's round: ties to even *)
Definition py_round (x : R) : Z :=
  let f := Int_part x in let r := x - IZR f in
  if Rlt_dec r (1 / 2) then f else if Rlt_dec (1 / 2) r then (f + 1)%Z else if Z.even f then f else (f + 1)%Z.
(** pointwise_max.py:190-204, pointwise_avg.py:180-194: a Gaussian, normalised *)
Definition gauss_weight (fs : nat) (sigma : R) (a b : nat) : R :=
  let mean := (INR fs - 1) / 2 in exp (- ((INR b - mean) ^ 2 + (INR a - mean) ^ 2) / (2 * sigma ^ 2)).
Definition gauss_filter (fs : nat) (sigma : R) (a b : nat) : R :=
  gauss_weight fs sigma a b / rsum fs (fun a => rsum fs (fun b => gauss_weight fs sigma a b)).

(** * The modules *)
Section Pool.
Context {GS G : Type} (gs_eqb : GS -> GS -> bool) (rp_eqb : rep G -> rep G -> bool).
Notation ftype := (ftype GS (rep G)).
Notation type_eqb := (ft_eqb gs_eqb rp_eqb).

Record maxpool : Type := MkMP {
  mp_in : ftype; mp_k : nat * nat; mp_s : nat * nat; mp_p : nat * nat; mp_d : nat * nat; mp_ceil : bool }.
(** pointwise_max.py:21-83 [__init__] *)
Definition maxpool_make (t : ftype) (k : iarg) (s : option iarg) (p d : iarg) (ceil : bool) : result maxpool :=
  assert_ (all_support "pointwise" t)
    (Ok (MkMP t (pair_of k) (match s with Some s => pair_of s | None => pair_of k end) (pair_of p) (pair_of d) ceil)).
(** pointwise_max.py:85-107 [forward]; the result is the tensor and its type *)
Definition maxpool_forward {B} (m : maxpool) (t : ftype) (x : arr (B -> vec)) : result (arr (B -> vec) * ftype) :=
  assert_ (type_eqb t (mp_in m)) (rbind (max_pool2d (mp_k m) (mp_s m) (mp_p m) (mp_d m) (mp_ceil m) x) (fun y => Ok (y, mp_in m))).
(** pointwise_max.py:109-126 [evaluate_output_shape]: floor or ceil of a float quotient plus 1 *)
Definition announced (h : Z) (k p d s : nat) (ceil : bool) : Z :=
  let num := (h + 2 * Z.of_nat p - Z.of_nat d * (Z.of_nat k - 1) - 1)%Z in
  if ceil then (- (- num / Z.of_nat s) + 1)%Z else (num / Z.of_nat s + 1)%Z.
Definition pool_shape (t : ftype) (k s p d : nat * nat) (ceil : bool) (shape : Z * Z * Z * Z) : result (Z * Z * Z * Z) :=
  let '(b, c, hi, wi) := shape in
  assert_ (c =? Z.of_nat (ft_chans t))%Z
  (if ((fst s =? 0) || (snd s =? 0))%nat%bool then Err "ZeroDivisionError"
   else Ok (b, Z.of_nat (ft_chans t), announced hi (fst k) (fst p) (fst d) (fst s) ceil, announced wi (snd k) (snd p) (snd d) (snd s) ceil)).
Definition maxpool_shape (m : maxpool) (shape : Z * Z * Z * Z) : result (Z * Z * Z * Z) :=
  pool_shape (mp_in m) (mp_k m) (mp_s m) (mp_p m) (mp_d m) (mp_ceil m) shape.

(** pointwise_max.py:144-210 [PointwiseMaxPoolAntialiased.__init__]: the inherited attributes, the size of the filter and sigma *)
Record amaxpool : Type := MkAMP { am_base : maxpool; am_fs : nat; am_sigma : R }.
Definition am_pad (m : amaxpool) : nat * nat := ((fst (mp_p (am_base m)) + (am_fs m - 1) / 2)%nat, (snd (mp_p (am_base m)) + (am_fs m - 1) / 2)%nat).
Definition amaxpool_make (t : ftype) (k : iarg) (s : option iarg) (p d : iarg) (ceil : bool) (sigma : R) : result amaxpool :=
  match d with
  | IInt 1 =>
    rbind (maxpool_make t k s p d ceil) (fun m =>
    assert_ (if Rlt_dec 0 sigma then true else false)
    (Ok (MkAMP m (Z.to_nat (2 * py_round (4 * sigma) + 1)) sigma)))
  | _ => Err "NotImplementedError"
  end.
(** pointwise_max.py:212-236 [forward] *)
Definition amaxpool_forward {B} (m : amaxpool) (t : ftype) (x : arr (B -> vec)) : result (arr (B -> vec) * ftype) :=
  assert_ (type_eqb t (mp_in (am_base m)))
  (rbind (max_pool2d (mp_k (am_base m)) (1, 1)%nat (mp_p (am_base m)) (mp_d (am_base m)) (mp_ceil (am_base m)) x) (fun z =>
   rbind (depthwise (am_fs m) (gauss_filter (am_fs m) (am_sigma m)) (mp_s (am_base m)) (am_pad m) z) (fun y => Ok (y, mp_in (am_base m))))).
(** inherited *)
Definition amaxpool_shape (m : amaxpool) (shape : Z * Z * Z * Z) : result (Z * Z * Z * Z) := maxpool_shape (am_base m) shape.

(** pointwise_avg.py:21-73 [PointwiseAvgPool.__init__] *)
Record avgpool : Type := MkAP { ap_in : ftype; ap_k : nat * nat; ap_s : nat * nat; ap_p : nat * nat; ap_ceil : bool }.
Definition avgpool_make (t : ftype) (k : iarg) (s : option iarg) (p : iarg) (ceil : bool) : result avgpool :=
  Ok (MkAP t (pair_of k) (match s with Some s => pair_of s | None => pair_of k end) (pair_of p) ceil).
(** pointwise_avg.py:75-96 *)
Definition avgpool_forward {B} (m : avgpool) (t : ftype) (x : arr (B -> vec)) : result (arr (B -> vec) * ftype) :=
  assert_ (type_eqb t (ap_in m)) (rbind (avg_pool2d (ap_k m) (ap_s m) (ap_p m) (ap_ceil m) x) (fun y => Ok (y, ap_in m))).
(** pointwise_avg.py:98-115: reads self.dilation, which no statement ever sets *)
Definition avgpool_shape (m : avgpool) (shape : Z * Z * Z * Z) : result (Z * Z * Z * Z) :=
  let '(b, c, hi, wi) := shape in assert_ (c =? Z.of_nat (ft_chans (ap_in m)))%Z (Err "AttributeError").

(** pointwise_avg.py:123-201 [PointwiseAvgPoolAntialiased.__init__] *)
Record aavgpool : Type := MkAAP { aa_in : ftype; aa_fs : nat; aa_sigma : R; aa_s : nat * nat; aa_p : nat * nat }.
Definition aavgpool_make (t : ftype) (sigma : R) (s : option iarg) (p : option iarg) : result aavgpool :=
  assert_ (if Rlt_dec 0 sigma then true else false)
  (let fs := Z.to_nat (2 * py_round (3 * sigma) + 1) in
   Ok (MkAAP t fs sigma (match s with Some s => pair_of s | None => (fs, fs) end) (match p with Some p => pair_of p | None => ((fs - 1) / 2, (fs - 1) / 2)%nat end))).
(** pointwise_avg.py:203-219 *)
Definition aavgpool_forward {B} (m : aavgpool) (t : ftype) (x : arr (B -> vec)) : result (arr (B -> vec) * ftype) :=
  assert_ (type_eqb t (aa_in m)) (rbind (depthwise (aa_fs m) (gauss_filter (aa_fs m) (aa_sigma m)) (aa_s m) (aa_p m) x) (fun y => Ok (y, aa_in m))).
(** pointwise_avg.py:221-234 *)
Definition aavgpool_shape (m : aavgpool) (shape : Z * Z * Z * Z) : result (Z * Z * Z * Z) :=
  pool_shape (aa_in m) (aa_fs m, aa_fs m) (aa_s m) (aa_p m) (1, 1)%nat false shape.

(** pointwise_adaptive_max.py:19-54, pointwise_adaptive_avg.py:19-54; [ad_max]: which of the two *)
Record adpool : Type := MkAD { ad_max : bool; ad_in : ftype; ad_o : nat * nat }.
Definition adpool_make (mx : bool) (t : ftype) (o : iarg) : result adpool :=
  assert_ (all_support "pointwise" t) (Ok (MkAD mx t (pair_of o))).
(** pointwise_adaptive_max.py:56-73, pointwise_adaptive_avg.py:56-73 *)
Definition adpool_forward {B} (m : adpool) (t : ftype) (x : arr (B -> vec)) : result (arr (B -> vec) * ftype) :=
  assert_ (type_eqb t (ad_in m)) (rbind (adaptive_pool2d (if ad_max m then max_list else mean_list) (ad_o m) x) (fun y => Ok (y, ad_in m))).
(** pointwise_adaptive_max.py:75-81, pointwise_adaptive_avg.py:75-81: the pair output_size stands in the place of both lengths *)
Inductive dim : Type := DInt (z : Z) | DPair (a b : Z).
Definition adpool_shape (m : adpool) (shape : Z * Z * Z * Z) : result (Z * Z * dim * dim) :=
  let '(b, c, hi, wi) := shape in
  assert_ (c =? Z.of_nat (ft_chans (ad_in m)))%Z
    (let o := DPair (Z.of_nat (fst (ad_o m))) (Z.of_nat (snd (ad_o m))) in Ok (b, Z.of_nat (ft_chans (ad_in m)), o, o)).

(** * Export: the torch modules built by [export] *)
Inductive tmod : Type :=
| TMaxPool (k s p d : nat * nat) (ceil : bool)
| TFixedConv (fs : nat) (f : nat -> nat -> R) (s p : nat * nat)
| TAdaptive (mx : bool) (o : nat * nat)
| TSeq (l : list tmod).
Fixpoint tmod_forward {B} (m : tmod) (x : arr (B -> vec)) : result (arr (B -> vec)) :=
  match m with
  | TMaxPool k s p d c => max_pool2d k s p d c x
  | TFixedConv fs f s p => depthwise fs f s p x
  | TAdaptive mx o => adaptive_pool2d (if mx then max_list else mean_list) o x
  | TSeq l => fold_left (fun r m => rbind r (fun z => tmod_forward m z)) l (Ok x)
  end.
(** pointwise_max.py:133-141: ceil_mode keeps its default False *)
Definition maxpool_export (m : maxpool) : result tmod := Ok (TMaxPool (mp_k m) (mp_s m) (mp_p m) (mp_d m) false).
(** pointwise_max.py:238-262 *)
Definition amaxpool_export (m : amaxpool) : result tmod :=
  Ok (TSeq [TMaxPool (mp_k (am_base m)) (1, 1)%nat (mp_p (am_base m)) (mp_d (am_base m)) (mp_ceil (am_base m));
            TFixedConv (am_fs m) (gauss_filter (am_fs m) (am_sigma m)) (mp_s (am_base m)) (am_pad m)]).
(** pointwise_adaptive_max.py:88-96, pointwise_adaptive_avg.py:88-96 *)
Definition adpool_export (m : adpool) : result tmod := Ok (TAdaptive (ad_max m) (ad_o m)).
(** equivariant_module.py:120-135: the classes without an [export] of their own *)
Definition avgpool_export (m : avgpool) : result tmod := Err "NotImplementedError".
Definition aavgpool_export (m : aavgpool) : result tmod := Err "NotImplementedError".
End Pool.
