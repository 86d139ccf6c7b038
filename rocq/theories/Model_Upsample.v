(** Model of e2cnn/nn/modules/r2upsampling.py, with torch's interpolate on exact reals.  Tensors as in Model_Pool. *)
From Coq Require Import Reals ZArith String List Bool.
From Verif Require Import Base Model_Groups Model_Rep Model_FieldType Model_GSpace Model_Conv Model_Fieldwise Model_Pool.
Import ListNotations.
Open Scope R_scope.

(** * torch.nn.functional.interpolate *)
(** the value at an output position is a weighted sum of a few input positions: a list of (index, weight) *)
Definition tap_sum (l : list (nat * R)) (f : nat -> R) : R := fold_right (fun q a => snd q * f (fst q) + a) 0 l.
(** torch's nearest_idx: floor(i * ratio), at most the last index *)
Definition nearest_taps (ratio : R) (h i : nat) : list (nat * R) := [(Nat.min (Z.to_nat (Int_part (INR i * ratio))) (h - 1), 1)].
(** torch's area_pixel_compute_source_index *)
Definition source (align : bool) (ratio : R) (h o i : nat) : R :=
  if align then INR i * (if (1 <? o)%nat then (INR h - 1) / (INR o - 1) else 0)
  else Rmax 0 (ratio * (INR i + 1 / 2) - 1 / 2).
(** the two neighbours of a source position; beyond the last pixel both are the last pixel *)
Definition linear_taps (src : R) (h : nat) : list (nat * R) :=
  let k := Z.to_nat (Int_part src) in let l := src - INR k in
  [(k, 1 - l); ((k + if k <? h - 1 then 1 else 0)%nat, l)].
(** [align] is None exactly for mode nearest *)
Definition taps (mode : string) (align : option bool) (ratio : R) (h o i : nat) : list (nat * R) :=
  if String.eqb mode "nearest" then nearest_taps ratio h i
  else linear_taps (source (match align with Some a => a | None => false end) ratio h o i) h.
(** interpolate(x, size, scale_factor, mode, align_corners) for the modes nearest and bilinear and an integer scale_factor; torch
    uses 1 / scale_factor as the ratio when scale_factor is given and the quotient of the sizes otherwise *)
Definition interpolate {B} (size : option (nat * nat)) (scale : option nat) (mode : string) (align : option bool) (x : arr (B -> vec)) : result (arr (B -> vec)) :=
  rbind (match size, scale with
         | Some o, None => Ok (o, (INR (a_h x) / INR (fst o), INR (a_w x) / INR (snd o)))
         | None, Some s => Ok ((a_h x * s, a_w x * s)%nat, (1 / INR s, 1 / INR s))
         | _, _ => Err "ValueError"%string
         end) (fun q => let '((oh, ow), (rh, rw)) := q in
  if ((0 <? a_h x) && (0 <? a_w x) && (0 <? oh) && (0 <? ow))%nat%bool
  then Ok (MkArr oh ow (fun i j b c =>
         tap_sum (taps mode align rh (a_h x) oh i) (fun r => tap_sum (taps mode align rw (a_w x) ow j) (fun s => a_px x r s b c))))
  else Err "RuntimeError").

(** * The module *)
Section Upsample.
Context {GS G : Type} (gs_eqb : GS -> GS -> bool) (rp_eqb : rep G -> rep G -> bool).
Notation ftype := (ftype GS (rep G)).
Notation type_eqb := (ft_eqb gs_eqb rp_eqb).

Record upsampling : Type := MkUp { up_in : ftype; up_size : option (nat * nat); up_scale : option nat; up_mode : string; up_align : option bool }.
(** r2upsampling.py:23-75 [__init__] *)
Definition upsampling_make (t : ftype) (scale : option nat) (size : option iarg) (mode : string) (align : bool) : result upsampling :=
  assert_ (match size, scale with Some _, Some _ => false | _, _ => true end)
  (if (String.eqb mode "nearest" || String.eqb mode "bilinear")%bool
   then Ok (MkUp t (option_map pair_of size) scale mode (if negb (String.eqb mode "nearest") then Some align else None))
   else Err "ValueError").
(** r2upsampling.py:77-102 [forward] *)
Definition upsampling_forward {B} (m : upsampling) (t : ftype) (x : arr (B -> vec)) : result (arr (B -> vec) * ftype) :=
  assert_ (type_eqb t (up_in m)) (rbind (interpolate (up_size m) (up_scale m) (up_mode m) (up_align m) x) (fun y => Ok (y, up_in m))).
(** r2upsampling.py:104-117 [evaluate_output_shape] *)
Definition upsampling_shape (m : upsampling) (shape : Z * Z * Z * Z) : result (Z * Z * Z * Z) :=
  let '(b, c, hi, wi) := shape in
  assert_ (c =? Z.of_nat (ft_chans (up_in m)))%Z
  (match up_size m with
   | None => match up_scale m with
             | None => Err "TypeError"%string
             | Some s => Ok (b, Z.of_nat (ft_chans (up_in m)), (hi * Z.of_nat s)%Z, (wi * Z.of_nat s)%Z)
             end
   | Some o => Ok (b, Z.of_nat (ft_chans (up_in m)), Z.of_nat (fst o), Z.of_nat (snd o))
   end).
(** r2upsampling.py:194-214 [export]: torch.nn.Upsample, whose forward calls interpolate; its size keeps the default None *)
Record tupsample : Type := MkTUp { tu_size : option (nat * nat); tu_scale : option nat; tu_mode : string; tu_align : option bool }.
Definition tupsample_forward {B} (m : tupsample) (x : arr (B -> vec)) : result (arr (B -> vec)) := interpolate (tu_size m) (tu_scale m) (tu_mode m) (tu_align m) x.
Definition upsampling_export (m : upsampling) : result tupsample := Ok (MkTUp None (up_scale m) (up_mode m) (up_align m)).
End Upsample.
