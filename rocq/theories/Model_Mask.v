(** Model of e2cnn/nn/modules/masking_module.py. *)
From Coq Require Import Reals String List Bool.
From Verif Require Import Base Model_Groups Model_GSpace.
Open Scope R_scope.

(** masking_module.py:14-27 [build_mask(s, margin)] (spatial part; the two leading axes have size 1) *)
Definition build_mask (s : nat) (margin : R) : arr R :=
  let c := (INR s - 1) / 2 in
  let t := (c - margin / 100 * c) ^ 2 in
  let sig := 2 in
  MkArr s s (fun x y =>
    let r := (INR x - c) ^ 2 + (INR y - c) ^ 2 in
    if Rlt_dec t r then exp ((t - r) / sig ^ 2) else 1).
(** masking_module.py:65-71 [forward]: on the images of a tensor; the type check is left out (the type does not change) *)
Definition mask_forward {B} (s : nat) (margin : R) (x : arr (B -> vec)) : result (arr (B -> vec)) :=
  assert_ ((a_h x =? s)%nat && (a_w x =? s)%nat)
    (Ok (MkArr (a_h x) (a_w x) (fun i j b c => a_px x i j b c * a_px (build_mask s margin) i j))).
