(** Specification vocabulary for the action of a gspace on the plane. *)
From Coq Require Import Reals ZArith List.
From Verif Require Import Base Model_Groups Model_GSpace.
Open Scope R_scope.

Definition point : Type := (R * R)%type.

(** counter-clockwise rotation by an angle *)
Definition rotate_pt (t : R) (p : point) : point :=
  (cos t * fst p - sin t * snd p, sin t * fst p + cos t * snd p).
(** mirror image of p in the line through the origin with slope angle a: 2 (p.u) u - p *)
Definition mirror_pt (a : R) (p : point) : point :=
  let d := fst p * cos a + snd p * sin a in
  (2 * d * cos a - fst p, 2 * d * sin a - snd p).

(** How an element of the fiber group moves the plane: (f, r) first mirrors in the axis of the space
    if f = 1, then rotates by r. *)
Definition plane_action (s : gspace) (g : gelt) (p : point) : point :=
  match s, g with
  | SpFlip _ axis, EI f => if Z.eqb f 1 then mirror_pt axis p else p
  | SpRot (GC N), EI k => rotate_pt (2 * PI * IZR k / IZR N) p
  | SpRot (GSO2 _), ER a => rotate_pt a p
  | SpFlipRot (GD N) axis, EFI f k => rotate_pt (2 * PI * IZR k / IZR N) (if Z.eqb f 1 then mirror_pt axis p else p)
  | SpFlipRot (GO2 _) axis, EFR f a => rotate_pt a (if Z.eqb f 1 then mirror_pt axis p else p)
  | _, _ => p
  end.

(** The parameters of a group object that could be constructed: N > 0, maximum frequency >= 0. *)
Definition group_object (g : fgroup) : Prop :=
  match g with GC N | GD N => (0 < N)%Z | GSO2 F | GO2 F => (0 <= F)%Z end.
(** A gspace object that a constructor of the library returned. *)
Definition constructed (s : gspace) : Prop :=
  group_object (sp_group s) /\
  match s with
  | SpTrivial g => trivial_on_r2 g = Ok s
  | SpFlip g a => flip2d_on_r2 a g = Ok s
  | SpRot g => rot2d_on_r2 g = Ok s
  | SpFlipRot g a => fliprot2d_on_r2 g a = Ok s
  end.

(** The element maps the square pixel grid to itself: the x axis goes to a coordinate axis. *)
Definition grid_exact (s : gspace) (g : gelt) : Prop :=
  fst (plane_action s g (1, 0)) = 0 \/ snd (plane_action s g (1, 0)) = 0.

(** Centre of pixel (row i, column j) of an h x w image, with the origin at the centre of the image,
    x to the right and y up. *)
Definition centre (h w i j : nat) : point :=
  (INR j - (INR w - 1) / 2, (INR h - 1) / 2 - INR i).

Definition arr_eq {A} (x y : arr A) : Prop :=
  a_h x = a_h y /\ a_w x = a_w y /\ forall i j, (i < a_h x)%nat -> (j < a_w x)%nat -> a_px x i j = a_px y i j.

(** the image y is x moved by the plane transformation T *)
Definition moved_by {A} (T : point -> point) (x y : arr A) : Prop :=
  (forall i j, (i < a_h x)%nat -> (j < a_w x)%nat -> exists i' j', (i' < a_h y)%nat /\ (j' < a_w y)%nat /\
      centre (a_h y) (a_w y) i' j' = T (centre (a_h x) (a_w x) i j) /\ a_px y i' j' = a_px x i j) /\
  (forall i' j', (i' < a_h y)%nat -> (j' < a_w y)%nat -> exists i j, (i < a_h x)%nat /\ (j < a_w x)%nat /\
      centre (a_h y) (a_w y) i' j' = T (centre (a_h x) (a_w x) i j) /\ a_px y i' j' = a_px x i j).

(** two arrays of feature vectors with n channels agree *)
Definition same_field {B} (n : nat) (x y : arr (B -> vec)) : Prop :=
  a_h x = a_h y /\ a_w x = a_w y /\
  forall i j b c, (i < a_h x)%nat -> (j < a_w x)%nat -> (c < n)%nat -> a_px x i j b c = a_px y i j b c.
