(** Vocabulary for C52: pooling of feature fields. *)
From Coq Require Import Reals ZArith.
From Verif Require Import Base Model_Groups Model_GSpace Spec_GSpace.
Open Scope R_scope.

(** An axis of length h, padded by p on both sides, is covered exactly by windows of k pixels (d apart) that start every s pixels. *)
Definition tiled (p k d s h : nat) : Prop := exists q, (h + 2 * p = q * s + d * (k - 1) + 1)%nat.
(** The element maps the horizontal axis to itself: it is not a quarter turn (or a quarter turn of a mirror image). *)
Definition keeps_axes (s : gspace) (g : gelt) : Prop := snd (plane_action s g (1, 0)) = 0.
