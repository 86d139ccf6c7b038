(** Vocabulary for C52, NormMaxPool. *)
From Coq Require Import Reals ZArith List.
From Verif Require Import Base Model_Groups Model_Rep Model_GSpace.
Import ListNotations.
Open Scope R_scope.

(** r is one of the pixels of the i-th window of an axis of length h: k pixels, d apart, every s pixels, after p pixels of padding *)
Definition in_window (h k p d s i r : nat) : Prop := (r < h)%nat /\ exists ky, (ky < k)%nat /\ (r + p = i * s + ky * d)%nat.
(** the first channel of field number f *)
Definition start {G} (reps : list (rep G)) (f : nat) : nat := nsum (map rp_size (firstn f reps)).
(** square of the norm of a field of size n whose first channel is off *)
Definition norm2 (n off : nat) (v : vec) : R := rsum n (fun a => v (off + a)%nat * v (off + a)%nat).
Section W.
Context {G B : Type} (reps : list (rep G)) (k s p d : nat * nat).
Definition in_win (x : arr (B -> vec)) (i j u v : nat) : Prop := in_window (a_h x) (fst k) (fst p) (fst d) (fst s) i u /\ in_window (a_w x) (snd k) (snd p) (snd d) (snd s) j v.
(** the field number f has at the pixel (u, v) the largest norm of the window (i, j) *)
Definition wins (x : arr (B -> vec)) (i j : nat) (b : B) (n off u v : nat) : Prop :=
  in_win x i j u v /\ forall u' v', in_win x i j u' v' -> norm2 n off (a_px x u' v' b) <= norm2 n off (a_px x u v b).
(** every pixel of y holds, field by field, the field of x at a pixel of its window where the norm is largest *)
Definition norm_pooled (x y : arr (B -> vec)) : Prop :=
  forall i j b f r, (i < a_h y)%nat -> (j < a_w y)%nat -> nth_error reps f = Some r ->
  exists u v, wins x i j b (rp_size r) (start reps f) u v /\
    forall a, (a < rp_size r)%nat -> a_px y i j b (start reps f + a)%nat = a_px x u v b (start reps f + a)%nat.
(** where two pixels of a window have the largest norm, the fields at these pixels are equal *)
Definition single_winner (x : arr (B -> vec)) (ho wo : nat) : Prop :=
  forall i j b f r u v u' v', (i < ho)%nat -> (j < wo)%nat -> nth_error reps f = Some r ->
  wins x i j b (rp_size r) (start reps f) u v -> wins x i j b (rp_size r) (start reps f) u' v' ->
  forall a, (a < rp_size r)%nat -> a_px x u v b (start reps f + a)%nat = a_px x u' v' b (start reps f + a)%nat.
End W.
