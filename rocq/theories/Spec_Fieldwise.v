(** Specification vocabulary for modules that act on every field separately. *)
From Coq Require Import Reals List Bool.
From Verif Require Import Base Spec_Fields Model_Groups Model_Rep Model_FieldType Model_Tensor.
Import ListNotations.
Open Scope R_scope.

(** A channel is a function of the other indices X (batch and position); a field is a list of channels. *)
(** value of channel i at p *)
Definition val {X} (d : list (X -> R)) (i : nat) (p : X) : R := nth i d (fun _ => 0) p.
(** same channels, pointwise *)
Definition same_chans {X} (b b' : list (X -> R)) : Prop :=
  length b = length b' /\ forall i p, (i < length b)%nat -> val b i p = val b' i p.

(** the fields of a tensor with representations reps *)
Definition fields {G A} (reps : list (rep G)) (d : list A) : list (list A) := cut (map rp_size reps) d.

(** the fields of d' are, one by one and in their places, [op f] of the fields of d *)
Definition fieldwise {G X} (reps reps' : list (rep G)) (op : nat -> list (X -> R) -> list (X -> R)) (d d' : list (X -> R)) : Prop :=
  length reps = length reps' /\ length d' = nsum (map rp_size reps') /\
  forall f b, nth_error (fields reps d) f = Some b -> exists b', nth_error (fields reps' d') f = Some b' /\ same_chans b' (op f b).

(** position of the f-th field when the fields are put in increasing order of their keys, fields with equal keys staying in
    order *)
Definition place {K} (ltb eqb : K -> K -> bool) (keys : list K) (f : nat) : nat :=
  match nth_error keys f with
  | None => 0
  | Some k => length (filter (fun k' => ltb k' k) keys) + length (filter (eqb k) (firstn f keys))
  end.

(** d' is the tensor d, of a type with these representations, transformed by the group element g (transform_fibers), while
    the points move by pi *)
Definition acts {G X} (reps : list (rep G)) (g : G) (pi : X -> X) (d d' : list (X -> R)) : Prop :=
  length d' = length d /\
  exists t', transform_fibers reps g (fun p i => val d i (pi p)) = Ok t' /\
             forall p i, (i < length d)%nat -> val d' i p = t' p i.

(** Euclidean norm and largest entry of the field b at p *)
Definition norm_of {X} (b : list (X -> R)) (p : X) : R := sqrt (rsum (length b) (fun i => val b i p * val b i p)).
Definition is_max {X} (b : list (X -> R)) (p : X) (m : R) : Prop :=
  (exists i, (i < length b)%nat /\ m = val b i p) /\ forall i, (i < length b)%nat -> val b i p <= m.
(** the field b with every channel multiplied by m *)
Definition scaled {X} (m : X -> R) (b : list (X -> R)) : list (X -> R) := map (fun c => fun p => c p * m p) b.

(** * What the modules compute on one field *)
(** norm non-linearity: the field keeps its direction and its norm n becomes f(n - b); fields of norm at most eps become 0 *)
Definition norm_act {X} (eps : R) (f : R -> R) (b : option R) (v : list (X -> R)) : list (X -> R) :=
  scaled (fun p => if Rle_dec (norm_of v p) eps then 0
                   else match b with Some c => f (norm_of v p - c) | None => f (norm_of v p) end / norm_of v p) v.
(** induced norm non-linearity: the same on each of the sub-fields of size s that make up the field *)
Definition induced_norm_act {X} (eps : R) (f : R -> R) (b : option R) (s : nat) (v : list (X -> R)) : list (X -> R) :=
  concat (map (norm_act eps f b) (cut (repeat s (length v / s)) v)).
(** gated non-linearity: the field times the gate, a sigmoid of a shifted channel *)
Definition gate {X} (c : X -> R) (b : R) : X -> R := fun p => / (1 + exp (- (c p - b))).
(** the channels of the fields at the positions where [sel] holds, in order *)
Definition channels_where {A B} (sel : B -> bool) (labels : list B) (fs : list (list A)) : list A :=
  concat (map snd (filter (fun p => sel (fst p)) (combine labels fs))).
(** how many of the first f labels are [sel]ected *)
Definition before {B} (sel : B -> bool) (labels : list B) (f : nat) : nat := length (filter sel (firstn f labels)).

(** * Kinds of matrices *)
Definition is_perm (n : nat) (A : mat) : Prop :=
  exists s, bij n s /\ forall i j, (i < n)%nat -> (j < n)%nat -> A i j = if (j =? s i)%nat then 1 else 0.
Definition is_signed_perm (n : nat) (A : mat) : Prop :=
  exists s e, bij n s /\ (forall i, (i < n)%nat -> e i = 1 \/ e i = -1) /\
    forall i j, (i < n)%nat -> (j < n)%nat -> A i j = if (j =? s i)%nat then e i else 0.
(** k by k blocks of size m: one orthogonal block in every row and column of blocks *)
Definition is_block_perm (k m : nat) (A : mat) : Prop :=
  exists s (O : nat -> mat), bij k s /\ (forall q, (q < k)%nat -> orthogonal m (O q)) /\
    forall q q' i j, (q < k)%nat -> (q' < k)%nat -> (i < m)%nat -> (j < m)%nat ->
      A (q * m + i)%nat (q' * m + j)%nat = if (q' =? s q)%nat then O q i j else 0.
(** cyclic shift by k of N entries: entry i of the result is entry i - k *)
Definition is_shift (N k : nat) (A : mat) : Prop :=
  forall i j, (i < N)%nat -> (j < N)%nat -> A i j = if (j =? (i + (N - k)) mod N)%nat then 1 else 0.
Definition is_rotation (a : R) (A : mat) : Prop :=
  A 0%nat 0%nat = cos a /\ A 0%nat 1%nat = - sin a /\ A 1%nat 0%nat = sin a /\ A 1%nat 1%nat = cos a.
(** only one entry of the field attains the maximum at p *)
Definition single_max {X} (b : list (X -> R)) (p : X) : Prop :=
  forall i j, (i < length b)%nat -> (j < length b)%nat -> is_max b p (val b i p) -> is_max b p (val b j p) -> i = j.
(** concatenated ReLU-like non-linearity: every channel c becomes the channels f(c), f(-c) *)
Definition conc_act {X} (f : R -> R) (b : list (X -> R)) : list (X -> R) :=
  concat (map (fun c => [(fun p => f (c p)); (fun p => f (- c p))]) b).
(** vector field: the largest entry (if positive) as length, its position as angle *)
Definition vector_act {X} (N : nat) (b : list (X -> R)) (v : list (X -> R)) : Prop :=
  length v = 2%nat /\ forall p m, is_max b p m ->
    (m <= 0 -> val v 0 p = 0 /\ val v 1 p = 0) /\
    (0 < m -> exists i, (i < length b)%nat /\ val b i p = m /\
       val v 0 p = m * cos (INR i * (2 * PI / INR N)) /\ val v 1 p = m * sin (INR i * (2 * PI / INR N))).
