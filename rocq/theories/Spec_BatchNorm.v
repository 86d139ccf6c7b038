(** Specification vocabulary for batch normalisation. *)
From Coq Require Import Reals List Bool.
From Verif Require Import Base Spec_Fields Model_Groups Model_Rep Model_FieldType Model_Tensor Spec_Fieldwise.
Import ListNotations.
Open Scope R_scope.

(** A batch has n points (sample and position).  d' is the batch d where the points are moved by pi, a permutation, and the
    feature vector that arrives at point p is transformed by the group element [gs p]: every sample may be transformed by an
    element of its own. *)
Definition acts_each {G} (n : nat) (reps : list (rep G)) (gs : nat -> G) (pi : nat -> nat) (d d' : list (nat -> R)) : Prop :=
  length d' = length d /\
  forall p, (p < n)%nat -> exists t', transform_fibers reps (gs p) (fun q i => val d i (pi q)) = Ok t' /\
    forall i, (i < length d)%nat -> val d' i p = t' p i.

(** * Statistics of a field over the batch *)
(** mean of the squares of all entries *)
Definition mean_square (n : nat) (b : list (nat -> R)) : R :=
  rsum n (fun p => rsum (length b) (fun i => val b i p * val b i p)) / (INR n * INR (length b)).
(** mean and (biased) variance of all entries *)
Definition mean_of (n : nat) (b : list (nat -> R)) : R := rsum n (fun p => rsum (length b) (fun i => val b i p)) / (INR n * INR (length b)).
Definition var_of (n : nat) (b : list (nat -> R)) : R :=
  rsum n (fun p => rsum (length b) (fun i => (val b i p - mean_of n b) ^ 2)) / (INR n * INR (length b)).
(** factor that makes a variance over N samples unbiased *)
Definition unbias (N : nat) : R := if (N <=? 1)%nat then 1 else INR N / (INR N - 1).
(** running average: weight f for the new value *)
Definition average (f old new : R) : R := (1 - f) * old + f * new.
(** weight of the latest of [batches] batches *)
Definition weight_of (momentum : option R) (batches : nat) : R := match momentum with Some m => m | None => / INR batches end.
Definition momentum_ok (momentum : option R) : Prop := match momentum with Some m => 0 <= m <= 1 | None => True end.

(** * The life of a module *)
(** A module of type M is given batches of n points, in training or evaluation mode; in between, other events W happen to it
    (its parameters or buffers are set). *)
Inductive event (T W : Type) := Batch (training : bool) (n : nat) (x : T) | Other (w : W).
Arguments Batch {T W} _ _ _. Arguments Other {T W} _.
(** outputs and final state *)
Fixpoint run {M T W} (fwd : bool -> nat -> M -> T -> result (T * M)) (other : W -> M -> M) (m : M) (h : list (event T W)) : result (list T * M) :=
  match h with
  | [] => Ok ([], m)
  | Batch training n x :: h' =>
    match fwd training n m x with
    | Ok (y, m') => match run fwd other m' h' with Ok (ys, m'') => Ok (y :: ys, m'') | Err e => Err e end
    | Err e => Err e
    end
  | Other w :: h' => run fwd other (other w m) h'
  end.
(** two histories side by side: x' is the batch x transformed by gs, pi *)
Inductive event2 (G T W : Type) := Batch2 (training : bool) (n : nat) (gs : nat -> G) (pi : nat -> nat) (x x' : T) | Other2 (w : W).
Arguments Batch2 {G T W} _ _ _ _ _ _. Arguments Other2 {G T W} _.
Definition left_of {G T W} (e : event2 G T W) : event T W := match e with Batch2 t n _ _ x _ => Batch t n x | Other2 w => Other w end.
Definition right_of {G T W} (e : event2 G T W) : event T W := match e with Batch2 t n _ _ _ x' => Batch t n x' | Other2 w => Other w end.
(** the outputs of the second history are those of the first, transformed by the same gs, pi *)
Fixpoint follow {G GS W} (reps : list (rep G)) (h : list (event2 G (gtensor GS (rep G) (nat -> R)) W)) (ys ys' : list (gtensor GS (rep G) (nat -> R))) : Prop :=
  match h, ys, ys' with
  | [], [], [] => True
  | Other2 _ :: h', _, _ => follow reps h' ys ys'
  | Batch2 _ n gs pi _ _ :: h', y :: ys0, y' :: ys0' => acts_each n reps gs pi (gt_data y) (gt_data y') /\ follow reps h' ys0 ys0'
  | _, _, _ => False
  end.

(** * Batch normalisation of a field with mean, variance and parameters: (x - mean) / sqrt(var + eps) * weight + bias *)
Definition standardize (eps : R) (stat par : R * R) (b : list (nat -> R)) : list (nat -> R) :=
  map (fun c : nat -> R => fun p => (c p - fst stat) / sqrt (snd stat + eps) * fst par + snd par) b.

(** * The irreps of a field *)
(** the channels of irrep number i of a field with representation r: the field is r = cob (irreps) cob^-1 *)
Definition irrep_part {G} (r : rep G) (i : nat) (b : list (nat -> R)) : list (nat -> R) :=
  match nth_error (rp_irreps r) i with
  | Some ir => map (fun e => fun p => rsum (rp_size r) (fun a => rp_inv r (nsum (map ir_size (firstn i (rp_irreps r))) + e)%nat a * val b a p)) (seq 0 (ir_size ir))
  | None => []
  end.

(** * Events of a single history *)
Definition allowed {T W} (okb : bool -> nat -> T -> Prop) (okw : W -> Prop) (e : event T W) : Prop :=
  match e with Batch training n x => okb training n x | Other w => okw w end.
