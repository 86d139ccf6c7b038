(** What a delta-orthogonal initialisation is, for C60. *)
From Coq Require Import Reals List Bool Arith.
From Verif Require Import Base Model_Delta.
Import ListNotations.
Open Scope R_scope.

Section Delta.
Context {N : Type} (same : N -> N -> bool).
(** the element maps a copy of the irrep n, at position i of the input, to a copy of n at position o of the output, and
    sits at the centre of the filter *)
Definition at_centre (n : N) (i o : nat) (a : dentry N) : bool :=
  (same (de_in a) n && same (de_out a) n && (fst (de_pos a) =? i)%nat && (snd (de_pos a) =? o)%nat &&
   match de_r a with Some r => if Req_EM_T r 0 then true else false | None => false end)%bool.
(** the weights of these elements, in order *)
Definition weights (infos : list (dentry N)) (n : N) (i o : nat) : list nat :=
  filter (fun x => match nth_error infos x with Some a => at_centre n i o a | None => false end) (seq 0 (length infos)).
(** the positions of n that occur at all *)
Definition input_of (infos : list (dentry N)) (n : N) (i : nat) : Prop := exists o, weights infos n i o <> [].
Definition output_of (infos : list (dentry N)) (n : N) (o : nat) : Prop := exists i, weights infos n i o <> [].
(** every input position is joined to every output position of the same irrep by the same number of weights *)
Definition balanced (infos : list (dentry N)) : Prop :=
  forall n i o i' o', input_of infos n i -> output_of infos n o -> input_of infos n i' -> output_of infos n o' ->
    length (weights infos n i o) = length (weights infos n i' o').

(** sum over a list *)
Definition total {A} (l : list A) (f : A -> R) : R := fold_right (fun a acc => f a + acc) 0 l.
(** the weight number p from the input i to the output o *)
Definition T_at (infos : list (dentry N)) (T : list R) (n : N) (i o p : nat) : R := nth (nth p (weights infos n i o) (length T)) T 0.
(** ins and outs: the positions of n; the filter at the centre, seen as a matrix between the copies of n whose entries are
    vectors of s weights, has orthonormal rows when it does not enlarge the number of copies, orthonormal columns when it
    does not reduce it *)
Definition delta_orthonormal (infos : list (dentry N)) (T : list R) (n : N) (ins outs : list nat) (s : nat) : Prop :=
  ((length outs <= length ins)%nat ->
     (forall o, In o outs -> total ins (fun i => rsum s (fun p => T_at infos T n i o p ^ 2)) = 1) /\
     (forall o o' p p', In o outs -> In o' outs -> o <> o' -> (p < s)%nat -> (p' < s)%nat ->
        total ins (fun i => T_at infos T n i o p * T_at infos T n i o' p') = 0)) /\
  ((length ins <= length outs)%nat ->
     (forall i, In i ins -> total outs (fun o => rsum s (fun p => T_at infos T n i o p ^ 2)) = 1) /\
     (forall i i', In i ins -> In i' ins -> i <> i' ->
        total outs (fun o => rsum s (fun p => T_at infos T n i o p * T_at infos T n i' o p)) = 0)).
End Delta.
