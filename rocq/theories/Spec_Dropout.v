(** Specification vocabulary for dropout. *)
From Coq Require Import Reals List Bool.
From Verif Require Import Spec_Fieldwise.
Import ListNotations.
Open Scope nat_scope.

(** how many of the fields before f have the same key as f *)
Definition rank_of {K} (eqb : K -> K -> bool) (keys : list K) (f : nat) : nat :=
  match nth_error keys f with None => 0 | Some k => length (filter (eqb k) (firstn f keys)) end.
(** equal entries are next to each other *)
Definition together {K} (l : list K) : Prop :=
  forall i j k a, i < j -> j < k -> nth_error l i = Some a -> nth_error l k = Some a -> nth_error l j = Some a.
(** dropout of one field with probability p: at each point the whole field is multiplied by 0 or by 1/(1-p) *)
Definition drop_act {X} (p : R) (u : X -> R) (b : list (X -> R)) : list (X -> R) :=
  scaled (fun q => if Rlt_dec p (u q) then (/ (1 - p))%R else 0%R) b.
(** one channel *)
Definition drop_entry {X} (p : R) (u c : X -> R) : X -> R := fun q => if Rlt_dec p (u q) then (c q / (1 - p))%R else 0%R.
