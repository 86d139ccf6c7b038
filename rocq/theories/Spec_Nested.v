(** Specification for C57: nested SequentialModules and the flat sequence of the modules in them. *)
From Coq Require Import List Bool String.
From Verif Require Import Base Model_Groups Model_Modules Model_Nested.
Import ListNotations.

(** the modules of a nested expression, from left to right *)
Fixpoint leaves {A} (t : tree A) : list A :=
  match t with Leaf a => [a] | Node l => flat_map leaves l end.
(** SequentialModule() without arguments does not occur *)
Inductive filled {A} : tree A -> Prop :=
| filled_leaf a : filled (Leaf a)
| filled_node a l : filled a -> Forall filled l -> filled (Node (a :: l)).
(** a module that checks the type of its input before anything else, and returns tensors of its output type *)
Definition checks {T X} (type_eqb : T -> T -> bool) (ty : X -> T) (m : emodule T X) : Prop :=
  forall x, (type_eqb (ty x) (em_in m) = false -> em_fwd m x = Err "AssertionError"%string) /\
            (forall y, em_fwd m x = Ok y -> type_eqb (ty y) (em_out m) = true).
