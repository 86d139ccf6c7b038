(** Specification vocabulary for containers of modules. *)
From Coq Require Import String List.
From Verif Require Import Base Model_Groups Model_Modules.
Import ListNotations.

(** consecutive elements are related *)
Definition chained {A} (R : A -> A -> Prop) (l : list A) : Prop :=
  forall i a b, nth_error l i = Some a -> nth_error l (S i) = Some b -> R a b.

Section Seq.
Context {T X : Type}.
(** y is the result of applying the modules one after the other to x, none of which raises *)
Inductive composed : list (emodule T X) -> X -> X -> Prop :=
| composed_nil x : composed [] x x
| composed_cons m l x z y : em_fwd m x = Ok z -> composed l z y -> composed (m :: l) x y.

(** m accepts every tensor of its input type and returns a tensor of its output type *)
Definition sound (type_eqb : T -> T -> bool) (ty : X -> T) (m : emodule T X) : Prop :=
  forall x, type_eqb (ty x) (em_in m) = true -> exists y, em_fwd m x = Ok y /\ type_eqb (ty y) (em_out m) = true.

(** m commutes with the actions [act g] (up to [same], which it respects) on the tensors of its input type *)
Definition equivariant {G} (type_eqb : T -> T -> bool) (ty : X -> T) (act : G -> X -> X) (same : X -> X -> Prop) (m : emodule T X) : Prop :=
  (forall g x y, type_eqb (ty x) (em_in m) = true -> em_fwd m x = Ok y ->
     exists y', em_fwd m (act g x) = Ok y' /\ same y' (act g y)) /\
  (forall x x' y, type_eqb (ty x) (em_in m) = true -> same x x' -> em_fwd m x = Ok y -> exists y', em_fwd m x' = Ok y' /\ same y y').

(** the object consists of the modules l, in this order, whose consecutive types match; it announces the input type of
    the first one and the output type of the last one *)
Definition is_chain (type_eqb : T -> T -> bool) (l : list (emodule T X)) (s : seqmod T X) : Prop :=
  map snd (sq_mods s) = l /\
  sq_in s = match l with [] => None | m :: _ => Some (em_in m) end /\
  sq_out s = match rev l with [] => None | m :: _ => Some (em_out m) end /\
  chained (fun a b => type_eqb (em_in b) (em_out a) = true) l.
End Seq.
(** a name that torch accepts: not an attribute of the object, no dot, not empty *)
Definition legal (attr : string -> bool) (name : string) : Prop := attr name = false /\ has_dot name = false /\ name <> ""%string.
