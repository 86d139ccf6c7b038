(** Model of the group action on GeometricTensors, their arithmetic and their restriction:
    e2cnn/nn/geometric_tensor.py, e2cnn/nn/field_type.py.
    The data of a tensor is a function from the other indices (batch and spatial position, any type X)
    to the feature vector at that point. *)
From Coq Require Import Reals ZArith String List Bool.
From Verif Require Import Base Model_Groups Model_Rep Model_FieldType.
Import ListNotations.
Open Scope R_scope.

(** field_type.py:105-128 [representation]: directsum of the fields' representations (the name is
    irrelevant for the action) *)
Definition type_representation {G} (reps : list (rep G)) : result (rep G) := directsum reps (Some "FiberRepresentation"%string).

(** geometric_tensor.py:333-366 [transform_fibers]: einsum("oi,bihw->bohw", rho, tensor) *)
Definition transform_fibers {G X} (reps : list (rep G)) (g : G) (t : X -> vec) : result (X -> vec) :=
  rbind (type_representation reps) (fun rho =>
  Ok (fun x => mvec (rp_size rho) (rp_mat rho g) (t x))).

(** typed tensors over a FieldType with representation objects of type [rep G] *)
Record tens (GS G X : Type) : Type := MkT { te_data : X -> vec; te_type : ftype GS (rep G) }.
Arguments MkT {GS G X} _ _.
Arguments te_data {GS G X} _.
Arguments te_type {GS G X} _.

Section Arith.
Context {GS G X : Type} (type_eqb : ftype GS (rep G) -> ftype GS (rep G) -> bool).
(** geometric_tensor.py:549-562 [__add__] *)
Definition te_add (a b : tens GS G X) : result (tens GS G X) :=
  assert_ (type_eqb (te_type a) (te_type b)) (Ok (MkT (fun x i => te_data a x i + te_data b x i) (te_type a))).
(** geometric_tensor.py:564-577 [__sub__] *)
Definition te_sub (a b : tens GS G X) : result (tens GS G X) :=
  assert_ (type_eqb (te_type a) (te_type b)) (Ok (MkT (fun x i => te_data a x i - te_data b x i) (te_type a))).
(** geometric_tensor.py:579-593 [__iadd__]: the object itself is updated and returned; the pair is
    (state of self after the call, returned value) *)
Definition te_iadd (a b : tens GS G X) : tens GS G X * result (tens GS G X) :=
  if type_eqb (te_type a) (te_type b)
  then let a' := MkT (fun x i => te_data a x i + te_data b x i) (te_type a) in (a', Ok a')
  else (a, Err "AssertionError").
(** geometric_tensor.py:595-609 [__isub__] *)
Definition te_isub (a b : tens GS G X) : tens GS G X * result (tens GS G X) :=
  if type_eqb (te_type a) (te_type b)
  then let a' := MkT (fun x i => te_data a x i - te_data b x i) (te_type a) in (a', Ok a')
  else (a, Err "AssertionError").
(** geometric_tensor.py:612-631 [__mul__]; the operand is a float or a tensor, given by its entries;
    a tensor is accepted when numel() == 1. *)
Inductive scalar := SFloat (c : R) | STensor (l : list R).
Definition te_mul (a : tens GS G X) (s : scalar) : result (tens GS G X) :=
  match s with
  | SFloat c | STensor [c] => Ok (MkT (fun x i => te_data a x i * c) (te_type a))
  | STensor _ => Err "AssertionError"
  end.
(** transform_fibers on typed tensors *)
Definition te_transform (g : G) (a : tens GS G X) : result (tens GS G X) :=
  rbind (transform_fibers (ft_reps (te_type a)) g (te_data a)) (fun d => Ok (MkT d (te_type a))).
End Arith.

(** * Restriction *)
(** a dict filled in a loop; the newest entry is in front, lookups find the newest *)
Fixpoint dict_get {V} (d : list (string * V)) (k : string) : result V :=
  match d with
  | [] => Err "KeyError"
  | (k', v) :: d' => if String.eqb k' k then Ok v else dict_get d' k
  end.
(** field_type.py:266-268: loop over the set of distinct representations, in the order [uniq] in which
    the set happens to be iterated; [f] is fibergroup.restrict_representation(id, -) *)
Fixpoint restricted_dict {G H} (f : rep G -> result (rep H)) (uniq : list (rep G))
         (d : list (string * rep H)) : result (list (string * rep H)) :=
  match uniq with
  | [] => Ok d
  | r :: l => rbind (f r) (fun r' => restricted_dict f l ((rp_name r, r') :: d))
  end.
(** field_type.py:242-277 [restrict] (gspace.restrict gives [sub]) *)
Definition ft_restrict {GS GS' G H} (fits : GS' -> rep H -> bool) (sub : GS') (f : rep G -> result (rep H))
           (uniq : list (rep G)) (t : ftype GS (rep G)) : result (ftype GS' (rep H)) :=
  rbind (restricted_dict f uniq []) (fun d =>
  rbind (rmap (fun r => dict_get d (rp_name r)) (ft_reps t)) (fun fields =>
  mk_ftype fits sub fields)).
(** geometric_tensor.py:173-207 [restrict]: same data, restricted type *)
Definition te_restrict {GS GS' G H X} (fits : GS' -> rep H -> bool) (sub : GS') (f : rep G -> result (rep H))
           (uniq : list (rep G)) (a : tens GS G X) : result (tens GS' H X) :=
  rbind (ft_restrict fits sub f uniq (te_type a)) (fun t => Ok (MkT (te_data a) t)).
