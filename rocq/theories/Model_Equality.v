(** Model of the comparison of representations and of field types: e2cnn/group/representation.py, e2cnn/nn/field_type.py, with the
    tolerance of numpy. *)
From Coq Require Import Reals ZArith String List Bool.
From Verif Require Import Base Model_Groups Model_Rep Model_FieldType Model_GSpace Model_Conv.
Import ListNotations.
Open Scope R_scope.

(** numpy.isclose(a, b) with the default rtol=1e-5, atol=1e-8 (on reals; rounding is not modelled) *)
Definition isclose (a b : R) : bool := Rleb (Rabs (a - b)) (1 / 100000000 + 1 / 100000 * Rabs b).
(** numpy.allclose on square arrays n by n and m by m: an axis of length 1 is repeated, other different lengths raise *)
Definition bcast (n i : nat) : nat := if (n =? 1)%nat then 0%nat else i.
Definition np_allclose (n m : nat) (a b : mat) : result bool :=
  if ((n =? m) || (n =? 1) || (m =? 1))%nat%bool then
    let s := if (n =? 1)%nat then m else n in
    Ok (forallb (fun i => forallb (fun j => isclose (a (bcast n i) (bcast n j)) (b (bcast m i) (bcast m j))) (seq 0 s)) (seq 0 s))
  else Err "ValueError".
(** equality of sets of strings *)
Definition set_eqb (l l' : list string) : bool :=
  (forallb (fun x => existsb (String.eqb x) l') l && forallb (fun x => existsb (String.eqb x) l) l')%bool.

Section Compare.
Context {G : Type}.
(** representation.py:328-336 [__eq__]: the conjunction stops at the first False.  [ga], [gb]: the groups.  The names of the irreps of
    a group are their flip, frequency and size. *)
Definition rep_equal (ga gb : fgroup) (a b : rep G) : result bool :=
  if negb (String.eqb (rp_name a) (rp_name b)) then Ok false
  else if negb (fg_eqb ga gb) then Ok false
  else rbind (np_allclose (rp_size a) (rp_size b) (rp_cob a) (rp_cob b)) (fun c =>
       if negb c then Ok false
       else if negb (list_eqb irrep_same (rp_irreps a) (rp_irreps b)) then Ok false
       else Ok (set_eqb (rp_nonlin a) (rp_nonlin b))).

(** Python's == on lists: the lengths first, then the elements until two differ *)
Fixpoint items_equal {A} (eq : A -> A -> result bool) (l l' : list A) : result bool :=
  match l, l' with
  | a :: k, b :: k' => rbind (eq a b) (fun c => if c then items_equal eq k k' else Ok false)
  | [], [] => Ok true
  | _, _ => Ok false
  end.
Definition list_equal {A} (eq : A -> A -> result bool) (l l' : list A) : result bool :=
  if (length l =? length l')%nat then items_equal eq l l' else Ok false.
Definition type_group (t : ctype G) : fgroup := sp_group (sp_obj (ft_gs t)).
(** field_type.py:445-449 [__eq__] between two field types; the representations are ones of the fiber group (field_type.py:69-70) *)
Definition types_equal (t u : ctype G) : result bool :=
  if space_eqb (ft_gs t) (ft_gs u) then list_equal (rep_equal (type_group t) (type_group u)) (ft_reps t) (ft_reps u) else Ok false.

(** representation.py:338-342: the string whose hash is taken, by its parts *)
Definition rep_repr (g : fgroup) (a : rep G) : fgroup * string * nat * nat * R :=
  (g, rp_name a, rp_size a, length (rp_irreps a), rsum (rp_size a) (fun i => rsum (rp_size a) (fun j => rp_cob a i j))).
(** field_type.py:92, 451-452: likewise for a field type *)
Definition type_repr (t : ctype G) : sp_name_t * list string := (sp_name (sp_obj (ft_gs t)), map rp_name (ft_reps t)).
End Compare.
