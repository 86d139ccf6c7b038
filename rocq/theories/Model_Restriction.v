(** Model of e2cnn/nn/modules/restriction_module.py, with field_type.py:242-277 [FieldType.restrict] for all spaces and subgroups. *)
From Coq Require Import Reals ZArith String List Bool.
From Verif Require Import Base Model_Groups Model_Rep Model_FieldType Model_Tensor Model_GSpace Model_Kernels Model_Utils Model_Expansion Model_Conv Model_Support.
Import ListNotations.
Open Scope R_scope.

(** the type of the elements of a group, and the element in a dynamically typed value *)
Definition carrier (g : fgroup) : Type := match g with GC _ => Z | GD _ => (Z * Z)%type | GSO2 _ => R | GO2 _ => (Z * R)%type end.
Definition prj_of (g : fgroup) : gelt -> option (carrier g) :=
  match g return gelt -> option (carrier g) with GC _ => prj_EI | GD _ => prj_EFI | GSO2 _ => prj_ER | GO2 _ => prj_EFR end.

(** the object of class [s] with its basis generators (Model_Conv.v); a class whose constructor refuses the group has none *)
Definition no_space (s : gspace) : space (carrier (sp_group s)) :=
  MkSpace s (prj_of (sp_group s)) (fun _ _ _ _ _ _ => Err "AssertionError"%string) (fun _ _ _ _ _ => Err "AssertionError"%string).
Definition space_of (s : gspace) : space (carrier (sp_group s)) :=
  match s return space (carrier (sp_group s)) with
  | SpTrivial g =>
    match g return space (carrier g) with
    | GC N => MkSpace (SpTrivial (GC N)) prj_EI (sp_build space_trivial) (sp_dbuild space_trivial)
    | g => no_space (SpTrivial g)
    end
  | SpFlip g axis =>
    match g return space (carrier g) with
    | GC N => MkSpace (SpFlip (GC N) axis) prj_EI (sp_build (space_flip axis)) (sp_dbuild (space_flip axis))
    | g => no_space (SpFlip g axis)
    end
  | SpRot g =>
    match g return space (carrier g) with GC N => space_CN N | GSO2 F => space_SO2 F | g => no_space (SpRot g) end
  | SpFlipRot g axis =>
    match g return space (carrier g) with GD N => space_DN N axis | GO2 F => space_O2 F axis | g => no_space (SpFlipRot g axis) end
  end.

(** group.py:395-402: [_restrict_irrep] of the group, and the irreps of the subgroup that it names (Model_Rep.v) *)
Definition restrict_one (g g' : fgroup) (id : gid) : irrep (carrier g) -> result (mat * list (irrep (carrier g'))) :=
  match g return irrep (carrier g) -> result (mat * list (irrep (carrier g'))) with
  | GC N =>
    match g' return irrep Z -> result (mat * list (irrep (carrier g'))) with
    | GC _ => match id with IdInt M => cyc_restrict_one N M | _ => fun _ => Err "AssertionError" end
    | _ => fun _ => Err "AssertionError"
    end
  | GSO2 _ =>
    match g' return irrep R -> result (mat * list (irrep (carrier g'))) with
    | GC _ => match id with IdInt M => so2_restrict_one M | _ => fun _ => Err "AssertionError" end
    | _ => fun _ => Err "AssertionError"
    end
  | GD N =>
    match g' return irrep (Z * Z) -> result (mat * list (irrep (carrier g'))) with
    | GC _ => match id with IdAxisInt a M => dih_restrict_one_C N (a, M) | _ => fun _ => Err "AssertionError" end
    | GD _ => match id with IdAxisInt a M => dih_restrict_one_D N (a, M) | _ => fun _ => Err "AssertionError" end
    | _ => fun _ => Err "AssertionError"
    end
  | GO2 _ =>
    match g' return irrep (Z * R) -> result (mat * list (irrep (carrier g'))) with
    | GC _ => match id with IdAxisReal a M => o2_restrict_one_C (a, M) | _ => fun _ => Err "AssertionError" end
    | GD _ => match id with IdAxisReal a M => o2_restrict_one_D (a, M) | _ => fun _ => Err "AssertionError" end
    | GSO2 _ => match id with IdAxisReal a M => o2_restrict_one_S (a, M) | _ => fun _ => Err "AssertionError" end
    | GO2 _ => match id with IdAxisReal a M => o2_restrict_one_O (a, M) | _ => fun _ => Err "AssertionError" end
    end
  end.
(** group.py:361-420 [restrict_representation(id, repr)]; [name] is the name of the group, [invs r] the matrix that
    scipy.linalg.inv computes for the restriction of [r] *)
Definition group_restrict (name : string) (invs : forall g, rep (carrier g) -> mat) (g g' : fgroup) (id : gid) (r : rep (carrier g)) : result (rep (carrier g')) :=
  rbind (restrict_representation name (restrict_one g g' id) r (invs g r)) (fun r' => Ok (restrict_trivial_patch r')).

(** restriction_module.py:19-51.  The type is [MkFT (space_of s) reps]; [uniq] is the set of its representations in the order in
    which it is iterated.  Returns the restricted space and the restricted type. *)
Definition restriction_make (name : string) (invs : forall g, rep (carrier g) -> mat) (s : gspace) (reps uniq : list (rep (carrier (sp_group s)))) (id : gid)
  : result {s' : gspace & ctype (carrier (sp_group s'))} :=
  rbind (sp_restrict s id) (fun '(s', _, _) =>
  rbind (ft_restrict (fun _ _ => true) (space_of s') (group_restrict name invs (sp_group s) (sp_group s') id) uniq (MkFT (space_of s) reps)) (fun t =>
  Ok (existT (fun s' => ctype (carrier (sp_group s'))) s' t))).
(** restriction_module.py:53-55 [forward] *)
Definition restriction_forward {G H B} (tin : ctype G) (tout : ctype H) (t : ctype G) (x : arr (B -> vec)) : result (arr (B -> vec) * ctype H) :=
  assert_ (ft_eqb space_eqb rep_eqb t tin) (Ok (x, tout)).
(** restriction_module.py:57-58 [evaluate_output_shape] *)
Definition restriction_shape (shape : Z * Z * Z * Z) : Z * Z * Z * Z := shape.
(** restriction_module.py:90-99 [export]: torch.nn.Identity, which returns its input *)
Definition restriction_export {B} (x : arr (B -> vec)) : arr (B -> vec) := x.
