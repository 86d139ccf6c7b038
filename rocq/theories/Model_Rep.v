(** Model of e2cnn/group/representation.py (Representation, directsum, change_basis,
    direct_sum_factory) and of Group.restrict_representation (group/group.py). *)
From Coq Require Import Reals ZArith String List Bool.
From Verif Require Import Base Model_Groups.
Import ListNotations.
Open Scope R_scope.

(** The blocks of the direct sum of [l] evaluated at [g]
    (representation.py:1052-1062: [blocks.append(reprs[irrep_name])]). *)
Definition blocks {G} (l : list (irrep G)) (g : G) : list (nat * mat) :=
  map (fun s => (ir_size s, ir_mat s g)) l.

(** Representation object, representation.py:30-212.  Simplifications: irreps are stored as objects,
    not as names to look up in [group.irreps]; the group is implicit in the type G and in the irreps;
    sets of nonlinearities are lists. *)
Record rep (G : Type) : Type := MkRep {
  rp_name : string;
  rp_irreps : list (irrep G);
  rp_cob : mat;
  rp_inv : mat;
  rp_nonlin : list string
}.
Arguments MkRep {G} _ _ _ _ _.
Arguments rp_name {G} _.
Arguments rp_irreps {G} _.
Arguments rp_cob {G} _.
Arguments rp_inv {G} _.
Arguments rp_nonlin {G} _.

Definition isizes {G} (l : list (irrep G)) : nat := nsum (map ir_size l).

(** representation.py:165 [self.size = change_of_basis.shape[0]]; the shape has to agree with the
    sizes of the irreps for [direct_sum_factory] to be able to multiply. *)
Definition rp_size {G} (r : rep G) : nat := isizes (rp_irreps r).

(** representation.py:146-157: the constructor asserts that change_of_basis and change_of_basis_inv
    are mutually inverse (when change_of_basis_inv is not given it is [sp.linalg.inv], i.e. some
    matrix with this property). np.allclose is taken as equality. *)
Definition rep_accepted {G} (r : rep G) : Prop := inverse_pair (rp_size r) (rp_cob r) (rp_inv r).

(** representation.py:1048-1066 [direct_sum]: change_of_basis @ P @ change_of_basis_inv *)
Definition rp_mat {G} (r : rep G) (g : G) : mat :=
  let n := rp_size r in
  mmul n (mmul n (rp_cob r) (bdiag (blocks (rp_irreps r) g))) (rp_inv r).

(** irrep.py:52-64: an irrep as a representation, change of basis np.eye(size) *)
Definition rep_of_irrep {G} (name : string) (ir : irrep G) : rep G :=
  MkRep name [ir] mid mid (ir_nonlin ir).

(** set intersection of the supported nonlinearities (representation.py:466) *)
Definition nl_inter (l1 l2 : list string) : list string :=
  filter (fun s => existsb (String.eqb s) l2) l1.
Fixpoint nl_inters {G} (l : list (rep G)) : list string :=
  match l with
  | [] => []
  | [r] => rp_nonlin r
  | r :: l' => nl_inter (rp_nonlin r) (nl_inters l')
  end.

(** representation.py:442-443: default name "_".join(f"[{r.name}]") *)
Definition ds_name {G} (l : list (rep G)) : string :=
  String.concat "_" (map (fun r => ("[" ++ rp_name r ++ "]")%string) l).

(** representation.py:400-468 [directsum(reprs, change_of_basis=None)]; [reprs[0]] raises on []. *)
Definition directsum {G} (l : list (rep G)) (name : option string) : result (rep G) :=
  match l with
  | [] => Err "IndexError"
  | _ =>
    Ok (MkRep (match name with Some n => n | None => ds_name l end)
              (concat (map rp_irreps l))
              (bdiag (map (fun r => (rp_size r, rp_cob r)) l))
              (bdiag (map (fun r => (rp_size r, rp_inv r)) l))
              (nl_inters l))
  end.

(** representation.py:458-460: with [change_of_basis=Q], the new change of basis is Q @ cob and its
    inverse is [sp.linalg.inv] of it (argument [inv]); nonlinearities are still the intersection. *)
Definition directsum_cob {G} (l : list (rep G)) (Q inv : mat) (name : option string) : result (rep G) :=
  rbind (directsum l name) (fun r =>
    Ok (MkRep (rp_name r) (rp_irreps r) (mmul (rp_size r) Q (rp_cob r)) inv (rp_nonlin r))).

(** representation.py:608-646 [change_basis(repr, Q, name, supported_nonlinearities)];
    [Qinv] stands for [sp.linalg.inv(Q)]. *)
Definition change_basis {G} (r : rep G) (Q Qinv : mat) (name : string) (nl : option (list string)) : rep G :=
  MkRep name (rp_irreps r)
        (mmul (rp_size r) Q (rp_cob r))
        (mmul (rp_size r) (rp_inv r) Qinv)
        (match nl with None => [] | Some l => l end).

(** representation.py:212, 247-256 [is_trivial]: irreducible (one irrep, identity change of basis) and the
    irrep is the trivial one.  As the identity test is on reals it is a Prop here. *)
Definition is_trivial_rep {G} (r : rep G) : Prop :=
  match rp_irreps r with
  | [ir] => meq (ir_size ir) (ir_size ir) (rp_cob r) mid /\ ir_freq ir = 0%Z /\ ir_flip ir = 0%Z
  | _ => False
  end.

(** group.py:361-420 [restrict_representation].  [restrict_one] gives, for an irrep, the change of
    basis and the subgroup's irreps ([_restrict_irrep]); [inv] is [sp.linalg.inv] of the new change of
    basis; [prefix] is the name of the group. The 'pointwise' patch of lines 417-418 is
    [Model_Support.restrict_trivial_patch]. *)
Fixpoint restrict_all {G H} (restrict_one : irrep G -> result (mat * list (irrep H)))
         (l : list (irrep G)) : result (list (nat * mat) * list (irrep H)) :=
  match l with
  | [] => Ok ([], [])
  | ir :: l' =>
      rbind (restrict_one ir) (fun p =>
      rbind (restrict_all restrict_one l') (fun q =>
      Ok ((ir_size ir, fst p) :: fst q, snd p ++ snd q)))
  end.

Definition restrict_representation {G H} (prefix : string)
           (restrict_one : irrep G -> result (mat * list (irrep H)))
           (r : rep G) (inv : mat) : result (rep H) :=
  rbind (restrict_all restrict_one (rp_irreps r)) (fun p =>
  Ok (MkRep (prefix ++ ":" ++ rp_name r)%string
            (snd p)
            (mmul (rp_size r) (rp_cob r) (bdiag (fst p)))
            inv
            (rp_nonlin r))).

(** Turning the lists of names returned by [_restrict_irrep] into irreps of the subgroup
    (representation.py:170 [group.irreps[n] for n in irreps]). *)
Fixpoint rmap {A B} (f : A -> result B) (l : list A) : result (list B) :=
  match l with
  | [] => Ok []
  | a :: l' => rbind (f a) (fun b => rbind (rmap f l') (fun bs => Ok (b :: bs)))
  end.

(** [_restrict_irrep] of C_N followed by the lookup of the irreps of C_id *)
Definition cyc_restrict_one (N id : Z) (ir : irrep Z) : result (mat * list (irrep Z)) :=
  rbind (cyc_restrict_irrep N ir id) (fun p =>
  rbind (rmap (fun f => key_error (cyc_irrep id f)) (snd p)) (fun l => Ok (fst p, l))).

(** same for SO(2) -> C_id *)
Definition so2_restrict_one (id : Z) (ir : irrep R) : result (mat * list (irrep Z)) :=
  rbind (so2_restrict_irrep ir id) (fun p =>
  rbind (rmap (fun f => key_error (cyc_irrep id f)) (snd p)) (fun l => Ok (fst p, l))).

(** order of the cyclic subgroup for a given id: C_2 for a single reflection, C_M otherwise
    (dihedralgroup.py:191, 198; o2group.py:195, 201) *)
Definition c_order {A} (id : option A * Z) : Z := match fst id with Some _ => 2%Z | None => snd id end.

(** D_N -> cyclic subgroup *)
Definition dih_restrict_one_C (N : Z) (id : option Z * Z) (ir : irrep (Z * Z)) : result (mat * list (irrep Z)) :=
  rbind (dih_restrict_irrep N ir id) (fun p =>
  match snd p with
  | IrC fs => rbind (rmap (fun f => key_error (cyc_irrep (c_order id) f)) fs) (fun l => Ok (fst p, l))
  | IrD _ => Err "KeyError"
  end).

(** D_N -> dihedral subgroup *)
Definition dih_restrict_one_D (N : Z) (id : option Z * Z) (ir : irrep (Z * Z)) : result (mat * list (irrep (Z * Z))) :=
  rbind (dih_restrict_irrep N ir id) (fun p =>
  match snd p with
  | IrD fs => rbind (rmap (fun f => key_error (dih_irrep (snd id) (fst f) (snd f))) fs) (fun l => Ok (fst p, l))
  | IrC _ => Err "KeyError"
  end).

(** O(2) -> cyclic subgroup *)
Definition o2_restrict_one_C (id : option R * Z) (ir : irrep (Z * R)) : result (mat * list (irrep Z)) :=
  rbind (o2_restrict_irrep ir id) (fun p =>
  match snd p with
  | IrFin (IrC fs) => rbind (rmap (fun f => key_error (cyc_irrep (c_order id) f)) fs) (fun l => Ok (fst p, l))
  | _ => Err "KeyError"
  end).

(** O(2) -> dihedral subgroup *)
Definition o2_restrict_one_D (id : option R * Z) (ir : irrep (Z * R)) : result (mat * list (irrep (Z * Z))) :=
  rbind (o2_restrict_irrep ir id) (fun p =>
  match snd p with
  | IrFin (IrD fs) => rbind (rmap (fun f => key_error (dih_irrep (snd id) (fst f) (snd f))) fs) (fun l => Ok (fst p, l))
  | _ => Err "KeyError"
  end).

(** O(2) -> SO(2).  Simplification: the irreps of the SO(2) object are assumed large enough
    (see Model_Hist.v for the history dependent failure). *)
Definition o2_restrict_one_S (id : option R * Z) (ir : irrep (Z * R)) : result (mat * list (irrep R)) :=
  rbind (o2_restrict_irrep ir id) (fun p =>
  match snd p with
  | IrSO2 fs => rbind (rmap (fun f => key_error (so2_irrep f)) fs) (fun l => Ok (fst p, l))
  | _ => Err "KeyError"
  end).

(** O(2) -> O(2) about another axis *)
Definition o2_restrict_one_O (id : option R * Z) (ir : irrep (Z * R)) : result (mat * list (irrep (Z * R))) :=
  rbind (o2_restrict_irrep ir id) (fun p =>
  match snd p with
  | IrO2 fs => rbind (rmap (fun f => key_error (o2_irrep (fst f) (snd f))) fs) (fun l => Ok (fst p, l))
  | _ => Err "KeyError"
  end).
