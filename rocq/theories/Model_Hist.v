(** Model of the objects SO(2) and O(2) over the life of a process: the unique objects of so2_group and o2_group that grow with the
    largest frequency asked for (group/groups/so2group.py, o2group.py), the subgroups they remember, and restriction and induction of
    their representations (group/group.py). *)
From Coq Require Import Reals ZArith String List Bool Arith.
From Verif Require Import Base Model_Groups Model_Rep Model_FieldType Model_Utils.
Import ListNotations.
Open Scope Z_scope.

(** identifiers of subgroups of O(2): (axis or None, order); floats are compared as numbers *)
Definition oid : Type := (option R * Z)%type.
Definition axis_eqb (a b : option R) : bool :=
  match a, b with None, None => true | Some x, Some y => if Req_EM_T x y then true else false | _, _ => false end.
Definition oid_eqb (a b : oid) : bool := (axis_eqb (fst a) (fst b) && Z.eqb (snd a) (snd b))%bool.

(** A subgroup: a finite group (always the same one, up to __eq__: cyclicgroup.py:108-112, dihedralgroup.py:128-132), or another
    object of class SO2 or O2, by its number. *)
Inductive subref : Type := SRfin | SRobj (a : nat).
(** The objects: so2group.py:20-49, o2group.py:25-66 and group.py:34-53.  The keys of [irreps] stand for the irreps (they only depend on
    the frequencies); [oo_subs] is [_subgroups]; [oo_induced] the names "induced[id][irrep_k]" in [representations].
    The subgroups of SO(2) are finite and depend on the identifier alone, so that they are not remembered. *)
Record so2_obj : Type := MkSO2 { so_max : Z; so_irreps : list Z }.
Record o2_obj : Type := MkO2 { oo_max : Z; oo_irreps : list (Z * Z); oo_subs : list (oid * subref); oo_induced : list (oid * Z) }.
Inductive cgroup : Type := CSO2 (o : so2_obj) | CO2 (o : o2_obj).

(** the process: all the objects, and the two variables [_cached_group_instance] (so2group.py:15, o2group.py:20) *)
Record cstate : Type := MkCS { cs_objs : list cgroup; cs_so2 : option nat; cs_o2 : option nat }.
Definition cs_init : cstate := MkCS [] None None.
Fixpoint set_nth {A} (n : nat) (x : A) (l : list A) : list A :=
  match n, l with
  | _, [] => []
  | O, _ :: l' => x :: l'
  | S n', y :: l' => y :: set_nth n' x l'
  end.
Definition put (a : nat) (o : cgroup) (s : cstate) : cstate := MkCS (set_nth a o (cs_objs s)) (cs_so2 s) (cs_o2 s).
Definition new_obj (o : cgroup) (s : cstate) : cstate := MkCS (cs_objs s ++ [o]) (cs_so2 s) (cs_o2 s).

(** [if name not in self.irreps: self.irreps[name] = ...] *)
Definition zpair_eqb (a b : Z * Z) : bool := (Z.eqb (fst a) (fst b) && Z.eqb (snd a) (snd b))%bool.
Definition add_key {A} (eqb : A -> A -> bool) (l : list A) (x : A) : list A := if existsb (eqb x) l then l else l ++ [x].
Definition zrange (F : Z) : list Z := map Z.of_nat (seq 0 (Z.to_nat (F + 1))).
(** so2group.py:195-214 *)
Definition so2_build (F : Z) (irreps : list Z) : list Z := fold_left (add_key Z.eqb) (0 :: zrange F) irreps.
(** o2group.py:322-342 *)
Definition o2_build (F : Z) (irreps : list (Z * Z)) : list (Z * Z) :=
  fold_left (add_key zpair_eqb) ((0, 0) :: map (fun k => (1, k)) (zrange F)) irreps.
(** so2group.py:41-49, o2group.py:55-66 *)
Definition so2_new (F : Z) : result cgroup := assert_ (0 <=? F) (Ok (CSO2 (MkSO2 F (so2_build F [])))).
Definition o2_new (F : Z) : result cgroup := assert_ (0 <=? F) (Ok (CO2 (MkO2 F (o2_build F []) [] []))).

(** so2group.py:267-276 [so2_group(F)] *)
Definition request_so2 (F : Z) (s : cstate) : cstate * result nat :=
  match cs_so2 s with
  | None =>
    match so2_new F with
    | Ok o => (MkCS (cs_objs s ++ [o]) (Some (length (cs_objs s))) (cs_o2 s), Ok (length (cs_objs s)))
    | Err x => (s, Err x)
    end
  | Some a =>
    match nth_error (cs_objs s) a with
    | Some (CSO2 o) => if so_max o <? F then (put a (CSO2 (MkSO2 F (so2_build F (so_irreps o)))) s, Ok a) else (s, Ok a)
    | _ => (s, Err "TypeError")
    end
  end.
(** o2group.py:521-530 [o2_group(F)] *)
Definition request_o2 (F : Z) (s : cstate) : cstate * result nat :=
  match cs_o2 s with
  | None =>
    match o2_new F with
    | Ok o => (MkCS (cs_objs s ++ [o]) (cs_so2 s) (Some (length (cs_objs s))), Ok (length (cs_objs s)))
    | Err x => (s, Err x)
    end
  | Some a =>
    match nth_error (cs_objs s) a with
    | Some (CO2 o) =>
        if oo_max o <? F then (put a (CO2 (MkO2 F (o2_build F (oo_irreps o)) (oo_subs o) (oo_induced o))) s, Ok a) else (s, Ok a)
    | _ => (s, Err "TypeError")
    end
  end.

(** so2group.py:220-265 [irrep(k)] of an object *)
Definition obj_so2_irrep (a : nat) (k : Z) (s : cstate) : cstate * result unit :=
  match nth_error (cs_objs s) a, so2_irrep k with
  | Some (CSO2 o), Ok _ => (put a (CSO2 (MkSO2 (so_max o) (add_key Z.eqb (so_irreps o) k))) s, Ok tt)
  | Some (CSO2 o), Err x => (s, Err x)
  | _, _ => (s, Err "TypeError")
  end.
(** o2group.py:348-417 [irrep(j, k)] of an object *)
Definition obj_o2_irrep (a : nat) (j k : Z) (s : cstate) : cstate * result unit :=
  match nth_error (cs_objs s) a, o2_irrep j k with
  | Some (CO2 o), Ok _ => (put a (CO2 (MkO2 (oo_max o) (add_key zpair_eqb (oo_irreps o) (j, k)) (oo_subs o) (oo_induced o))) s, Ok tt)
  | Some (CO2 o), Err x => (s, Err x)
  | _, _ => (s, Err "TypeError")
  end.

(** o2group.py:178-226 [subgroup(id)] of an object *)
Definition obj_o2_subgroup (a : nat) (id : oid) (s : cstate) : cstate * result subref :=
  match nth_error (cs_objs s) a with
  | Some (CO2 o) =>
    match o2_subgroup id with
    | Err x => (s, Err x)
    | Ok sub =>
      match kget oid_eqb (oo_subs o) id with
      | Some r => (s, Ok r)
      | None =>
        let remember := fun r s => put a (CO2 (MkO2 (oo_max o) (oo_irreps o) (oo_subs o ++ [(id, r)]) (oo_induced o))) s in
        match sub with
        | SubFin _ => (remember SRfin s, Ok SRfin)
        | SubO2 _ _ =>
          match o2_new (oo_max o) with
          | Ok n => (remember (SRobj (length (cs_objs s))) (new_obj n s), Ok (SRobj (length (cs_objs s))))
          | Err x => (s, Err x)
          end
        | SubSO2 _ _ =>
          match so2_new (oo_max o) with
          | Ok n => (remember (SRobj (length (cs_objs s))) (new_obj n s), Ok (SRobj (length (cs_objs s))))
          | Err x => (s, Err x)
          end
        end
      end
    end
  | _ => (s, Err "TypeError")
  end.

(** so2group.py:107-111, o2group.py:129-133 [__eq__] *)
Definition cgroup_eqb (a b : cgroup) : bool :=
  match a, b with
  | CSO2 x, CSO2 y => Z.eqb (so_max x) (so_max y)
  | CO2 x, CO2 y => Z.eqb (oo_max x) (oo_max y)
  | _, _ => false
  end.
Definition same_group (s : cstate) (a b : nat) : bool :=
  match nth_error (cs_objs s) a, nth_error (cs_objs s) b with Some x, Some y => cgroup_eqb x y | _, _ => false end.

(** The lookup of the names of the irreps in the irreps of the subgroup (o2group.py:292, 310; representation.py:171); the finite groups
    hold all their irreps. *)
Definition find_irreps (s : cstate) (r : subref) (l : o2_sub_irreps) : result unit :=
  match r, l with
  | SRfin, IrFin _ => Ok tt
  | SRobj b, IrSO2 fs =>
    match nth_error (cs_objs s) b with
    | Some (CSO2 o) => if forallb (fun f => existsb (Z.eqb f) (so_irreps o)) fs then Ok tt else Err "KeyError"
    | _ => Err "TypeError"
    end
  | SRobj b, IrO2 fs =>
    match nth_error (cs_objs s) b with
    | Some (CO2 o) => if forallb (fun f => existsb (zpair_eqb f) (oo_irreps o)) fs then Ok tt else Err "KeyError"
    | _ => Err "TypeError"
    end
  | _, _ => Err "KeyError"
  end.
(** A restricted representation: its group, and for every irrep the change of basis and the irreps it restricts to *)
Definition restricted : Type := (subref * list (mat * o2_sub_irreps))%type.
(** group.py:361-420 [restrict_representation(id, repr)] of an object O2 number [a]; [repr] is given by the number of its group and its
    irreps.  The change of basis of repr plays no role in whether the call succeeds. *)
Definition obj_o2_restrict (a : nat) (id : oid) (rgroup : nat) (irreps : list (Z * Z)) (s : cstate) : cstate * result restricted :=
  if same_group s rgroup a then
    let '(s1, r) := obj_o2_subgroup a id s in
    match r with
    | Err x => (s1, Err x)
    | Ok sg =>
      (s1, match nth_error (cs_objs s1) a with
           | Some (CO2 o) =>
             rbind (rmap (fun jk =>
               if existsb (zpair_eqb jk) (oo_irreps o)
               then rbind (o2_irrep (fst jk) (snd jk)) (fun ir => o2_restrict_irrep ir id)
               else Err "KeyError") irreps) (fun l =>
             rbind (rmap (fun p => find_irreps s1 sg (snd p)) l) (fun _ => Ok (sg, l)))
           | _ => Err "TypeError"
           end)
    end
  else (s, Err "AssertionError").
(** The same for an object SO2, whose subgroups are finite *)
Definition obj_so2_restrict (a : nat) (id : Z) (rgroup : nat) (irreps : list Z) (s : cstate) : cstate * result (list (mat * list Z)) :=
  (s, if same_group s rgroup a then
        rbind (so2_subgroup id) (fun _ =>
        match nth_error (cs_objs s) a with
        | Some (CSO2 o) =>
          rmap (fun k => if existsb (Z.eqb k) (so_irreps o) then rbind (so2_irrep k) (fun ir => so2_restrict_irrep ir id) else Err "KeyError") irreps
        | _ => Err "TypeError"
        end)
      else Err "AssertionError").

(** group.py:300-331 and o2group.py:419-519: [induced_representation(id, repr)] of the object O2 number [a], [repr] being the irrep of
    frequency k of the object [rgroup].  Only whether it succeeds; the matrices are in Model_InduceO2.v, the numerical assertions taken to hold. *)
Definition obj_o2_induce (a : nat) (id : oid) (rgroup : nat) (k : Z) (s : cstate) : cstate * result unit :=
  match nth_error (cs_objs s) a, nth_error (cs_objs s) rgroup with
  | Some (CO2 o), Some (CSO2 q) =>
    if negb (existsb (Z.eqb k) (so_irreps q)) then (s, Err "KeyError")
    else if existsb (fun p => (oid_eqb (fst p) id && Z.eqb (snd p) k)%bool) (oo_induced o) then (s, Ok tt)
    else if oid_eqb id (None, -1) then
      let '(s1, r) := obj_o2_subgroup a id s in
      match r with
      | Ok (SRobj b) =>
        if same_group s1 rgroup b then
          let multiplicities := if 0 <? k then [(1, k)] else [(0, 0); (1, 0)] in
          let s2 := fold_left (fun s jk => fst (obj_o2_irrep a (fst jk) (snd jk) s)) multiplicities s1 in
          match snd (obj_o2_restrict a id a multiplicities s2), nth_error (cs_objs s2) a with
          | Ok _, Some (CO2 o2) =>
              (put a (CO2 (MkO2 (oo_max o2) (oo_irreps o2) (oo_subs o2) (oo_induced o2 ++ [(id, k)]))) s2, Ok tt)
          | Ok _, _ => (s2, Err "TypeError")
          | Err x, _ => (s2, Err x)
          end
        else (s1, Err "AssertionError")
      | Ok SRfin => (s1, Err "TypeError")
      | Err x => (s1, Err x)
      end
    else (s, Err "ValueError")
  | _, _ => (s, Err "TypeError")
  end.

(** * Histories *)
Inductive cop : Type :=
| RequestSO2 (F : Z) | RequestO2 (F : Z)
| IrrepSO2 (a : nat) (k : Z) | IrrepO2 (a : nat) (j k : Z)
| SubgroupO2 (a : nat) (id : oid)
| RestrictSO2 (a : nat) (id : Z) (rgroup : nat) (irreps : list Z)
| RestrictO2 (a : nat) (id : oid) (rgroup : nat) (irreps : list (Z * Z))
| InduceO2 (a : nat) (id : oid) (rgroup : nat) (k : Z).
Definition cstep (s : cstate) (op : cop) : cstate :=
  match op with
  | RequestSO2 F => fst (request_so2 F s)
  | RequestO2 F => fst (request_o2 F s)
  | IrrepSO2 a k => fst (obj_so2_irrep a k s)
  | IrrepO2 a j k => fst (obj_o2_irrep a j k s)
  | SubgroupO2 a id => fst (obj_o2_subgroup a id s)
  | RestrictSO2 a id rg irreps => fst (obj_so2_restrict a id rg irreps s)
  | RestrictO2 a id rg irreps => fst (obj_o2_restrict a id rg irreps s)
  | InduceO2 a id rg k => fst (obj_o2_induce a id rg k s)
  end.
Definition run (ops : list cop) (s : cstate) : cstate := fold_left cstep ops s.
