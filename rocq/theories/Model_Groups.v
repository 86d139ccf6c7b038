(** Model of e2cnn/group/groups/*.py and e2cnn/group/utils.py:
    group operations, subgroup maps, irreps, and restriction of irreps.

    Python ints are Z, Python floats are exact reals.  A call that raises is [Err]. *)
From Coq Require Import Reals ZArith String List Bool.
From Verif Require Import Base.
Import ListNotations.
Open Scope R_scope.

(** Result of a Python call: a value, or a raised exception (class name). *)
Inductive result (A : Type) : Type :=
| Ok : A -> result A
| Err : string -> result A.
Arguments Ok {A} _.
Arguments Err {A} _.

Definition rbind {A B} (r : result A) (f : A -> result B) : result B :=
  match r with Ok a => f a | Err s => Err s end.

(** Python's [assert c] followed by [k]. *)
Definition assert_ {A} (c : bool) (k : result A) : result A :=
  if c then k else Err "AssertionError".

(** * e2cnn/group/utils.py *)

(** 2x2 and 1x1 literal matrices ([np.array([[a,b],[c,d]])], [np.array([[a]])]) *)
Definition mat2 (a b c d : R) : mat := fun i j =>
  match i, j with O, O => a | O, _ => b | _, O => c | _, _ => d end.
Definition mat1 (a : R) : mat := fun _ _ => a.

(** utils.py:6-15 [psi(theta, k, gamma)] *)
Definition psi (theta : R) (k : Z) (gamma : R) : mat :=
  let x := IZR k * theta + gamma in
  mat2 (cos x) (- sin x) (sin x) (cos x).

(** Python [-1 if s else 1] for an int s *)
Definition sgn (s : Z) : Z := if Z.eqb s 0 then 1%Z else (-1)%Z.

(** utils.py:18-30 [chi(s)]; the assertion [s in [0,1]] holds at every call site *)
Definition chi (s : Z) : mat := mat2 1 0 0 (IZR (sgn s)).

(** utils.py:33-52 [psichi(theta, s, k, gamma)] *)
Definition psichi (theta : R) (s : Z) (k : Z) (gamma : R) : mat :=
  let x := IZR k * theta + gamma in
  mat2 (cos x) (- (IZR (sgn s)) * sin x) (sin x) (IZR (sgn s) * cos x).

(** Python float [x % T] for T > 0: x - T*floor(x/T) *)
Definition rmod (x T : R) : R := x - T * IZR (Int_part (x / T)).

(** utils.py:55-70 [cycle_isclose(a, b, S)].
    Simplification: the tolerances rtol=1e-9, atol=1e-11 are taken to be 0. *)
Definition cycle_isclose (a b S : R) : bool :=
  let d := rmod (a - b) S in
  if Req_EM_T d 0 then true else if Req_EM_T d S then true else false.

(** Python 3 [int(round(x))]: nearest integer, ties to even. *)
Definition py_round (x : R) : Z :=
  let f := Int_part x in
  let d := x - IZR f in
  if Rlt_dec d (1/2) then f
  else if Rlt_dec (1/2) d then (f + 1)%Z
  else if Z.even f then f else (f + 1)%Z.

(** Irreducible representation object (group/irrep.py:12-64).
    The name f"irrep_{k}" / f"irrep_{j},{k}" is modelled by the pair of frequencies
    (flip_frequency = 0 for cyclic groups and SO(2)); sum_of_squares_constituents is [ir_sos]. *)
Record irrep (G : Type) : Type := MkIrrep {
  ir_size : nat;
  ir_sos : nat;
  ir_flip : Z;
  ir_freq : Z;
  ir_mat : G -> mat;
  ir_nonlin : list string
}.
Arguments MkIrrep {G} _ _ _ _ _ _.
Arguments ir_size {G} _.
Arguments ir_sos {G} _.
Arguments ir_flip {G} _.
Arguments ir_freq {G} _.
Arguments ir_mat {G} _ _.
Arguments ir_nonlin {G} _.

(** * CyclicGroup (group/groups/cyclicgroup.py) *)

(** cyclicgroup.py:40 [self.elements = list(range(N))] *)
Definition cyc_elements (N : Z) : list Z := map Z.of_nat (seq 0 (Z.to_nat N)).
(** cyclicgroup.py:44 *)
Definition cyc_identity : Z := 0%Z.
(** cyclicgroup.py:48-61 *)
Definition cyc_inverse (N : Z) (e : Z) : Z := ((- e) mod N)%Z.
(** cyclicgroup.py:63-78 *)
Definition cyc_combine (N : Z) (e1 e2 : Z) : Z := ((e1 + e2) mod N)%Z.
(** cyclicgroup.py:80-93 *)
Definition cyc_equal (e1 e2 : Z) : bool := Z.eqb e1 e2.
(** cyclicgroup.py:95-99 *)
Definition cyc_is_element (N : Z) (e : Z) : bool := ((0 <=? e) && (e <? N))%Z.

(** cyclicgroup.py:27-38: [CyclicGroup(N)] asserts N > 0; the object is its order. *)
Definition cyc_group (N : Z) : result Z := assert_ (0 <? N)%Z (Ok N).

(** Python [a % b] raises ZeroDivisionError when b = 0 *)
Definition py_mod {A} (a b : Z) (k : Z -> result A) : result A :=
  if Z.eqb b 0 then Err "ZeroDivisionError" else k (a mod b)%Z.

(** cyclicgroup.py:114-157 [subgroup(id)]: order of the subgroup, parent map, child map.
    The dictionary [_subgroups] memoises by id, with values that only depend on id. *)
Definition cyc_subgroup (N id : Z) : result (Z * (Z -> Z) * (Z -> option Z)) :=
  py_mod N id (fun r =>
  assert_ (Z.eqb r 0)
    (let ratio := (N / id)%Z in
     rbind (cyc_group id) (fun sg =>
     Ok (sg,
         (fun e => e * ratio)%Z,
         (fun e => if Z.eqb (e mod ratio) 0 then Some (e / ratio)%Z else None))))).

(** cyclicgroup.py:237-288 [irrep(k)] *)
Definition cyc_irrep (N k : Z) : result (irrep Z) :=
  assert_ ((0 <=? k) && (k <=? N / 2))%Z
    (let base_angle := 2 * PI / IZR N in
     if Z.eqb k 0 then
       Ok (MkIrrep 1 1 0 k (fun _ => mid)
             ["pointwise"; "gate"; "norm"; "gated"; "concatenated"]%string)
     else if (Z.eqb (N mod 2) 0 && Z.eqb k (N / 2))%bool then
       Ok (MkIrrep 1 1 0 k (fun e => mat1 (cos (IZR k * IZR e * base_angle)))
             ["norm"; "gated"; "concatenated"]%string)
     else
       Ok (MkIrrep 2 2 0 k (fun e => psi (IZR e * base_angle) k 0)
             ["norm"; "gated"]%string)).

(** dictionary lookup [sg.irreps[r]]: KeyError when the irrep was never built.
    cyclicgroup.py:206-209 builds k = 0..N//2, dihedralgroup.py:312-333 builds (0,0), (1,0..N//2)
    and (0,N/2) if N is even: exactly the pairs on which [irrep] does not raise. *)
Definition key_error {A} (r : result A) : result A :=
  match r with Ok a => Ok a | Err _ => Err "KeyError" end.

(** cyclicgroup.py:159-201 [_restrict_irrep(irrep, id)]: the change of basis and the list of
    the frequencies of the irreps of C_id.  [f > order/2] (float division) is [2 f > order]. *)
Definition cyc_restrict_irrep (N : Z) (irr : irrep Z) (id : Z) : result (mat * list Z) :=
  rbind (cyc_subgroup N id) (fun _ =>
  let order := id in
  let f0 := (ir_freq irr mod order)%Z in
  let folded := (order <? 2 * f0)%Z in
  let f := if folded then (order - f0)%Z else f0 in
  let cob := if folded then mat2 1 0 0 (-1) else mid in
  rbind (key_error (cyc_irrep id f)) (fun sirr =>
  Ok (cob, if (ir_size sirr <? ir_size irr)%nat then [f; f] else [f]))).

(** * DihedralGroup (group/groups/dihedralgroup.py); elements are pairs (flip, rotation) *)

(** dihedralgroup.py:52-58 [elements]: rotations first, then reflections *)
Definition dih_elements (N : Z) : list (Z * Z) :=
  map (fun i => (0%Z, Z.of_nat i)) (seq 0 (Z.to_nat N)) ++
  map (fun i => (1%Z, Z.of_nat i)) (seq 0 (Z.to_nat N)).
(** dihedralgroup.py:63 *)
Definition dih_identity : Z * Z := (0, 0)%Z.
(** dihedralgroup.py:68-82 *)
Definition dih_inverse (N : Z) (e : Z * Z) : Z * Z :=
  (fst e, ((- snd e * sgn (fst e)) mod N)%Z).
(** dihedralgroup.py:84-98 *)
Definition dih_combine (N : Z) (e1 e2 : Z * Z) : Z * Z :=
  (((fst e1 + fst e2) mod 2)%Z, ((snd e1 + sgn (fst e1) * snd e2) mod N)%Z).
(** dihedralgroup.py:100-105 *)
Definition dih_is_element (N : Z) (e : Z * Z) : bool :=
  (((fst e =? 0) || (fst e =? 1)) && (0 <=? snd e) && (snd e <? N))%Z%bool.
(** dihedralgroup.py:107-120 *)
Definition dih_equal (e1 e2 : Z * Z) : bool :=
  (Z.eqb (fst e1) (fst e2) && Z.eqb (snd e1) (snd e2))%bool.

(** dihedralgroup.py:40-50 [DihedralGroup(N)] asserts N > 0 *)
Definition dih_group (N : Z) : result Z := assert_ (0 <? N)%Z (Ok N).

(** A finite subgroup as returned by [subgroup]: C_M (int elements) or D_M (pair elements),
    each with its parent and child maps into a group with elements of type G. *)
Inductive fin_sub (G : Type) : Type :=
| SubC : Z -> (Z -> G) -> (G -> option Z) -> fin_sub G
| SubD : Z -> (Z * Z -> G) -> (G -> option (Z * Z)) -> fin_sub G.
Arguments SubC {G} _ _ _.
Arguments SubD {G} _ _ _.

(** dihedralgroup.py:134-216 [subgroup((axis, M))].
    [int(x / ratio)] is float division followed by truncation: Z.quot. *)
Definition dih_subgroup (N : Z) (id : option Z * Z) : result (fin_sub (Z * Z)) :=
  let axis := fst id in
  let order := snd id in
  assert_ (1 <=? order)%Z
  (assert_ (Z.eqb (N mod order) 0)
  (assert_ (match axis with None => true | Some a => ((0 <=? a) && (a <? N / order))%Z end)
  (let ratio := (N / order)%Z in
   match axis with
   | Some a =>
     if Z.eqb order 1 then
       rbind (cyc_group 2) (fun sg => Ok (SubC sg
         (fun e => (e, a * e)%Z)
         (fun e => if Z.eqb (snd e) (fst e * a) then Some (fst e) else None)))
     else
       rbind (dih_group order) (fun sg => Ok (SubD sg
         (fun e => (fst e, snd e * ratio + fst e * a)%Z)
         (fun e => if (0 <? (snd e - fst e * a) mod ratio)%Z then None
                   else Some (fst e, Z.quot (snd e - fst e * a) ratio))))
   | None =>
     rbind (cyc_group order) (fun sg => Ok (SubC sg
         (fun e => (0, e * ratio)%Z)
         (fun e => if (negb (Z.eqb (fst e) 0) || (0 <? snd e mod ratio)%Z)%bool then None
                   else Some (Z.quot (snd e) ratio))))
   end))).

(** [-1 if element[0] else 1] as a 1x1 matrix entry *)
Definition flip_sign (e : Z) : R := IZR (sgn e).

(** dihedralgroup.py:360-464 [irrep(j, k)] *)
Definition dih_irrep (N j k : Z) : result (irrep (Z * Z)) :=
  assert_ (Z.eqb j 0 || Z.eqb j 1)%bool
  (assert_ ((0 <=? k) && (k <=? N / 2))%Z
  (let base_angle := 2 * PI / IZR N in
   if Z.eqb j 0 then
     if Z.eqb k 0 then
       Ok (MkIrrep 1 1 j k (fun _ => mid)
             ["pointwise"; "norm"; "gated"; "gate"; "concatenated"]%string)
     else if (Z.eqb (N mod 2) 0 && Z.eqb k (N / 2))%bool then
       Ok (MkIrrep 1 1 j k (fun e => mat1 (cos (IZR k * IZR (snd e) * base_angle)))
             ["norm"; "gated"; "concatenated"]%string)
     else Err "ValueError"
   else
     if Z.eqb k 0 then
       Ok (MkIrrep 1 1 j k (fun e => mat1 (flip_sign (fst e)))
             ["norm"; "gated"; "concatenated"]%string)
     else if (Z.eqb (N mod 2) 0 && Z.eqb k (N / 2))%bool then
       Ok (MkIrrep 1 1 j k
             (fun e => mat1 (cos (IZR k * IZR (snd e) * base_angle) * flip_sign (fst e)))
             ["norm"; "gated"; "concatenated"]%string)
     else
       Ok (MkIrrep 2 1 j k (fun e => psichi (IZR (snd e) * base_angle) (fst e) k 0)
             ["norm"; "gated"]%string))).

(** The irreps of a finite subgroup are named by a frequency (C_M) or a pair (D_M). *)
Inductive sub_irreps : Type :=
| IrC : list Z -> sub_irreps
| IrD : list (Z * Z) -> sub_irreps.

(** dihedralgroup.py:218-310 [_restrict_irrep] *)
Definition dih_restrict_irrep (N : Z) (irr : irrep (Z * Z)) (id : option Z * Z)
  : result (mat * sub_irreps) :=
  rbind (dih_subgroup N id) (fun _ =>
  let order := snd id in
  let psi' := fun (e : R) (k : Z) => psi (e * 2 * PI / IZR N) k 0 in
  match fst id with
  | Some a =>
    if Z.eqb order 1 then
      let k := ir_freq irr in
      let j := if Z.eqb (2 * k) N then ((ir_flip irr + a) mod 2)%Z else ir_flip irr in
      if (1 <? ir_size irr)%nat
      then Ok (psi' (0.5 * IZR a) k, IrC [0%Z; j])
      else Ok (mid, IrC [j])
    else
      let f := ir_freq irr in
      let j := if Z.eqb (2 * f) N then ((ir_flip irr + a) mod 2)%Z else ir_flip irr in
      let k0 := (f mod order)%Z in
      let folded := (order <? 2 * k0)%Z in
      let k := if folded then (order - k0)%Z else k0 in
      let cob := if folded then chi 1 else mid in
      rbind (key_error (dih_irrep order j k)) (fun sirr =>
      let irreps := if (ir_size sirr <? ir_size irr)%nat then [(0%Z, k); (j, k)] else [(j, k)] in
      let cob' := if (ir_size irr =? 2)%nat then mmul 2 (psi' (0.5 * IZR a) f) cob else cob in
      Ok (cob', IrD irreps))
  | None =>
      let f0 := (ir_freq irr mod order)%Z in
      let folded := (order <? 2 * f0)%Z in
      let f := if folded then (order - f0)%Z else f0 in
      let cob := if folded then chi 1 else mid in
      rbind (key_error (cyc_irrep order f)) (fun sirr =>
      Ok (cob, IrC (if (ir_size sirr <? ir_size irr)%nat then [f; f] else [f])))
  end).

(** * SO2 (group/groups/so2group.py); elements are angles *)

(** so2group.py:46 *)
Definition so2_identity : R := 0.
(** so2group.py:50-62 *)
Definition so2_inverse (e : R) : R := rmod (- e) (2 * PI).
(** so2group.py:64-77 *)
Definition so2_combine (e1 e2 : R) : R := rmod (e1 + e2) (2 * PI).
(** so2group.py:79-96 *)
Definition so2_equal (e1 e2 : R) : bool := cycle_isclose e1 e2 (2 * PI).

(** so2group.py:113-150 [subgroup(id)] *)
Definition so2_subgroup (id : Z) : result (fin_sub R) :=
  rbind (cyc_group id) (fun sg =>
  Ok (SubC sg
        (fun e => IZR e * 2 * PI / IZR id)
        (fun e => if cycle_isclose e 0 (2 * PI / IZR id)
                  then Some (py_round (e * IZR id / (2 * PI))) else None))).

(** so2group.py:220-265 [irrep(k)] *)
Definition so2_irrep (k : Z) : result (irrep R) :=
  assert_ (0 <=? k)%Z
    (if Z.eqb k 0
     then Ok (MkIrrep 1 1 0 0 (fun _ => mid) ["pointwise"; "norm"; "gated"; "gate"]%string)
     else Ok (MkIrrep 2 2 0 k (fun e => psi e k 0) ["norm"; "gated"]%string)).

(** so2group.py:152-193 [_restrict_irrep] *)
Definition so2_restrict_irrep (irr : irrep R) (id : Z) : result (mat * list Z) :=
  rbind (so2_subgroup id) (fun _ =>
  let order := id in
  let f0 := (ir_freq irr mod order)%Z in
  let folded := (order <? 2 * f0)%Z in
  let f := if folded then (order - f0)%Z else f0 in
  let cob := if folded then mat2 1 0 0 (-1) else mid in
  rbind (key_error (cyc_irrep id f)) (fun sirr =>
  Ok (cob, if (ir_size sirr <? ir_size irr)%nat then [f; f] else [f]))).

(** * O2 (group/groups/o2group.py); elements are pairs (flip, angle) *)

(** o2group.py:62 *)
Definition o2_identity : Z * R := (0%Z, 0).
(** o2group.py:67-82 *)
Definition o2_inverse (e : Z * R) : Z * R := (fst e, - snd e * IZR (sgn (fst e))).
(** o2group.py:84-97 *)
Definition o2_combine (e1 e2 : Z * R) : Z * R :=
  (((fst e1 + fst e2) mod 2)%Z, snd e1 + IZR (sgn (fst e1)) * snd e2).
(** o2group.py:99-114 *)
Definition o2_equal (e1 e2 : Z * R) : bool :=
  (Z.eqb (fst e1) (fst e2) && cycle_isclose (snd e1) (snd e2) (2 * PI))%bool.
(** o2group.py:116-120 *)
Definition o2_is_element (e : Z * R) : bool := (Z.eqb (fst e) 0 || Z.eqb (fst e) 1)%bool.

(** Subgroups of O(2): O(2) itself about another axis, SO(2), or a finite one. *)
Inductive o2_sub : Type :=
| SubO2 : (Z * R -> Z * R) -> (Z * R -> option (Z * R)) -> o2_sub
| SubSO2 : (R -> Z * R) -> (Z * R -> option R) -> o2_sub
| SubFin : fin_sub (Z * R) -> o2_sub.

Definition Rleb (a b : R) : bool := if Rle_dec a b then true else false.
Definition Rltb (a b : R) : bool := if Rlt_dec a b then true else false.

(** o2group.py:135-226 [subgroup((axis, M))].  M = 0 divides by zero when an axis is given.
    Simplification: the frequency limit of the returned SO2/O2 object is in Model_Hist.v. *)
Definition o2_subgroup (id : option R * Z) : result o2_sub :=
  let order := snd id in
  match fst id with
  | Some a =>
    if Z.eqb order 0 then Err "ZeroDivisionError" else
    assert_ ((Rleb 0 a && Rltb a (2 * PI / IZR order)) || (order <? 0)%Z)%bool
    (if Z.eqb order (-1) then
       Ok (SubO2 (fun e => (fst e, snd e + IZR (fst e) * a))
                 (fun e => Some (fst e, snd e - IZR (fst e) * a)))
     else if Z.eqb order 1 then
       rbind (cyc_group 2) (fun sg => Ok (SubFin (SubC sg
         (fun e => (e, a * IZR e))
         (fun e => if cycle_isclose (snd e) (a * IZR (fst e)) (2 * PI) then Some (fst e) else None))))
     else if (1 <? order)%Z then
       rbind (dih_group order) (fun sg => Ok (SubFin (SubD sg
         (fun e => (fst e, IZR (snd e) * 2 * PI / IZR order + IZR (fst e) * a))
         (fun e => if cycle_isclose (snd e - IZR (fst e) * a) 0 (2 * PI / IZR order)
                   then Some (fst e, py_round ((snd e - IZR (fst e) * a) * IZR order / (2 * PI)))
                   else None))))
     else Err "ValueError")
  | None =>
    if Z.eqb order (-1) then
      Ok (SubSO2 (fun e => (0%Z, e)) (fun e => if Z.eqb (fst e) 0 then Some (snd e) else None))
    else
      rbind (cyc_group order) (fun sg => Ok (SubFin (SubC sg
        (fun e => (0%Z, IZR e * 2 * PI / IZR order))
        (fun e => if (Z.eqb (fst e) 0 && cycle_isclose (snd e) 0 (2 * PI / IZR order))%bool
                  then Some (py_round (snd e * IZR order / (2 * PI))) else None))))
  end.

(** o2group.py:348-417 [irrep(j, k)] *)
Definition o2_irrep (j k : Z) : result (irrep (Z * R)) :=
  assert_ (Z.eqb j 0 || Z.eqb j 1)%bool
  (assert_ (0 <=? k)%Z
  (if Z.eqb j 0 then
     if Z.eqb k 0 then
       Ok (MkIrrep 1 1 j k (fun _ => mid) ["pointwise"; "norm"; "gated"; "gate"]%string)
     else Err "ValueError"
   else if Z.eqb k 0 then
     Ok (MkIrrep 1 1 j k (fun e => mat1 (flip_sign (fst e))) ["norm"; "gated"]%string)
   else
     Ok (MkIrrep 2 1 j k (fun e => psichi (snd e) (fst e) k 0) ["norm"; "gated"]%string))).

(** Irreps of a subgroup of O(2), by group *)
Inductive o2_sub_irreps : Type :=
| IrO2 : list (Z * Z) -> o2_sub_irreps
| IrSO2 : list Z -> o2_sub_irreps
| IrFin : sub_irreps -> o2_sub_irreps.

(** o2group.py:228-320 [_restrict_irrep] *)
Definition o2_restrict_irrep (irr : irrep (Z * R)) (id : option R * Z)
  : result (mat * o2_sub_irreps) :=
  rbind (o2_subgroup id) (fun _ =>
  let order := snd id in
  match fst id with
  | Some a =>
    if Z.eqb order (-1) then
      let cob := if (ir_size irr =? 2)%nat then mmul 2 (psi (0.5 * a) (ir_freq irr) 0) mid else mid in
      Ok (cob, IrO2 [(ir_flip irr, ir_freq irr)])
    else if Z.eqb order 1 then
      if (1 <? ir_size irr)%nat
      then Ok (psi (0.5 * a) (ir_freq irr) 0, IrFin (IrC [0%Z; ir_flip irr]))
      else Ok (mid, IrFin (IrC [ir_flip irr]))
    else
      let f := ir_freq irr in
      let j := ir_flip irr in
      let k0 := (f mod order)%Z in
      let folded := (order <? 2 * k0)%Z in
      let k := if folded then (order - k0)%Z else k0 in
      let cob := if folded then mat2 1 0 0 (-1) else mid in
      rbind (key_error (dih_irrep order j k)) (fun sirr =>
      let irreps := if (ir_size sirr <? ir_size irr)%nat then [(0%Z, k); (j, k)] else [(j, k)] in
      let cob' := if (ir_size irr =? 2)%nat then mmul 2 (psi (0.5 * a) f 0) cob else cob in
      Ok (cob', IrFin (IrD irreps)))
  | None =>
    if Z.eqb order (-1) then Ok (mid, IrSO2 [ir_freq irr])
    else
      let f0 := (ir_freq irr mod order)%Z in
      let folded := (order <? 2 * f0)%Z in
      let f := if folded then (order - f0)%Z else f0 in
      let cob := if folded then chi 1 else mid in
      rbind (key_error (cyc_irrep order f)) (fun sirr =>
      Ok (cob, IrFin (IrC (if (ir_size sirr <? ir_size irr)%nat then [f; f] else [f]))))
  end).
