(** Model of e2cnn/diffops: irreps_basis.py, steerable_basis.py, basis.py and the factories of r2.py.
    The class hierarchy repeats that of e2cnn/kernels, and so does the bookkeeping (which irreps, frequencies, signs); what
    differs is that the elements are matrices of homogeneous polynomials instead of functions of the angle.  The objects are the
    records of Model_Kernels ([ke_gq] is the entry of the array [invert]); the polynomials are computed from them here.
    DiffopBasis.__init__ (basis.py:75-80) sets coefficients below 1e-8 to 0; floats are exact reals here, and it is left out. *)
From Coq Require Import Reals ZArith String List Bool Arith.
From Verif Require Import Base Model_Groups Model_Rep Model_Kernels Model_Diffops.
Import ListNotations.
Open Scope R_scope.

(** one element: an array of shape (rows, cols, order + 1) *)
Record dop : Type := MkDop { dp_order : nat; dp_coef : nat -> nat -> list R }.

(** * diffops/irreps_basis.py: the frequencies *)
(** basis.py:67-69: no coefficients: EmptyBasisException (= [kb_make]) *)

(** irreps_basis.py:29-94 [R2FlipsSolution] *)
Definition d_flips (axis : R) (F T : option Z) (iin iout : irrep Z) : result kbasis :=
  assert_ (bounds_ok F T)
  (let invert := ((ir_freq iin + ir_freq iout) mod 2)%Z in
   rbind (shifted 0 1 T F true) (fun l =>
   kb_make (Some axis) (ir_size iout) (ir_size iin) (els_keep invert l))).

(** irreps_basis.py:148-290 [R2DiscreteRotationsSolution] *)
Definition d_rotN (N : Z) (F T : option Z) (iin iout : irrep Z) : result kbasis :=
  assert_ (bounds_ok F T)
  (let n := ir_freq iin in
   let m := ir_freq iout in
   rbind
     (match ir_size iin, ir_size iout with
      | 2%nat, 2%nat =>
        rbind (shifted (m - n * 1) N T F false) (fun l0 =>
        rbind (shifted (m - n * -1) N T F false) (fun l1 =>
        Ok (els_of 0 0 l0 ++ els_of 0 1 l1 ++ els_of 1 0 l0 ++ els_of 1 1 l1)))
      | 2%nat, 1%nat =>
        assert_ (half_or_zero m N)
        (rbind (shifted (n + m) N T F false) (fun l => Ok (els_of 0 0 l ++ els_of 1 0 l)))
      | 1%nat, 2%nat =>
        assert_ (half_or_zero n N)
        (rbind (shifted (n + m) N T F false) (fun l => Ok (els_of 0 0 l ++ els_of 1 0 l)))
      | 1%nat, 1%nat =>
        assert_ (half_or_zero n N) (assert_ (half_or_zero m N)
        (rbind (shifted (m - n) N T F true) (fun l => Ok (els_keep 0 l ++ els_keep 1 l))))
      | _, _ => Err "AttributeError"
      end)
     (kb_make None (ir_size iout) (ir_size iin))).

(** irreps_basis.py:375-519 [R2FlipsDiscreteRotationsSolution] *)
Definition d_fliprotN (N : Z) (axis : R) (F T : option Z) (iin iout : irrep (Z * Z)) : result kbasis :=
  assert_ (bounds_ok F T)
  (let n := ir_freq iin in
   let m := ir_freq iout in
   let fi := ir_flip iin in
   let fo := ir_flip iout in
   rbind
     (match ir_size iin, ir_size iout with
      | 2%nat, 2%nat =>
        assert_ ((0 <? m) && (0 <? n) && Z.eqb fi 1 && Z.eqb fo 1)%Z
        (rbind (shifted (m - n * 1) N T F false) (fun l0 =>
         rbind (shifted (m - n * -1) N T F false) (fun l1 =>
         Ok (els_of 0 0 l0 ++ els_of 0 1 l1))))
      | 2%nat, 1%nat =>
        assert_ (half_or_zero m N && Z.eqb fi 1)
        (rbind (shifted (n + m) N T F false) (fun l => Ok (els_of fo 0 l)))
      | 1%nat, 2%nat =>
        assert_ (half_or_zero n N && Z.eqb fo 1)
        (rbind (shifted (n + m) N T F false) (fun l => Ok (els_of fi 0 l)))
      | 1%nat, 1%nat =>
        assert_ (half_or_zero n N) (assert_ (half_or_zero m N)
        (rbind (shifted (m - n) N T F true) (fun l => Ok (els_keep ((fi + fo) mod 2) l))))
      | _, _ => Err "AttributeError"
      end)
     (kb_make (Some axis) (ir_size iout) (ir_size iin))).

(** irreps_basis.py:602-674 [R2ContinuousRotationsSolution] *)
Definition d_rot (iin iout : irrep R) : result kbasis :=
  let n := ir_freq iin in
  let m := ir_freq iout in
  rbind
    (match ir_size iin, ir_size iout with
     | 2%nat, 2%nat => Ok [MkKel 0 (m - n * 1) 0 0; MkKel 0 (m - n * -1) 1 0;
                           MkKel 1 (m - n * 1) 0 0; MkKel 1 (m - n * -1) 1 0]
     | 2%nat, 1%nat => assert_ (Z.eqb m 0) (Ok [MkKel 0 (n + m) 0 0; MkKel 1 (n + m) 0 0])
     | 1%nat, 2%nat => assert_ (Z.eqb n 0) (Ok [MkKel 0 (n + m) 0 0; MkKel 1 (n + m) 0 0])
     | 1%nat, 1%nat => assert_ (Z.eqb n 0 && Z.eqb m 0) (Ok [MkKel 0 0 0 0])
     | _, _ => Err "AttributeError"
     end)
    (kb_make None (ir_size iout) (ir_size iin)).

(** irreps_basis.py:752-826 [R2FlipsContinuousRotationsSolution] *)
Definition d_fliprot (axis : R) (iin iout : irrep (Z * R)) : result kbasis :=
  let n := ir_freq iin in
  let m := ir_freq iout in
  let fi := ir_flip iin in
  let fo := ir_flip iout in
  rbind
    (match ir_size iin, ir_size iout with
     | 2%nat, 2%nat =>
       assert_ ((0 <? m) && (0 <? n) && Z.eqb fi 1 && Z.eqb fo 1)%Z
       (Ok [MkKel 0 (m - n * 1) 0 0; MkKel 0 (m - n * -1) 1 0])
     | 2%nat, 1%nat => assert_ (Z.eqb m 0 && Z.eqb fi 1) (Ok [MkKel fo (n + m) 0 0])
     | 1%nat, 2%nat => assert_ (Z.eqb n 0 && Z.eqb fo 1) (Ok [MkKel fi (n + m) 0 0])
     | 1%nat, 1%nat => assert_ (Z.eqb n 0 && Z.eqb m 0)
                         (Ok (els_keep ((fi + fo) mod 2) [(0, m - n)%Z]))
     | _, _ => Err "AttributeError"
     end)
    (kb_make (Some axis) (ir_size iout) (ir_size iin)).

(** * diffops/irreps_basis.py: the coefficients *)
(** truth value of the integer [invert] *)
Definition truthy (z : Z) : bool := negb (Z.eqb z 0).
(** irreps_basis.py:902-909 [cheby], kind "u" iff [u] *)
Definition cheby_inv (u : bool) (mu invert : Z) : list R :=
  let sign := if (negb u && truthy invert)%bool then -1 else 1 in
  poly_scale sign (cheby_poly mu (if truthy invert then negb u else u)).
(** irreps_basis.py:96-104, 292-331, 521-556, 676-712, 828-865: the array of one element.  For the shapes (1,2) and (2,1) the
    classes for rotations of SO(2) write the same formula with [cheby]. *)
Definition irrep_poly (rows cols : nat) (e : kel) : nat -> nat -> list R :=
  let mu := ke_mu e in
  let invert := ke_gq e in
  let sg := IZR (sgn (ke_s e)) in
  match rows, cols with
  | 2%nat, 2%nat => fun i j =>
      match i, j with
      | O, O => cheby_inv false mu invert
      | O, _ => poly_scale (- sg) (cheby_inv true mu invert)
      | _, O => cheby_inv true mu invert
      | _, _ => poly_scale sg (cheby_inv false mu invert)
      end
  | 1%nat, 2%nat => fun _ j =>
      match j with
      | O => poly_scale (IZR (sgn invert)) (cheby_poly mu (truthy invert))
      | _ => cheby_poly mu (negb (truthy invert))
      end
  | 2%nat, 1%nat => fun i _ =>
      match i with
      | O => poly_scale (IZR (sgn invert)) (cheby_poly mu (truthy invert))
      | _ => cheby_poly mu (negb (truthy invert))
      end
  | _, _ => fun _ _ => cheby_poly mu (truthy invert)
  end.
(** so2.irrep(1)(axis) *)
Definition rot_matrix (a : R) : mat := mat2 (cos a) (- sin a) (sin a) (cos a).
(** irreps_basis.py:106-111, 558-563, 867-872: [if axis != 0] *)
Definition turn_poly (axis : option R) (c : list R) : list R :=
  match axis with
  | None => c
  | Some a => if Req_EM_T a 0 then c else transform_polynomial c (rot_matrix a)
  end.
Definition irrep_dop (b : kbasis) (e : kel) : dop :=
  MkDop (Z.abs_nat (ke_mu e)) (fun i j => turn_poly (kb_axis b) (irrep_poly (kb_rows b) (kb_cols b) e i j)).

(** * diffops/steerable_basis.py *)
(** [__init__] (lines 71-137) builds the dictionary and the table of the bases like SteerableKernelBasis: [sk_make] *)

(** an element written at the position of a block of an array of zeros *)
Definition place_dop (k : skblock) (d : dop) : dop :=
  MkDop (dp_order d) (fun r c =>
    if ((bk_outpos k <=? r) && (r <? bk_outpos k + bk_outsize k) &&
        (bk_inpos k <=? c) && (c <? bk_inpos k + bk_insize k))%nat%bool
    then dp_coef d (r - bk_outpos k)%nat (c - bk_inpos k)%nat else repeat 0 (dp_order d + 1)).
(** steerable_basis.py:147-168 [_direct_sum_coefficients] *)
Definition direct_sum (l : list skblock) : list dop :=
  flat_map (fun k => match bk_basis k with
                     | None => []
                     | Some b => map (fun e => place_dop k (irrep_dop b e)) (kb_els b)
                     end) l.
(** einsum over the output (input) axis of an array *)
Definition left_dop (no : nat) (B : mat) (d : dop) : dop :=
  MkDop (dp_order d) (fun n i => map (fun b => rsum no (fun o => B n o * nth b (dp_coef d o i) 0)) (seq 0 (dp_order d + 1))).
Definition right_dop (ni : nat) (A : mat) (d : dop) : dop :=
  MkDop (dp_order d) (fun o j => map (fun b => rsum ni (fun i => nth b (dp_coef d o i) 0 * A i j)) (seq 0 (dp_order d + 1))).
(** steerable_basis.py:170-183 [_change_of_basis]; the einsum with three factors is done in two steps *)
Definition change_dop {G} (s : skbasis G) (d : dop) : dop :=
  let no := rp_size (sk_out s) in
  let ni := rp_size (sk_in s) in
  match sk_Ainv s, sk_B s with
  | None, None => d
  | Some A, Some B => right_dop ni A (left_dop no B d)
  | Some A, None => right_dop ni A d
  | None, Some B => left_dop no B d
  end.
(** steerable_basis.py:139-145: [coefficients] *)
Definition sd_coefficients {G} (s : skbasis G) : list dop := map (change_dop s) (direct_sum (sk_blocks s)).

(** steerable_basis.py:185-212 [__getitem__]: the attributes of SteerableKernelBasis and those of the element of the block *)
Fixpoint sd_find (l : list skblock) (count idx : nat) : option (skattr * kel) :=
  match l with
  | [] => None
  | k :: l' =>
    match bk_basis k with
    | None => sd_find l' count idx
    | Some b =>
      if ((count <=? idx) && (idx - count <? kb_dim b))%nat%bool
      then Some ((bk_ii k, bk_oo k, idx - count, idx)%nat, nth (idx - count) (kb_els b) kel0)
      else sd_find l' (count + kb_dim b) idx
    end
  end.
(** steerable_basis.py:214-236 [__iter__] *)
Fixpoint sd_iter_from (l : list skblock) (idx : nat) : list (skattr * kel) :=
  match l with
  | [] => []
  | k :: l' =>
    match bk_basis k with
    | None => sd_iter_from l' idx
    | Some b => map (fun r => ((bk_ii k, bk_oo k, r, idx + r)%nat, nth r (kb_els b) kel0)) (seq 0 (kb_dim b)) ++ sd_iter_from l' (idx + kb_dim b)
    end
  end.

(** * diffops/basis.py: TensorBasis *)
Record tbasis (G : Type) : Type := MkTB { tb_1 : skbasis G; tb_power : nat }.
Arguments MkTB {G} _ _.
Arguments tb_1 {G} _.
Arguments tb_power {G} _.
(** basis.py:186-193 LaplaceProfile: one element for each power up to [max_power] *)
Definition lap_dop (k : nat) : dop := MkDop (2 * k) (fun _ _ => laplacian_power k).
(** basis.py:249-260: one product; b has shape (1, 1) *)
Definition mul_dop (a b : dop) : dop :=
  MkDop (dp_order a + dp_order b) (fun i j => multiply_polynomials (dp_coef a i j) (dp_coef b 0%nat 0%nat)).
(** basis.py:247-262: itertools.product, the first factor outside *)
Definition tb_coefficients {G} (t : tbasis G) : list dop :=
  flat_map (fun a => map (fun k => mul_dop a (lap_dop k)) (seq 0 (tb_power t + 1))) (sd_coefficients (tb_1 t)).
Definition tb_dim {G} (t : tbasis G) : nat := length (tb_coefficients t).
(** basis.py:219-264 [__init__]; [max_power] is asserted to be non-negative (line 184) *)
Definition tb_make {G} (mk : irrep G -> irrep G -> result kbasis) (rin rout : rep G) (max_power : Z) : result (tbasis G) :=
  rbind (sk_make mk rin rout) (fun s => assert_ (0 <=? max_power)%Z (Ok (MkTB s (Z.to_nat max_power)))).

(** the attributes of an element *)
Record tattr : Type := MkTA { ta_irreps : nat * nat; ta_inner : nat; ta_freq : Z; ta_power : nat; ta_order : nat; ta_idx : nat; ta_idx1 : nat; ta_idx2 : nat }.
(** "order" of an element of an irreps basis is abs(mu), of the Laplacian 2 * power *)
Definition t_attr (a : skattr * kel) (idx1 power idx : nat) : tattr :=
  let '((ii, oo, r, _), e) := a in
  MkTA (ii, oo) r (ke_mu e) power (Z.abs_nat (ke_mu e) + 2 * power) idx idx1 power.
(** basis.py:266-283 [__getitem__]; divmod(idx, basis2.dim) *)
Definition tb_getitem {G} (t : tbasis G) (idx : nat) : result tattr :=
  assert_ (idx <? tb_dim t)%nat
  (let idx1 := (idx / (tb_power t + 1))%nat in
   let idx2 := (idx mod (tb_power t + 1))%nat in
   match sd_find (sk_blocks (tb_1 t)) 0 idx1 with
   | None => Err "TypeError"
   | Some a => Ok (t_attr a idx1 idx2 idx)
   end).
(** basis.py:285-299 [__iter__] *)
Fixpoint tb_iter_from (l : list (skattr * kel)) (powers : list nat) (idx : nat) : list tattr :=
  match l with
  | [] => []
  | a :: l' => map (fun p => t_attr a (snd (fst a)) (snd p) (idx + fst p)%nat) (combine (seq 0 (length powers)) powers)
               ++ tb_iter_from l' powers (idx + length powers)
  end.
Definition tb_iter {G} (t : tbasis G) : list tattr :=
  tb_iter_from (sd_iter_from (sk_blocks (tb_1 t)) 0) (seq 0 (tb_power t + 1)) 0.

(** * diffops/r2.py *)
(** r2.py:73-102 *)
Definition diffops_SO2_act_R2 (rin rout : rep R) (max_power : Z) : result (tbasis R) := tb_make d_rot rin rout max_power.
(** r2.py:223-262 *)
Definition diffops_O2_act_R2 (rin rout : rep (Z * R)) (max_power : Z) (axis : R) : result (tbasis (Z * R)) :=
  tb_make (d_fliprot axis) rin rout max_power.
(** r2.py:106-163; N is the order of the group of the representations *)
Definition diffops_CN_act_R2 (N : Z) (rin rout : rep Z) (max_power : Z) (F T : option Z) : result (tbasis Z) :=
  tb_make (d_rotN N F T) rin rout max_power.
(** r2.py:167-220 *)
Definition diffops_DN_act_R2 (N : Z) (rin rout : rep (Z * Z)) (max_power : Z) (axis : R) (F T : option Z) : result (tbasis (Z * Z)) :=
  tb_make (d_fliprotN N axis F T) rin rout max_power.
(** r2.py:20-70; the group is asserted to be C_2 *)
Definition diffops_Flip_act_R2 (N : Z) (rin rout : rep Z) (max_power : Z) (axis : R) (F T : option Z) : result (tbasis Z) :=
  assert_ (Z.eqb N 2) (tb_make (d_flips axis F T) rin rout max_power).
(** r2.py:266-317; the group is asserted to be C_1 *)
Definition diffops_Trivial_act_R2 (N : Z) (rin rout : rep Z) (max_power : Z) (F T : option Z) : result (tbasis Z) :=
  assert_ (Z.eqb N 1) (tb_make (d_rotN N F T) rin rout max_power).

(** * comparisons *)
(** irreps_basis.py:125-131, 349-357, 581-589, 728-736, 888-896 [__eq__] of two objects of the same class between the same
    irreps.  R2FlipsDiscreteRotationsSolution compares with R2DiscreteRotationsSolution (line 582), so that the answer is always
    False ([wrong_class]); only R2FlipsSolution compares the axis.  [invert] is compared with ==; in the classes with reflections
    it is one number for all the elements ([scalar_invert]). *)
Definition d_eqb (wrong_class cmp_axis scalar_invert : bool) (b1 b2 : kbasis) : result bool :=
  if wrong_class then Ok false else
  let axis_differs := match kb_axis b1, kb_axis b2 with
                      | Some x, Some y => if Req_EM_T x y then false else true
                      | _, _ => false end in
  if (cmp_axis && axis_differs)%bool then Ok false else
  and_then (allclose_col (map ke_s (kb_els b1)) (map ke_s (kb_els b2)))
  (and_then (allclose_col (map ke_mu (kb_els b1)) (map ke_mu (kb_els b2)))
            (Ok (if scalar_invert then Z.eqb (ke_gq (hd kel0 (kb_els b1))) (ke_gq (hd kel0 (kb_els b2)))
                 else if list_eq_dec Z.eq_dec (map ke_gq (kb_els b1)) (map ke_gq (kb_els b2)) then true else false))).
