(** Model of e2cnn/kernels: offset_iterator, the five bases of kernels between irreps,
    SteerableKernelBasis, GaussianRadialProfile, PolarBasis and the factories of r2.py.

    Sampling is modelled one point and one basis element at a time: numpy evaluates the same formula
    for every point and element of the array.  Floats are exact reals. *)
From Coq Require Import Reals ZArith String List Bool.
From Verif Require Import Base Model_Groups Model_Rep.
Import ListNotations.
Open Scope R_scope.

(** * kernels/utils.py *)

(** [math.ceil(a / b)] for integers, b > 0 *)
Definition cdiv (a b : Z) : Z := (- ((- a) / b))%Z.

(** Python [range(a, b)] *)
Definition zrange (a b : Z) : list Z := map (fun i => (a + Z.of_nat i)%Z) (seq 0 (Z.to_nat (b - a))).

Definition le_opt (x : Z) (b : option Z) : bool := match b with None => true | Some m => (x <=? m)%Z end.

(** utils.py:14-48 [offset_iterator].  The bounds are computed in the code as floats
    [max((minf - base)/N, -T)] and then rounded up with [ceil] (resp. [min], [floor]); as ceil is monotone
    and T is an integer, rounding first gives the same integer.  The nested function [round] is unused. *)
Definition offset_iterator (base N : Z) (T F : option Z) (non_negative : bool) : result (list Z) :=
  if (N <? 0)%Z then
    match F with
    | Some f => if (Z.abs base <=? f)%Z then Ok [0%Z] else Ok []
    | None => Ok []
    end
  else
    assert_ (match F, T with None, None => false | _, _ => true end)
    (rbind
      (match F with
       | Some f =>
         let minf := if non_negative then 0%Z else (- f)%Z in
         if Z.eqb N 0 then Err "ZeroDivisionError"
         else Ok (cdiv (minf - base) N, ((f - base) / N)%Z)
       | None => Ok (-10000, 10000)%Z
       end)
      (fun b =>
       let b' := match T with
                 | Some t => (Z.max (fst b) (- t), Z.min (snd b) t)
                 | None => b
                 end in
       Ok (zrange (fst b') (snd b' + 1)))).

(** * kernels/irreps_basis.py *)

(** One element of a basis: the entries of the arrays [gamma], [mu], [s], [ts] at its index.
    gamma is always 0 or pi/2 and is stored as the number [ke_gq] of quarter turns. *)
Record kel : Type := MkKel { ke_gq : Z; ke_mu : Z; ke_s : Z; ke_t : Z }.
Definition ke_gamma (e : kel) : R := IZR (ke_gq e) * (PI / 2).

(** An object of one of the five classes: [axis] (absent in the rotation-only classes),
    [shape] = (kb_rows, kb_cols) = (out_irrep.size, in_irrep.size) and the elements. *)
Record kbasis : Type := MkKB { kb_axis : option R; kb_rows : nat; kb_cols : nat; kb_els : list kel }.
Definition kb_dim (b : kbasis) : nat := length (kb_els b).

(** basis.py:38-47 [Basis.__init__]: an empty basis raises *)
Definition kb_make (axis : option R) (rows cols : nat) (els : list kel) : result kbasis :=
  match els with [] => Err "EmptyBasisException" | _ => Ok (MkKB axis rows cols els) end.

(** the loop [for t in offset_iterator(k, N, T, F, nn): mu = k + t*N; assert |t| <= T; assert |mu| <= F]
    (irreps_basis.py:91-100, 243-252, 275-284, 305-314, 335-344, 702-711, 730-739, 756-765, 782-791):
    the list of the pairs (t, mu) *)
Definition shifted (k N : Z) (T F : option Z) (nn : bool) : result (list (Z * Z)) :=
  rbind (offset_iterator k N T F nn) (fun ts =>
  rmap (fun t => let mu := (k + t * N)%Z in
          assert_ (le_opt (Z.abs t) T) (assert_ (le_opt (Z.abs mu) F) (Ok (t, mu)))) ts).

(** [mu > 0 or gamma == 0.]: sin(0*theta) is not added (lines 102, 346, 537, 793, 978) *)
Definition keep (gq mu : Z) : bool := ((0 <? mu) || Z.eqb gq 0)%Z.

Definition els_of (gq s : Z) (l : list (Z * Z)) : list kel := map (fun p => MkKel gq (snd p) s (fst p)) l.
Definition els_keep (gq : Z) (l : list (Z * Z)) : list kel :=
  map (fun p => MkKel gq (snd p) 0 (fst p)) (filter (fun p => keep gq (snd p)) l).

(** bounds must be given and non-negative (lines 52-59, 201-208, 653-660) *)
Definition bounds_ok (F T : option Z) : bool :=
  ((match F, T with None, None => false | _, _ => true end) &&
   (match F with None => true | Some f => 0 <=? f end)%Z &&
   (match T with None => true | Some t => 0 <=? t end)%Z)%bool.

(** irreps_basis.py:36-113 [R2FlipsSolution]; the frequency of an irrep of C_2 tells whether it is
    the trivial or the sign representation. *)
Definition flips_basis (axis : R) (F T : option Z) (iin iout : irrep Z) : result kbasis :=
  assert_ (bounds_ok F T)
  (let gq := ((ir_freq iin + ir_freq iout) mod 2)%Z in
   rbind (shifted 0 1 T F true) (fun l =>
   kb_make (Some axis) (ir_size iout) (ir_size iin) (els_keep gq l))).

(** irreps_basis.py:186-359 [R2DiscreteRotationsSolution] *)
Definition half_or_zero (m N : Z) : bool := (Z.eqb m 0 || (Z.eqb m (N / 2) && Z.eqb (N mod 2) 0))%bool.

Definition rotN_basis (N : Z) (F T : option Z) (iin iout : irrep Z) : result kbasis :=
  assert_ (bounds_ok F T)
  (let n := ir_freq iin in
   let m := ir_freq iout in
   rbind
     (match ir_size iin, ir_size iout with
      | 2%nat, 2%nat =>
        rbind (shifted (m - n * 1) N T F false) (fun l0 =>
        rbind (shifted (m - n * -1) N T F false) (fun l1 =>
        Ok (els_of 0 0 l0 ++ els_of 0 1 l1 ++ els_of 1 0 l0 ++ els_of 1 1 l1)))
      | 2%nat, 1%nat =>
        assert_ (half_or_zero m N)
        (rbind (shifted (n + m) N T F false) (fun l => Ok (els_of 0 0 l ++ els_of 1 0 l)))
      | 1%nat, 2%nat =>
        assert_ (half_or_zero n N)
        (rbind (shifted (n + m) N T F false) (fun l => Ok (els_of 0 0 l ++ els_of 1 0 l)))
      | 1%nat, 1%nat =>
        assert_ (half_or_zero n N) (assert_ (half_or_zero m N)
        (rbind (shifted (m - n) N T F true) (fun l => Ok (els_keep 0 l ++ els_keep 1 l))))
      | _, _ => Err "AttributeError"
      end)
     (kb_make None (ir_size iout) (ir_size iin))).

(** irreps_basis.py:448-549 [R2ContinuousRotationsSolution] *)
Definition rot_basis (iin iout : irrep R) : result kbasis :=
  let n := ir_freq iin in
  let m := ir_freq iout in
  rbind
    (match ir_size iin, ir_size iout with
     | 2%nat, 2%nat => Ok [MkKel 0 (m - n * 1) 0 0; MkKel 0 (m - n * -1) 1 0;
                           MkKel 1 (m - n * 1) 0 0; MkKel 1 (m - n * -1) 1 0]
     | 2%nat, 1%nat => assert_ (Z.eqb m 0) (Ok [MkKel 0 (n + m) 0 0; MkKel 1 (n + m) 0 0])
     | 1%nat, 2%nat => assert_ (Z.eqb n 0) (Ok [MkKel 0 (n + m) 0 0; MkKel 1 (n + m) 0 0])
     | 1%nat, 1%nat => assert_ (Z.eqb n 0 && Z.eqb m 0)
                         (Ok (els_keep 0 [(0, m - n)%Z] ++ els_keep 1 [(0, m - n)%Z]))
     | _, _ => Err "AttributeError"
     end)
    (kb_make None (ir_size iout) (ir_size iin)).

(** irreps_basis.py:637-804 [R2FlipsDiscreteRotationsSolution] *)
Definition fliprotN_basis (N : Z) (axis : R) (F T : option Z) (iin iout : irrep (Z * Z)) : result kbasis :=
  assert_ (bounds_ok F T)
  (let n := ir_freq iin in
   let m := ir_freq iout in
   let fi := ir_flip iin in
   let fo := ir_flip iout in
   rbind
     (match ir_size iin, ir_size iout with
      | 2%nat, 2%nat =>
        assert_ ((0 <? m) && (0 <? n) && Z.eqb fi 1 && Z.eqb fo 1)%Z
        (rbind (shifted (m - n * 1) N T F false) (fun l0 =>
         rbind (shifted (m - n * -1) N T F false) (fun l1 =>
         Ok (els_of 0 0 l0 ++ els_of 0 1 l1))))
      | 2%nat, 1%nat =>
        assert_ (half_or_zero m N && Z.eqb fi 1)
        (rbind (shifted (n + m) N T F false) (fun l => Ok (els_of fo 0 l)))
      | 1%nat, 2%nat =>
        assert_ (half_or_zero n N && Z.eqb fo 1)
        (rbind (shifted (n + m) N T F false) (fun l => Ok (els_of fi 0 l)))
      | 1%nat, 1%nat =>
        assert_ (half_or_zero n N) (assert_ (half_or_zero m N)
        (rbind (shifted (m - n) N T F true) (fun l => Ok (els_keep ((fi + fo) mod 2) l))))
      | _, _ => Err "AttributeError"
      end)
     (kb_make (Some axis) (ir_size iout) (ir_size iin))).

(** irreps_basis.py:895-988 [R2FlipsContinuousRotationsSolution] *)
Definition fliprot_basis (axis : R) (iin iout : irrep (Z * R)) : result kbasis :=
  let n := ir_freq iin in
  let m := ir_freq iout in
  let fi := ir_flip iin in
  let fo := ir_flip iout in
  rbind
    (match ir_size iin, ir_size iout with
     | 2%nat, 2%nat =>
       assert_ ((0 <? m) && (0 <? n) && Z.eqb fi 1 && Z.eqb fo 1)%Z
       (Ok [MkKel 0 (m - n * 1) 0 0; MkKel 0 (m - n * -1) 1 0])
     | 2%nat, 1%nat => assert_ (Z.eqb m 0 && Z.eqb fi 1) (Ok [MkKel fo (n + m) 0 0])
     | 1%nat, 2%nat => assert_ (Z.eqb n 0 && Z.eqb fo 1) (Ok [MkKel fi (n + m) 0 0])
     | 1%nat, 1%nat => assert_ (Z.eqb n 0 && Z.eqb m 0)
                         (Ok (els_keep ((fi + fo) mod 2) [(0, m - n)%Z]))
     | _, _ => Err "AttributeError"
     end)
    (kb_make (Some axis) (ir_size iout) (ir_size iin)).

(** [sample] at one angle (None stands for nan, the angle of the origin) of one element:
    irreps_basis.py:134-163, 379-420, 569-610, 824-867, 1008-1051; psichi of kernels/utils.py:97-118 is the
    formula of group/utils.py.  R2FlipsSolution only has shape (1,1). *)
Definition kb_sample_el (b : kbasis) (e : kel) (a : option R) : mat :=
  let origin := match a with None => true | Some _ => false end in
  let ang := match a with None => 0 | Some v => v end in
  let x := match kb_axis b with None => ang | Some ax => ang - ax end in
  let arg := IZR (ke_mu e) * x + ke_gamma e in
  let v : mat :=
    match kb_rows b, kb_cols b with
    | 2%nat, 2%nat => psichi x (ke_s e) (ke_mu e) (ke_gamma e)
    | 1%nat, 2%nat => fun _ j => match j with O => cos arg | _ => sin arg end
    | 2%nat, 1%nat => fun i _ => match i with O => cos arg | _ => sin arg end
    | _, _ => fun _ _ => cos arg
    end in
  if (origin && negb (Z.eqb (ke_mu e) 0))%bool then (fun i j => v i j * 0) else v.

Definition kel0 : kel := MkKel 0 0 0 0.
(** element [idx] of [basis.sample([[a]])] *)
Definition kb_sample (b : kbasis) (idx : nat) (a : option R) : mat :=
  kb_sample_el b (nth idx (kb_els b) kel0) a.

(** * kernels/steerable_basis.py *)

(** comparison with [np.eye] (np.allclose taken as equality) *)
Definition is_eye (n : nat) (A : mat) : bool :=
  forallb (fun i => forallb (fun j => if Req_EM_T (A i j) (mid i j) then true else false) (seq 0 n)) (seq 0 n).

(** SteerableKernelBasis object.  The dictionary [irreps_bases] is indexed by the names of the irreps, which
    identify them in the group; each entry only depends on the two irreps, so it is looked up directly.
    [sk_bases]: one row per input irrep, one entry per output irrep (None: empty basis). *)
Record skbasis (G : Type) : Type := MkSK {
  sk_in : rep G;
  sk_out : rep G;
  sk_Ainv : option mat;
  sk_B : option mat;
  sk_bases : list (list (option kbasis))
}.
Arguments MkSK {G} _ _ _ _ _.
Arguments sk_in {G} _.
Arguments sk_out {G} _.
Arguments sk_Ainv {G} _.
Arguments sk_B {G} _.
Arguments sk_bases {G} _.

Section Steerable.
Context {G : Type}.
(** the class [irreps_basis] with its keyword arguments *)
Variable mk : irrep G -> irrep G -> result kbasis.

(** steerable_basis.py:98-109: EmptyBasisException is caught, anything else propagates *)
Definition try_basis (i o : irrep G) : result (option kbasis) :=
  match mk i o with
  | Ok b => Ok (Some b)
  | Err x => if String.eqb x "EmptyBasisException" then Ok None else Err x
  end.

Definition odim (b : option kbasis) : nat := match b with None => 0 | Some b => kb_dim b end.

(** steerable_basis.py:68-132 *)
Definition sk_make (rin rout : rep G) : result (skbasis G) :=
  let Ainv := if is_eye (rp_size rin) (rp_inv rin) then None else Some (rp_inv rin) in
  let B := if is_eye (rp_size rout) (rp_cob rout) then None else Some (rp_cob rout) in
  rbind (rmap (fun i => rmap (fun o => try_basis i o) (rp_irreps rout)) (rp_irreps rin)) (fun bs =>
  if (nsum (map odim (concat bs)) =? 0)%nat then Err "EmptyBasisException"
  else Ok (MkSK rin rout Ainv B bs)).
End Steerable.

Definition sk_dim {G} (s : skbasis G) : nat := nsum (map odim (concat (sk_bases s))).

(** A block visited by the double loop over the irreps (steerable_basis.py:178-204, 226-250, 254-273): its indices
    (ii, oo), its position (out_position, in_position), its size and its basis. *)
Record skblock : Type := MkBlk {
  bk_ii : nat; bk_oo : nat; bk_inpos : nat; bk_outpos : nat; bk_insize : nat; bk_outsize : nat; bk_basis : option kbasis }.

(** inner loop over the output irreps *)
Fixpoint sk_row (ii inpos insize oo outpos : nat) (osizes : list nat) (bs : list (option kbasis)) : list skblock :=
  match osizes, bs with
  | o :: osizes', b :: bs' =>
      MkBlk ii oo inpos outpos insize o b :: sk_row ii inpos insize (S oo) (outpos + o) osizes' bs'
  | _, _ => []
  end.
(** outer loop over the input irreps *)
Fixpoint sk_rows (ii inpos : nat) (isizes osizes : list nat) (bss : list (list (option kbasis))) : list skblock :=
  match isizes, bss with
  | i :: isizes', bs :: bss' => sk_row ii inpos i 0 0 osizes bs ++ sk_rows (S ii) (inpos + i) isizes' osizes bss'
  | _, _ => []
  end.
Definition sk_blocks {G} (s : skbasis G) : list skblock :=
  sk_rows 0 0 (map ir_size (rp_irreps (sk_in s))) (map ir_size (rp_irreps (sk_out s))) (sk_bases s).

(** a block written at its position of an array of zeros *)
Definition place (k : skblock) (M : mat) : mat := fun r c =>
  if ((bk_outpos k <=? r) && (r <? bk_outpos k + bk_outsize k) &&
      (bk_inpos k <=? c) && (c <? bk_inpos k + bk_insize k))%nat%bool
  then M (r - bk_outpos k)%nat (c - bk_inpos k)%nat else 0.

(** steerable_basis.py:170-206 [_sample_direct_sum]: element [idx] of the array at one angle; [count] is
    [basis_count], the index of the first element of the block *)
Fixpoint sk_write (l : list skblock) (count idx : nat) (a : option R) : mat :=
  match l with
  | [] => mzero
  | k :: l' =>
    match bk_basis k with
    | None => sk_write l' count idx a
    | Some b =>
      if ((count <=? idx) && (idx <? count + kb_dim b))%nat%bool
      then place k (kb_sample b (idx - count) a)
      else sk_write l' (count + kb_dim b) idx a
    end
  end.

(** steerable_basis.py:134-168, 208-220 [sample] and [_change_of_basis] *)
Definition sk_sample {G} (s : skbasis G) (idx : nat) (a : option R) : mat :=
  let M := sk_write (sk_blocks s) 0 idx a in
  let no := rp_size (sk_out s) in
  let ni := rp_size (sk_in s) in
  match sk_Ainv s, sk_B s with
  | None, None => M
  | Some A, Some B => mmul ni (mmul no B M) A
  | Some A, None => mmul ni M A
  | None, Some B => mmul no B M
  end.

(** the attributes of an element that identify it: (in_irrep_idx, out_irrep_idx, inner_idx, idx) *)
Definition skattr : Type := (nat * nat * nat * nat)%type.

(** steerable_basis.py:222-250 [__getitem__]; Python falls off the loop (None) if nothing matches *)
Fixpoint sk_find (l : list skblock) (count idx : nat) : option skattr :=
  match l with
  | [] => None
  | k :: l' =>
    match bk_basis k with
    | None => sk_find l' count idx
    | Some b =>
      if ((count <=? idx) && (idx - count <? kb_dim b))%nat%bool
      then Some (bk_ii k, bk_oo k, idx - count, idx)%nat
      else sk_find l' (count + kb_dim b) idx
    end
  end.
Definition sk_getitem {G} (s : skbasis G) (idx : nat) : result (option skattr) :=
  assert_ (idx <? sk_dim s)%nat (Ok (sk_find (sk_blocks s) 0 idx)).

(** steerable_basis.py:252-273 [__iter__] *)
Fixpoint sk_iter_from (l : list skblock) (idx : nat) : list skattr :=
  match l with
  | [] => []
  | k :: l' =>
    match bk_basis k with
    | None => sk_iter_from l' idx
    | Some b => map (fun r => (bk_ii k, bk_oo k, r, idx + r)%nat) (seq 0 (kb_dim b)) ++ sk_iter_from l' (idx + kb_dim b)
    end
  end.
Definition sk_iter {G} (s : skbasis G) : list skattr := sk_iter_from (sk_blocks s) 0.

(** * kernels/basis.py *)

(** basis.py:141-183 [GaussianRadialProfile(radii, sigma)] with sigma a list (a float is repeated first) *)
Definition gauss_make (radii sigma : list R) : result (list (R * R)) :=
  assert_ (length radii =? length sigma)%nat
  (assert_ (forallb (fun r => Rleb 0 r) radii)
  (assert_ (forallb (fun s => Rltb 0 s) sigma)
  (match radii with [] => Err "EmptyBasisException" | _ => Ok (combine radii sigma) end))).
(** basis.py:211-213 *)
Definition gauss_sample (g : list (R * R)) (i : nat) (r : R) : R :=
  let p := nth i g (0, 1) in
  exp (- (1 / 2) * ((fst p - r) * (fst p - r)) / (snd p * snd p)).

(** [np.arctan2] *)
Definition arctan2 (y x : R) : R :=
  if Rlt_dec 0 x then atan (y / x)
  else if Rlt_dec x 0 then (if Rle_dec 0 y then atan (y / x) + PI else atan (y / x) - PI)
  else if Rlt_dec 0 y then PI / 2
  else if Rlt_dec y 0 then - (PI / 2)
  else 0.

(** basis.py:278-282: polar coordinates; the angle of points closer than 1e-9 to the origin is nan *)
Definition radius_of (p : R * R) : R := sqrt (fst p * fst p + snd p * snd p).
Definition angle_of (p : R * R) : option R :=
  if Rlt_dec (radius_of p) (1 / 1000000000) then None else Some (arctan2 (snd p) (fst p)).

(** basis.py:258-300 [PolarBasis.sample]: the radial basis has shape (1,1); the last two axes (a, b) of the tensor
    product are merged in C order, so that element idx is the pair (idx / b_dim, idx mod b_dim). *)
Definition polar_sample (radial : nat -> R -> R) (adim : nat) (angular : nat -> option R -> mat)
           (idx : nat) (p : R * R) : mat :=
  fun i j => radial (idx / adim)%nat (radius_of p) * angular (idx mod adim)%nat (angle_of p) i j.

(** basis.py:302-318 [__getitem__]: (idx1, idx2) *)
Definition polar_getitem (dim adim idx : nat) : result (nat * nat * nat) :=
  assert_ (idx <? dim)%nat (Ok (idx / adim, idx mod adim, idx)%nat).
(** basis.py:320-332 [__iter__]: loops over both factors, counting *)
Fixpoint polar_iter_from (l1 l2 : list nat) (idx : nat) : list (nat * nat * nat) :=
  match l1 with
  | [] => []
  | i1 :: l1' => map (fun p => (i1, snd p, idx + fst p)%nat) (combine (seq 0 (length l2)) l2)
                 ++ polar_iter_from l1' l2 (idx + length l2)
  end.
Definition polar_iter (rdim adim : nat) : list (nat * nat * nat) := polar_iter_from (seq 0 rdim) (seq 0 adim) 0.

(** basis.py:109-136 [sample_masked]: keeps the elements selected by the mask *)
Definition sample_masked {A} (dim : nat) (sample : nat -> A) (mask : list bool) : result (list A) :=
  assert_ (length mask =? dim)%nat
    (Ok (map (fun p => sample (fst p)) (filter snd (combine (seq 0 dim) mask)))).

(** * kernels/r2.py: PolarBasis(GaussianRadialProfile(radii, sigma), SteerableKernelBasis(cls, in_repr, out_repr, ..)) *)
Record r2basis (G : Type) : Type := MkR2 { r2_radial : list (R * R); r2_angular : skbasis G }.
Arguments MkR2 {G} _ _.
Arguments r2_radial {G} _.
Arguments r2_angular {G} _.
Definition r2_dim {G} (b : r2basis G) : nat := (length (r2_radial b) * sk_dim (r2_angular b))%nat.
Definition r2_sample {G} (b : r2basis G) (idx : nat) (p : R * R) : mat :=
  polar_sample (gauss_sample (r2_radial b)) (sk_dim (r2_angular b)) (sk_sample (r2_angular b)) idx p.

(** common part of the factories *)
Definition r2_make {G} (mk : irrep G -> irrep G -> result kbasis) (rin rout : rep G) (radii sigma : list R)
  : result (r2basis G) :=
  rbind (sk_make mk rin rout) (fun a => rbind (gauss_make radii sigma) (fun r => Ok (MkR2 r a))).
(** r2.py:20-52 *)
Definition kernels_SO2_act_R2 (rin rout : rep R) (radii sigma : list R) : result (r2basis R) :=
  r2_make rot_basis rin rout radii sigma.
(** r2.py:55-91 *)
Definition kernels_O2_act_R2 (rin rout : rep (Z * R)) (radii sigma : list R) (axis : R) : result (r2basis (Z * R)) :=
  r2_make (fliprot_basis axis) rin rout radii sigma.
(** r2.py:94-147; N is the order of the group of the representations *)
Definition kernels_CN_act_R2 (N : Z) (rin rout : rep Z) (radii sigma : list R) (F T : option Z) : result (r2basis Z) :=
  r2_make (rotN_basis N F T) rin rout radii sigma.
(** r2.py:150-205 *)
Definition kernels_DN_act_R2 (N : Z) (rin rout : rep (Z * Z)) (radii sigma : list R) (axis : R) (F T : option Z)
  : result (r2basis (Z * Z)) :=
  r2_make (fliprotN_basis N axis F T) rin rout radii sigma.
(** r2.py:208-257; the group is asserted to be C_2 *)
Definition kernels_Flip_act_R2 (N : Z) (rin rout : rep Z) (radii sigma : list R) (axis : R) (F T : option Z)
  : result (r2basis Z) :=
  assert_ (Z.eqb N 2) (r2_make (flips_basis axis F T) rin rout radii sigma).
(** r2.py:260-310; the group is asserted to be C_1 *)
Definition kernels_Trivial_act_R2 (N : Z) (rin rout : rep Z) (radii sigma : list R) (F T : option Z)
  : result (r2basis Z) :=
  assert_ (Z.eqb N 1) (r2_make (rotN_basis N F T) rin rout radii sigma).

(** * comparisons *)
(** [np.allclose] of two columns (shapes (a, 1) and (b, 1)) of exact numbers: broadcasts a column of length 1,
    fails on other different lengths *)
Definition allclose_col (l1 l2 : list Z) : result bool :=
  if (length l1 =? length l2)%nat then Ok (forallb (fun p => Z.eqb (fst p) (snd p)) (combine l1 l2))
  else match l1, l2 with
       | [x], _ => Ok (forallb (Z.eqb x) l2)
       | _, [y] => Ok (forallb (fun x => Z.eqb x y) l1)
       | _, _ => Err "ValueError"
       end.
Definition and_then (r1 r2 : result bool) : result bool := rbind r1 (fun b => if b then r2 else Ok false).
(** irreps_basis.py:174-180, 434-442, 623-631, 881-889, 1063-1071 [__eq__] of two objects of the same class
    between the same irreps (the comparison of the irreps is the first test).  Only R2FlipsSolution compares the
    axis ([cmp_axis]).  The arrays s only exist for shape (2,2); elsewhere ke_s is 0 and its comparison does
    nothing that the comparison of mu does not do. *)
Definition kb_eqb (cmp_axis : bool) (b1 b2 : kbasis) : result bool :=
  let axis_differs := match kb_axis b1, kb_axis b2 with
                      | Some x, Some y => if Req_EM_T x y then false else true
                      | _, _ => false end in
  if (cmp_axis && axis_differs)%bool then Ok false else
  and_then (allclose_col (map ke_s (kb_els b1)) (map ke_s (kb_els b2)))
  (and_then (allclose_col (map ke_mu (kb_els b1)) (map ke_mu (kb_els b2)))
            (allclose_col (map ke_gq (kb_els b1)) (map ke_gq (kb_els b2)))).
(** what the hashes of the five classes are computed from, beside the irreps (lines 182, 444, 633, 891, 1073) *)
Definition kb_hashed (b : kbasis) : list Z * list Z := (map ke_mu (kb_els b), map ke_gq (kb_els b)).

(** steerable_basis.py:275-290 [__eq__] of two bases between the same representations: the pairs of irreps
    with a basis must be the same, and their bases equal *)
Definition okb_eqb (cmp_axis : bool) (o1 o2 : option kbasis) : result bool :=
  match o1, o2 with
  | None, None => Ok true
  | Some b1, Some b2 => kb_eqb cmp_axis b1 b2
  | _, _ => Ok false
  end.
Fixpoint all_eqb {A} (f : A -> A -> result bool) (l1 l2 : list A) : result bool :=
  match l1, l2 with
  | [], [] => Ok true
  | x :: l1', y :: l2' => and_then (f x y) (all_eqb f l1' l2')
  | _, _ => Ok false
  end.
Definition sk_eqb {G} (cmp_axis : bool) (s1 s2 : skbasis G) : result bool :=
  all_eqb (okb_eqb cmp_axis) (concat (sk_bases s1)) (concat (sk_bases s2)).
