(** Model of e2cnn/diffops/utils.py: homogeneous polynomials (the symbols of differential operators) and the sizes of stencils.
    A homogeneous polynomial of degree n is the list of its n + 1 coefficients of x^n, x^(n-1) y, ..., y^n.
    Floats are exact reals. *)
From Coq Require Import Reals ZArith String List Bool Arith.
From Verif Require Import Base Model_Groups Model_Rep.
Import ListNotations.
Open Scope R_scope.

(** scipy.special.binom on natural numbers (not part of the repository), by Pascal's rule *)
Fixpoint binom (n k : nat) : nat :=
  match n, k with
  | _, O => 1
  | O, S _ => 0
  | S n', S k' => binom n' k' + binom n' k
  end.

(** utils.py:204-220 [multiply_polynomials] *)
Definition multiply_polynomials (a b : list R) : list R :=
  let n := length a in
  let m := length b in
  map (fun k => lsum (map (fun l => nth l a 0 * nth (k - l) b 0)
                          (filter (fun l => ((l <? n) && (k - l <? m))%nat%bool) (seq 0 (k + 1)))))
      (seq 0 (n + m - 1)).

(** utils.py:223-227 [expand_binomial] *)
Definition expand_binomial (a b : R) (e : nat) : list R :=
  map (fun k => INR (binom e k) * a ^ (e - k) * b ^ k) (seq 0 (e + 1)).

(** utils.py:230-255 [transform_polynomial] on one polynomial: the other axes are batch dimensions *)
Definition poly_add (p q : list R) : list R := map (fun c => fst c + snd c) (combine p q).
Definition poly_scale (c : R) (p : list R) : list R := map (fun x => c * x) p.
Definition transform_polynomial (coeffs : list R) (A : mat) : list R :=
  let n := (length coeffs - 1)%nat in
  fold_left (fun transformed i =>
               let x_trafo := expand_binomial (A 0%nat 0%nat) (A 1%nat 0%nat) (n - i) in
               let y_trafo := expand_binomial (A 0%nat 1%nat) (A 1%nat 1%nat) i in
               let xy_trafo := multiply_polynomials x_trafo y_trafo in
               poly_add transformed (poly_scale (nth i coeffs 0) xy_trafo))
            (seq 0 (n + 1)) (repeat 0 (n + 1)).

(** utils.py:282-311 [homogenized_cheby], for kind 't' ([u] = false) and kind 'u' ([u] = true): entries 0, 2, 4, ...
    (resp. 1, 3, 5, ...) are assigned, the others stay 0 *)
Definition cheby_poly (n : Z) (u : bool) : list R :=
  let sign := IZR (Z.sgn n) in
  let n := Z.abs_nat n in
  map (fun i => if u then (if Nat.odd i then sign * INR (binom n i) * (-1) ^ ((i - 1) / 2) else 0)
                else (if Nat.even i then INR (binom n i) * (-1) ^ (i / 2) else 0))
      (seq 0 (n + 1)).
(** kind.lower(): only the strings that the code distinguishes *)
Definition homogenized_cheby (n : Z) (kind : string) : result (list R) :=
  if (String.eqb kind "t" || String.eqb kind "T")%bool then Ok (cheby_poly n false)
  else if (String.eqb kind "u" || String.eqb kind "U")%bool then Ok (cheby_poly n true)
  else Err "ValueError".

(** utils.py:314-321 [laplacian_power] *)
Definition laplacian_power (k : nat) : list R :=
  map (fun i => if Nat.even i then INR (binom k (i / 2)) else 0) (seq 0 (2 * k + 1)).

(** utils.py:378-397 [eval_polys]: one polynomial at one point *)
Definition eval_poly (c : list R) (x y : R) : R :=
  let n := (length c - 1)%nat in
  lsum (map (fun k => nth k c 0 * (x ^ (n - k) * y ^ k)) (seq 0 (n + 1))).

(** ** Sizes of stencils *)
(** utils.py:399-424 [required_points]; Python's % *)
Definition required_points (order accuracy : Z) : Z :=
  let N := (order + accuracy)%Z in
  if Z.eqb ((accuracy - 1) mod 2) 0 then N else (N - 1)%Z.
(** utils.py:426-435 [largest_possible_order] *)
Definition largest_possible_order (num_points accuracy : Z) : result Z :=
  let order := (num_points - accuracy)%Z in
  assert_ (0 <=? order)%Z
  (if Z.eqb ((num_points - (order + 1)) mod 2) 0 then Ok order else Ok (order + 1)%Z).
(** utils.py:437-446 [guaranteed_accuracy] *)
Definition guaranteed_accuracy (num_points order : Z) : result Z :=
  let accuracy := (num_points - order)%Z in
  assert_ (0 <=? accuracy)%Z
  (if Z.eqb (accuracy mod 2) 0 then Ok accuracy else Ok (accuracy + 1)%Z).
(** utils.py:448-452 [symmetric_points] *)
Definition symmetric_points (n : nat) (dilation : R) : list R :=
  map (fun x => (INR x - (INR n - 1) / 2) * dilation) (seq 0 n).

(** ** Finite differences *)
(** sympy.finite_diff_weights(n, points, 0)[-1][-1] (not part of the repository): the n-th derivative at 0 of the polynomial
    that interpolates values at the points is a combination of the values; this is the list of its coefficients, the n-th
    derivatives at 0 of the Lagrange polynomials.  [root_poly ps]: coefficients of 1, X, X^2, ... of the product of the X - p. *)
Fixpoint root_poly (ps : list R) : list R :=
  match ps with
  | [] => [1]
  | p :: ps' => let q := root_poly ps' in
                map (fun c => fst c - p * snd c) (combine (0 :: q) (q ++ [0]))
  end.
Definition others (i : nat) (ps : list R) : list R := firstn i ps ++ skipn (S i) ps.
Definition lprod (l : list R) : R := fold_right Rmult 1 l.
(** utils.py:187-191 [fd_weights] *)
Definition fd_weights (n : nat) (ps : list R) : list R :=
  map (fun i => INR (fact n) * nth n (root_poly (others i ps)) 0 / lprod (map (fun q => nth i ps 0 - q) (others i ps)))
      (seq 0 (length ps)).
(** utils.py:171-184 [discretize_1d_monomial]; the cache maps each key (n, points) to fd_weights(n, points) and is left out *)
Definition discretize_1d_monomial (n : nat) (ps : list R) : result (list R) :=
  assert_ (n <? length ps)%nat (Ok (fd_weights n ps)).
(** utils.py:194-201 [discretize_2d_monomial], flattened in C order as its only caller does (line 127) *)
Definition discretize_2d_monomial (nx ny : nat) (xs ys : list R) : result (list R) :=
  rbind (discretize_1d_monomial nx xs) (fun wx =>
  rbind (discretize_1d_monomial ny ys) (fun wy =>
  Ok (flat_map (fun a => map (fun b => a * b) wy) wx))).

(** np.unique: sorted, without repetitions *)
Fixpoint insert_R (x : R) (l : list R) : list R :=
  match l with
  | [] => [x]
  | y :: l' => if Rlt_dec x y then x :: l else if Req_EM_T x y then l else y :: insert_R x l'
  end.
Definition np_unique (l : list R) : list R := fold_right insert_R [] l.
(** np.stack(np.meshgrid(xs, ys, indexing="xy")).reshape(2, -1): the rows run over ys, the columns over xs *)
Definition meshgrid_xy (xs ys : list R) : list (R * R) := flat_map (fun y => map (fun x => (x, y)) xs) ys.
Definition pts_eqb (l1 l2 : list (R * R)) : bool :=
  ((length l1 =? length l2)%nat &&
   forallb (fun p => if Req_EM_T (fst (fst p)) (fst (snd p)) then (if Req_EM_T (snd (fst p)) (snd (snd p)) then true else false) else false)
           (combine l1 l2))%bool.
(** utils.py:64-168 [discretize_homogeneous_polynomial] with method "fd" (the default).  The dictionary _DIFFOP_CACHE maps each
    key, which contains all the arguments, to the value computed for them and is left out.  The method "gauss" is
    in Model_R2Diffop.v; "rbffd" calls the external package rbf and is not modelled. *)
Definition discretize_fd (points : list (R * R)) (coeffs : list R) : result (list R) :=
  let n := (length coeffs - 1)%nat in
  let idx := filter (fun k => if Req_EM_T (nth k coeffs 0) 0 then false else true) (seq 0 (n + 1)) in
  match idx with
  | [] => Ok (repeat 0 (length points))
  | _ =>
    let ax0 := np_unique (map fst points) in
    let ax1 := np_unique (map snd points) in
    if pts_eqb (meshgrid_xy ax0 (map Ropp ax1)) points then
      rbind (rmap (fun k => rbind (discretize_2d_monomial (n - k) k ax0 ax1) (fun w => Ok (nth k coeffs 0, w))) idx) (fun ks =>
      Ok (map (fun s => lsum (map (fun cw => fst cw * nth s (snd cw) 0) ks)) (seq 0 (length points))))
    else Err "ValueError"
  end.
