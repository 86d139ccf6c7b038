(** Model of build_regular_representation, build_induced_representation and
    build_quotient_representation (e2cnn/group/representation.py:649-988). *)
From Coq Require Import Reals ZArith String List Bool.
From Verif Require Import Base LinAlg Model_Groups Model_Rep.
Import ListNotations.
Open Scope R_scope.

(** What the two builders use of a finite Group object: elements (in order), operations, and the
    irreps in the insertion order of the dictionary [group.irreps]. *)
Record fgroup (G : Type) : Type := MkFG {
  fg_elements : list G;
  fg_id : G;
  fg_combine : G -> G -> G;
  fg_inverse : G -> G;
  fg_eqb : G -> G -> bool;
  fg_irreps : list (irrep G)
}.
Arguments MkFG {G} _ _ _ _ _ _.
Arguments fg_elements {G} _.
Arguments fg_id {G} _.
Arguments fg_combine {G} _ _ _.
Arguments fg_inverse {G} _ _.
Arguments fg_eqb {G} _ _ _.
Arguments fg_irreps {G} _.

(** cyclicgroup.py:206-209 *)
Definition cyc_irreps (N : Z) : result (list (irrep Z)) :=
  rmap (cyc_irrep N) (map Z.of_nat (seq 0 (Z.to_nat (N / 2 + 1)))).

(** cyclicgroup.py:27-46: the group object *)
Definition cyc_fgroup (N : Z) : result (fgroup Z) :=
  rbind (cyc_group N) (fun _ =>
  rbind (cyc_irreps N) (fun irs =>
  Ok (MkFG (cyc_elements N) cyc_identity (cyc_combine N) (cyc_inverse N) cyc_equal irs))).

(** dihedralgroup.py:312-333: (0,0), then (1,k) for k = 0..N//2, then (0,N//2) if N is even *)
Definition dih_irreps (N : Z) : result (list (irrep (Z * Z))) :=
  rmap (fun jk => dih_irrep N (fst jk) (snd jk))
    ((0, 0)%Z :: map (fun k => (1%Z, Z.of_nat k)) (seq 0 (Z.to_nat (N / 2 + 1)))
     ++ (if Z.eqb (N mod 2) 0 then [(0, N / 2)%Z] else [])).

(** dihedralgroup.py:40-66 *)
Definition dih_fgroup (N : Z) : result (fgroup (Z * Z)) :=
  rbind (dih_group N) (fun _ =>
  rbind (dih_irreps N) (fun irs =>
  Ok (MkFG (dih_elements N) dih_identity (dih_combine N) (dih_inverse N) dih_equal irs))).

Section Builders.
Context {G : Type}.
Variable grp : fgroup G.

Definition order : nat := length (fg_elements grp).
(** [group.elements[i]] *)
Definition elem (i : nat) : G := nth i (fg_elements grp) (fg_id grp).

(** the dictionary [index = {e: i for i, e in enumerate(l)}] *)
Fixpoint index_in (l : list G) (e : G) : nat :=
  match l with
  | [] => O
  | x :: l' => if fg_eqb grp x e then O else S (index_in l' e)
  end.
Definition index (e : G) : nat := index_in (fg_elements grp) e.

(** representation.py:673-688: the permutation matrix of the left translation by e *)
Definition reg_perm (e : G) : mat := fun j i =>
  if (j =? index (fg_combine grp e (elem i)))%nat then 1 else 0.

(** representation.py:214-246: the character is the trace *)
Definition ir_character (ir : irrep G) (e : G) : R := trace (ir_size ir) (ir_mat ir e).

(** representation.py:693-709 (and 871-890): multiplicity of an irrep in the representation whose
    character is [chi]; AssertionError if it is not an integer. *)
Definition multiplicity (chi : G -> R) (ir : irrep G) : result nat :=
  let m := lsum (map (fun e => chi e * ir_character ir (fg_inverse grp e)) (fg_elements grp))
           / (INR order * INR (ir_sos ir)) in
  assert_ (if Req_EM_T m (IZR (py_round m)) then true else false) (Ok (Z.to_nat (py_round m))).

Definition multiplicities (chi : G -> R) : result (list (irrep G * nat)) :=
  rmap (fun ir => rbind (multiplicity chi ir) (fun m => Ok (ir, m))) (fg_irreps grp).

(** [irreps += [irrep] * multiplicity] *)
Definition expand (ms : list (irrep G * nat)) : list (irrep G) :=
  concat (map (fun p => repeat (fst p) (snd p)) ms).

(** representation.py:715-721: np.eye(m, s).reshape(-1) * sqrt(s) for every irrep, one after the other:
    copy number a of an irrep of size s gets the vector sqrt(s) * e_a *)
Definition reg_vec (ms : list (irrep G * nat)) : vec :=
  vcat (concat (map (fun p =>
    map (fun a => (ir_size (fst p), fun i => if (i =? a)%nat then sqrt (INR (ir_size (fst p))) else 0))
        (seq 0 (snd p))) ms)).

(** representation.py:649-736.  Returns the irreps, the change of basis and its transpose.
    Simplification: P = directsum(irreps) has identity change of basis, so P(e) is the block diagonal. *)
Definition build_regular : result (list (irrep G) * mat * mat) :=
  rbind (multiplicities (fun e => trace order (reg_perm e))) (fun ms =>
  assert_ (forallb (fun p => snd p <=? ir_size (fst p))%nat ms)
  (let irreps := expand ms in
   let cob := fun i c => mvec order (bdiag (blocks irreps (elem i))) (reg_vec ms) c / sqrt (INR order) in
   Ok (irreps, cob, mtr cob))).

(** group.py:234-250: the Representation object *)
Definition regular_representation : result (rep G) :=
  rbind build_regular (fun p =>
  let '(irreps, cob, inv) := p in
  Ok (MkRep "regular" irreps cob inv ["pointwise"; "norm"; "gated"; "concatenated"]%string)).

(** A subgroup as the builder uses it: elements, parent, child (group.subgroup). *)
Section Induced.
Context {H : Type}.
Variables (sub_elements : list H) (parent : H -> G) (child : G -> option H).

(** dictionary lookup in the association list [cosets] (latest entry first) *)
Fixpoint coset_of (l : list (G * G)) (x : G) : option G :=
  match l with
  | [] => None
  | (k, v) :: l' => if fg_eqb grp k x then Some v else coset_of l' x
  end.

(** representation.py:830-839: one iteration of the loop over the elements *)
Definition coset_step (st : list (G * G) * list G) (e : G) : list (G * G) * list G :=
  match coset_of (fst st) e with
  | Some _ => st
  | None => (rev (map (fun h => (fg_combine grp e (parent h), e)) sub_elements) ++ fst st,
             snd st ++ [e])
  end.
(** representation.py:824-841: [cosets] and the keys of [representatives] *)
Definition cosets_reps : list (G * G) * list G := fold_left coset_step (fg_elements grp) ([], []).
Definition representatives : list G := snd cosets_reps.
Definition coset (x : G) : option G := coset_of (fst cosets_reps) x.

(** representation.py:850-865: for the representative r, the row block index and the element h *)
Definition induced_entry (g r : G) : result (nat * H) :=
  let gr := fg_combine grp g r in
  match coset gr with
  | None => Err "KeyError"
  | Some g_r =>
      match child (fg_combine grp (fg_inverse grp g_r) gr) with
      | None => Err "AssertionError"
      | Some h => Ok (index_in representatives g_r, h)
      end
  end.

(** representation.py:848-869: the matrix of the induced representation at g, for an inducing
    representation of size s with matrices [rho] *)
Definition induced_matrix (s : nat) (rho : H -> mat) (g : G) : result mat :=
  rbind (rmap (induced_entry g) representatives) (fun ents =>
  Ok (fun row col =>
        match nth_error ents (col / s) with
        | Some (j, h) => if (row / s =? j)%nat then rho h (row mod s)%nat (col mod s)%nat else 0
        | None => 0
        end)).

(** entrywise comparison (np.allclose taken as equality) *)
Definition meqb (r c : nat) (A B : mat) : bool :=
  forallb (fun i => forallb (fun j => if Req_EM_T (A i j) (B i j) then true else false) (seq 0 c)) (seq 0 r).

(** representation.py:899-914 [build_commuting_matrix] *)
Definition commuting (sos t : nat) : mat :=
  if (sos =? 1)%nat then mid
  else if (t mod 2 =? 0)%nat then mid else mat2 0 (-1) 1 0.

(** representation.py:934-942: positions in the restricted irrep of the inducing irrep *)
Fixpoint positions (same : irrep H -> bool) (x : nat) (l : list (irrep H)) : list nat :=
  match l with
  | [] => []
  | ir :: l' => (if same ir then [x] else []) ++ positions same (x + ir_size ir) l'
  end.

(** irreps are compared by name, i.e. by frequencies (line 939) *)
Definition same_name (a b : irrep H) : bool :=
  (Z.eqb (ir_flip a) (ir_flip b) && Z.eqb (ir_freq a) (ir_freq b))%bool.

(** overwrite rows x..x+s-1 of V by E *)
Definition put_rows (x s : nat) (E V : mat) : mat := fun i c =>
  if ((x <=? i) && (i <? x + s))%nat then E (i - x)%nat c else V i c.

Variable restrict : irrep G -> result (rep H).

(** representation.py:924-968: the rows of v belonging to the irrep irr (multiplicity m): a list of m
    blocks of irr.size rows and the contribution to norm_squared. *)
Definition induced_rows (ir : irrep H) (p : irrep G * nat) : result (list (nat * mat) * R) :=
  let '(irr, m) := p in
  assert_ (m <=? ir_size irr)%nat
  (if (m =? 0)%nat then Ok ([], 0) else
   rbind (restrict irr) (fun res =>
   let J := positions (fun i => same_name i ir) 0 (rp_irreps res) in
   let nJ := length J in
   assert_ (ir_sos ir * nJ =? m * ir_sos irr)%nat
   (let N := if (m =? nJ)%nat then m else (ir_sos ir * nJ)%nat in
    let dr := if (m =? nJ)%nat then 1%nat else ir_sos irr in
    let block shift :=
      let V := fold_left (fun V i =>
                 let idx := (shift * ir_sos irr + i)%nat in
                 put_rows (nth (idx mod nJ) J O) (ir_size ir) (commuting (ir_sos ir) (idx / nJ)) V)
               (seq 0 dr) mzero in
      mscal (sqrt (INR (ir_size irr) / INR (ir_sos irr)))
            (mmul (ir_size irr) (rp_cob res) V) in
    Ok (map (fun shift => (ir_size irr, block shift)) (seq 0 m),
        INR N * INR (ir_size irr) / INR (ir_sos irr))))).

(** stack matrices with the same columns on top of each other *)
Fixpoint vstack (l : list (nat * mat)) : mat :=
  match l with
  | [] => mzero
  | (n, A) :: l' => fun i c => if (i <? n)%nat then A i c else vstack l' (i - n)%nat c
  end.

(** representation.py:779-988 [build_induced_representation] *)
Definition build_induced (ir : irrep H) : result (list (irrep G) * mat * mat) :=
  let q := (order / length sub_elements)%nat in
  let size := (ir_size ir * q)%nat in
  rbind (rmap (induced_matrix (ir_size ir) (ir_mat ir)) (fg_elements grp)) (fun mats =>
  rbind (multiplicities (fun e => trace size (nth (index e) mats mzero))) (fun ms =>
  rbind (rmap (induced_rows ir) ms) (fun rows =>
  let irreps := expand ms in
  let norm2 := lsum (map snd rows) in
  let v := mscal (/ sqrt norm2) (vstack (concat (map fst rows))) in
  let cob_inv := fun i c =>
    mmul size (bdiag (blocks irreps (nth (c / ir_size ir) representatives (fg_id grp)))) v i (c mod ir_size ir)%nat in
  let cob := mtr cob_inv in
  assert_ (meqb size size (mmul size cob_inv cob) mid)
  (assert_ (meqb size size (mmul size cob cob_inv) mid)
  (assert_ (forallb (fun g => meqb size size (mmul size (mmul size cob (bdiag (blocks irreps g))) cob_inv)
                                    (nth (index g) mats mzero)) (fg_elements grp))
  (Ok (irreps, cob, cob_inv))))))).

End Induced.

End Builders.
