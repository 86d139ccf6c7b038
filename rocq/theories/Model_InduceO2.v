(** Model of the representations of O(2) induced from its subgroup SO(2): e2cnn/group/groups/o2group.py, e2cnn/group/group.py. *)
From Coq Require Import Reals ZArith String List Bool.
From Verif Require Import Base Model_Groups Model_Rep Model_Regular Model_Support.
Import ListNotations.
Open Scope R_scope.

(** o2group.py:449-478 [build_commuting_matrix(rho, t)]; s is rho.size.  [vec]: E.reshape(-1, 1); [A]: np.fliplr(np.eye(4)) with its columns
    multiplied by 1, -1, -1, 1 *)
Definition build_commuting_matrix (s t : nat) : mat :=
  let E := if (s =? 1)%nat then mid else let E := mat2 1 (-1) 1 1 in if (t mod 2 =? 0)%nat then mtr E else E in
  let A : mat := fun i j => mid i (3 - j)%nat * nth j [1; -1; -1; 1] 0 in
  let M := if (s =? 1)%nat then mscal (2 * PI) mid else mscal PI (madd A mid) in
  let n := (s * s)%nat in
  let vec := fun i => E (i / s)%nat (i mod s)%nat in
  let X := fun i => rsum n (fun j => M i j * vec j) / (2 * PI) in
  let c := sqrt (rsum n (fun i => rsum n (fun j => X i * X j)) / INR s) in
  fun i j => X (i * s + j)%nat / c.

(** v[:, x:x + w] = X *)
Definition set_cols (v : mat) (x w : nat) (X : mat) : mat := fun i j => if ((x <=? j) && (j <? x + w))%nat%bool then X i (j - x)%nat else v i j.
(** v[:, x:] *)
Definition cols_from (v : mat) (x : nat) : mat := fun i j => v i (x + j)%nat.

(** o2group.py:494-501: the loop over the irreps of the restriction; irreps of SO(2) have equal names when their frequencies are equal *)
Fixpoint place (s : nat) (k : Z) (pos : nat) (X : mat) (rs : list (irrep R)) (x i : nat) (v : mat) : mat :=
  match rs with
  | [] => v
  | q :: rs' =>
    let hit := Z.eqb (ir_freq q) k in
    let v' := if (hit && (i =? pos)%nat)%bool then set_cols v x s X else v in
    place s k pos X rs' (x + ir_size q)%nat (if hit then S i else i) v'
  end.

(** o2group.py:491-506: the loop over [shift] in range(m), with the state (p, v) *)
Definition shift_step (s : nat) (k : Z) (irr : irrep (Z * R)) (restricted : rep R) (n_rep : nat) (st : nat * mat) (shift : nat) : nat * mat :=
  let (p, v) := st in
  let X := build_commuting_matrix s (shift / n_rep) in
  let v1 := place s k (shift mod n_rep) X (rp_irreps restricted) p 0 v in
  let w := ir_size irr in
  let v2 := set_cols v1 p w (mmul w (cols_from v1 p) (rp_inv restricted)) in
  let v3 := set_cols v2 p w (mscal (sqrt (INR w)) (cols_from v2 p)) in
  ((p + w)%nat, v3).

(** o2group.py:480-506: the loop over the irreps and their multiplicities *)
Fixpoint mult_loop (s : nat) (k : Z) (restrict : irrep (Z * R) -> result (rep R)) (ms : list (irrep (Z * R) * nat)) (st : nat * mat) : result (nat * mat) :=
  match ms with
  | [] => Ok st
  | (irr, m) :: ms' =>
    assert_ (m <=? ir_size irr)%nat
    (if (0 <? m)%nat then
       rbind (restrict irr) (fun restricted =>
       let n_rep := length (filter (fun q => Z.eqb (ir_freq q) k) (rp_irreps restricted)) in
       assert_ (m <=? s * n_rep)%nat
       (mult_loop s k restrict ms' (fold_left (shift_step s k irr restricted n_rep) (seq 0 m) st)))
     else mult_loop s k restrict ms' st)
  end.

(** [self.restrict_representation((None, -1), irr)], group.py:361-420: change_of_basis_inv is computed by scipy.linalg.inv, here [linv].  (What 417-418 add
    to the nonlinearities is not used.) *)
Definition o2_restrict (linv : nat -> mat -> result mat) (irr : irrep (Z * R)) : result (rep R) :=
  let r := rep_of_irrep "irr" irr in
  rbind (restrict_representation "O(2)" (o2_restrict_one_S (None, -1)%Z) r mid) (fun q =>
  rbind (linv (ir_size irr) (rp_cob q)) (fun inv => Ok (MkRep (rp_name q) (rp_irreps q) (rp_cob q) inv (rp_nonlin q)))).

(** o2group.py:63 [self.reflection] *)
Definition o2_reflection : Z * R := (1%Z, 0).

(** o2group.py:419-518 [_induced_from_irrep(subgroup_id, repr)], repr an irrep of SO(2).  Simplification: the assertion repr.group == subgroup and the
    growth of the lists of irreps are in Model_Hist. *)
Definition o2_induced_from_irrep (linv : nat -> mat -> result mat) (id : option R * Z) (repr : irrep R) : result (list (irrep (Z * R)) * mat * mat) :=
  match id with
  | (None, (-1)%Z) =>
    let s := ir_size repr in
    let k := ir_freq repr in
    rbind (if (0 <? k)%Z then rbind (o2_irrep 1 k) (fun ir => Ok [(ir, 2%nat)])
           else rbind (o2_irrep 0 0) (fun a => rbind (o2_irrep 1 0) (fun b => Ok [(a, 1%nat); (b, 1%nat)]))) (fun ms =>
    let irreps := flat_map (fun p => repeat (fst p) (snd p)) ms in
    let size := isizes irreps in
    rbind (mult_loop s k (o2_restrict linv) ms (0%nat, mzero)) (fun st =>
    let v : mat := fun i j => snd st i j / sqrt (INR size) in
    let P e := bdiag (blocks irreps e) in
    let cob : mat := fun i j => if (i <? s)%nat then mmul size v (P o2_identity) i j else mmul size v (P o2_reflection) (i - s)%nat j in
    Ok (irreps, cob, mtr cob)))
  | _ => Err "ValueError"
  end.

(** group.py:300-331 [induced_representation(id, repr)] and, for the trivial representation, group.py:254-298 [quotient_representation(id)]: the first call with this
    name.  (The constructor's assertions on the change of basis: [rep_accepted], Model_Rep.) *)
Definition o2_induced_representation (linv : nat -> mat -> result mat) (name : string) (id : option R * Z) (repr : irrep R) : result (rep (Z * R)) :=
  rbind (o2_induced_from_irrep linv id repr) (fun p =>
  Ok (MkRep name (fst (fst p)) (snd (fst p)) (snd p) (induced_nonlinearities (ir_size repr) (ir_nonlin repr)))).
Definition o2_quotient_representation (linv : nat -> mat -> result mat) (id : option R * Z) : result (rep (Z * R)) :=
  rbind (so2_irrep 0) (o2_induced_representation linv "quotient" id).
