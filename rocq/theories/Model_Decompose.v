(** Model of build_from_discrete_group_representation: e2cnn/group/representation.py. *)
From Coq Require Import Reals ZArith String List Bool.
From Verif Require Import Base LinAlg Model_Groups Model_Rep Model_Regular Model_Fieldwise Model_Equality.
Import ListNotations.
Open Scope R_scope.

Section Decompose.
Context {G : Type} (grp : fgroup G).
(** the names of the irreps *)
Variable name : irrep G -> string.
(** representation.py:1330: sorted by name *)
Definition sort_mults (ms : list (irrep G * nat)) : list (irrep G * nat) := sort_by (fun p q => String.leb (name (fst p)) (name (fst q))) ms.

(** The numerical parts, which may return anything: [solve] is null, linalg.orth and find_orthogonal_matrix (representation.py:1071-1150, 1186-1226), the
    candidate for the change of basis; [linv] is scipy.linalg.inv *)
Variables (solve : nat -> (G -> mat) -> list (irrep G) -> result mat) (linv : nat -> mat -> result mat).
(** for each element in turn *)
Fixpoint each_element (check : G -> result bool) (els : list G) : result unit :=
  match els with
  | [] => Ok tt
  | e :: els' => rbind (check e) (fun b => assert_ b (each_element check els'))
  end.
(** representation.py:1153-1271 [compute_change_of_basis]; n: the size of the matrices; irs: the irreps with their multiplicities.  Simplification: if the
    sizes of the irreps do not add up to n, the reshape in find_orthogonal_matrix (or block_diag, without irreps) raises. *)
Definition compute_change_of_basis (n : nat) (rho : G -> mat) (irs : list (irrep G)) : result mat :=
  if negb (isizes irs =? n)%nat then Err "ValueError" else
  if (n =? 1)%nat then
    assert_ (forallb (fun e => if Req_EM_T (rho e 0%nat 0%nat) (bdiag (blocks irs e) 0%nat 0%nat) then true else false) (fg_elements grp)) (Ok (fun _ _ => 1))
  else
    rbind (solve n rho irs) (fun D =>
    rbind (linv n D) (fun Dinv =>
    rbind (each_element (fun e => np_allclose n n (rho e) (mmul n (mmul n D (bdiag (blocks irs e))) Dinv)) (fg_elements grp)) (fun _ => Ok D))).
(** representation.py:1274-1338 [decompose_representation] *)
Definition decompose_representation (n : nat) (rho : G -> mat) : result (mat * list (irrep G * nat)) :=
  rbind (multiplicities grp (fun e => trace n (rho e))) (fun ms =>
  rbind (compute_change_of_basis n rho (expand (sort_mults ms))) (fun cob => Ok (cob, sort_mults ms))).
(** A Representation whose matrices are stored in a dictionary: the decomposition, the matrices that are returned when it is called, and its character *)
Record stored : Type := MkStored { st_rep : rep G; st_call : G -> mat; st_character : G -> R }.
(** representation.py:383: sum([m * irrep.character(element) ...]) *)
Definition new_character (ms : list (irrep G * nat)) (e : G) : R := lsum (map (fun p => INR (snd p) * ir_character (fst p) e) ms).
(** representation.py:348-397, and 140-205 [Representation.__init__] with a dictionary.  [known]: the names in group.representations.  (The keys of the
    dictionary are the elements: rho is a function.) *)
Definition build_from_discrete (n : nat) (rho : G -> mat) (nm : string) (known : list string) (nonlin : list string) : result stored :=
  rbind (decompose_representation n rho) (fun d =>
  assert_ (negb (existsb (String.eqb nm) known))
  (rbind (linv n (fst d)) (fun inv =>
   rbind (np_allclose n n (mmul n (fst d) inv) mid) (fun b1 => assert_ b1
   (rbind (np_allclose n n (mmul n inv (fst d)) mid) (fun b2 => assert_ b2
   (Ok (MkStored (MkRep nm (expand (snd d)) (fst d) inv nonlin) rho (new_character (snd d)))))))))).
End Decompose.
Arguments MkStored {G} _ _ _. Arguments st_rep {G} _. Arguments st_call {G} _ _. Arguments st_character {G} _ _.
