(** Model of check_equivariance: e2cnn/nn/modules/equivariant_module.py, sequential_module.py, and the methods of the modules that work on every
    pixel.  What is printed is dropped; exceptions stay. *)
From Coq Require Import Reals ZArith String List Bool.
From Verif Require Import Base Model_Groups Model_Rep Model_FieldType Model_Utils Model_Modules Model_GSpace Model_Tensor Model_Conv Model_Net Model_Train.
Import ListNotations.
Open Scope R_scope.

(** [testing_elements()]: cyclicgroup.py:101-106, dihedralgroup.py:122-126, so2group.py:100-105, o2group.py:122-127; gspace.py:304-305,
    field_type.py:458-467 *)
Definition testing_angle (i : nat) : R := INR i * 2 * PI / INR (4 * 13).
Definition testing_elements (g : fgroup) : list gelt :=
  match g with
  | GC N => map EI (cyc_elements N)
  | GD N => map mk_EFI (dih_elements N)
  | GSO2 _ => map (fun i => ER (testing_angle i)) (seq 0 (4 * 13))
  | GO2 _ => map (fun i => EFR 0 (testing_angle i)) (seq 0 (4 * 13)) ++ map (fun i => EFR 1 (testing_angle i)) (seq 0 (4 * 13))
  end%list.

Section Check.
Context {G B : Type} (bt : batch B).
Notation tensor := (arr (B -> vec) * ctype G)%type.
(** the entries of a tensor with n channels, in the order of its memory *)
Definition all_entries (n : nat) (y : arr (B -> vec)) : list R :=
  flat_map (fun b => flat_map (fun c => flat_map (fun i => map (fun j => a_px y i j (bt_at bt b) c) (seq 0 (a_w y))) (seq 0 (a_h y))) (seq 0 n)) (seq 0 (bt_n bt)).
Definition mean (l : list R) : R := fold_right Rplus 0 l / INR (length l).
(** numpy.allclose on one entry: |a - b| <= atol + rtol * |b| *)
Definition close (atol rtol a b : R) : bool := if Rle_dec (Rabs (a - b)) (atol + rtol * Rabs b) then true else false.
(** equivariant_module.py:107-117: the error of out1 against out2.  Tensors of different shapes cannot be subtracted (simplification: numpy
    broadcasts dimensions of size one); max() of an array without entries raises *)
Definition compare (atol rtol : R) (out1 out2 : tensor) : result R :=
  if negb ((a_h (fst out1) =? a_h (fst out2)) && (a_w (fst out1) =? a_w (fst out2)) && (ct_size (snd out1) =? ct_size (snd out2)))%nat%bool then Err "ValueError"%string else
  let ps := combine (all_entries (ct_size (snd out1)) (fst out1)) (all_entries (ct_size (snd out2)) (fst out2)) in
  match ps with
  | [] => Err "ValueError"%string
  | _ => assert_ (forallb (fun p => close atol rtol (fst p) (snd p)) ps) (Ok (mean (map (fun p => Rabs (fst p - snd p)) ps)))
  end.
(** equivariant_module.py:79-117, and with [transform_fibers] nonlinearities/: relu.py:75-99, elu.py:77-101, pointwise.py:90-114, norm.py:205-229,
    induced_norm.py:219-243, gated1.py:261-285, induced_gated1.py:275-299, concatenated.py:93-117, vectorfield.py:103-127; invariantmaps/: gpool.py:133-157,
    norm.py:118-142, induced_norm.py:153-177: for each element,
    out1 = self(x) transformed, out2 = self(x transformed).  [x]: the random tensor; [call]: the calls, which may change the state of the
    module; [move]: the transformation.  (self.space.testing_elements and self.out_type.testing_elements are the same list.) *)
Section Loop.
Context {St : Type} (call : St -> tensor -> result (tensor * St)) (move : tensor -> gelt -> result tensor) (atol rtol : R) (x : tensor).
Fixpoint check_loop (els : list gelt) (s : St) : result (list (gelt * R) * St) :=
  match els with
  | [] => Ok ([], s)
  | e :: els' =>
    rbind (call s x) (fun r1 =>
    rbind (move (fst r1) e) (fun out1 =>
    rbind (move x e) (fun x' =>
    rbind (call (snd r1) x') (fun r2 =>
    rbind (compare atol rtol out1 (fst r2)) (fun err =>
    rbind (check_loop els' (snd r2)) (fun r => Ok ((e, err) :: fst r, snd r)))))))
  end.
End Loop.
(** geometric_tensor.py:310-331 [transform] *)
Definition move_full (interp : forall A : Type, R -> R -> arr A -> arr A) (x : tensor) (e : gelt) : result tensor :=
  rbind (field_transform interp (snd x) (fst x) e) (fun y => Ok (y, snd x)).
(** geometric_tensor.py:333-366 [transform_fibers]; representation.py:290-309: the element must be one of the group *)
Definition move_fibers (x : tensor) (e : gelt) : result tensor :=
  assert_ (fg_is_element (sp_group (sp_obj (ft_gs (snd x)))) e)
  match sp_prj (ft_gs (snd x)) e with
  | None => Err "TypeError"%string
  | Some g => rbind (transform_fibers (ft_reps (snd x)) g (fun q : (nat * nat) * B => a_px (fst x) (fst (fst q)) (snd (fst q)) (snd q))) (fun d =>
      Ok (MkArr (a_h (fst x)) (a_w (fst x)) (fun i j b => d ((i, j), b)), snd x))
  end.

(** sequential_module.py:114-115: the modules of the sequence, called one after the other.  The state: how many calls there have been (each finds
    different things in uninitialised memory), and the modules *)
Definition net_call (argmax : list R -> nat) (cob_id : rep G -> bool) (junks : nat -> nat -> B * (nat * nat) -> R) (junkns : nat -> nat -> nat -> R)
  (s : nat * list (layer G)) (x : tensor) : result (tensor * (nat * list (layer G))) :=
  rbind (call_all argmax cob_id (junks (fst s)) (junkns (fst s)) bt (snd s) x) (fun r => Ok (fst r, (S (fst s), snd r))).
Definition check_network argmax cob_id junks junkns interp (atol rtol : R) (net : list (layer G)) (x : tensor) : result (list (gelt * R) * list (layer G)) :=
  rbind (check_loop (net_call argmax cob_id junks junkns) (move_full interp) atol rtol x (testing_elements (sp_group (sp_obj (ft_gs (snd x))))) (0%nat, net))
    (fun r => Ok (fst r, snd (snd r))).
(** a module on its own that is checked with [transform_fibers] *)
Definition check_module argmax cob_id junks junkns (atol rtol : R) (l : layer G) (x : tensor) : result (list (gelt * R)) :=
  rbind (check_loop (net_call argmax cob_id junks junkns) move_fibers atol rtol x (testing_elements (sp_group (sp_obj (ft_gs (snd x))))) (0%nat, [l])) (fun r => Ok (fst r)).
(** the check of a module of the user: a function of tensors, without state *)
Definition check_function (f : tensor -> result tensor) (move : tensor -> gelt -> result tensor) (atol rtol : R) (x : tensor) : result (list (gelt * R)) :=
  rbind (check_loop (fun (_ : unit) x => rbind (f x) (fun y => Ok (y, tt))) move atol rtol x (testing_elements (sp_group (sp_obj (ft_gs (snd x))))) tt) (fun r => Ok (fst r)).
End Check.
