(** Model of a forward method that combines layers with the arithmetic of GeometricTensors: a program whose variables hold
    tensors.  Skip connections are [OAdd], dense connections [OCat], branches [OGet]. *)
From Coq Require Import Reals ZArith String List Bool.
From Verif Require Import Base Model_Groups Model_Rep Model_FieldType Model_Tensor Model_GSpace Model_Conv Model_NormMax Model_Net.
Import ListNotations.
Open Scope R_scope.

(** torch's broadcasting of two sizes: equal, or one of them is 1 *)
Definition bdim (h h' : nat) : option nat :=
  if (h =? h')%nat then Some h else if (h =? 1)%nat then Some h' else if (h' =? 1)%nat then Some h else None.
(** the row that an expanded tensor reads *)
Definition bidx (h i : nat) : nat := if (h =? 1)%nat then 0%nat else i.
(** the position of x at which the pixel (i, j) of the expanded tensor is read *)
Definition bpx {A} (x : arr A) (i j : nat) : A := a_px x (bidx (a_h x) i) (bidx (a_w x) j).
(** torch's elementwise operation of two tensors of the same batch and channels *)
Definition elementwise {B} (f : R -> R -> R) (x y : arr (B -> vec)) : result (arr (B -> vec)) :=
  match bdim (a_h x) (a_h y), bdim (a_w x) (a_w y) with
  | Some h, Some w => Ok (MkArr h w (fun i j b c => f (bpx x i j b c) (bpx y i j b c)))
  | _, _ => Err "RuntimeError"
  end.

Section Graph.
Context {G B : Type} (fits : space G -> rep G -> bool).
Notation tensor := (arr (B -> vec) * ctype G)%type.
Notation teqb := (ft_eqb space_eqb rep_eqb).

(** geometric_tensor.py:549-562 [__add__], 564-577 [__sub__] *)
Definition t_binary (f : R -> R -> R) (a b : tensor) : result tensor :=
  assert_ (teqb (snd a) (snd b)) (rbind (elementwise f (fst a) (fst b)) (fun y => Ok (y, snd a))).
(** geometric_tensor.py:579-593 [__iadd__], 595-609 [__isub__]: the new value of self; torch rejects an operand that would enlarge it *)
Definition t_inplace (f : R -> R -> R) (a b : tensor) : result tensor :=
  rbind (t_binary f a b) (fun y =>
  if ((a_h (fst y) =? a_h (fst a)) && (a_w (fst y) =? a_w (fst a)))%nat%bool then Ok y else Err "RuntimeError").
(** geometric_tensor.py:611-631 [__mul__], 633-650 [__imul__] *)
Definition t_mul (a : tensor) (s : scalar) : result tensor :=
  match s with
  | SFloat c | STensor [c] => Ok (MkArr (a_h (fst a)) (a_w (fst a)) (fun i j b k => a_px (fst a) i j b k * c), snd a)
  | STensor _ => Err "AssertionError"
  end.
(** geometric_tensor.py:660-699 [tensor_directsum]: the comparison of the shapes, then Model_FieldType.tensor_directsum *)
Definition t_cat (l : list tensor) : result tensor :=
  match l with
  | [] => Err "IndexError"
  | x0 :: _ =>
    assert_ (forallb (fun x : tensor => (a_h (fst x) =? a_h (fst x0)) && (a_w (fst x) =? a_w (fst x0)))%nat%bool l)
    (rbind (tensor_directsum rp_size fits space_eqb (map (fun x : tensor => MkGT (channels (ct_size (snd x)) (fst x)) (snd x)) l)) (fun y =>
     Ok (image (a_h (fst x0)) (a_w (fst x0)) (gt_data y), gt_type y)))
  end.
(** geometric_tensor.py:397-547 [__getitem__] with one index, of the fields *)
Definition t_get (x : tensor) (i : chan_idx) : result tensor := on_channels (fun X => getitem rp_size fits X i) x.

(** Statements of a forward method.  The variables are numbered; a statement makes a new variable or, in place, changes one.
    Simplification: no two variables share memory (a layer that works in place or returns its argument, and the views that slicing
    makes, are followed by no in-place operation). *)
Inductive op : Type :=
| OLayer (l : layer G) (i : nat)   (* y = layer(x_i) *)
| OAdd (i j : nat)                 (* y = x_i + x_j *)
| OSub (i j : nat)                 (* y = x_i - x_j *)
| OMul (i : nat) (s : scalar)      (* y = x_i * s *)
| OCat (is : list nat)             (* y = tensor_directsum([x_i, ...]) *)
| OGet (i : nat) (k : chan_idx)    (* y = x_i[:, k] *)
| OIAdd (i j : nat)                (* x_i += x_j *)
| OISub (i j : nat)                (* x_i -= x_j *)
| OIMul (i : nat) (s : scalar).    (* x_i *= s *)

Definition var {A} (st : list A) (i : nat) : result A := match nth_error st i with Some x => Ok x | None => Err "NameError" end.
Definition assign {A} (st : list A) (i : nat) (x : A) : list A := firstn i st ++ x :: skipn (S i) st.

Section Exec.
Variables (argmax : list R -> nat) (junk : nat -> B * (nat * nat) -> R) (junkn : nat -> nat -> R) (cob_id : rep G -> bool) (bt : batch B).
Definition exec (o : op) (st : list tensor) : result (list tensor) :=
  match o with
  | OLayer l i => rbind (var st i) (fun x => rbind (layer_forward argmax junk junkn cob_id bt l x) (fun y => Ok (st ++ [y])))
  | OAdd i j => rbind (var st i) (fun x => rbind (var st j) (fun y => rbind (t_binary Rplus x y) (fun z => Ok (st ++ [z]))))
  | OSub i j => rbind (var st i) (fun x => rbind (var st j) (fun y => rbind (t_binary Rminus x y) (fun z => Ok (st ++ [z]))))
  | OMul i s => rbind (var st i) (fun x => rbind (t_mul x s) (fun z => Ok (st ++ [z])))
  | OCat is => rbind (rmap (var st) is) (fun xs => rbind (t_cat xs) (fun z => Ok (st ++ [z])))
  | OGet i k => rbind (var st i) (fun x => rbind (t_get x k) (fun z => Ok (st ++ [z])))
  | OIAdd i j => rbind (var st i) (fun x => rbind (var st j) (fun y => rbind (t_inplace Rplus x y) (fun z => Ok (assign st i z))))
  | OISub i j => rbind (var st i) (fun x => rbind (var st j) (fun y => rbind (t_inplace Rminus x y) (fun z => Ok (assign st i z))))
  | OIMul i s => rbind (var st i) (fun x => rbind (t_mul x s) (fun z => Ok (assign st i z)))
  end.
Fixpoint run_ops (ops : list op) (st : list tensor) : result (list tensor) :=
  match ops with [] => Ok st | o :: ops' => rbind (exec o st) (run_ops ops') end.
End Exec.
End Graph.
Arguments op : clear implicits.
