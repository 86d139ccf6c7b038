(** Model of e2cnn/nn/modules/dropout/{field,pointwise}.py.
    The random numbers are a parameter. *)
From Coq Require Import Reals ZArith String List Bool.
From Verif Require Import Base Model_Groups Model_Rep Model_FieldType Model_Utils Model_Modules Model_Fieldwise.
Import ListNotations.
Open Scope R_scope.

Section Dropout.
Context {GS G X : Type} (gs_eqb : GS -> GS -> bool) (rp_eqb : rep G -> rep G -> bool).
Notation ftype := (ftype GS (rep G)).
Notation chan := (X -> R).
Notation gtensor := (gtensor GS (rep G) chan).
Notation type_eqb := (ft_eqb gs_eqb rp_eqb).

(** field.py:33-34: mask.uniform_() > p, as a float; [u]: the uniform numbers of one field (dimension 2 of the mask, the
    channels of a field, has size 1) *)
Definition drop_mask (p : R) (u : chan) : chan := fun q => if Rlt_dec p (u q) then 1 else 0.
(** field.py:20-43 [dropout_field] in training mode, on the fields of one group; [u j]: the numbers of field j of the group.
    For p = 1 the mask is zero (uniform_ is below 1) and is divided by zero: the result is not a number. *)
Definition dropout_field (p : R) (inplace : bool) (u : nat -> chan) (s : nat) (fm : list chan) : result (list chan) :=
  rbind (view_fields s fm) (fun bl =>
  if Req_EM_T p 1 then Err "nan"%string
  else Ok (concat (map (fun jb => map (fun c : chan => fun q =>
         if inplace then c q * (drop_mask p (u (fst jb)) q / (1 - p)) else c q * drop_mask p (u (fst jb)) q / (1 - p)) (snd jb)) (enumerate bl)))).

Record fdrop : Type := MkFD { fd_in : ftype; fd_p : R; fd_inplace : bool; fd_idx : list (string * chan_set) }.
(** field.py:46-114 [__init__] *)
Definition fdrop_make (t : ftype) (p : R) (inplace : bool) : result fdrop :=
  if Rlt_dec p 0 then Err "ValueError"%string else if Rlt_dec 1 p then Err "ValueError"%string
  else rbind (group_index (by_size t)) (fun idx => Ok (MkFD t p inplace idx)).
(** field.py:114: the order of the dict *)
Definition fd_order (m : fdrop) : list nat := first_seen Nat.eqb (map rp_size (ft_reps (fd_in m))).
(** field.py:137-155 with inplace: the slice of a contiguous group is a view of the input tensor, which is modified through
    it; indexing with a list of channels makes a copy, whose modification is lost *)
Fixpoint inplace_loop (m : fdrop) (u : nat -> nat -> chan) (order : list nat) (cur : list chan) : result (list chan) :=
  match order with
  | [] => Ok cur
  | s :: order' =>
    rbind (attr_of (fd_idx m) (py_str s)) (fun ci =>
    rbind (gather ci cur) (fun fm =>
    rbind (dropout_field (fd_p m) true (u s) s fm) (fun vals =>
    rbind (match ci with CSlice _ _ => scatter ci cur vals | CList _ => Ok cur end) (fun cur' =>
    inplace_loop m u order' cur'))))
  end.
(** field.py:116-161 [forward]: the result, and the contents of the input tensor afterwards; [u s j]: the random numbers of
    the j-th field of size s *)
Definition fdrop_forward (training : bool) (junk : nat -> chan) (u : nat -> nat -> chan) (m : fdrop) (x : gtensor)
  : result (gtensor * list chan) :=
  assert_ (type_eqb (gt_type x) (fd_in m))
  (if negb training then Ok (x, gt_data x)
   else if fd_inplace m then
     rbind (inplace_loop m u (fd_order m) (gt_data x)) (fun d => rbind (mk_gt rp_size d (fd_in m)) (fun y => Ok (y, d)))
   else
     rbind (group_loop py_str (fd_idx m) (fd_idx m) (fun _ => 0%nat)
              (fun s _ fm => dropout_field (fd_p m) false (u s) s fm)
              (gt_data x) (fd_order m) 0 (empty junk (length (gt_data x)))) (fun d =>
     rbind (mk_gt rp_size d (fd_in m)) (fun y => Ok (y, gt_data x)))).

(** pointwise.py:18-52 [__init__] *)
Record pdrop : Type := MkPD { pd_in : ftype; pd_p : R }.
Definition pdrop_make (t : ftype) (p : R) : result pdrop :=
  if Rlt_dec p 0 then Err "ValueError"%string else if Rlt_dec 1 p then Err "ValueError"%string
  else assert_ (all_support "pointwise" t) (Ok (MkPD t p)).
(** pointwise.py:54-70 [forward]; F.dropout keeps every entry, divided by 1 - p, where the mask is one, and gives zero elsewhere
    (everywhere if p = 1); [u i]: the random numbers of channel i *)
Definition pdrop_forward (training : bool) (u : nat -> chan) (m : pdrop) (x : gtensor) : result gtensor :=
  assert_ (type_eqb (gt_type x) (pd_in m))
  (mk_gt rp_size (if negb training then gt_data x else
     map (fun ic => fun q => if Req_EM_T (pd_p m) 1 then 0 else if Rlt_dec (pd_p m) (u (fst ic) q) then snd ic q / (1 - pd_p m) else 0)
       (enumerate (gt_data x))) (pd_in m)).
End Dropout.
