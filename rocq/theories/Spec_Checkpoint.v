(** Specification for C62: checkpoints. *)
From Coq Require Import Reals ZArith String List Bool.
From Verif Require Import Base Model_Groups Model_Rep Model_FieldType Model_GSpace Model_Expansion Model_Conv Model_ConvT Model_Checkpoint.
Import ListNotations.
Open Scope R_scope.

Section Checkpoint.
Context {G B : Type}.
(** two networks with the same layers and names, in any states *)
Definition same_module (u u' : smod G B) : Prop :=
  match u, u' with
  | UConv m _, UConv m' _ => m = m'
  | UConvT m _, UConvT m' _ => m = m'
  | UPlain p _ _, UPlain p' _ _ => p = p'
  | _, _ => False
  end.
Definition same_architecture (n n' : net G B) : Prop := Forall2 (fun a a' => fst a = fst a' /\ same_module (snd a) (snd a')) n n'.

(** a layer after its constructor, with any initialisation of the parameters *)
Definition biases (cols : option (list vec)) : nat := match cols with Some l => length l | None => 0%nat end.
Definition volume (shape : list nat) : nat := fold_right Nat.mul 1%nat shape.
Definition sizes (p : plain G B) (vals : list (list R)) : Prop := Forall2 (fun nv v => length v = volume (snd nv)) (pl_names p) vals.
Definition built (u : smod G B) : Prop :=
  match u with
  | UConv m st => exists w b, length w = be_dimension kid_eqb (cv_exp m) /\ length b = biases (cv_bias m) /\ st = initial_state m w b
  | UConvT m st => exists w b, length w = be_dimension kid_eqb (tc_exp m) /\ length b = biases (tc_bias m) /\ st = initial_state_t m w b
  | UPlain p tr vals => tr = true /\ sizes p vals /\ NoDup (map fst (pl_names p)) /\
      (* forward changes values, not shapes *)
      forall tr vals x y, sizes p vals -> pl_forward p tr vals x = Ok y -> sizes p (snd y)
  end.
Definition built_net (n : net G B) : Prop := NoDup (map fst n) /\ forall a, In a n -> built (snd a).

(** the last call of train(mode) in a history, if there is one *)
Fixpoint last_mode (ops : list (hop G B)) : option bool :=
  match ops with
  | [] => None
  | o :: ops' => match last_mode ops' with Some b => Some b | None => match o with HTrain b => Some b | _ => None end end
  end.
(** in these states a convolution has the buffers filter and expanded_bias *)
Definition has_buffers (mode : option bool) : bool := match mode with Some true => false | _ => true end.
Definition is_conv (u : smod G B) : Prop := match u with UPlain _ _ _ => False | _ => True end.
(** the filter has the same shape after the constructor and after eval() *)
Definition ungrouped (u : smod G B) : Prop :=
  match u with
  | UConv m _ => nsum (map rp_size (be_in (cv_exp m))) = ct_size (cv_in m)
  | UConvT m _ => nsum (map rp_size (be_out (tc_exp m))) = ct_size (tc_out m)
  | UPlain _ _ _ => True
  end.
End Checkpoint.
