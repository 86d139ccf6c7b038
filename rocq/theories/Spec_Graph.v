(** Specification for C61: forward methods that combine layers with the arithmetic of tensors. *)
From Coq Require Import Reals ZArith String List Bool.
From Verif Require Import Base Model_Groups Model_Rep Model_FieldType Model_Tensor Model_GSpace Spec_GSpace Model_Conv Model_NormMax Model_Net Spec_Net Spec_Move Model_Graph.
Import ListNotations.
Open Scope R_scope.

Section Graph.
Context {G B : Type} (sp : space G) (isrep : rep G -> Prop) (e : gelt) (g : G) (argmax : list R -> nat) (cob_id : rep G -> bool) (bt : batch B) (fits : space G -> rep G -> bool).
Notation tensor := (arr (B -> vec) * ctype G)%type.
(** the layers that the method calls are equivariant ones *)
Definition good_op (o : op G) : Prop := match o with OLayer l _ => good_layer sp isrep e g cob_id fits l | _ => True end.
(** every layer gets inputs for which it is equivariant (Spec_Net.suits) *)
Section Way.
Variables (junk : nat -> B * (nat * nat) -> R) (junkn : nat -> nat -> R).
Definition suits_op (o : op G) (st : list tensor) : Prop :=
  match o with
  | OLayer l i => forall x y, nth_error st i = Some x -> layer_forward argmax junk junkn cob_id bt l x = Ok y -> suits bt l (fst x) (fst y)
  | _ => True
  end.
Fixpoint suits_ops (ops : list (op G)) (st : list tensor) : Prop :=
  match ops with
  | [] => True
  | o :: ops' => suits_op o st /\ forall st', exec fits argmax junk junkn cob_id bt o st = Ok st' -> suits_ops ops' st'
  end.
End Way.
(** x' is x transformed by e: a tensor of the same type that holds what [transform] returns *)
Definition transforms (interp : forall A : Type, R -> R -> arr A -> arr A) (x x' : tensor) : Prop :=
  snd x' = snd x /\ exists y, field_transform interp (snd x) (fst x) e = Ok y /\ same_field (ct_size (snd x)) (fst x') y.
End Graph.

(** ** Rolled images (Spec_Move): every variable has its own axes *)
(** sizes and rolls of the operands and the result of an elementwise operation *)
Definition expands (u u' v : axis) : Prop := (u = v /\ (u' = v \/ fst u' = 1%nat)) \/ (fst u = 1%nat /\ u' = v).
Section Rolls.
Context {G B : Type}.
Notation tensor := (arr (B -> vec) * ctype G)%type.
Inductive wraps_op (n : nat) : op G -> list (axis * axis) -> list (axis * axis) -> Prop :=
| wo_layer l i us u v : nth_error us i = Some u -> wraps n l u v -> wraps_op n (OLayer l i) us (us ++ [v])
| wo_add i j us u u' v : nth_error us i = Some u -> nth_error us j = Some u' -> expands (fst u) (fst u') (fst v) -> expands (snd u) (snd u') (snd v) -> wraps_op n (OAdd i j) us (us ++ [v])
| wo_sub i j us u u' v : nth_error us i = Some u -> nth_error us j = Some u' -> expands (fst u) (fst u') (fst v) -> expands (snd u) (snd u') (snd v) -> wraps_op n (OSub i j) us (us ++ [v])
| wo_mul i s us u : nth_error us i = Some u -> wraps_op n (OMul i s) us (us ++ [u])
| wo_cat is us u : Forall (fun i => nth_error us i = Some u) is -> wraps_op n (OCat is) us (us ++ [u])
| wo_get i k us u : nth_error us i = Some u -> wraps_op n (OGet i k) us (us ++ [u])
| wo_iadd i j us u u' : nth_error us i = Some u -> nth_error us j = Some u' -> expands (fst u) (fst u') (fst u) -> expands (snd u) (snd u') (snd u) -> wraps_op n (OIAdd i j) us us
| wo_isub i j us u u' : nth_error us i = Some u -> nth_error us j = Some u' -> expands (fst u) (fst u') (fst u) -> expands (snd u) (snd u') (snd u) -> wraps_op n (OISub i j) us us
| wo_imul i s us : wraps_op n (OIMul i s) us us.
Inductive wraps_ops (n : nat) : list (op G) -> list (axis * axis) -> list (axis * axis) -> Prop :=
| wos_nil us : wraps_ops n [] us us
| wos_cons o ops us vs ws : wraps_op n o us vs -> wraps_ops n ops vs ws -> wraps_ops n (o :: ops) us ws.
(** x' is x rolled: u says how large x is and how far it is rolled *)
Definition rolls (u : axis * axis) (x x' : tensor) : Prop :=
  snd x' = snd x /\ a_h (fst x) = fst (fst u) /\ a_w (fst x) = fst (snd u) /\ rolled (ct_size (snd x)) (snd (fst u)) (snd (snd u)) (fst x) (fst x').
(** every variable of the one run is the rolled variable of the other *)
Definition all_rolled (us : list (axis * axis)) (st st' : list tensor) : Prop :=
  length st = length us /\ length st' = length us /\
  forall i u x x', nth_error us i = Some u -> nth_error st i = Some x -> nth_error st' i = Some x' -> rolls u x x'.
End Rolls.
