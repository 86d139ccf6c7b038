(** Small, model-independent specifications: what a group, a representation,
    an embedding of a subgroup and a restriction are, in textbook terms. *)
From Coq Require Import Reals List ZArith.
From Verif Require Import Base.
Import ListNotations.
Open Scope R_scope.

(** The group axioms on the elements satisfying [el], up to the equality [eqv]. *)
Record group_laws {G : Type} (el : G -> Prop) (eqv : G -> G -> Prop)
       (op : G -> G -> G) (inv : G -> G) (e : G) : Prop := {
  gl_id_el  : el e;
  gl_op_el  : forall a b, el a -> el b -> el (op a b);
  gl_inv_el : forall a, el a -> el (inv a);
  gl_assoc  : forall a b c, el a -> el b -> el c -> eqv (op (op a b) c) (op a (op b c));
  gl_id_l   : forall a, el a -> eqv (op e a) a;
  gl_id_r   : forall a, el a -> eqv (op a e) a;
  gl_inv_l  : forall a, el a -> eqv (op (inv a) a) e;
  gl_inv_r  : forall a, el a -> eqv (op a (inv a)) e
}.

(** [rho] is an n-dimensional real representation. *)
Definition is_representation {G : Type} (el : G -> Prop) (op : G -> G -> G) (e : G)
           (n : nat) (rho : G -> mat) : Prop :=
  meq n n (rho e) mid /\
  (forall a b, el a -> el b -> meq n n (rho (op a b)) (mmul n (rho a) (rho b))).

(** every matrix of the representation is orthogonal *)
Definition is_orthogonal_rep {G : Type} (el : G -> Prop) (n : nat) (rho : G -> mat) : Prop :=
  forall a, el a -> orthogonal n (rho a).

(** [f] embeds the group (H, elH, opH, eH) into (G, elG, opG, eG): injective homomorphism. *)
Record embedding {H G : Type} (elH : H -> Prop) (eqH : H -> H -> Prop) (opH : H -> H -> H) (eH : H)
       (elG : G -> Prop) (eqG : G -> G -> Prop) (opG : G -> G -> G) (eG : G) (f : H -> G) : Prop := {
  em_el  : forall a, elH a -> elG (f a);
  em_id  : eqG (f eH) eG;
  em_hom : forall a b, elH a -> elH b -> eqG (f (opH a b)) (opG (f a) (f b));
  em_inj : forall a b, elH a -> elH b -> eqG (f a) (f b) -> eqH a b
}.

(** The matrix families [rho] (size n) on G, restricted along [f], and [rho'] on H agree. *)
Definition restricts_to {H G : Type} (elH : H -> Prop) (f : H -> G) (n : nat)
           (rho : G -> mat) (rho' : H -> mat) : Prop :=
  forall h, elH h -> meq n n (rho' h) (rho (f h)).
