(** Model of SequentialModules inside SequentialModules (sequential_module.py): a SequentialModule is itself an EquivariantModule. *)
From Coq Require Import Reals ZArith String List Bool.
From Verif Require Import Base Model_Groups Model_Rep Model_FieldType Model_Utils Model_Modules Model_GSpace Model_Conv Model_Pool Model_NormMax Model_Net Model_Export Model_Shape.
Import ListNotations.

(** An expression SequentialModule(a, SequentialModule(b, c), ...): modules and sequences of such expressions *)
Inductive tree (A : Type) : Type := Leaf (a : A) | Node (l : list (tree A)).
Arguments Leaf {A} _.
Arguments Node {A} _.
Definition tmap {A B} (f : A -> B) : tree A -> tree B :=
  fix go (t : tree A) : tree B := match t with Leaf a => Leaf (f a) | Node l => Node (map go l) end.

Section Build.
Context {T X : Type} (type_eqb : T -> T -> bool) (ty : X -> T) (attr : string -> bool).
(** sequential_module.py:19-84: the object as a module of another one.  Without modules its types are None: an outer SequentialModule then
    raises, or stores None; taken as an error here *)
Definition seq_module (s : seqmod T X) : result (emodule T X) :=
  match sq_in s, sq_out s with Some i, Some o => Ok (MkEM i o (seq_forward type_eqb ty s)) | _, _ => Err "AttributeError"%string end.
(** evaluation of the expression: the arguments first *)
Fixpoint build (t : tree (emodule T X)) : result (emodule T X) :=
  match t with
  | Leaf m => Ok m
  | Node l => rbind ((fix args (l : list (tree (emodule T X))) : result (list (emodule T X)) :=
                        match l with [] => Ok [] | a :: l' => rbind (build a) (fun m => rbind (args l') (fun ms => Ok (m :: ms))) end) l)
              (fun ms => rbind (seq_make type_eqb attr ms) seq_module)
  end.
End Build.

(** sequential_module.py:117-136 [export]: of every module in turn *)
Definition texport {A B} (f : A -> result B) : tree A -> result (tree B) :=
  fix go (t : tree A) : result (tree B) :=
    match t with
    | Leaf a => rbind (f a) (fun b => Ok (Leaf b))
    | Node l => rbind ((fix all (l : list (tree A)) : result (list (tree B)) :=
                          match l with [] => Ok [] | a :: l' => rbind (go a) (fun b => rbind (all l') (fun bs => Ok (b :: bs))) end) l)
                (fun bs => Ok (Node bs))
    end.
(** torch.nn.Sequential of torch modules and torch.nn.Sequentials *)
Fixpoint ttree_forward {B} (bt : batch B) (t : tree tlayer) (z : nat * arr (B -> vec)) : result (nat * arr (B -> vec)) :=
  match t with
  | Leaf m => tlayer_forward bt m z
  | Node l => (fix all (l : list (tree tlayer)) (z : nat * arr (B -> vec)) : result (nat * arr (B -> vec)) :=
                 match l with [] => Ok z | a :: l' => rbind (ttree_forward bt a z) (all l') end) l z
  end.
(** sequential_module.py:102-112 [evaluate_output_shape]; [tree_in]: the in_type of the module *)
Section Shape.
Context {G : Type}.
Fixpoint tree_in (t : tree (xlayer G)) : result (ctype G) :=
  match t with
  | Leaf l => Ok (xlayer_in l)
  | Node [] => Err "AttributeError"%string
  | Node (a :: _) => tree_in a
  end.
Fixpoint tree_shape (t : tree (xlayer G)) (s : shape4) : result shape4 :=
  match t with
  | Leaf l => xlayer_shape l s
  | Node l => rbind (tree_in t) (fun ti =>
      let '(b, c, h, w) := s in
      assert_ (c =? Z.of_nat (ct_size ti))%Z
      ((fix all (l : list (tree (xlayer G))) (s : shape4) : result shape4 :=
          match l with [] => Ok s | a :: l' => rbind (tree_shape a s) (all l') end) l s))
  end.
End Shape.
