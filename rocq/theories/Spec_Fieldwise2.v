(** Specification vocabulary for the statements about the modules of Model_Fieldwise. *)
From Coq Require Import Reals String List Bool.
From Verif Require Import Base Spec_Fields Model_Groups Model_Rep Model_FieldType Model_Fieldwise Spec_Fieldwise.
Import ListNotations.
Open Scope nat_scope.

(** ** Parameters, which training can set to anything of the same shape *)
Definition same_shape (p q : option (list R)) : Prop :=
  match p, q with Some l, Some l' => length l = length l' | None, None => True | _, _ => False end.
Definition set_logb {GS G} (m : norm_nl (GS:=GS) (G:=G)) (lb : option (list R)) : norm_nl := MkNN (nn_in m) (nn_fun m) lb (nn_idx m).
Definition set_ilogb {GS G} (m : inorm_nl (GS:=GS) (G:=G)) (lb : option (list R)) : inorm_nl := MkIN (in_in m) (in_ids m) (in_fun m) lb (in_idx m).
Definition set_bias1 {GS G} (m : gated1 (GS:=GS) (G:=G)) (b : list R) : gated1 :=
  MkG1 (g1_in m) (g1_out m) (g1_drop m) (g1_fs m) (g1_order m) (g1_cin m) (g1_cout m) b.
Definition set_bias2 {GS G} (m : gated2 (GS:=GS) (G:=G)) (b : list R) : gated2 := MkG2 (g2_gates m) (g2_in m) (g2_idx m) b.
(** the bias of the field number j: the exponential of its log-bias, if there are biases *)
Definition bias_at (lb : option (list R)) (j : nat) : option R := match lb with Some l => Some (exp (nth j l 0%R)) | None => None end.

(** ** Types and tensors *)
Definition size_pos {GS G} (t : ftype GS (rep G)) : Prop := forall r, In r (ft_reps t) -> 0 < rp_size r.
(** a tensor that a module with input type t accepts *)
Definition typed {GS G X} (gs_eqb : GS -> GS -> bool) (rp_eqb : rep G -> rep G -> bool) (t : ftype GS (rep G)) (x : gtensor GS (rep G) (X -> R)) : Prop :=
  ft_eqb gs_eqb rp_eqb (gt_type x) t = true /\ length (gt_data x) = nsum (map rp_size (ft_reps t)).
(** the lexicographic order of pairs *)
Definition pair_ltb (a b : nat * nat) : bool := (fst a <? fst b) || ((fst a =? fst b) && (snd a <? snd b)).
(** labels of gates, labels of gated fields *)
Definition isgate (s : string) : bool := String.eqb s GATES.
Definition isgated (s : string) : bool := negb (String.eqb s GATES).
(** same values at the moved points *)
Definition follows {X} (pi : X -> X) (b b' : list (X -> R)) : Prop := length b = length b' /\ forall a p, val b' a p = val b a (pi p).
(** a function that returns the position of a largest entry *)
Definition argmax_ok (argmax : list R -> nat) : Prop :=
  forall l, l <> [] -> argmax l < length l /\ forall i, i < length l -> (nth i l 0 <= nth (argmax l) l 0)%R.
