(** Model of the weight initialisation: e2cnn/nn/init.py. *)
From Coq Require Import Reals ZArith String List Bool.
From Verif Require Import Base Model_Groups Model_Rep Model_FieldType Model_Utils Model_Expansion Model_Conv.
Import ListNotations.
Open Scope R_scope.

Section He.
(** names of irreps and their equality *)
Context {N : Type} (neqb : N -> N -> bool).
(** set.add; the order of the elements is irrelevant, only the number of elements is used *)
Definition set_add (x : N) (l : list N) : list N := if existsb (neqb x) l then l else x :: l.
Definition key_is (n : N) (o : nat) (k : N * nat) : bool := (neqb n (fst k) && (o =? snd k)%nat)%bool.
(** init.py:31-35: inputs_count (a set for each output position) and basis_count (a number for each input irrep and output
    position); a defaultdict is a function here.  An entry: in_irrep and out_irreps_position. *)
Definition he_step (d : (nat -> list N) * (N * nat -> nat)) (a : N * nat) : (nat -> list N) * (N * nat -> nat) :=
  (fun o => if (o =? snd a)%nat then set_add (fst a) (fst d o) else fst d o,
   fun k => if key_is (fst a) (snd a) k then S (snd d k) else snd d k).
Definition he_counts (infos : list (N * nat)) : (nat -> list N) * (N * nat -> nat) :=
  fold_left he_step infos (fun _ => [], fun _ => 0%nat).
(** tensor[w] = v *)
Definition put (l : list R) (w : nat) (v : R) : result (list R) :=
  if (w <? length l)%nat then Ok (firstn w l ++ v :: skipn (S w) l) else Err "IndexError"%string.
(** init.py:14-45 [_generalized_he_init_variances], from basisexpansion.dimension() and the list of get_basis_info() *)
Definition he_stds (dim : nat) (infos : list (N * nat)) : result (list R) :=
  let counts := he_counts infos in
  fold_left (fun acc wa => rbind acc (fun vars =>
      put vars (fst wa) (1 / sqrt (INR (length (fst counts (snd (snd wa))) * snd counts (snd wa))))))
    (enumerate infos) (Ok (repeat 1 dim)).
End He.

(** init.py:51-83 [generalized_he_init] on a tensor of the given length, without the cache; [normal]: torch.randn_like *)
Definition he_init {Rp At Id N} (rname : Rp -> string) (rsize rirr : Rp -> nat) (at_id : At -> Id) (at_in at_out : At -> nat)
    (id_eqb : Id -> Id -> bool) (neqb : N -> N -> bool) (in_irrep : @einfo At Id -> N) (len : nat) (normal : nat -> R) (b : @bexp Rp At Id)
  : result (list R) :=
  assert_ (len =? be_dimension id_eqb b)%nat
  (rbind (he_stds neqb (be_dimension id_eqb b)
            (map (fun a => (in_irrep a, ei_outpos a)) (be_basis_info rname rsize rirr at_id at_in at_out b))) (fun vars =>
   Ok (map (fun p => fst p * normal (snd p)) (combine vars (seq 0 (length vars)))))).
