(** Model of e2cnn/nn/modules/pooling/norm_max.py.  Tensors as in Model_Pool; the code that groups the fields by their size is that of
    Model_Fieldwise. *)
From Coq Require Import Reals ZArith String List Bool.
From Verif Require Import Base Model_Groups Model_Rep Model_FieldType Model_Utils Model_Modules Model_GSpace Model_Conv Model_Fieldwise Model_Pool.
Import ListNotations.
Open Scope R_scope.

(** the channels of an image as functions of batch index and pixel, and back *)
Definition chans {B} (n : nat) (x : arr (B -> vec)) : list (B * (nat * nat) -> R) := map (fun c q => a_px x (fst (snd q)) (snd (snd q)) (fst q) c) (seq 0 n).
Definition image {B} (h w : nat) (l : list (B * (nat * nat) -> R)) : arr (B -> vec) := MkArr h w (fun i j b c => nth c l (fun _ => 0) (b, (i, j))).
(** the indices max_pool2d returns with return_indices=True: the pixel of the window that holds the maximum, chosen by [argmax] among
    the values of the window (torch's flat index is represented by row and column) *)
Definition max_pool2d_idx {B} (argmax : list R -> nat) (k s p d : nat * nat) (ceil : bool) (x : arr (B -> vec)) : result (arr (B -> nat -> nat * nat)) :=
  rbind (max_pool2d k s p d ceil x) (fun z =>
  let rows := window (a_h x) (fst k) (fst p) (fst d) (fst s) in
  let cols := window (a_w x) (snd k) (snd p) (snd d) (snd s) in
  Ok (MkArr (a_h z) (a_w z) (fun i j b c => nth (argmax (at_window x (rows i) (cols j) b c)) (list_prod (rows i) (cols j)) (0, 0)%nat))).

Section NormMax.
Context {GS G : Type} (gs_eqb : GS -> GS -> bool) (rp_eqb : rep G -> rep G -> bool).
Notation ftype := (ftype GS (rep G)).
Notation type_eqb := (ft_eqb gs_eqb rp_eqb).

Record nmaxpool : Type := MkNMP {
  np_in : ftype; np_k : nat * nat; np_s : nat * nat; np_p : nat * nat; np_d : nat * nat; np_ceil : bool; np_idx : list (string * chan_set) }.
(** norm_max.py:25-122 [__init__]: no test of what the representations support *)
Definition nmaxpool_make (t : ftype) (k : iarg) (s : option iarg) (p d : iarg) (ceil : bool) : result nmaxpool :=
  rbind (group_index (by_size t)) (fun idx =>
  Ok (MkNMP t (pair_of k) (match s with Some s => pair_of s | None => pair_of k end) (pair_of p) (pair_of d) ceil idx)).
(** norm_max.py:217-229 [evaluate_output_shape]: without regard to ceil_mode *)
Definition nmaxpool_shape (m : nmaxpool) (shape : Z * Z * Z * Z) : result (Z * Z * Z * Z) := pool_shape (np_in m) (np_k m) (np_s m) (np_p m) (np_d m) false shape.
(** norm_max.py:155-212: one round of the loop, for the fields of size s.  indx.view(b, -1, 1, ho * wo) and gather fail unless
    max_pool2d has made ho x wo windows *)
Definition nmax_group {B} (argmax : list R -> nat) (m : nmaxpool) (h w ho wo s : nat) (fm : list (B * (nat * nat) -> R)) : result (list (B * (nat * nat) -> R)) :=
  rbind (view_fields s fm) (fun bl =>
  rbind (max_pool2d_idx argmax (np_k m) (np_s m) (np_p m) (np_d m) (np_ceil m) (image h w (map vnorm bl))) (fun idx =>
  if ((a_h idx =? ho) && (a_w idx =? wo))%nat%bool
  then Ok (concat (map (fun fb => map (fun (c : B * (nat * nat) -> R) q => c (fst q, a_px idx (fst (snd q)) (snd (snd q)) (fst q) (fst fb))) (snd fb)) (enumerate bl)))
  else Err "RuntimeError")).
(** norm_max.py:124-215 [forward] *)
Definition nmaxpool_forward {B} (argmax : list R -> nat) (junk : nat -> B * (nat * nat) -> R) (m : nmaxpool) (t : ftype) (x : arr (B -> vec)) : result (arr (B -> vec) * ftype) :=
  assert_ (type_eqb t (np_in m))
  (rbind (nmaxpool_shape m (1, Z.of_nat (ft_chans (np_in m)), Z.of_nat (a_h x), Z.of_nat (a_w x))%Z) (fun sh =>
   let '(_, _, ho, wo) := sh in
   if ((ho <? 0) || (wo <? 0))%Z%bool then Err "RuntimeError"%string else
   rbind (group_loop py_str (np_idx m) (np_idx m) (fun _ => 0%nat) (fun s _ fm => nmax_group argmax m (a_h x) (a_w x) (Z.to_nat ho) (Z.to_nat wo) s fm)
            (chans (ft_chans (np_in m)) x) (first_seen Nat.eqb (map rp_size (ft_reps (np_in m)))) 0 (empty junk (ft_chans (np_in m)))) (fun l =>
   Ok (image (Z.to_nat ho) (Z.to_nat wo) l, np_in m)))).
End NormMax.
