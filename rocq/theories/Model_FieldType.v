(** Model of e2cnn/nn/field_type.py and e2cnn/nn/geometric_tensor.py. *)
From Coq Require Import Reals ZArith String List Bool Lia.
From Verif Require Import Base Model_Groups Model_Rep.
Import ListNotations.
Open Scope Z_scope.

(** * Python primitives *)

(** numpy/Python [l[i]] with an int: negative indices count from the end, IndexError otherwise *)
Definition py_index {A} (l : list A) (i : Z) : result A :=
  let n := Z.of_nat (length l) in
  let j := if i <? 0 then i + n else i in
  if (0 <=? j) && (j <? n)
  then match nth_error l (Z.to_nat j) with Some a => Ok a | None => Err "IndexError" end
  else Err "IndexError".

(** slice.indices(n) (CPython PySlice_AdjustIndices): the list of positions a slice selects in a sequence
    of length n; ValueError when step = 0 *)
Definition clamp (lo hi x : Z) : Z := if x <? lo then lo else if hi <? x then hi else x.
Definition py_slice (n : Z) (start stop step : option Z) : result (list Z) :=
  let st := match step with None => 1 | Some s => s end in
  if st =? 0 then Err "ValueError" else
  let lo := if st <? 0 then -1 else 0 in
  let hi := if st <? 0 then n - 1 else n in
  let adj := fun x => clamp lo hi (if x <? 0 then x + n else x) in
  let a := match start with None => if st <? 0 then hi else lo | Some x => adj x end in
  let b := match stop with None => if st <? 0 then lo else hi | Some x => adj x end in
  let cnt := if st <? 0 then (if b <? a then (a - b - 1) / (- st) + 1 else 0)
             else (if a <? b then (b - a - 1) / st + 1 else 0) in
  Ok (map (fun i => a + Z.of_nat i * st) (seq 0 (Z.to_nat cnt))).

(** the elements at given (valid) positions *)
Definition take_at {A} (l : list A) (idx : list Z) : list A :=
  concat (map (fun i => match nth_error l (Z.to_nat i) with Some a => [a] | None => [] end) idx).

(** [l[a:b]] for non-negative a, b *)
Definition sub_list {A} (l : list A) (a b : nat) : list A := firstn (b - a) (skipn a l).

Section FieldType.
(** [GS]: gspaces; [Rp]: representation objects; [sz]: repr.size; [fits]: repr.group == gspace.fibergroup;
    [gs_eqb], [rp_eqb]: __eq__ of gspaces and representations *)
Variables (GS Rp : Type) (sz : Rp -> nat) (fits : GS -> Rp -> bool)
          (gs_eqb : GS -> GS -> bool) (rp_eqb : Rp -> Rp -> bool).

Record ftype : Type := MkFT { ft_gs : GS; ft_reps : list Rp }.

(** field_type.py:21-92 [FieldType(gspace, representations)] *)
Definition mk_ftype (gs : GS) (reps : list Rp) : result ftype :=
  assert_ (0 <? Z.of_nat (length reps))
  (assert_ (forallb (fits gs) reps) (Ok (MkFT gs reps))).

(** field_type.py:74 *)
Definition ft_size (t : ftype) : nat := nsum (map sz (ft_reps t)).
(** field_type.py:320-332 *)
Definition ft_len (t : ftype) : Z := Z.of_nat (length (ft_reps t)).

(** field_type.py:367-384 (loop body: p += r.size; append p) *)
Fixpoint ends_from (p : nat) (l : list Rp) : list nat :=
  match l with [] => [] | r :: l' => (p + sz r)%nat :: ends_from (p + sz r) l' end.
Definition fields_end (t : ftype) : list nat := ends_from 0 (ft_reps t).
(** field_type.py:386-403 *)
Fixpoint starts_from (p : nat) (l : list Rp) : list nat :=
  match l with [] => [] | r :: l' => p :: starts_from (p + sz r) l' end.
Definition fields_start (t : ftype) : list nat := starts_from 0 (ft_reps t).

(** Python max/min of a list: ValueError when empty *)
Definition py_max (l : list Z) : result Z :=
  match l with [] => Err "ValueError" | x :: l' => Ok (fold_left Z.max l' x) end.
Definition py_min (l : list Z) : result Z :=
  match l with [] => Err "ValueError" | x :: l' => Ok (fold_left Z.min l' x) end.

(** field_type.py:345-365 *)
Definition index_select (t : ftype) (index : list Z) : result ftype :=
  rbind (py_max index) (fun M =>
  assert_ (M <? ft_len t)
  (rbind (py_min index) (fun m =>
   assert_ (0 <=? m)
   (rbind (rmap (py_index (ft_reps t)) index) (fun reps =>
    mk_ftype (ft_gs t) reps))))).

(** field_type.py:297-318 [__add__] *)
Definition ft_add (t u : ftype) : result ftype :=
  assert_ (gs_eqb (ft_gs t) (ft_gs u)) (mk_ftype (ft_gs t) (ft_reps t ++ ft_reps u)).

(** Python [sorted] on (size, position) pairs.  Simplification: the keys are pairwise distinct, so every
    sorting algorithm gives the same list; insertion sort is used. *)
Definition key_le (a b : nat * nat) : bool :=
  ((fst a <? fst b) || ((fst a =? fst b) && (snd a <=? snd b)))%nat.
Fixpoint insert_key (a : nat * nat) (l : list (nat * nat)) : list (nat * nat) :=
  match l with [] => [a] | b :: l' => if key_le a b then a :: b :: l' else b :: insert_key a l' end.
Definition sort_keys (l : list (nat * nat)) : list (nat * nat) := fold_right insert_key [] l.
(** [enumerate] *)
Definition enumerate {A} (l : list A) : list (nat * A) := combine (seq 0 (length l)) l.
(** field_type.py:279-295 [sorted] *)
Definition ft_sorted (t : ftype) : result ftype :=
  let keys := map (fun p => (sz (snd p), fst p)) (enumerate (ft_reps t)) in
  index_select t (map (fun k => Z.of_nat (snd k)) (sort_keys keys)).

(** first occurrences, in order (keys of a dict filled in a loop) *)
Fixpoint dedup (l : list string) : list string :=
  match l with
  | [] => []
  | x :: l' => x :: filter (fun y => negb (String.eqb y x)) (dedup l')
  end.
(** the positions of label l *)
Definition positions_of (labels : list string) (l : string) : list Z :=
  map (fun p => Z.of_nat (fst p)) (filter (fun p => String.eqb (snd p) l) (enumerate labels)).
(** field_type.py:405-434 [group_by_labels]: the dict as an association list *)
Definition group_by_labels (t : ftype) (labels : list string) : result (list (string * ftype)) :=
  assert_ (Z.of_nat (length labels) =? ft_len t)
  (rmap (fun l => rbind (index_select t (positions_of labels l)) (fun t' => Ok (l, t'))) (dedup labels)).

(** field_type.py:445-449 [__eq__] *)
Fixpoint list_eqb {A} (eqb : A -> A -> bool) (l1 l2 : list A) : bool :=
  match l1, l2 with
  | [], [] => true
  | a :: l1', b :: l2' => eqb a b && list_eqb eqb l1' l2'
  | _, _ => false
  end.
Definition ft_eqb (t u : ftype) : bool :=
  gs_eqb (ft_gs t) (ft_gs u) && list_eqb rp_eqb (ft_reps t) (ft_reps u).

(** * GeometricTensor.  Only the channel dimension is kept: a tensor is the list of its channels, each
    an element of an arbitrary type A (the batch and spatial content of the channel). *)
Section Tensor.
Variable A : Type.
Record gtensor : Type := MkGT { gt_data : list A; gt_type : ftype }.

(** geometric_tensor.py:160-165: the constructor checks the number of channels *)
Definition mk_gt (data : list A) (t : ftype) : result gtensor :=
  assert_ (Z.of_nat (length data) =? Z.of_nat (ft_size t)) (Ok (MkGT data t)).

Inductive chan_idx : Type :=
| IInt : Z -> chan_idx
| ISlice : option Z -> option Z -> option Z -> chan_idx.

(** geometric_tensor.py:466-476: an int becomes the slice [idx : idx+1 : 1]; a negative int is shifted once *)
Definition int_to_slice (n : Z) (i : chan_idx) : option Z * option Z * option Z :=
  match i with
  | IInt z => let idx := if z <? 0 then n + z else z in (Some idx, Some (idx + 1), Some 1)
  | ISlice a b c => (a, b, c)
  end.

(** geometric_tensor.py:397-547 [__getitem__], the part that handles the 2nd dimension *)
Definition getitem (x : gtensor) (i : chan_idx) : result gtensor :=
  let t := gt_type x in
  let n := ft_len t in
  let '(start, stop, step) := int_to_slice n i in
  if match step with None => true | Some s => s =? 1 end then
    let s := match start with None => 0 | Some s => s end in
    let e := match stop with None => n | Some e => e end in
    rbind (py_index (fields_start t) s) (fun a =>
    rbind (py_index (fields_end t) (e - 1)) (fun b =>
    rbind (if (s =? 0) && (e =? n) then Ok t
           else rbind (py_slice n start stop step) (fun idx => mk_ftype (ft_gs t) (take_at (ft_reps t) idx)))
    (fun t' => mk_gt (sub_list (gt_data x) a b) t')))
  else
    rbind (py_slice n start stop step) (fun fields =>
    rbind (rmap (fun f => rbind (py_index (fields_start t) f) (fun a =>
                          rbind (py_index (fields_end t) f) (fun b =>
                          Ok (map Z.of_nat (seq a (b - a)))))) fields) (fun idxs =>
    rbind (mk_ftype (ft_gs t) (take_at (ft_reps t) fields)) (fun t' =>
    mk_gt (take_at (gt_data x) (concat idxs)) t'))).

(** geometric_tensor.py:293-306: the loop of [split] over the break points *)
Fixpoint split_loop (x : gtensor) (positions : list nat) (last : Z) (breaks : list Z) : result (list gtensor) :=
  match breaks with
  | [] => Ok []
  | b :: bs =>
    assert_ (last <? b)
    (rbind (py_slice (ft_len (gt_type x)) (Some last) (Some b) None) (fun idx =>
     rbind (mk_ftype (ft_gs (gt_type x)) (take_at (ft_reps (gt_type x)) idx)) (fun t' =>
     rbind (py_index positions last) (fun p =>
     rbind (py_index positions b) (fun q =>
     rbind (mk_gt (sub_list (gt_data x) p q) t') (fun y =>
     rbind (split_loop x positions b bs) (fun ys => Ok (y :: ys))))))))
  end.
(** geometric_tensor.py:209-308 [split].  The caller's list object is appended to (line 280), so the
    function also returns the new contents of the list; [None] creates a fresh list. *)
Definition split (x : gtensor) (breaks : option (list Z)) : result (list gtensor) * option (list Z) :=
  let t := gt_type x in
  let l := match breaks with
           | None => map Z.of_nat (seq 1 (length (ft_reps t) - 1))
           | Some l => l end in
  let l' := l ++ [ft_len t] in
  (split_loop x (starts_from 0 (ft_reps t) ++ [ft_size t]) 0 l',
   match breaks with None => None | Some _ => Some l' end).

(** geometric_tensor.py:660-699 [tensor_directsum]; the comparison of the other dimensions is about A and
    is omitted. tensors[0] raises IndexError on []. *)
Definition tensor_directsum (l : list gtensor) : result gtensor :=
  match l with
  | [] => Err "IndexError"
  | x0 :: rest =>
    assert_ (forallb (fun x => gs_eqb (ft_gs (gt_type x0)) (ft_gs (gt_type x))) rest)
    (rbind (mk_ftype (ft_gs (gt_type x0)) (concat (map (fun x => ft_reps (gt_type x)) l))) (fun t =>
     mk_gt (concat (map gt_data l)) t))
  end.
End Tensor.

End FieldType.
Arguments MkFT {GS Rp} _ _.
Arguments ft_gs {GS Rp} _.
Arguments ft_reps {GS Rp} _.
Arguments MkGT {GS Rp A} _ _.
Arguments gt_data {GS Rp A} _.
Arguments gt_type {GS Rp A} _.
Arguments mk_ftype {GS Rp} fits gs reps.
Arguments ft_size {GS Rp} sz t.
Arguments ft_len {GS Rp} t.
Arguments ends_from {Rp} sz p l.
Arguments starts_from {Rp} sz p l.
Arguments fields_end {GS Rp} sz t.
Arguments fields_start {GS Rp} sz t.
Arguments index_select {GS Rp} fits t index.
Arguments ft_add {GS Rp} fits gs_eqb t u.
Arguments ft_sorted {GS Rp} sz fits t.
Arguments group_by_labels {GS Rp} fits t labels.
Arguments ft_eqb {GS Rp} gs_eqb rp_eqb t u.
Arguments mk_gt {GS Rp} sz {A} data t.
Arguments getitem {GS Rp} sz fits {A} x i.
Arguments split_loop {GS Rp} sz fits {A} x positions last breaks.
Arguments split {GS Rp} sz fits {A} x breaks.
Arguments tensor_directsum {GS Rp} sz fits gs_eqb {A} l.
