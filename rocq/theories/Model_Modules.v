(** Model of the containers and of the modules that move fields: e2cnn/nn/modules/sequential_module.py, reshuffle_module.py,
    branching_module.py, merge_module.py, multiple_module.py, identity_module.py. *)
From Coq Require Import ZArith String Ascii List Bool Decimal DecimalString.
From Verif Require Import Base Model_Groups Model_Rep Model_FieldType Model_Utils.
Import ListNotations.

(** * torch.nn.Module.add_module: the names it accepts *)
Fixpoint has_dot (s : string) : bool :=
  match s with EmptyString => false | String c s' => (Ascii.eqb c "."%char || has_dot s')%bool end.
(** Python str() of a natural number *)
Definition py_str (n : nat) : string := NilZero.string_of_uint (Nat.to_uint n).

(** * SequentialModule *)
Section Sequential.
(** [T]: types; [X]: typed tensors; [ty]: their type; [attr]: the names of the attributes that every module has
    ("forward", "in_type", ...; torch refuses them as names of submodules) *)
Context {T X : Type} (type_eqb : T -> T -> bool) (ty : X -> T) (attr : string -> bool).

(** an EquivariantModule: its types and its forward *)
Record emodule : Type := MkEM { em_in : T; em_out : T; em_fwd : X -> result X }.
(** in_type, out_type (None at first) and the ordered dict _modules *)
Record seqmod : Type := MkSeq { sq_in : option T; sq_out : option T; sq_mods : list (string * emodule) }.
Definition seq_empty : seqmod := MkSeq None None [].

(** torch.nn.Module.add_module: KeyError for an attribute name, a dot, an empty name; an existing name is replaced in place *)
Definition torch_add (mods : list (string * emodule)) (name : string) (m : emodule) : result (list (string * emodule)) :=
  if (attr name || has_dot name || String.eqb name "")%bool then Err "KeyError" else Ok (kset String.eqb mods name m).

(** FieldType.__eq__ with None gives False *)
Definition opt_eqb (t : T) (o : option T) : bool := match o with Some u => type_eqb t u | None => false end.

(** sequential_module.py:86-100 [add_module]: the state after the call and the outcome; in_type and out_type are assigned
    before torch's add_module may raise *)
Definition seq_add (s : seqmod) (name : string) (m : emodule) : seqmod * result unit :=
  let store := fun s' => match torch_add (sq_mods s') name m with
                         | Ok mods => (MkSeq (sq_in s') (sq_out s') mods, Ok tt)
                         | Err e => (s', Err e)
                         end in
  match sq_mods s with
  | [] => match sq_in s, sq_out s with
          | None, None => store (MkSeq (Some (em_in m)) (Some (em_out m)) [])
          | _, _ => (s, Err "AssertionError")
          end
  | _ => if opt_eqb (em_in m) (sq_out s)
         then store (MkSeq (sq_in s) (Some (em_out m)) (sq_mods s))
         else (s, Err "AssertionError")
  end.

(** sequential_module.py:48-61 [__init__]: the first failing call raises *)
Fixpoint seq_build (s : seqmod) (l : list (string * emodule)) : result seqmod :=
  match l with
  | [] => Ok s
  | (n, m) :: l' => match seq_add s n m with (s', Ok _) => seq_build s' l' | (_, Err e) => Err e end
  end.
(** an OrderedDict argument (its keys are distinct) *)
Definition seq_make_dict (l : list (string * emodule)) : result seqmod := seq_build seq_empty l.
(** positional arguments: named "0", "1", ... *)
Definition seq_make (l : list emodule) : result seqmod := seq_build seq_empty (map (fun p => (py_str (fst p), snd p)) (enumerate l)).

(** the loop x = m(x) *)
Fixpoint run_all (l : list emodule) (x : X) : result X :=
  match l with [] => Ok x | m :: l' => rbind (em_fwd m x) (run_all l') end.
(** sequential_module.py:66-84 [forward] *)
Definition seq_forward (s : seqmod) (x : X) : result X :=
  assert_ (opt_eqb (ty x) (sq_in s))
  (rbind (run_all (map snd (sq_mods s)) x) (fun y =>
   assert_ (opt_eqb (ty y) (sq_out s)) (Ok y))).

(** a history of calls of add_module on one object; calls that raise are caught by the caller *)
Definition seq_history (s : seqmod) (l : list (string * emodule)) : seqmod := fold_left (fun s p => fst (seq_add s (fst p) (snd p))) l s.
End Sequential.
Arguments MkEM {T X} _ _ _.
Arguments em_in {T X} _.
Arguments em_out {T X} _.
Arguments em_fwd {T X} _ _.
Arguments emodule : clear implicits.
Arguments seqmod : clear implicits.

(** * Modules that move fields *)
Section Move.
(** as in Model_FieldType; [rname]: repr.name.  Tensors are lists of channels over A. *)
Context {GS Rp : Type} (sz : Rp -> nat) (rname : Rp -> string) (fits : GS -> Rp -> bool)
        (gs_eqb : GS -> GS -> bool) (rp_eqb : Rp -> Rp -> bool).
Notation ftype := (ftype GS Rp).
Notation type_eqb := (ft_eqb gs_eqb rp_eqb).

(** tensor[:, indices] with a list of channel indices *)
Definition torch_index {A} (l : list A) (idx : list nat) : result (list A) :=
  rmap (fun i => match nth_error l i with Some a => Ok a | None => Err "IndexError" end) idx.

Record reshuffle : Type := MkRS { rs_in : ftype; rs_out : ftype; rs_indices : list nat }.
(** reshuffle_module.py:17-64 [__init__]: set(permutation) == set(range(n)) *)
Definition reshuffle_make (t : ftype) (perm : list Z) : result reshuffle :=
  let n := Z.of_nat (length (ft_reps t)) in
  assert_ (forallb (fun p => (0 <=? p) && (p <? n))%Z%bool perm &&
           forallb (fun i => existsb (Z.eqb (Z.of_nat i)) perm) (seq 0 (length (ft_reps t))))%bool
  (rbind (index_select fits t perm) (fun out =>
   rbind (rmap (fun c => rbind (py_index (starts_from sz 0 (ft_reps t)) c) (fun p =>
                         rbind (py_index (ft_reps t) c) (fun r => Ok (seq p (sz r))))) perm) (fun idx =>
   Ok (MkRS t out (concat idx))))).
(** reshuffle_module.py:66-73 [forward] *)
Definition reshuffle_forward {A} (m : reshuffle) (x : gtensor GS Rp A) : result (gtensor GS Rp A) :=
  assert_ (type_eqb (gt_type x) (rs_in m))
  (rbind (torch_index (gt_data x) (rs_indices m)) (fun d => mk_gt sz d (rs_out m))).

(** ** BranchingModule *)
(** the sorting key (label, size)[:level] with the position; sorted() is stable: insertion sort, equal keys keep their order *)
Definition branch_key_le (level : nat) (a b : string * nat * nat) : bool :=
  let '(la, na, _) := a in
  let '(lb, nb, _) := b in
  match String.compare la lb with
  | Lt => true
  | Gt => false
  | Eq => match level with 1%nat => true | _ => (na <=? nb)%nat end
  end.
Fixpoint branch_insert (level : nat) (a : string * nat * nat) (l : list (string * nat * nat)) : list (string * nat * nat) :=
  match l with [] => [a] | b :: l' => if branch_key_le level a b then a :: b :: l' else b :: branch_insert level a l' end.
Definition branch_sort (level : nat) (l : list (string * nat * nat)) : list (string * nat * nat) := fold_right (branch_insert level) [] l.
(** branching_module.py:87-96: the permutation *)
Definition branch_perm (level : nat) (t : ftype) (labels : list string) : list nat :=
  map snd (branch_sort level (map (fun p => (fst (snd p), snd (snd p), fst p)) (enumerate (combine labels (map sz (ft_reps t)))))).

(** branching_module.py:117-127: the loop that fills the dict [_contiguous] *)
Fixpoint contiguous_loop (last : option string) (d : list (string * bool)) (labels : list string) : list (string * bool) :=
  match labels with
  | [] => d
  | l :: labels' =>
    let same := match last with Some l' => String.eqb l l' | None => false end in
    contiguous_loop (Some l)
      (if same then d else match kget String.eqb d l with None => kset String.eqb d l true | Some _ => kset String.eqb d l false end)
      labels'
  end.

(** what is stored for a label: the bounds of a slice, or the list of the channels *)
Inductive chan_set : Type := CSlice (a b : nat) | CList (l : list nat).
Record branching : Type := MkBR {
  br_in : ftype; br_labels : list string (* the set of the labels *); br_reshuffle : option reshuffle;
  br_out : list (string * ftype); br_idx : list (string * chan_set) }.

(** branching_module.py:151-161: torch refuses a buffer name with a dot (KeyError); min() of an empty list is a ValueError *)
Definition branch_index (fs : list (string * nat)) (p : string * bool) : result (string * chan_set) :=
  let idx := label_indices (fst p) 0 fs in
  rbind (if snd p then match idx with
                       | [] => Err "ValueError"
                       | x :: l' => Ok (CSlice (fold_left Nat.min l' x) (fold_left Nat.max l' x + 1))
                       end
         else Ok (CList idx)) (fun c =>
  if has_dot (fst p) then Err "KeyError" else Ok (fst p, c)).

(** branching_module.py:19-161 [__init__] *)
Definition branching_make (t : ftype) (labels : list string) (level : Z) : result branching :=
  assert_ ((0 <=? level) && (level <? 3))%Z%bool
  (assert_ (length (ft_reps t) =? length labels)%nat
  (rbind (if (0 <? level)%Z
          then let perm := branch_perm (Z.to_nat level) t labels in
               if list_eqb Nat.eqb perm (seq 0 (length (ft_reps t))) then Ok (None, t, labels)
               else rbind (reshuffle_make t (map Z.of_nat perm)) (fun rs =>
                    Ok (Some rs, rs_out rs, map (fun p => nth p labels ""%string) perm))
          else Ok (None, t, labels)) (fun '(rs, t', labels') =>
   rbind (group_by_labels fits t' labels') (fun out =>
   rbind (rmap (branch_index (combine labels' (map sz (ft_reps t')))) (contiguous_loop None [] labels')) (fun idx =>
   Ok (MkBR t (dedup labels) rs out idx)))))).

(** branching_module.py:163-190 [_retrieve_subfiber] *)
Definition retrieve {A} (m : branching) (x : gtensor GS Rp A) (l : string) : result (gtensor GS Rp A) :=
  match kget String.eqb (br_idx m) l, kget String.eqb (br_out m) l with
  | Some c, Some t =>
    rbind (match c with CSlice a b => Ok (sub_list (gt_data x) a b) | CList idx => torch_index (gt_data x) idx end) (fun d => mk_gt sz d t)
  | _, _ => Err "AttributeError"
  end.
(** branching_module.py:192-219 [forward] *)
Definition branching_forward {A} (m : branching) (x : gtensor GS Rp A) : result (list (string * gtensor GS Rp A)) :=
  assert_ (type_eqb (gt_type x) (br_in m))
  (rbind (match br_reshuffle m with Some rs => reshuffle_forward rs x | None => Ok x end) (fun x' =>
   rmap (fun l => rbind (retrieve m x' l) (fun y => Ok (l, y))) (br_labels m))).
(** branching_module.py:221-227 [evaluate_output_shape] *)
Definition branching_shape (m : branching) (shape : Z * Z * Z * Z) : result (list (string * (Z * Z * Z * Z))) :=
  let '(b, c, h, w) := shape in
  assert_ (c =? Z.of_nat (ft_size sz (br_in m)))%Z (Ok (map (fun p => (fst p, (b, Z.of_nat (ft_size sz (snd p)), h, w))) (br_out m))).

(** ** MergeModule *)
(** in_type of a submodule: a FieldType, or a tuple of them (GatedNonLinearity2) *)
Inductive in_arg : Type := OneType (t : ftype) | TupleType (l : list ftype).
(** a submodule: its input type, its output type, its forward on the tensors of its labels *)
Record submodule (A : Type) : Type := MkSM {
  sm_in : in_arg; sm_out : ftype; sm_fwd : list (gtensor GS Rp A) -> result (gtensor GS Rp A) }.
Arguments MkSM {A} _ _ _.
Arguments sm_in {A} _.
Arguments sm_out {A} _.
Arguments sm_fwd {A} _ _.
(** an entry of the list [modules]: the second component is a string or a list of strings *)
Inductive label_arg : Type := LStr (l : string) | LList (l : list string).
Definition label_list (a : label_arg) : list string := match a with LStr l => [l] | LList l => l end.

Record merge (A : Type) : Type := MkMG { mg_out : ftype; mg_mods : list (submodule A * list string) }.
Arguments MkMG {A} _ _.
Arguments mg_out {A} _.
Arguments mg_mods {A} _.
Definition in_types (a : in_arg) : list ftype := match a with OneType t => [t] | TupleType l => l end.
(** merge_module.py:16-73 [__init__]; also returns the caller's list, in which strings have been replaced by lists (line 46).
    [modules[0]] raises IndexError on an empty list; a tuple has no attribute gspace (line 55). *)
Definition merge_make {A} (modules : list (submodule A * label_arg)) : result (merge A) * list (submodule A * label_arg) :=
  (match modules with
   | [] => Err "IndexError"
   | (m0, _) :: _ =>
     match sm_in m0 with
     | TupleType _ => Err "AttributeError"
     | OneType t0 =>
       assert_ (forallb (fun p => forallb (fun t => gs_eqb (ft_gs t) (ft_gs t0)) (in_types (sm_in (fst p)))) modules)
       (rbind (mk_ftype fits (ft_gs t0) (concat (map (fun p => ft_reps (sm_out (fst p))) modules))) (fun t =>
        Ok (MkMG t (map (fun p => (fst p, label_list (snd p))) modules))))
     end
   end, map (fun p => (fst p, LList (label_list (snd p)))) modules).
Definition dget {V} (d : list (string * V)) (l : string) : result V :=
  match kget String.eqb d l with Some v => Ok v | None => Err "KeyError" end.
(** merge_module.py:75-104 [forward]: the slices written one after the other make up the output.  The allocation of the
    output from the announced shapes is not modelled (channels only). *)
Definition merge_forward {A} (m : merge A) (x : list (string * gtensor GS Rp A)) : result (gtensor GS Rp A) :=
  rbind (rmap (fun p => rbind (rmap (dget x) (snd p)) (fun args => sm_fwd (fst p) args)) (mg_mods m)) (fun ys =>
  mk_gt sz (concat (map gt_data ys)) (mg_out m)).

(** ** MultipleModule *)
Record multiple (A : Type) : Type := MkMM { mm_in : ftype; mm_branching : branching; mm_merging : merge A }.
Arguments MkMM {A} _ _ _.
Arguments mm_in {A} _.
Arguments mm_branching {A} _.
Arguments mm_merging {A} _.
Definition subset (a b : list string) : bool := forallb (fun x => existsb (String.eqb x) b) a.
(** the check of lines 91-96.  For a str label module.in_type is compared with the branch (a tuple is not equal to it); for
    a list, module.in_type[i] is: indexing a FieldType raises TypeError. *)
Definition check_branch {A} (out : list (string * ftype)) (p : submodule A * label_arg) : result unit :=
  match snd p with
  | LStr l => rbind (dget out l) (fun u =>
              match sm_in (fst p) with OneType t => assert_ (type_eqb t u) (Ok tt) | TupleType _ => Err "AssertionError" end)
  | LList ls =>
    rbind (rmap (fun q => match sm_in (fst p) with
                          | OneType _ => Err "TypeError"
                          | TupleType ts =>
                            match nth_error ts (fst q) with
                            | Some t => rbind (dget out (snd q)) (fun u => assert_ (type_eqb t u) (Ok tt))
                            | None => Err "IndexError"
                            end
                          end) (enumerate ls)) (fun _ => Ok tt)
  end.
(** multiple_module.py:19-100 [__init__]; also returns the caller's list *)
Definition multiple_make {A} (t : ftype) (labels : list string)
    (modules : list (submodule A * label_arg)) (level : Z) : result (multiple A) * list (submodule A * label_arg) :=
  let ml := concat (map (fun p => label_list (snd p)) modules) in
  if negb (subset ml labels && subset labels ml)%bool then (Err "AssertionError", modules)
  else match branching_make t labels level with
       | Err e => (Err e, modules)
       | Ok br =>
         match rmap (check_branch (br_out br)) modules with
         | Err e => (Err e, modules)
         | Ok _ =>
           let r := merge_make modules in
           (rbind (fst r) (fun mg => Ok (MkMM t br mg)), snd r)
         end
       end.
(** multiple_module.py:102-120 [forward] *)
Definition multiple_forward {A} (m : multiple A) (x : gtensor GS Rp A) : result (gtensor GS Rp A) :=
  assert_ (type_eqb (gt_type x) (mm_in m))
  (rbind (branching_forward (mm_branching m) x) (fun d => merge_forward (mm_merging m) d)).
(** multiple_module.py:122-131 [evaluate_output_shape]: MergeModule.evaluate_output_shape takes keyword arguments only and is
    called with a positional one: TypeError *)
Definition multiple_shape {A} (m : multiple A) (shape : Z * Z * Z * Z) : result (Z * Z * Z * Z) :=
  rbind (branching_shape (mm_branching m) shape) (fun _ => Err "TypeError").
End Move.
