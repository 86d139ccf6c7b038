(** Model of the modules that treat every field separately: e2cnn/nn/modules/nonlinearities/{norm,gated1,gated2,induced_norm,
    induced_gated1,pointwise,relu,elu,concatenated,vectorfield}.py, invariantmaps/{gpool,norm,induced_norm}.py,
    dropout/{field,pointwise}.py.
    A tensor is the list of its channels; a channel is a function of the other indices (batch and spatial position, any type X). *)
From Coq Require Import Reals ZArith String Ascii Decimal DecimalString List Bool.
From Verif Require Import Base Model_Groups Model_Rep Model_FieldType Model_Utils Model_Modules.
Import ListNotations.
Open Scope R_scope.

(** * Torch operations on the channel axis *)
(** tensor[:, a:b] or tensor[:, indices] *)
Definition gather {A} (c : chan_set) (d : list A) : result (list A) :=
  match c with CSlice a b => Ok (sub_list d a b) | CList idx => torch_index d idx end.
(** output[:, indices] = vals; shapes have to agree (torch would also broadcast a single channel: not modelled) *)
Fixpoint put_all {A} (idx : list nat) (out vals : list A) : result (list A) :=
  match idx, vals with
  | [], [] => Ok out
  | i :: idx', v :: vals' =>
      if (i <? length out)%nat then put_all idx' (firstn i out ++ v :: skipn (S i) out) vals' else Err "IndexError"
  | _, _ => Err "RuntimeError"
  end.
(** output[:, a:b] = vals or output[:, indices] = vals *)
Definition scatter {A} (c : chan_set) (out vals : list A) : result (list A) :=
  match c with
  | CSlice a b => if (length (sub_list out a b) =? length vals)%nat then Ok (firstn a out ++ vals ++ skipn b out) else Err "RuntimeError"
  | CList idx => put_all idx out vals
  end.
(** tensor.view(b, -1, s, h, w): consecutive blocks of s channels *)
Definition view_fields {A} (s : nat) (d : list A) : result (list (list A)) :=
  if ((s =? 0) || negb (length d mod s =? 0))%nat%bool then Err "RuntimeError"
  else Ok (map (fun q => sub_list d (q * s) (q * s + s)) (seq 0 (length d / s))).
(** elementwise operation of two tensors with the same number of channels *)
Definition zip_eq {A B} (l : list A) (l' : list B) : result (list (A * B)) :=
  if (length l =? length l')%nat then Ok (combine l l') else Err "RuntimeError".

(** getattr(self, name) *)
Definition attr_of {V} (d : list (string * V)) (l : string) : result V :=
  match kget String.eqb d l with Some v => Ok v | None => Err "AttributeError" end.

(** The loop common to all these modules: for each key in order, gather the channels of the group, compute, write the result;
    [next] is the counter next_bias / next_gate, advanced by the number of fields of the group. *)
Section Loop.
Context {K A B : Type} (key : K -> string) (cin cout : list (string * chan_set)) (nf : K -> nat)
        (op : K -> nat -> list A -> result (list B)) (x : list A).
Fixpoint group_loop (order : list K) (next : nat) (out : list B) : result (list B) :=
  match order with
  | [] => Ok out
  | k :: order' =>
    rbind (attr_of cin (key k)) (fun ci =>
    rbind (gather ci x) (fun fm =>
    rbind (op k next fm) (fun vals =>
    rbind (attr_of cout (key k)) (fun co =>
    rbind (scatter co out vals) (fun out' =>
    group_loop order' (next + nf k) out')))))
  end.
End Loop.

(** the dict of the channels of each label, for fields given by (label, size): the loop over the representations and the loop
    that turns contiguous groups into slices (norm.py:80-104 and the same code in the other modules; the keys of the Python
    dicts, sizes or pairs of sizes, are represented by the text that names the buffer) *)
Definition group_index (fs : list (string * nat)) : result (list (string * chan_set)) :=
  rmap (branch_index fs) (contiguous_loop None [] (map fst fs)).
(** number of fields with a label: the dict _nfields *)
Definition count_label (l : string) (fs : list (string * nat)) : nat := length (filter (fun p => String.eqb (fst p) l) fs).

(** sorted() of distinct keys, and the distinct keys in the order of their first occurrence (the keys of a dict) *)
Fixpoint insert_by {K} (leb : K -> K -> bool) (a : K) (l : list K) : list K :=
  match l with [] => [a] | b :: l' => if leb a b then a :: b :: l' else b :: insert_by leb a l' end.
Definition sort_by {K} (leb : K -> K -> bool) (l : list K) : list K := fold_right (insert_by leb) [] l.
Fixpoint first_seen {K} (keqb : K -> K -> bool) (l : list K) : list K :=
  match l with [] => [] | a :: l' => a :: filter (fun b => negb (keqb a b)) (first_seen keqb l') end.

Definition pair_eqb (a b : nat * nat) : bool := ((fst a =? fst b) && (snd a =? snd b))%nat%bool.
Definition pair_leb (a b : nat * nat) : bool := ((fst a <? fst b) || ((fst a =? fst b) && (snd a <=? snd b)))%nat%bool.
(** str((size, subfield_size)) *)
Definition pair_str (a : nat * nat) : string := ("(" ++ py_str (fst a) ++ ", " ++ py_str (snd a) ++ ")")%string.

(** * Real functions *)
(** torch.relu, torch.sigmoid, F.elu(alpha); tanh is the standard library's *)
Definition relu (t : R) : R := Rmax 0 t.
Definition sigmoid (t : R) : R := / (1 + exp (- t)).
Definition elu (alpha t : R) : R := if Rlt_dec 0 t then t else alpha * (exp t - 1).
(** norm.py:62 *)
Definition squash (t : R) : R := t / (1 + t).
(** norm.py:115 *)
Definition nl_eps : R := / 10 ^ 10.

Section Modules.
(** [is_triv]: Representation.is_trivial (Model_Rep.is_trivial_rep), which is a test on real matrices *)
Context {GS G X : Type} (fits : GS -> rep G -> bool) (gs_eqb : GS -> GS -> bool) (rp_eqb : rep G -> rep G -> bool)
        (is_triv : rep G -> bool) (trivial_repr : GS -> rep G).
Notation ftype := (ftype GS (rep G)).
Notation chan := (X -> R).
Notation gtensor := (gtensor GS (rep G) chan).
Notation type_eqb := (ft_eqb gs_eqb rp_eqb).

Definition supports (nl : string) (r : rep G) : bool := existsb (String.eqb nl) (rp_nonlin r).
Definition all_support (nl : string) (t : ftype) : bool := forallb (supports nl) (ft_reps t).
Definition ft_chans (t : ftype) : nat := ft_size rp_size t.
(** torch.empty: arbitrary contents *)
Definition empty (junk : nat -> chan) (n : nat) : list chan := map junk (seq 0 n).

(** the fields labelled by their size *)
Definition by_size (t : ftype) : list (string * nat) := map (fun r => (py_str (rp_size r), rp_size r)) (ft_reps t).
(** _order = sorted(keys) *)
Definition size_order (t : ftype) : list nat := sort_by Nat.leb (first_seen Nat.eqb (map rp_size (ft_reps t))).

(** tensor.norm(dim=2) of a block of channels *)
Definition vnorm (b : list chan) : chan := fun p => sqrt (fold_right Rplus 0 (map (fun c => c p * c p) b)).

(** ** NormNonLinearity *)
Record norm_nl : Type := MkNN { nn_in : ftype; nn_fun : R -> R; nn_logb : option (list R); nn_idx : list (string * chan_set) }.
(** norm.py:23-115 [__init__] *)
Definition norm_make (t : ftype) (function : string) (bias : bool) : result norm_nl :=
  assert_ (all_support "norm" t)
  (rbind (if String.eqb function "n_relu" then Ok relu
          else if String.eqb function "n_sigmoid" then Ok sigmoid
          else if String.eqb function "squash" then assert_ (negb bias) (Ok squash)
          else Err "ValueError"%string) (fun f =>
   rbind (group_index (by_size t)) (fun idx =>
   Ok (MkNN t f (if bias then Some (repeat 0 (length (ft_reps t))) else None) idx)))).
(** norm.py:180-181: the multiplier of a field from its norm and the new norm *)
Definition norm_mult (norm new_norm : R) : R := if Rle_dec norm nl_eps then 0 else new_norm / Rmax norm nl_eps.
(** norm.py:164-172: the new norms of a group; [k]: how often each bias is repeated (1 here, induced_norm.py:176-183) *)
Definition new_norms (f : R -> R) (logb : option (list R)) (next nfields k : nat) (norms : list chan) : result (list chan) :=
  match logb with
  | Some lb => rbind (zip_eq norms (concat (map (fun b => repeat b k) (sub_list (map exp lb) next (next + nfields))))) (fun z =>
               Ok (map (fun nb => fun p => f (fst nb p - snd nb)) z))
  | None => Ok (map (fun n => fun p => f (n p)) norms)
  end.
(** norm.py:164-189: the multipliers of a group, in blocks of [s] channels *)
Definition norm_group (f : R -> R) (logb : option (list R)) (s nfields k next : nat) (fm : list chan) : result (list chan) :=
  rbind (view_fields s fm) (fun bl =>
  let norms := map vnorm bl in
  rbind (new_norms f logb next nfields k norms) (fun nn =>
  Ok (concat (map (fun z => repeat (fun p => norm_mult (fst z p) (snd z p)) s) (combine norms nn))))).
(** norm.py:195, induced_norm.py:209: input * multipliers *)
Definition times (d m : list chan) : result (list chan) :=
  rbind (zip_eq d m) (fun z => Ok (map (fun cm => fun p => fst cm p * snd cm p) z)).
(** norm.py:117-195 [forward] *)
Definition norm_forward (junk : nat -> chan) (m : norm_nl) (x : gtensor) : result gtensor :=
  assert_ (type_eqb (gt_type x) (nn_in m))
  (rbind (group_loop py_str (nn_idx m) (nn_idx m) (fun s => count_label (py_str s) (by_size (nn_in m)))
            (fun s next fm => norm_group (nn_fun m) (nn_logb m) s (count_label (py_str s) (by_size (nn_in m))) 1 next fm)
            (gt_data x) (size_order (nn_in m)) 0 (empty junk (length (gt_data x)))) (fun mult =>
   rbind (times (gt_data x) mult) (fun d => mk_gt rp_size d (nn_in m)))).

(** ** Sub-fields of induced representations *)
(** str.startswith, the part after the last underscore, int() of a string of digits *)
Definition starts_with (pre s : string) : bool := String.prefix pre s.
Fixpoint last_part (acc s : string) : string :=
  match s with
  | EmptyString => acc
  | String c s' => if Ascii.eqb c "_"%char then last_part "" s' else last_part (acc ++ String c "") s'
  end.
Definition py_int (s : string) : result nat :=
  match NilEmpty.uint_of_string s with
  | Some d => match s with EmptyString => Err "ValueError" | _ => Ok (Nat.of_uint d) end
  | None => Err "ValueError"
  end.
(** induced_norm.py:83-89 (also induced_gated1.py:107-113 without line 114): the size of the sub-fields *)
Fixpoint subfield_loop (pre : string) (size : nat) (acc : option nat) (nls : list string) : result (option nat) :=
  match nls with
  | [] => Ok acc
  | nl :: nls' =>
    if starts_with pre nl then
      match acc with
      | Some _ => Err "AssertionError"
      | None => rbind (py_int (last_part "" nl)) (fun s =>
                if (s =? 0)%nat then Err "ZeroDivisionError"
                else assert_ (size mod s =? 0)%nat (subfield_loop pre size (Some s) nls'))
      end
    else subfield_loop pre size acc nls'
  end.
(** id = (r.size, subfield_size) *)
Definition field_id (pre : string) (r : rep G) : result (nat * nat) :=
  rbind (subfield_loop pre (rp_size r) None (rp_nonlin r)) (fun o =>
  match o with Some s => Ok (rp_size r, s) | None => Err "AssertionError"%string end).
Definition by_id (ids : list (nat * nat)) : list (string * nat) := map (fun i => (pair_str i, fst i)) ids.
Definition id_order (ids : list (nat * nat)) : list (nat * nat) := sort_by pair_leb (first_seen pair_eqb ids).

(** ** InducedNormNonLinearity *)
Record inorm_nl : Type := MkIN { in_in : ftype; in_ids : list (nat * nat); in_fun : R -> R; in_logb : option (list R); in_idx : list (string * chan_set) }.
(** induced_norm.py:23-122 [__init__]; unlike NormNonLinearity, squash may be combined with a bias *)
Definition inorm_make (t : ftype) (function : string) (bias : bool) : result inorm_nl :=
  assert_ (forallb (fun r => existsb (starts_with "induced_norm") (rp_nonlin r)) (ft_reps t))
  (rbind (if String.eqb function "n_relu" then Ok relu
          else if String.eqb function "n_sigmoid" then Ok sigmoid
          else if String.eqb function "squash" then Ok squash
          else Err "ValueError"%string) (fun f =>
   rbind (rmap (field_id "induced_norm") (ft_reps t)) (fun ids =>
   rbind (group_index (by_id ids)) (fun idx =>
   Ok (MkIN t ids f (if bias then Some (repeat 0 (length (ft_reps t))) else None) idx))))).
(** induced_norm.py:124-209 [forward] *)
Definition inorm_forward (junk : nat -> chan) (m : inorm_nl) (x : gtensor) : result gtensor :=
  assert_ (type_eqb (gt_type x) (in_in m))
  (rbind (group_loop pair_str (in_idx m) (in_idx m) (fun i => count_label (pair_str i) (by_id (in_ids m)))
            (fun i next fm => norm_group (in_fun m) (in_logb m) (snd i) (count_label (pair_str i) (by_id (in_ids m))) (fst i / snd i) next fm)
            (gt_data x) (id_order (in_ids m)) 0 (empty junk (length (gt_data x)))) (fun mult =>
   rbind (times (gt_data x) mult) (fun d => mk_gt rp_size d (in_in m)))).

(** ** Gated non-linearities *)
(** gated1.py:23-24 *)
Definition GATED : string := "gated".
Definition GATES : string := "gate".
(** input.view(b, -1, size, h, w) * g *)
Definition gate_group (s : nat) (g fm : list chan) : result (list chan) :=
  rbind (view_fields s fm) (fun bl => rbind (zip_eq bl g) (fun z =>
  Ok (concat (map (fun bg => map (fun c => fun p => c p * snd bg p) (fst bg)) z)))).
(** gated1.py:203, gated2.py:157: torch.sigmoid(gates - self.bias) *)
Definition open_gates (gates : list chan) (bias : list R) : result (list chan) :=
  rbind (zip_eq gates bias) (fun z => Ok (map (fun gb => fun p => sigmoid (fst gb p - snd gb)) z)).

(** gated1.py:65-71: the default labels, and the length check *)
Definition gate_labels (gates : option (list string)) (n : nat) : result (list string) :=
  match gates with
  | None => assert_ (n mod 2 =? 0)%nat (Ok (repeat GATES (n / 2) ++ repeat GATED (n / 2)))
  | Some l => assert_ (length l =? n)%nat (Ok l)
  end.
(** gated1.py:109: the positions of the gated fields *)
Definition gated_fields (gates : list string) : list nat :=
  map fst (filter (fun p => String.eqb (snd p) GATED) (enumerate gates)).
(** the dict of output channels of the labels that are kept (gated1.py:148-164); contiguity is that of the input fields *)
Definition out_index (drop : bool) (labels : list string) (fs' : list (string * nat)) : result (list (string * chan_set)) :=
  rmap (branch_index fs') (filter (fun p => negb (drop && String.eqb (fst p) GATES))%bool (contiguous_loop None [] labels)).
Definition keep_fields (drop : bool) (fs : list (string * nat)) : list (string * nat) :=
  filter (fun p => negb (drop && String.eqb (fst p) GATES))%bool fs.

Record gated1 : Type := MkG1 {
  g1_in : ftype; g1_out : ftype; g1_drop : bool; g1_fs : list (string * nat); g1_order : list nat;
  g1_cin : list (string * chan_set); g1_cout : list (string * chan_set); g1_bias : list R }.
(** gated1.py:119-124: the type (label) of each field *)
Definition g1_label (g : string) (r : rep G) : string * nat :=
  (if String.eqb g GATES then GATES else py_str (rp_size r), rp_size r).
(** gated1.py:29-174 [__init__]; [bias]: the random initial bias *)
Definition gated1_make (t : ftype) (gates : option (list string)) (drop : bool) (bias : nat -> R) : result gated1 :=
  rbind (gate_labels gates (length (ft_reps t))) (fun gs =>
  rbind (rmap (fun p => if String.eqb (fst p) GATES then assert_ (is_triv (snd p)) (Ok tt)
                        else if String.eqb (fst p) GATED then assert_ (supports GATED (snd p)) (Ok tt)
                        else Err "ValueError"%string) (combine gs (ft_reps t))) (fun _ =>
  let ngates := length (filter (String.eqb GATES) gs) in
  let ngated := length (filter (String.eqb GATED) gs) in
  assert_ (ngates =? ngated)%nat
  (rbind (if drop then index_select fits t (map Z.of_nat (gated_fields gs)) else Ok t) (fun out =>
   let fs := map (fun p => g1_label (fst p) (snd p)) (combine gs (ft_reps t)) in
   rbind (group_index fs) (fun cin =>
   rbind (out_index drop (map fst fs) (keep_fields drop fs)) (fun cout =>
   rbind (match kget String.eqb cin GATES with Some _ => Ok tt | None => Err "KeyError"%string end) (fun _ =>
   let sizes := map (fun p => rp_size (snd p)) (filter (fun p => negb (String.eqb (fst p) GATES)) (combine gs (ft_reps t))) in
   Ok (MkG1 t out drop fs (sort_by Nat.leb (first_seen Nat.eqb sizes)) cin cout (map bias (seq 0 ngates)))))))))).
(** gated1.py:176-250 [forward] *)
Definition gated1_forward (junk : nat -> chan) (m : gated1) (x : gtensor) : result gtensor :=
  assert_ (type_eqb (gt_type x) (g1_in m))
  (rbind (attr_of (g1_cin m) GATES) (fun gi =>
   rbind (gather gi (gt_data x)) (fun graw =>
   rbind (open_gates graw (g1_bias m)) (fun g =>
   rbind (if g1_drop m then Ok (empty junk (ft_chans (g1_out m))) else scatter gi (empty junk (ft_chans (g1_out m))) g) (fun out0 =>
   rbind (group_loop py_str (g1_cin m) (g1_cout m) (fun s => count_label (py_str s) (g1_fs m))
            (fun s next fm => gate_group s (sub_list g next (next + count_label (py_str s) (g1_fs m))) fm)
            (gt_data x) (g1_order m) 0 out0) (fun d =>
   mk_gt rp_size d (g1_out m))))))).

Record gated2 : Type := MkG2 { g2_gates : ftype; g2_in : ftype; g2_idx : list (string * chan_set); g2_bias : list R }.
(** gated2.py:26-132 [__init__] *)
Definition gated2_make (tg t : ftype) (bias : nat -> R) : result gated2 :=
  assert_ (gs_eqb (ft_gs tg) (ft_gs t))
  (assert_ (forallb is_triv (ft_reps tg))
  (assert_ (all_support GATED t)
  (assert_ (length (ft_reps tg) =? length (ft_reps t))%nat
  (rbind (group_index (by_size t)) (fun idx => Ok (MkG2 tg t idx (map bias (seq 0 (length (ft_reps tg)))))))))).
(** gated2.py:134-196 [forward] *)
Definition gated2_forward (junk : nat -> chan) (m : gated2) (gates x : gtensor) : result gtensor :=
  assert_ (type_eqb (gt_type gates) (g2_gates m))
  (assert_ (type_eqb (gt_type x) (g2_in m))
  (rbind (open_gates (gt_data gates) (g2_bias m)) (fun g =>
   rbind (group_loop py_str (g2_idx m) (g2_idx m) (fun s => count_label (py_str s) (by_size (g2_in m)))
            (fun s next fm => gate_group s (sub_list g next (next + count_label (py_str s) (by_size (g2_in m)))) fm)
            (gt_data x) (size_order (g2_in m)) 0 (empty junk (ft_chans (g2_in m)))) (fun d =>
   mk_gt rp_size d (g2_in m))))).

(** ** Pointwise non-linearities *)
(** pointwise.py:20-61 [__init__]: the function *)
Definition pointwise_fun (function : string) : result (R -> R) :=
  if String.eqb function "p_relu" then Ok relu
  else if String.eqb function "p_elu" then Ok (elu 1)
  else if String.eqb function "p_sigmoid" then Ok sigmoid
  else if String.eqb function "p_tanh" then Ok tanh
  else Err "ValueError".
Record pointwise : Type := MkPW { pw_in : ftype; pw_fun : R -> R }.
Definition pointwise_make (t : ftype) (function : string) : result pointwise :=
  assert_ (all_support "pointwise" t) (rbind (pointwise_fun function) (fun f => Ok (MkPW t f))).
(** relu.py:20-49, elu.py:20-51 (in-place or not: the returned tensor is the same) *)
Definition relu_make (t : ftype) : result pointwise := assert_ (all_support "pointwise" t) (Ok (MkPW t relu)).
Definition elu_make (t : ftype) (alpha : R) : result pointwise := assert_ (all_support "pointwise" t) (Ok (MkPW t (elu alpha))).
(** pointwise.py:63-80, relu.py:51-65, elu.py:53-67 [forward] *)
Definition pointwise_forward (m : pointwise) (x : gtensor) : result gtensor :=
  assert_ (type_eqb (gt_type x) (pw_in m)) (mk_gt rp_size (map (fun c => fun p => pw_fun m (c p)) (gt_data x)) (pw_in m)).

(** ** ConcatenatedNonLinearity *)
(** concatenated.py:187-222: the matrix of the output representation of one element *)
Definition conc_mat (M : mat) : mat := fun i j =>
  if Req_EM_T (M (i / 2) (j / 2))%nat 1 then if (i mod 2 =? j mod 2)%nat then 1 else 0
  else if Req_EM_T (M (i / 2) (j / 2))%nat (-1) then if (i mod 2 =? j mod 2)%nat then 0 else 1
  else 0.
(** concatenated.py:187-222: the tests *)
Definition nz (a : R) : bool := if Req_EM_T a 0 then false else true.
Definition conc_ok (s : nat) (M : mat) : bool :=
  (forallb (fun i => (length (filter (fun j => nz (M i j)) (seq 0 s)) <=? 1)%nat) (seq 0 s) &&
   (* e: the column found in each row; -1 for an empty row; no value twice *)
   (let e := map (fun i => match List.find (fun j => nz (M i j)) (seq 0 s) with Some j => Z.of_nat j | None => (-1)%Z end) (seq 0 s) in
    (length (nodup Z.eq_dec e) =? length e)%nat) &&
   forallb (fun i => forallb (fun j => if Req_EM_T (M i j) 1 then true else if Req_EM_T (M i j) (-1) then true else negb (nz (M i j))) (seq 0 s)) (seq 0 s))%bool.
(** concatenated.py:145-229 [_transform_representation]; [elements]: group.elements (the group is discrete);
    [build]: build_from_discrete_group_representation (name, size and matrices, supported non-linearities); the registry of already built representations (lines 177-181) is left out *)
Definition conc_rep (elements : list G) (build : string -> nat -> (G -> mat) -> list string -> result (rep G)) (r : rep G) : result (rep G) :=
  if forallb (fun g => conc_ok (rp_size r) (rp_mat r g)) elements
  then build ("concatenated_" ++ rp_name r)%string (2 * rp_size r)%nat (fun g => conc_mat (rp_mat r g)) ("pointwise"%string :: rp_nonlin r)
  else Err "ValueError".
Record concatenated : Type := MkCC { cc_in : ftype; cc_out : ftype; cc_fun : R -> R }.
(** concatenated.py:22-63, 119-143 [__init__] *)
Definition conc_make (elements : list G) (build : string -> nat -> (G -> mat) -> list string -> result (rep G)) (t : ftype) (function : string) : result concatenated :=
  assert_ (all_support "concatenated" t)
  (rbind (rmap (conc_rep elements build) (ft_reps t)) (fun reps =>
   rbind (mk_ftype fits (ft_gs t) reps) (fun out =>
   rbind (if String.eqb function "c_relu" then Ok relu
          else if String.eqb function "c_sigmoid" then Ok sigmoid
          else if String.eqb function "c_tanh" then Ok tanh
          else Err "ValueError"%string) (fun f => Ok (MkCC t out f))))).
(** concatenated.py:65-82 [forward]: output[:, ::2] = f(input), output[:, 1::2] = f(-1 * input) *)
Definition conc_forward (m : concatenated) (x : gtensor) : result gtensor :=
  assert_ (type_eqb (gt_type x) (cc_in m))
  (mk_gt rp_size (concat (map (fun c : chan => [(fun p => cc_fun m (c p)); (fun p => cc_fun m (-1 * c p))]) (gt_data x))) (cc_out m)).

(** ** VectorFieldNonLinearity *)
Record vfield : Type := MkVF { vf_in : ftype; vf_out : ftype; vf_n : nat }.
(** vectorfield.py:19-52 [__init__]; [order]: fibergroup.order(); [irrep1]: space.representations['irrep_1'], KeyError if absent *)
Definition vfield_make (order : nat) (irrep1 : option (rep G)) (t : ftype) : result vfield :=
  assert_ (1 <? order)%nat
  (assert_ (forallb (fun r => supports "vectorfield" r && (String.eqb (rp_name r) "regular" && (rp_size r =? order)%nat))%bool (ft_reps t))
  (match irrep1 with
   | None => Err "KeyError"
   | Some r1 => rbind (mk_ftype fits (ft_gs t) (repeat r1 (length (ft_reps t)))) (fun out => Ok (MkVF t out order))
   end)).
(** torch.max over the group axis *)
Definition vmax (b : list chan) : chan := fun p => match b with [] => 0 | c :: b' => fold_left (fun a c' => Rmax a (c' p)) b' (c p) end.
(** vectorfield.py:54-93 [forward]; [argmax]: the index torch.max returns with the maximum (any index of a maximal entry) *)
Definition vfield_forward (argmax : list R -> nat) (m : vfield) (x : gtensor) : result gtensor :=
  assert_ (type_eqb (gt_type x) (vf_in m))
  (rbind (view_fields (vf_n m) (gt_data x)) (fun bl =>
   let base_angle := 2 * PI / INR (vf_n m) in
   let pairs := map (fun b => [(fun p => cos (INR (argmax (map (fun c : chan => c p) b)) * base_angle) * relu (vmax b p));
                               (fun p => sin (INR (argmax (map (fun c : chan => c p) b)) * base_angle) * relu (vmax b p))]) bl in
   (* output has out_type.size channels: the halves output[:, ::2] and output[:, 1::2] have to fit *)
   if ((ft_chans (vf_out m) + 1) / 2 =? length bl)%nat && (ft_chans (vf_out m) / 2 =? length bl)%nat
   then mk_gt rp_size (concat pairs) (vf_out m) else Err "RuntimeError"%string)).

(** ** Invariant maps *)
(** gpool.py:65-80, invariantmaps/norm.py:52-67: the channels and the fields of each size *)
Definition pool_index (t : ftype) : result (list (string * chan_set) * list (string * chan_set)) :=
  rbind (indexes_from_labels (map rp_size (ft_reps t)) (map (fun r => py_str (rp_size r)) (ft_reps t))) (fun d =>
  rbind (rmap (fun e : string * (bool * list nat * list nat) => let '(l, (c, fields, idxs)) := e in
               if c then match idxs, fields with
                         | i :: idxs', f :: fields' => Ok (l, CSlice (fold_left Nat.min idxs' i) (fold_left Nat.max idxs' i + 1),
                                                           (l, CSlice (fold_left Nat.min fields' f) (fold_left Nat.max fields' f + 1)))
                         | _, _ => Err "ValueError"%string
                         end
               else Ok (l, CList idxs, (l, CList fields))) d) (fun e =>
  Ok (map fst e, map snd e))).
Record pool : Type := MkPool { po_in : ftype; po_out : ftype; po_cin : list (string * chan_set); po_cout : list (string * chan_set) }.
Definition pool_make_with (t : ftype) : result pool :=
  rbind (mk_ftype fits (ft_gs t) (repeat (trivial_repr (ft_gs t)) (length (ft_reps t)))) (fun out =>
  rbind (pool_index t) (fun e => Ok (MkPool t out (fst e) (snd e)))).
(** gpool.py:22-80 [__init__] *)
Definition gpool_make (t : ftype) : result pool := assert_ (all_support "pointwise" t) (pool_make_with t).
(** invariantmaps/norm.py:20-67 [__init__] *)
Definition npool_make (t : ftype) : result pool := pool_make_with t.
(** gpool.py:82-123, invariantmaps/norm.py:69-108 [forward]; [red]: the reduction of one field; the groups are visited in the
    order of the dict *)
Definition pool_forward (red : list chan -> chan) (junk : nat -> chan) (m : pool) (x : gtensor) : result gtensor :=
  assert_ (type_eqb (gt_type x) (po_in m))
  (rbind (group_loop py_str (po_cin m) (po_cout m) (fun _ => 0%nat)
            (fun s _ fm => rbind (view_fields s fm) (fun bl => Ok (map red bl)))
            (gt_data x) (first_seen Nat.eqb (map rp_size (ft_reps (po_in m)))) 0 (empty junk (ft_chans (po_out m)))) (fun d =>
   mk_gt rp_size d (po_out m))).
Definition gpool_forward := pool_forward vmax.
Definition npool_forward := pool_forward vnorm.

(** ** InducedNormPool *)
Record ipool : Type := MkIP { ip_in : ftype; ip_out : ftype; ip_ids : list (nat * nat); ip_cin : list (string * chan_set); ip_cout : list (string * chan_set) }.
(** invariantmaps/induced_norm.py:20-100 [__init__]: the output indices are the positions of the fields, grouped like the input *)
Definition ipool_make (t : ftype) : result ipool :=
  assert_ (forallb (fun r => existsb (starts_with "induced_norm") (rp_nonlin r)) (ft_reps t))
  (rbind (mk_ftype fits (ft_gs t) (repeat (trivial_repr (ft_gs t)) (length (ft_reps t)))) (fun out =>
   rbind (rmap (field_id "induced_norm") (ft_reps t)) (fun ids =>
   rbind (group_index (by_id ids)) (fun cin =>
   rbind (group_index (map (fun i => (pair_str i, 1%nat)) ids)) (fun cout =>
   Ok (MkIP t out ids cin cout)))))).
(** invariantmaps/induced_norm.py:102-143 [forward]: view(b, -1, n_subfields, subfield_size, h, w).norm(dim=3).max(dim=2) *)
Definition sub_norms (s : nat) (b : list chan) : result (list chan) := rbind (view_fields s b) (fun bl => Ok (map vnorm bl)).
Definition ipool_forward (junk : nat -> chan) (m : ipool) (x : gtensor) : result gtensor :=
  assert_ (type_eqb (gt_type x) (ip_in m))
  (rbind (group_loop pair_str (ip_cin m) (ip_cout m) (fun _ => 0%nat)
            (fun i _ fm => rbind (view_fields (fst i / snd i * snd i) fm) (fun bl =>
                           rbind (rmap (sub_norms (snd i)) bl) (fun nl => Ok (map vmax nl))))
            (gt_data x) (first_seen pair_eqb (ip_ids m)) 0 (empty junk (ft_chans (ip_out m)))) (fun d =>
   mk_gt rp_size d (ip_out m))).
End Modules.
