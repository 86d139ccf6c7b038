(** Model of checkpoints: state_dict and load_state_dict (torch.nn.Module) of a network of e2cnn layers.  R2Conv, R2ConvTransposed and
    R2Diffop change the set of their buffers in train(mode) (r2convolution.py:378-395, r2_transposed_convolution.py:228-245,
    r2diffop.py:483-500); every other module of e2cnn.nn registers parameters and buffers with fixed names in its constructor and
    inherits train from torch.nn.Module. *)
From Coq Require Import Reals ZArith String List Bool.
From Verif Require Import Base Model_Groups Model_Rep Model_FieldType Model_Modules Model_GSpace Model_Expansion Model_Conv Model_ConvT.
Import ListNotations.
Open Scope R_scope.

(** The tensors of a state dict, with their shapes: a parameter or buffer that is a list of numbers in row-major order; a stored bias; a
    stored filter (o, i, k, k) *)
Inductive tval : Type :=
| TTensor (shape : list nat) (data : list R)
| TVec (n : nat) (v : vec)
| TFilter (o i k : nat) (f : filter_t).
(** torch compares the shapes; the number of entries follows from the shape; entries of one name always hold the same kind of tensor *)
Definition same_shape (a b : tval) : bool :=
  match a, b with
  | TTensor s l, TTensor s' l' => (list_eqb Nat.eqb s s' && (length l =? length l')%nat)%bool
  | TVec n _, TVec n' _ => (n =? n')%nat
  | TFilter o i k _, TFilter o' i' k' _ => ((o =? o') && (i =? i') && (k =? k'))%nat%bool
  | _, _ => false
  end.
Definition nums (l : list R) : tval := TTensor [length l] l.
Definition as_nums (v : tval) (old : list R) : list R := match v with TTensor _ l => l | _ => old end.
Definition as_filter (v : tval) (old : filter_t) : filter_t := match v with TFilter _ _ _ f => f | _ => old end.
Definition as_vec (v : tval) (old : vec) : vec := match v with TVec _ f => f | _ => old end.

Section Checkpoint.
Context {G B : Type}.
Notation tensor := (arr (B -> vec) * ctype G)%type.

(** any other module: the names and shapes of its parameters and buffers, and its forward, which may change them (running statistics) *)
Record plain : Type := MkPlain {
  pl_names : list (string * list nat);
  pl_forward : bool -> list (list R) -> tensor -> result (tensor * list (list R)) }.
(** a layer and its state *)
Inductive smod : Type :=
| UConv (m : r2conv G) (st : cstate)
| UConvT (m : tconv G) (st : cstate)
| UPlain (p : plain) (training : bool) (vals : list (list R)).
(** a network: the named children of a SequentialModule or of a user's module.  torch forbids dots in names, therefore the key
    "name.entry" of a state dict is written as a pair here. *)
Definition net : Type := list (string * smod).
Definition dict : Type := list ((string * string) * tval).
Definition key_eqb (a b : string * string) : bool := (String.eqb (fst a) (fst b) && String.eqb (snd a) (snd b))%bool.
Definition find_key (k : string * string) (d : dict) : option tval := option_map snd (find (fun e => key_eqb (fst e) k) d).

(** The shape of the buffer filter: r2convolution.py:275 after the constructor (training, the buffer exists), the shape of the expansion
    (304-305: the fields of one group only) after eval().  The same for the transposed convolution
    (r2_transposed_convolution.py:182, 193-195), whose first two axes are exchanged. *)
Definition conv_fshape (m : r2conv G) (training : bool) : nat * nat * nat :=
  (ct_size (cv_out m), if training then ct_size (cv_in m) else nsum (map rp_size (be_in (cv_exp m))), cv_k m).
Definition tconv_fshape (m : tconv G) (training : bool) : nat * nat * nat :=
  (ct_size (tc_in m), if training then ct_size (tc_out m) else nsum (map rp_size (be_out (tc_exp m))), tc_k m).

(** The parameters and buffers of a convolution that are in its state dict.  Simplification: the constant buffers (bias_expansion and those
    of the basis expansion), which are equal in layers built with the same arguments, are left out. *)
Definition cstate_entries (has_bias : bool) (sh : nat * nat * nat) (n : nat) (st : cstate) : list (string * tval) :=
  (if has_bias then [("bias"%string, nums (cs_b st))] else []) ++ [("weights"%string, nums (cs_w st))] ++
  (match cs_filter st with Some f => [("filter"%string, TFilter (fst (fst sh)) (snd (fst sh)) (snd sh) f)] | None => [] end) ++
  (match cs_bias st with Some (Some v) => [("expanded_bias"%string, TVec n v)] | _ => [] end).
(** every entry replaced *)
Definition cstate_load (has_bias : bool) (sh : nat * nat * nat) (n : nat) (look : string -> tval -> tval) (st : cstate) : cstate :=
  MkCS (cs_training st)
    (as_nums (look "weights"%string (nums (cs_w st))) (cs_w st))
    (if has_bias then as_nums (look "bias"%string (nums (cs_b st))) (cs_b st) else cs_b st)
    (match cs_filter st with Some f => Some (as_filter (look "filter"%string (TFilter (fst (fst sh)) (snd (fst sh)) (snd sh) f)) f) | None => None end)
    (match cs_bias st with Some (Some v) => Some (Some (as_vec (look "expanded_bias"%string (TVec n v)) v)) | o => o end).
Definition some {A} (o : option A) : bool := match o with Some _ => true | None => false end.
Definition entries (u : smod) : list (string * tval) :=
  match u with
  | UConv m st => cstate_entries (some (cv_bias m)) (conv_fshape m (cs_training st)) (ct_size (cv_out m)) st
  | UConvT m st => cstate_entries (some (tc_bias m)) (tconv_fshape m (cs_training st)) (ct_size (tc_out m)) st
  | UPlain p _ vals => map (fun nv => (fst (fst nv), TTensor (snd (fst nv)) (snd nv))) (combine (pl_names p) vals)
  end.
Definition put_entries (look : string -> tval -> tval) (u : smod) : smod :=
  match u with
  | UConv m st => UConv m (cstate_load (some (cv_bias m)) (conv_fshape m (cs_training st)) (ct_size (cv_out m)) look st)
  | UConvT m st => UConvT m (cstate_load (some (tc_bias m)) (tconv_fshape m (cs_training st)) (ct_size (tc_out m)) look st)
  | UPlain p tr vals => UPlain p tr (map (fun nv => as_nums (look (fst (fst nv)) (TTensor (snd (fst nv)) (snd nv))) (snd nv)) (combine (pl_names p) vals))
  end.

(** torch.nn.Module.state_dict *)
Definition state_dict (n : net) : dict := flat_map (fun a => map (fun e => ((fst a, fst e), snd e)) (entries (snd a))) n.
(** torch.nn.Module.load_state_dict(d, strict): entries of the right shape are copied; then RuntimeError is raised if a shape was wrong or,
    with strict, if keys are missing or unexpected.  The network is changed in both cases. *)
Definition copied (d : dict) (name entry : string) (old : tval) : tval :=
  match find_key (name, entry) d with Some v => if same_shape v old then v else old | None => old end.
Definition load_state_dict (strict : bool) (d : dict) (n : net) : net * result unit :=
  let mine := state_dict n in
  let mismatch := existsb (fun e => match find_key (fst e) d with Some v => negb (same_shape v (snd e)) | None => false end) mine in
  let missing := existsb (fun e => negb (some (find_key (fst e) d))) mine in
  let unexpected := existsb (fun e => negb (some (find_key (fst e) mine))) d in
  (map (fun a => (fst a, put_entries (copied d (fst a)) (snd a))) n,
   if (mismatch || (strict && (missing || unexpected)))%bool then Err "RuntimeError"%string else Ok tt).

(** torch.nn.Module.train(mode) calls train of the children *)
Definition smod_train (mode : bool) (u : smod) : result smod :=
  match u with
  | UConv m st => rbind (conv_train m mode st) (fun st => Ok (UConv m st))
  | UConvT m st => rbind (tconv_train m mode st) (fun st => Ok (UConvT m st))
  | UPlain p _ vals => Ok (UPlain p mode vals)
  end.
Definition train (mode : bool) (n : net) : result net := rmap (fun a => rbind (smod_train mode (snd a)) (fun u => Ok (fst a, u))) n.
(** the children one after another, as in SequentialModule.forward *)
Definition smod_forward (u : smod) (x : tensor) : result (tensor * smod) :=
  match u with
  | UConv m st => rbind (conv_forward m st (snd x) (fst x)) (fun y => Ok (y, u))
  | UConvT m st => rbind (tconv_forward m st (snd x) (fst x)) (fun y => Ok (y, u))
  | UPlain p tr vals => rbind (pl_forward p tr vals x) (fun y => Ok (fst y, UPlain p tr (snd y)))
  end.
Fixpoint forward (n : net) (x : tensor) : result (tensor * net) :=
  match n with
  | [] => Ok (x, [])
  | a :: n' => rbind (smod_forward (snd a) x) (fun y => rbind (forward n' (fst y)) (fun z => Ok (fst z, (fst a, snd y) :: snd z)))
  end.
(** an optimiser step, or any other assignment of the parameters that keeps their shapes *)
Definition updated (f : string -> string -> tval -> tval) (name : string) (u : smod) (entry : string) (old : tval) : tval :=
  let is_buffer := match u with UPlain _ _ _ => false | _ => (String.eqb entry "filter" || String.eqb entry "expanded_bias")%bool end in
  if is_buffer then old else let v := f name entry old in if same_shape v old then v else old.
Definition update (f : string -> string -> tval -> tval) (n : net) : net := map (fun a => (fst a, put_entries (updated f (fst a) (snd a)) (snd a))) n.

(** Histories of a network.  A load that raises is taken to be caught. *)
Inductive hop : Type := HTrain (mode : bool) | HUpdate (f : string -> string -> tval -> tval) | HForward (x : tensor) | HLoad (strict : bool) (d : dict).
Definition hstep (o : hop) (n : net) : result net :=
  match o with
  | HTrain mode => train mode n
  | HUpdate f => Ok (update f n)
  | HForward x => rbind (forward n x) (fun y => Ok (snd y))
  | HLoad strict d => Ok (fst (load_state_dict strict d n))
  end.
Fixpoint history (ops : list hop) (n : net) : result net := match ops with [] => Ok n | o :: ops' => rbind (hstep o n) (history ops') end.
End Checkpoint.
Arguments plain : clear implicits.
Arguments smod : clear implicits.
Arguments net : clear implicits.
Arguments hop : clear implicits.
