(** Model of the caches of bases and sampled filters: e2cnn/gspaces/r2/general_r2.py (the memory of a gspace object),
    e2cnn/nn/modules/r2_conv/basisexpansion_singleblock.py ([_stored_filters]), e2cnn/diffops/utils.py, and of the constructors of
    R2Conv and R2Diffop that read and fill them. *)
From Coq Require Import Reals ZArith String List Bool Arith.
From Verif Require Import Base Model_Groups Model_Rep Model_FieldType Model_Tensor Model_GSpace Model_Kernels Model_Diffops Model_Diffops2 Model_Utils Model_Expansion Model_Conv Model_R2Diffop.
Import ListNotations.
Open Scope R_scope.

(** A dictionary used as a memo table: looked up with [eqb]; a missing entry is computed and stored, an exception stores nothing. *)
Definition memo {K V} (eqb : K -> K -> bool) (k : K) (compute : result V) (t : list (K * V)) : list (K * V) * result V :=
  match kget eqb t k with
  | Some v => (t, Ok v)
  | None => match compute with Ok v => (t ++ [(k, v)], Ok v) | Err x => (t, Err x) end
  end.

(** * diffops/utils.py *)
(** utils.py:31-45 [load_cache] assigns a local variable and utils.py:47-61 [store_cache] only writes a file: the tables of the
    process are left as they are. *)
Definition load_cache {K V} (file : list (K * V)) (t : list (K * V)) : list (K * V) := t.
(** utils.py:87-89, 167-168 [_DIFFOP_CACHE], with the key (points, coefficients, smoothing and method); an operator without
    coefficients is not stored (lines 97-99) *)
Definition dkey : Type := (list (R * R) * list R * dmethod)%type.
Definition Rpair_eqb (a b : R * R) : bool := (Reqb (fst a) (fst b) && Reqb (snd a) (snd b))%bool.
Definition dmethod_eqb (a b : dmethod) : bool :=
  match a, b with DFd, DFd => true | DGauss s, DGauss s' => Reqb s s' | _, _ => false end.
Definition dkey_eqb (a b : dkey) : bool :=
  (list_eqb Rpair_eqb (fst (fst a)) (fst (fst b)) && list_eqb Reqb (snd (fst a)) (snd (fst b)) && dmethod_eqb (snd a) (snd b))%bool.
Definition discretize_cached (m : dmethod) (points : list (R * R)) (coeffs : list R) (t : list (dkey * list R))
  : list (dkey * list R) * result (list R) :=
  match kget dkey_eqb t (points, coeffs, m) with
  | Some v => (t, Ok v)
  | None => if forallb (fun c => Reqb c 0) coeffs then (t, discretize m points coeffs)
            else memo dkey_eqb (points, coeffs, m) (discretize m points coeffs) t
  end.

(** * The memory of the gspaces *)
Section Cache.
Context {G : Type}.

(** [tuple(sorted(key.items()))]: general_r2.py:112-115 for kernels (sigma, rings and the keyword arguments maximum_frequency and
    maximum_offset), 187-188 for differential operators (the keyword arguments alone).  Both are stored in the same dictionary. *)
Inductive mkey : Type := MKer (sigma rings : list R) (F T : option Z) | MDif (F T : option Z).
Definition optz_eqb (a b : option Z) : bool :=
  match a, b with None, None => true | Some x, Some y => Z.eqb x y | _, _ => false end.
Definition mkey_eqb (a b : mkey) : bool :=
  match a, b with
  | MKer s r F T, MKer s' r' F' T' => (list_eqb Reqb s s' && list_eqb Reqb r r' && optz_eqb F F' && optz_eqb T T')%bool
  | MDif F T, MDif F' T' => (optz_eqb F F' && optz_eqb T T')%bool
  | _, _ => false
  end.
(** a basis object: a PolarBasis, or a TensorBasis with the discretisation it was built with *)
Inductive mbasis : Type := MbKer (b : r2basis G) | MbDif (b : tbasis G) (ds : disc_args).
(** An entry of the memories of all the gspace objects: the object (a number), the key, and the names of the representations.
    Entries are never replaced, so that it also identifies the basis object. *)
Definition ident : Type := (nat * mkey * (string * string))%type.
Definition ident_eqb (a b : ident) : bool :=
  ((fst (fst a) =? fst (fst b))%nat && mkey_eqb (snd (fst a)) (snd (fst b)) && key_eqb (snd a) (snd b))%bool.

(** * The comparison of bases *)
(** the class of the bases between irreps that a gspace uses *)
Inductive bclass : Type := BCFlips | BCRotN | BCRot | BCFlipRotN | BCFlipRot.
Definition class_of (s : gspace) : bclass :=
  match s with
  | SpTrivial _ => BCRotN
  | SpFlip _ _ => BCFlips
  | SpRot (GSO2 _) => BCRot
  | SpRot _ => BCRotN
  | SpFlipRot (GO2 _) _ => BCFlipRot
  | SpFlipRot _ _ => BCFlipRotN
  end.
Definition bclass_eqb (a b : bclass) : bool :=
  match a, b with
  | BCFlips, BCFlips | BCRotN, BCRotN | BCRot, BCRot | BCFlipRotN, BCFlipRotN | BCFlipRot, BCFlipRot => true
  | _, _ => false
  end.
(** groups of representations: SO(2) and O(2) are unique objects, and equal themselves *)
Definition group_same (a b : fgroup) : bool :=
  match a, b with GSO2 _, GSO2 _ => true | GO2 _, GO2 _ => true | _, _ => fg_eqb a b end.
(** what the hash of a SteerableBasis is computed from, beside the representations (kernels/steerable_basis.py:292-296,
    diffops/steerable_basis.py:255-261).  Different contents are taken to have different hashes; lookups in a dictionary compare the
    hashes first. *)
Definition sk_hashed (s : skbasis G) : list (option (list Z * list Z)) := map (option_map kb_hashed) (concat (sk_bases s)).
Definition zl_eqb (a b : list Z) : bool := list_eqb Z.eqb a b.
Definition hashed_eqb (a b : option (list Z * list Z)) : bool :=
  match a, b with
  | None, None => true
  | Some x, Some y => (zl_eqb (fst x) (fst y) && zl_eqb (snd x) (snd y))%bool
  | _, _ => false
  end.
Definition ok_true (r : result bool) : bool := match r with Ok b => b | Err _ => false end.
Definition obasis_eqb (f : kbasis -> kbasis -> result bool) (a b : option kbasis) : result bool :=
  match a, b with None, None => Ok true | Some x, Some y => f x y | _, _ => Ok false end.
(** kernels/steerable_basis.py:275-290 and diffops/steerable_basis.py:238-253, after the hashes *)
Definition sk_match (f : kbasis -> kbasis -> result bool) (s s' : skbasis G) : bool :=
  (list_eqb hashed_eqb (sk_hashed s) (sk_hashed s') && rep_eqb (sk_in s) (sk_in s') && rep_eqb (sk_out s) (sk_out s') &&
   ok_true (all_eqb (obasis_eqb f) (concat (sk_bases s)) (concat (sk_bases s'))))%bool.
Definition flips_class (c : bclass) : bool := match c with BCFlips => true | _ => false end.
(** kernels/basis.py:221-228, 334-341; diffops/basis.py:196-203, 285-292.  The discretisation is not compared. *)
Definition mb_match (sp sp' : gspace) (b b' : mbasis) : bool :=
  let c := class_of sp in
  (group_same (sp_group sp) (sp_group sp') && bclass_eqb c (class_of sp') &&
   match b, b' with
   | MbKer x, MbKer y => list_eqb Rpair_eqb (r2_radial x) (r2_radial y) && sk_match (kb_eqb (flips_class c)) (r2_angular x) (r2_angular y)
   | MbDif x _, MbDif y _ =>
       (tb_power x =? tb_power y)%nat &&
       sk_match (d_eqb (bclass_eqb c BCFlipRotN) (flips_class c) (match c with BCFlips | BCFlipRotN | BCFlipRot => true | _ => false end))
                (tb_1 x) (tb_1 y)
   | _, _ => false
   end)%bool.

(** * Sampled filters *)
(** [basis_filter] *)
Inductive bfilter : Type := FK (f : kattr -> bool) | FD (f : tattr -> bool).
(** basisexpansion_singleblock.py:174-176 *)
Definition mask_of (b : mbasis) (f : bfilter) : list bool :=
  match b, f with
  | MbKer b, FK f => map f (r2_attrs b)
  | MbDif t _, FD f => map f (tb_iter t)
  | _, _ => []
  end.
(** basisexpansion_singleblock.py:15-108 for both kinds of bases; the filter of a layer is of the kind of its basis *)
Definition make_block (k dil : nat) (b : mbasis) (f : bfilter) : result (sblock kattr) :=
  match b, f with
  | MbKer b, FK keep =>
      single_block (rp_size (sk_out (r2_angular b))) (rp_size (sk_in (r2_angular b))) (k * k) ka_rows keep (r2_elements b k dil)
  | MbDif t ds, FD keep =>
      let no := rp_size (sk_out (tb_1 t)) in
      let ni := rp_size (sk_in (tb_1 t)) in
      rbind (Model_R2Diffop.sample_masked ds no ni (grid_coords k dil) keep t) (fun l =>
      single_block no ni (k * k) ka_rows (fun _ => true) (map (fun p => (dop_attr t (fst p), snd p)) l))
  | _, _ => Err "KeyError"
  end.
(** the key (basis, mask, points) of [_stored_filters]; tuples are compared element by element, identical objects being equal *)
Record fkey : Type := MkFK { fk_id : ident; fk_space : gspace; fk_basis : mbasis; fk_mask : list bool; fk_points : list (R * R) }.
Definition fkey_match (a b : fkey) : bool :=
  ((ident_eqb (fk_id a) (fk_id b) || mb_match (fk_space a) (fk_space b) (fk_basis a) (fk_basis b)) &&
   list_eqb Bool.eqb (fk_mask a) (fk_mask b) && list_eqb Rpair_eqb (fk_points a) (fk_points b))%bool.

Record process : Type := MkProc { pc_memory : list (ident * mbasis); pc_filters : list (fkey * sblock kattr) }.
Definition fresh_process : process := MkProc [] [].

(** general_r2.py:117-126, 190-199 *)
Definition recall (id : ident) (compute : result mbasis) (p : process) : process * result mbasis :=
  let '(m, r) := memo ident_eqb id compute (pc_memory p) in (MkProc m (pc_filters p), r).
(** basisexpansion_singleblock.py:151-185 [block_basisexpansion] *)
Definition block_basisexpansion (id : ident) (sp : gspace) (k dil : nat) (b : mbasis) (f : bfilter) (recompute : bool) (p : process)
  : process * result (sblock kattr) :=
  if recompute then (p, make_block k dil b f)
  else let '(t, r) := memo fkey_match (MkFK id sp b (mask_of b f) (grid_coords k dil)) (make_block k dil b f) (pc_filters p) in
       (MkProc (pc_memory p) t, r).
(** basisexpansion_blocks.py:70-77: one pair of representations *)
Definition cached_block (id : ident) (sp : gspace) (k dil : nat) (build : result mbasis) (f : bfilter) (recompute : bool) (p : process)
  : process * result (sblock kattr) :=
  let '(p1, r) := recall id build p in
  match r with
  | Ok b => block_basisexpansion id sp k dil b f recompute p1
  | Err x => (p1, Err x)
  end.

(** * Constructors *)
(** basisexpansion_blocks.py:65-86 *)
Definition build_blocks_s (gen : process -> rep G -> rep G -> process * result (sblock kattr)) (ins outs : list (rep G)) (p : process)
  : process * result (list (key * sblock kattr)) :=
  fold_left (fun acc q =>
      match acc with
      | (p, Ok d) =>
        match gen p (fst q) (snd q) with
        | (p', Ok sb) => (p', Ok (kset key_eqb d (rp_name (fst q), rp_name (snd q)) sb))
        | (p', Err x) => (p', if String.eqb x "EmptyBasisException" then Ok d else Err x)
        end
      | (p, Err x) => (p, Err x)
      end) (list_prod (set_of rep_eqb ins) (set_of rep_eqb outs)) (p, Ok []).
(** basisexpansion_blocks.py:87-160, as in [be_make] *)
Definition be_of_blocks (ins outs : list (rep G)) (S : nat) (blocks : list (key * sblock kattr)) : result bexp :=
  let pairs := sort_pairs (map fst blocks) in
  let ids := basis_ids rp_name ka_id blocks ins outs in
  rbind (rmap (fun K =>
    rbind (contiguous rp_name rp_size ins (fst K)) (fun ci =>
    rbind (contiguous rp_name rp_size outs (snd K)) (fun co => Ok (K, (ci && co)%bool)))) pairs) (fun contig =>
  Ok (MkBE ins outs S (length (set_of rep_eqb ins) * length (set_of rep_eqb outs)) blocks pairs contig
           (ranges_from ids 0 pairs) (concat (map ids pairs)))).

(** the arguments of the constructor of a layer *)
Inductive layer : Type :=
| LConv (tin tout : ctype G) (k : nat) (padding : padding_arg) (stride dil : nat) (padding_mode : string) (groups : nat)
    (bias : bool) (sigma : sigma_arg) (fco : fco_arg) (rings : option (list R)) (maximum_offset : option Z)
    (basis_filter : option (kattr -> bool)) (recompute : bool)
| LDiffop (tin tout : ctype G) (kernel_size maximum_order accuracy : option Z) (padding : padding_arg) (stride dil : nat)
    (padding_mode : string) (groups : nat) (bias : bool) (basis_filter : option (tattr -> bool)) (maximum_offset maximum_power : option Z)
    (smoothing : option R) (angle_offset : option R) (recompute : bool).
(** the input type of the layer; its gspace object builds the bases (r2convolution.py:257, r2diffop.py:357) *)
Definition layer_in (l : layer) : ctype G := match l with LConv tin _ _ _ _ _ _ _ _ _ _ _ _ _ _ => tin | LDiffop tin _ _ _ _ _ _ _ _ _ _ _ _ _ _ _ _ => tin end.

(** what the constructors compute before and after the bases; r2convolution.py:152-255, 265-279, r2diffop.py:215-350, 367-384 *)
Record plan : Type := MkPlan {
  pl_ins : list (rep G); pl_outs : list (rep G); pl_k : nat; pl_dil : nat;
  pl_filter : bfilter; pl_key : mkey; pl_build : rep G -> rep G -> result mbasis;
  pl_conv : @bexp (rep G) kattr kid -> r2conv G }.
Definition layer_plan (l : layer) : result plan :=
  match l with
  | LConv tin tout k padding stride dil padding_mode groups bias sigma fco rings maximum_offset basis_filter _ =>
    assert_ (space_eqb (ft_gs tin) (ft_gs tout))
    (rbind (parse_padding padding) (fun pad =>
     rbind (parse_mode padding_mode) (fun mode =>
     rbind (group_in tin tout groups) (fun in_reps =>
     let cols := bias_cols 0 (ft_reps tout) in
     let b := if (bias && (0 <? length cols)%nat)%bool then Some cols else None in
     rbind (compute_basis_params k fco rings sigma dil basis_filter) (fun '(keep, rings, sigma, maxf) =>
     Ok (MkPlan in_reps (ft_reps tout) k dil (FK keep) (MKer sigma rings (Some maxf) maximum_offset)
           (fun rin rout => rbind (sp_build (ft_gs tin) rin rout rings sigma (Some maxf) maximum_offset) (fun b => Ok (MbKer b)))
           (fun e => MkConv tin tout k padding pad mode stride dil groups b e)))))))
  | LDiffop tin tout kernel_size maximum_order accuracy padding stride dil padding_mode groups bias basis_filter maximum_offset maximum_power
      smoothing angle_offset _ =>
    assert_ (space_eqb (ft_gs tin) (ft_gs tout))
    (rbind (diffop_sizes kernel_size maximum_order accuracy) (fun '(ks, order) =>
     rbind (parse_padding padding) (fun pad =>
     rbind (parse_mode padding_mode) (fun mode =>
     rbind (group_in tin tout groups) (fun in_reps =>
     let cols := bias_cols 0 (ft_reps tout) in
     let b := if (bias && (0 <? length cols)%nat)%bool then Some cols else None in
     rbind (diffop_params ks basis_filter order maximum_power smoothing angle_offset) (fun '(keep, power, maxf, ds) =>
     let k := Z.to_nat ks in
     Ok (MkPlan in_reps (ft_reps tout) k dil (FD keep) (MDif (Some maxf) maximum_offset)
           (fun rin rout => rbind (sp_dbuild (ft_gs tin) rin rout power (Some maxf) maximum_offset) (fun b => Ok (MbDif b ds)))
           (fun e => MkConv tin tout k padding pad mode stride dil groups b e))))))))
  end.
Definition layer_recompute (l : layer) : bool := match l with LConv _ _ _ _ _ _ _ _ _ _ _ _ _ _ r => r | LDiffop _ _ _ _ _ _ _ _ _ _ _ _ _ _ _ _ r => r end.

(** The constructors.  [obj]: which gspace object the input type refers to. *)
Definition construct (obj : nat) (l : layer) (p : process) : process * result (r2conv G) :=
  match layer_plan l with
  | Err x => (p, Err x)
  | Ok pl =>
    let gen := fun p rin rout =>
      cached_block (obj, pl_key pl, (rp_name rin, rp_name rout)) (sp_obj (ft_gs (layer_in l))) (pl_k pl) (pl_dil pl)
        (pl_build pl rin rout) (pl_filter pl) (layer_recompute l) p in
    let '(p', r) := build_blocks_s gen (pl_ins pl) (pl_outs pl) p in
    (p', rbind r (fun blocks =>
         rbind (be_of_blocks (pl_ins pl) (pl_outs pl) (pl_k pl * pl_k pl) blocks) (fun e =>
         if (be_dimension kid_eqb e =? 0)%nat then Err "ValueError" else Ok (pl_conv pl e))))
  end.
(** a program: the layers it constructs, one after the other *)
Fixpoint construct_all (reqs : list (nat * layer)) (p : process) : process * list (result (r2conv G)) :=
  match reqs with
  | [] => (p, [])
  | (obj, l) :: reqs' =>
      let '(p1, r) := construct obj l p in
      let '(p2, rs) := construct_all reqs' p1 in (p2, r :: rs)
  end.
End Cache.
Arguments layer : clear implicits.
Arguments process : clear implicits.
Arguments mbasis : clear implicits.

(** * Histories of the cache of stencils: calls of [discretize_homogeneous_polynomial], and of [load_cache] with the table in a file *)
Inductive dcall : Type := DiscCall (m : dmethod) (points : list (R * R)) (coeffs : list R) | DiscLoad (file : list (dkey * list R)).
Fixpoint discretize_all (calls : list dcall) (t : list (dkey * list R)) : list (result (list R)) :=
  match calls with
  | [] => []
  | DiscCall m points coeffs :: calls' => let '(t', r) := discretize_cached m points coeffs t in r :: discretize_all calls' t'
  | DiscLoad file :: calls' => discretize_all calls' (load_cache file t)
  end.
