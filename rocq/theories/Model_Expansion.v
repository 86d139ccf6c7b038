(** Model of the expansion of kernel bases: e2cnn/nn/modules/r2_conv/basisexpansion_singleblock.py and
    basisexpansion_blocks.py. *)
From Coq Require Import Reals ZArith String List Bool.
From Verif Require Import Base Model_Groups Model_Rep Model_FieldType Model_Utils.
Import ListNotations.
Open Scope R_scope.

(** * SingleBlockBasisExpansion *)

(** The registered buffer [sampled_basis] of shape (B, O, I, S) and [attributes]: element b is the pair of its attributes
    and of the function (point index, row, column) -> value. *)
Record sblock (At : Type) : Type := MkSB { sb_rows : nat; sb_cols : nat; sb_els : list (At * (nat -> mat)) }.
Arguments MkSB {At} _ _ _.
Arguments sb_rows {At} _.
Arguments sb_cols {At} _.
Arguments sb_els {At} _.

(** sampled_basis[t] *)
Definition sb_el {At} (sb : sblock At) (t : nat) : nat -> mat :=
  match nth_error (sb_els sb) t with Some e => snd e | None => fun _ => mzero end.

(** basisexpansion_singleblock.py:212-221: sum of the squares of a sampled element of shape (no, ni, S) *)
Definition sq_norm (no ni S : nat) (e : nat -> mat) : R :=
  rsum S (fun s => rsum no (fun o => rsum ni (fun i => e s o i * e s o i))).

(** basisexpansion_singleblock.py:188-235 [normalize_basis] of one element; exact reals have no nan *)
Definition normalize (no ni S : nat) (size : R) (e : nat -> mat) : nat -> mat :=
  let n := sq_norm no ni S e / size in
  let n := if Rlt_dec n (1 / 1000000000000000) then 0 else n in
  let n := sqrt n in
  let n := if Rlt_dec n (1 / 1000000) then 1 else n in
  fun s o i => e s o i / n.

(** basisexpansion_singleblock.py:15-108.  The basis is the list of its elements: the attributes yielded by the iteration
    and the sampled values at each of the S points ([sample_masked] keeps the selected ones in order: C27). *)
Definition single_block {At : Type} (no ni S : nat) (shape0 : At -> nat) (keep : At -> bool)
    (basis : list (At * (nat -> mat))) : result (sblock At) :=
  let kept := filter (fun p => keep (fst p)) basis in
  match kept with
  | [] => Err "EmptyBasisException"
  | _ =>
    let normalized := map (fun p => (fst p, normalize no ni S (INR (shape0 (fst p))) (snd p))) kept in
    let big := filter (fun p => Rltb (1 / 100) (sq_norm no ni S (snd p))) normalized in
    match big with
    | [] => Err "EmptyBasisException"
    | _ => Ok (MkSB no ni big)
    end
  end.

(** * BlocksBasisExpansion *)
Definition key : Type := (string * string)%type.
Definition key_eqb (a b : key) : bool := (String.eqb (fst a) (fst b) && String.eqb (snd a) (snd b))%bool.
(** Python order of pairs of strings *)
Definition pair_leb (a b : key) : bool :=
  match String.compare (fst a) (fst b) with
  | Lt => true | Gt => false
  | Eq => String.leb (snd a) (snd b)
  end.
Fixpoint insert_pair (a : key) (l : list key) : list key :=
  match l with [] => [a] | b :: l' => if pair_leb a b then a :: b :: l' else b :: insert_pair a l' end.
(** [sorted]; the keys are distinct *)
Definition sort_pairs (l : list key) : list key := fold_right insert_pair [] l.

(** array[r][c] = v for one index pair; [upd] leaves the other entries *)
Definition upd3 (f : nat -> nat -> nat -> R) (r c : nat) (v : nat -> R) : nat -> nat -> nat -> R :=
  fun r' c' s => if ((r' =? r) && (c' =? c))%nat%bool then v s else f r' c' s.

Section Blocks.
(** [Rp]: representation objects; [rname], [rsize], [rirr]: name, size and number of irreps; [rp_eqb]: __eq__.
    [At]: attributes of the elements of the bases; [at_id]: the part of the id that comes from the attributes
    (basisexpansion_singleblock.py:97-105; an id string is modelled by the tuple it is formatted from);
    [at_in], [at_out]: in_irrep_idx, out_irrep_idx *)
Context {Rp At Id : Type} (rname : Rp -> string) (rsize rirr : Rp -> nat) (rp_eqb : Rp -> Rp -> bool)
        (at_id : At -> Id) (at_in at_out : At -> nat) (id_eqb : Id -> Id -> bool).

(** id of an element: '({}-{},{}-{})' of (in name, in position, out name, out position) + '_' + the inner id *)
Definition fullid : Type := (string * nat * string * nat * Id)%type.
Definition fullid_eqb (a b : fullid) : bool :=
  let '(n1, i1, m1, o1, d1) := a in
  let '(n2, i2, m2, o2, d2) := b in
  (String.eqb n1 n2 && (i1 =? i2)%nat && String.eqb m1 m2 && (o1 =? o2)%nat && id_eqb d1 d2)%bool.

(** field_type.py:85 [_unique_representations]: a set.  Its iteration order is unspecified in Python; the order of the first
    occurrences is used here.  The result does not depend on it when different representations have different names. *)
Fixpoint set_of (l : list Rp) : list Rp :=
  match l with [] => [] | x :: l' => x :: filter (fun y => negb (rp_eqb x y)) (set_of l') end.

(** (name, size) of the fields *)
Definition fields (l : list Rp) : list (string * nat) := map (fun r => (rname r, rsize r)) l.
(** basisexpansion_blocks.py:374-389 [_retrieve_indices]: [_indices], [_count], [_contiguous] *)
Definition indices (l : list Rp) (n : string) : list nat := label_indices n 0 (fields l).
Definition count (l : list Rp) (n : string) : nat := length (label_fields n 0 (fields l)).
Definition contiguous (l : list Rp) (n : string) : result bool := check_consecutive_numbers (map Z.of_nat (indices l n)).

Record bexp : Type := MkBE {
  be_in : list Rp; be_out : list Rp; be_S : nat; be_npairs : nat;
  be_blocks : list (key * sblock At);
  be_pairs : list key;
  be_contig : list (key * bool);
  be_ranges : list (key * (nat * nat));
  be_ids : list fullid                      (* _basis_to_ids *)
}.

(** basisexpansion_blocks.py:65-86 *)
Definition build_blocks (gen : Rp -> Rp -> result (sblock At)) (ins outs : list Rp) : result (list (key * sblock At)) :=
  fold_left (fun acc p => rbind acc (fun d =>
      match gen (fst p) (snd p) with
      | Ok sb => Ok (kset key_eqb d (rname (fst p), rname (snd p)) sb)
      | Err x => if String.eqb x "EmptyBasisException" then Ok d else Err x
      end)) (list_prod (set_of ins) (set_of outs)) (Ok []).

(** basisexpansion_blocks.py:394-436 [_compute_attrs_and_ids]: basis_ids[io_pair] *)
Definition basis_ids (blocks : list (key * sblock At)) (ins outs : list Rp) (K : key) : list fullid :=
  concat (map (fun po => concat (map (fun pi =>
    if key_eqb (rname (snd pi), rname (snd po)) K
    then match kget key_eqb blocks K with
         | Some sb => map (fun e => (rname (snd pi), fst pi, rname (snd po), fst po, at_id (fst e))) (sb_els sb)
         | None => []
         end
    else []) (enumerate ins))) (enumerate outs)).

(** basisexpansion_blocks.py:113-160: [_weights_ranges], with [last] = last_weight_position *)
Fixpoint ranges_from (ids : key -> list fullid) (last : nat) (pairs : list key) : list (key * (nat * nat)) :=
  match pairs with
  | [] => []
  | K :: pairs' => (K, (last, last + length (ids K))%nat) :: ranges_from ids (last + length (ids K)) pairs'
  end.

(** basisexpansion_blocks.py:22-160 [__init__]; the assertion on the gspaces is made by the caller (R2Conv) *)
Definition be_make (ins outs : list Rp) (S : nat) (gen : Rp -> Rp -> result (sblock At)) : result bexp :=
  rbind (build_blocks gen ins outs) (fun blocks =>
  let pairs := sort_pairs (map fst blocks) in
  let ids := basis_ids blocks ins outs in
  rbind (rmap (fun K =>
    rbind (contiguous ins (fst K)) (fun ci =>
    rbind (contiguous outs (snd K)) (fun co => Ok (K, (ci && co)%bool)))) pairs) (fun contig =>
  Ok (MkBE ins outs S (length (set_of ins) * length (set_of outs)) blocks pairs contig
           (ranges_from ids 0 pairs) (concat (map ids pairs))))).

(** basisexpansion_blocks.py:271-272 [dimension]: len of the dict [_ids_to_basis], i.e. the number of different ids *)
Fixpoint distinct_ids (l : list fullid) : list fullid :=
  match l with [] => [] | x :: l' => x :: filter (fun y => negb (fullid_eqb x y)) (distinct_ids l') end.
Definition be_dimension (b : bexp) : nat := length (distinct_ids (be_ids b)).

(** basisexpansion_blocks.py:274-297 [_expand_block]: the 5-dimensional array (out_count, o, in_count, i, S).
    weights[a:b].view(-1, dim), einsum 'boi...,kb->koi...', view as (out_count, in_count, o, i, S), transpose(1, 2).
    A view with the wrong number of entries raises RuntimeError. *)
Definition expand_block (b : bexp) (w : list R) (K : key) : result (sblock At * (nat -> nat -> nat -> nat -> nat -> R)) :=
  match kget key_eqb (be_blocks b) K, kget key_eqb (be_ranges b) K with
  | Some sb, Some rg =>
      let co := sub_list w (fst rg) (snd rg) in
      let d := length (sb_els sb) in
      let oc := count (be_out b) (snd K) in
      let ic := count (be_in b) (fst K) in
      if (length co =? oc * ic * d)%nat
      then Ok (sb, fun q r p c s => rsum d (fun t => sb_el sb t s r c * nth ((q * ic + p) * d + t)%nat co 0))
      else Err "RuntimeError"
  | _, _ => Err "KeyError"
  end.

(** expanded.reshape(..., S): entry m of the first axes merged in C order *)
Definition merged (b : bexp) (K : key) (e : sblock At * (nat -> nat -> nat -> nat -> nat -> R)) (m s : nat) : R :=
  let W := (count (be_in b) (fst K) * sb_cols (fst e))%nat in
  let rr := (m / W)%nat in
  let cc := (m mod W)%nat in
  snd e (rr / sb_rows (fst e))%nat (rr mod sb_rows (fst e))%nat (cc / sb_cols (fst e))%nat (cc mod sb_cols (fst e))%nat s.
(** number of entries of expanded, divided by S *)
Definition merged_size (b : bexp) (K : key) (sb : sblock At) : nat :=
  (count (be_out b) (snd K) * sb_rows sb * (count (be_in b) (fst K) * sb_cols sb))%nat.

(** [min(), max() + 1, max() + 1 - min()] of the indices of a contiguous pair (lines 121-131) *)
Definition span (l : list nat) : nat * nat * nat :=
  match l with
  | [] => (0, 0, 0)%nat
  | x :: l' => let m := fold_left Nat.min l' x in let M := fold_left Nat.max l' x in (m, M + 1, M + 1 - m)%nat
  end.

(** one iteration of the loop of [forward] (lines 327-350) *)
Definition write_pair (b : bexp) (w : list R) (f : nat -> nat -> nat -> R) (K : key) : result (nat -> nat -> nat -> R) :=
  let ii := indices (be_in b) (fst K) in
  let oi := indices (be_out b) (snd K) in
  rbind (expand_block b w K) (fun e =>
  match kget key_eqb (be_contig b) K with
  | Some true =>
      let '(i0, i1, i2) := span ii in
      let '(o0, o1, o2) := span oi in
      if (o2 * i2 =? merged_size b K (fst e))%nat
      then Ok (fun r c s => if ((o0 <=? r) && (r <? o1) && (i0 <=? c) && (c <? i1))%nat%bool
                            then merged b K e ((r - o0) * i2 + (c - i0))%nat s else f r c s)
      else Err "RuntimeError"
  | Some false =>
      (* out_indices, in_indices = meshgrid, flattened: entry m is (oi[m / len ii], ii[m mod len ii]) *)
      if (length oi * length ii =? merged_size b K (fst e))%nat
      then Ok (fold_left (fun f m => upd3 f (nth (m / length ii)%nat oi 0%nat) (nth (m mod length ii)%nat ii 0%nat) (merged b K e m))
                         (seq 0 (length oi * length ii)) f)
      else Err "RuntimeError"
  | None => Err "KeyError"
  end).

(** basisexpansion_blocks.py:299-352 [forward].  With a single pair all fields are equal, hence contiguous, and the expanded
    block is returned directly. *)
Definition be_forward (b : bexp) (w : list R) : result (nat -> nat -> nat -> R) :=
  assert_ (length w =? be_dimension b)%nat
  (if (be_npairs b =? 1)%nat
   then match be_pairs b with
        | [] => Err "IndexError"
        | K :: _ =>
          let '(_, _, i2) := span (indices (be_in b) (fst K)) in
          let '(_, _, o2) := span (indices (be_out b) (snd K)) in
          rbind (expand_block b w K) (fun e =>
          if (o2 * i2 =? merged_size b K (fst e))%nat
          then Ok (fun r c s => merged b K e (r * i2 + c)%nat s)
          else Err "RuntimeError")
        end
   else fold_left (fun acc K => rbind acc (fun f => write_pair b w f K)) (be_pairs b) (Ok (fun _ _ _ => 0))).

(** what an info dictionary says about an element *)
Record einfo : Type := MkEI {
  ei_attr : At; ei_inpos : nat; ei_outpos : nat; ei_inrepr : string; ei_outrepr : string;
  ei_i : nat; ei_o : nat; ei_id : fullid; ei_idx : nat }.
(** number of irreps of the fields before a position (the running counters in_irreps_count, out_irreps_count) *)
Definition irreps_before (l : list Rp) (i : nat) : nat := nsum (map rirr (firstn i l)).
(** the attr.update of lines 206-213 and 256-263, and the id *)
Definition info (b : bexp) (K : key) (a : At) (o i idx : nat) : einfo :=
  MkEI a (irreps_before (be_in b) i + at_in a) (irreps_before (be_out b) o + at_out a)
       (fst K) (snd K) i o (fst K, i, snd K, o, at_id a) idx.

(** basisexpansion_blocks.py:165-232 [get_element_info] with an int *)
Definition be_element_info (b : bexp) (idx : nat) : result einfo :=
  match find (fun kr => ((fst (snd kr) <=? idx) && (idx <? snd (snd kr)))%nat%bool) (be_ranges b) with
  | None => Err "AssertionError"
  | Some (K, rg) =>
    match kget key_eqb (be_blocks b) K with
    | None => Err "AttributeError"
    | Some sb =>
      let rel := (idx - fst rg)%nat in
      let block_idx := (rel / length (sb_els sb))%nat in
      match nth_error (sb_els sb) (rel mod length (sb_els sb)) with
      | None => Err "IndexError"
      | Some e =>
        (* the blocks of this pair, in the order of the loops; block_count counts them *)
        let found := concat (map (fun po => map (fun pi => (fst po, fst pi))
                       (filter (fun pi => key_eqb K (rname (snd pi), rname (snd po))) (enumerate (be_in b))))
                       (enumerate (be_out b))) in
        match nth_error found block_idx with
        | None => Err "ValueError"
        | Some (o, i) => Ok (info b K (fst e) o i idx)
        end
      end
    end
  end.
(** ... and with a name: idx = _ids_to_basis[name]; the last element with this id (a later assignment replaces) *)
Fixpoint last_index (x : fullid) (l : list fullid) (p : nat) (r : option nat) : option nat :=
  match l with [] => r | y :: l' => last_index x l' (S p) (if fullid_eqb y x then Some p else r) end.
Definition be_element_info_name (b : bexp) (x : fullid) : result einfo :=
  match last_index x (be_ids b) 0 None with
  | None => Err "KeyError"
  | Some idx => be_element_info b idx
  end.

(** basisexpansion_blocks.py:234-269 [get_basis_info]; idx counts the yielded elements *)
Definition be_basis_info (b : bexp) : list einfo :=
  let l := concat (map (fun K =>
             match kget key_eqb (be_blocks b) K with
             | None => []
             | Some sb =>
               concat (map (fun o => concat (map (fun i =>
                 map (fun e => (K, fst e, o, i)) (sb_els sb))
                 (label_fields (fst K) 0 (fields (be_in b))))) (label_fields (snd K) 0 (fields (be_out b))))
             end) (be_pairs b)) in
  map (fun p => let '(idx, (K, a, o, i)) := p in info b K a o i idx) (enumerate l).
End Blocks.
