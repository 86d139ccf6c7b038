(** Model of e2cnn/group/representation.py [disentangle] and of e2cnn/nn/modules/disentangle_module.py. *)
From Coq Require Import Reals ZArith String List Bool.
From Verif Require Import Base Model_Groups Model_Rep Model_FieldType Model_Utils Model_Modules Model_Fieldwise Model_BatchNorm.
Import ListNotations.
Open Scope R_scope.

(** np.invert(np.isclose(x, 0)), idealised to x <> 0 *)
Definition nonzero (x : R) : bool := if Req_EM_T x 0 then false else true.

(** scipy.sparse.csgraph.connected_components(graph, directed=False), not part of the repository: the number of components and
    the label of each of the n nodes.  Components are numbered in the order of their first nodes. *)
Section Components.
Variable adj : nat -> nat -> bool.
(** reachable through nodes below k *)
Fixpoint reach (k : nat) (u v : nat) : bool :=
  match k with
  | O => ((u =? v)%nat || adj u v || adj v u)%bool
  | S k' => (reach k' u v || (reach k' u k' && reach k' k' v))%bool
  end.
(** first node of the component of v *)
Definition first_node (n v : nat) : nat := match find (fun u => reach n u v) (seq 0 n) with Some u => u | None => v end.
Definition first_nodes (n : nat) : list nat := filter (fun v => (first_node n v =? v)%nat) (seq 0 n).
Definition connected_components (n : nat) : nat * (nat -> nat) :=
  (length (first_nodes n), fun v => length (filter (fun u => (u <? first_node n v)%nat) (first_nodes n))).
End Components.

Section Disentangle.
Context {G : Type}.
(** representation.py:555 irreps_pos *)
Definition irreps_pos (irs : list (irrep G)) (i : nat) : nat := nsum (map ir_size (firstn i irs)).
(** 557-562: masks[i][row] *)
Definition uses (r : rep G) (i row : nat) : bool :=
  match nth_error (rp_irreps r) i with
  | Some ir => existsb (fun e => nonzero (rp_cob r row (irreps_pos (rp_irreps r) i + e)%nat)) (seq 0 (ir_size ir))
  | None => false end.
(** 564-568: the graph; nodes: the irreps, then the rows *)
Definition dis_graph (r : rep G) (u v : nat) : bool :=
  let ni := length (rp_irreps r) in
  if (u <? ni)%nat then (if (v <? ni)%nat then false else uses r u (v - ni))
  else (if (v <? ni)%nat then uses r v (u - ni) else false).
Definition dis_components (r : rep G) : nat * (nat -> nat) := connected_components (dis_graph r) (length (rp_irreps r) + rp_size r).
(** 572-580: the irreps and the rows of a block, in increasing order *)
Definition block_irreps (r : rep G) (b : nat) : list nat :=
  filter (fun i => (snd (dis_components r) i =? b)%nat) (seq 0 (length (rp_irreps r))).
Definition block_rows (r : rep G) (b : nat) : list nat :=
  filter (fun i => (snd (dis_components r) (length (rp_irreps r) + i) =? b)%nat) (seq 0 (rp_size r)).
(** 597-599: col_indices *)
Definition irrep_cols (r : rep G) (i : nat) : list nat :=
  match nth_error (rp_irreps r) i with Some ir => seq (irreps_pos (rp_irreps r) i) (ir_size ir) | None => [] end.
Definition block_cols (r : rep G) (b : nat) : list nat := concat (map (irrep_cols r) (block_irreps r b)).
Definition pick {A} (l : list A) (idx : list nat) : list A := flat_map (fun i => match nth_error l i with Some a => [a] | None => [] end) idx.
(** matrix[np.ix_(rows, cols)] *)
Definition submatrix (M : mat) (rows cols : list nat) : mat := fun i j => M (nth i rows 0%nat) (nth j cols 0%nat).
(** 603-609: the representation of a block.  The constructor computes the inverse of its change of basis (sp.linalg.inv);
    here it is the corresponding part of the inverse of the whole one (shown to be the inverse in the proofs). *)
Definition block_rep (r : rep G) (b : nat) : rep G :=
  MkRep (rp_name r ++ "_" ++ py_str b) (pick (rp_irreps r) (block_irreps r b))
        (submatrix (rp_cob r) (block_rows r b) (block_cols r b)) (submatrix (rp_inv r) (block_cols r b) (block_rows r b)) (rp_nonlin r).
(** change_of_basis[cur:next, rows] = np.eye(len(rows)) *)
Definition put_eye (M : mat) (cur : nat) (rows : list nat) : mat := fun i j =>
  if ((cur <=? i) && (i <? cur + length rows))%nat%bool
  then match pos_in j rows with Some q => if (q =? i - cur)%nat then 1 else 0 | None => M i j end
  else M i j.
(** 582-616: the loop over the blocks *)
Fixpoint dis_loop (r : rep G) (bs : list nat) (cur : nat) (M : mat) : result (mat * list (rep G)) :=
  match bs with
  | [] => Ok (M, [])
  | b :: bs' =>
    let rows := block_rows r b in
    assert_ (nsum (map ir_size (pick (rp_irreps r) (block_irreps r b))) =? length rows)%nat
    (assert_ (length (block_cols r b) =? length rows)%nat
    (rbind (dis_loop r bs' (cur + length rows) (put_eye M cur rows)) (fun res =>
     Ok (fst res, block_rep r b :: snd res))))
  end.
(** representation.py:471-618 [disentangle] *)
Definition disentangle (r : rep G) : result (mat * list (rep G)) :=
  dis_loop r (seq 0 (fst (dis_components r))) 0 (fun _ _ => 0).
End Disentangle.

(** ** DisentangleModule *)
Section Module.
Context {GS G X : Type} (gs_eqb : GS -> GS -> bool) (rp_eqb : rep G -> rep G -> bool).
Notation ftype := (ftype GS (rep G)).
Notation chan := (X -> R).
Notation gtensor := (gtensor GS (rep G) chan).
Record dis_mod : Type := MkDM { dm_in : ftype; dm_out : ftype; dm_cob : list (string * (nat * mat)); dm_idx : list (string * chan_set) }.
(** disentangle_module.py:41-58: the dicts keyed by the names, over the set of representations [uniq], then the list of the
    output representations *)
Definition dis_dict (uniq : list (rep G)) : result (list (string * (nat * mat * list (rep G)))) :=
  rmap (fun r => rbind (disentangle r) (fun d => Ok (rp_name r, (rp_size r, fst d, snd d)))) uniq.
(** the last assignment to a key counts *)
Definition dis_get {V} (d : list (string * V)) (name : string) : result V :=
  match find (fun p => String.eqb (fst p) name) (rev d) with Some p => Ok (snd p) | None => Err "KeyError"%string end.
(** disentangle_module.py:22-76 [__init__]; the output representations are over the same group, so the check of the group in
    FieldType is left out *)
Definition dismod_make (t : ftype) (uniq : list (rep G)) : result dis_mod :=
  rbind (dis_dict uniq) (fun d =>
  rbind (rmap (fun r => rbind (dis_get d (rp_name r)) (fun v => Ok (snd v))) (ft_reps t)) (fun outs =>
  rbind (match concat outs with [] => Err "AssertionError"%string | l => Ok (MkFT (ft_gs t) l) end) (fun out =>
  rbind (group_index (map (fun r => (rp_name r, rp_size r)) (ft_reps t))) (fun idx =>
  Ok (MkDM t out (map (fun p => (fst p, fst (snd p))) d) idx))))).
(** einsum("oi,bciwh->bcowh", cob, fields) on one field *)
Definition move_field (s : nat) (M : mat) (b : list chan) : list chan :=
  map (fun o => fun p => rsum s (fun i => M o i * nth i b (fun _ => 0) p)) (seq 0 s).
(** disentangle_module.py:78-114 [forward] *)
Definition dismod_forward (junk : nat -> chan) (m : dis_mod) (x : gtensor) : result gtensor :=
  assert_ (ft_eqb gs_eqb rp_eqb (gt_type x) (dm_in m))
  (rbind (group_loop (fun l => l) (dm_idx m) (dm_idx m) (fun _ => 0%nat) (fun name _ fm =>
            rbind (dis_get (dm_cob m) name) (fun sc =>
            rbind (view_fields (fst sc) fm) (fun bl => Ok (concat (map (move_field (fst sc) (snd sc)) bl)))))
          (gt_data x) (first_seen String.eqb (map rp_name (ft_reps (dm_in m)))) 0 (empty junk (length (gt_data x)))) (fun d =>
   mk_gt rp_size d (dm_out m))).
End Module.
