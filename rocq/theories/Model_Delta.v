(** Model of the delta-orthogonal initialisation: e2cnn/nn/init.py. *)
From Coq Require Import Reals ZArith String List Bool.
From Verif Require Import Base Model_Groups Model_Rep Model_FieldType Model_Utils Model_Modules Model_Fieldwise Model_Expansion Model_Conv Model_Init.
Import ListNotations.
Open Scope R_scope.

Section Delta.
(** names of irreps and their equality *)
Context {N : Type} (neqb : N -> N -> bool).
(** the attributes read at init.py:105-114: in_irrep, out_irrep, (in_irreps_position, out_irreps_position) and the radius,
    or the order when there is no radius, None when there is neither *)
Record dentry : Type := MkDE { de_in : N; de_out : N; de_pos : nat * nat; de_r : option R }.
(** an element that enters counts: its irrep, the key (ip, op) and the index of its weight *)
Definition dsel : Type := (N * (nat * nat) * nat)%type.
(** init.py:104-117: the elements appended to counts, in the order of the loop *)
Fixpoint delta_selected (p : nat) (infos : list dentry) : result (list dsel) :=
  match infos with
  | [] => Ok []
  | a :: l => match de_r a with
              | None => Err "ValueError"%string
              | Some r => rbind (delta_selected (S p) l) (fun sel =>
                            Ok (if (neqb (de_in a) (de_out a) && Reqb r 0)%bool then (de_in a, de_pos a, p) :: sel else sel))
              end
  end.
(** init.py:102: the dictionaries counts and counts[irrep] list their keys by first insertion; counts[irrep][(ip, op)] are
    the appended indices, in order *)
Definition delta_irreps (sel : list dsel) : list N := first_seen neqb (map (fun e => fst (fst e)) sel).
Definition delta_of (sel : list dsel) (n : N) : list dsel := filter (fun e => neqb (fst (fst e)) n) sel.
Definition delta_keys (cn : list dsel) : list (nat * nat) := first_seen pair_eqb (map (fun e => snd (fst e)) cn).
Definition delta_slots (cn : list dsel) (k : nat * nat) : list nat := map snd (filter (fun e => pair_eqb (snd (fst e)) k) cn).
(** init.py:119-121 [same_content] *)
Definition same_content (l : list nat) : bool := match l with [] => true | a :: _ => forallb (fun b => (b =? a)%nat) l end.
(** init.py:125-129: the keys of in_c and out_c and their values *)
Definition delta_ins (keys : list (nat * nat)) : list nat := first_seen Nat.eqb (map fst keys).
Definition delta_outs (keys : list (nat * nat)) : list nat := first_seen Nat.eqb (map snd keys).
Definition in_c (keys : list (nat * nat)) (i : nat) : nat := length (filter (fun k => (fst k =? i)%nat) keys).
Definition out_c (keys : list (nat * nat)) (o : nat) : nat := length (filter (fun k => (snd k =? o)%nat) keys).
(** list(d.values())[0] *)
Definition first_value (l : list nat) : result nat := match l with [] => Err "IndexError"%string | a :: _ => Ok a end.

(** [ortho n k]: the k by k matrix drawn by scipy's ortho_group.rvs(k) when the loop handles the irrep n (every irrep is
    handled once); [normal n]: the matrix drawn by torch.randn for n *)
Context (ortho : N -> nat -> mat) (normal : N -> mat).
(** init.py:145-151: torch.randint(0, 1) is always 0, hence the one by one matrix is [[-1]] *)
Definition delta_W (n : N) (i o : nat) : mat :=
  if (1 <? Nat.max o i)%nat then ortho n (Nat.max i o) else fun _ _ => 2 * 0 - 1.
(** init.py:153-156, for [s] columns; a row of zeros (probability zero) gives nan in the code, the theorems exclude it *)
Definition delta_w (n : N) (s : nat) : mat :=
  fun o p => normal n o p * 5 / sqrt (rsum s (fun q => (normal n o q * 5) ^ 2)).
(** init.py:123-161, one iteration: the assignments to the tensor, in order *)
Definition delta_irrep (sel : list dsel) (n : N) : result (list (nat * R)) :=
  let cn := delta_of sel n in
  let keys := delta_keys cn in
  let ins := delta_ins keys in
  let outs := delta_outs keys in
  assert_ (same_content (map (fun k => length (delta_slots cn k)) keys))
  (assert_ (same_content (map (in_c keys) ins)) (assert_ (same_content (map (out_c keys) outs))
  (rbind (first_value (map (in_c keys) ins)) (fun a => assert_ (a =? length outs)%nat
  (rbind (first_value (map (out_c keys) outs)) (fun b => assert_ (b =? length ins)%nat
  (rbind (first_value (map (fun k => length (delta_slots cn k)) keys)) (fun s =>
   let W := delta_W n (length ins) (length outs) in
   let w := delta_w n s in
   Ok (flat_map (fun i => flat_map (fun o => map (fun p => (snd p, w (fst o) (fst p) * W (fst o) (fst i)))
         (enumerate (delta_slots cn (snd i, snd o)))) (enumerate outs)) (enumerate ins)))))))))).
Fixpoint delta_loop (sel : list dsel) (ns : list N) (tensor : list R) : result (list R) :=
  match ns with
  | [] => Ok tensor
  | n :: ns' => rbind (delta_irrep sel n) (fun l =>
                rbind (fold_left (fun acc a => rbind acc (fun t => put t (fst a) (snd a))) l (Ok tensor)) (fun t =>
                delta_loop sel ns' t))
  end.
(** init.py:86-161 [deltaorthonormal_init], from the length of the tensor, basisexpansion.dimension() and the list of
    get_basis_info(); the result is the tensor after the call *)
Definition delta_init (len dim : nat) (infos : list dentry) : result (list R) :=
  assert_ (len =? dim)%nat
  (rbind (delta_selected 0 infos) (fun sel => delta_loop sel (delta_irreps sel) (repeat 0 dim))).
End Delta.
Arguments dentry N : clear implicits.
