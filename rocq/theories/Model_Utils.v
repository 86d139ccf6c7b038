(** Model of e2cnn/nn/modules/utils.py, and of the Python dicts used by the modules. *)
From Coq Require Import ZArith String List Bool.
From Verif Require Import Base Model_Groups Model_Rep Model_FieldType.
Import ListNotations.
Open Scope Z_scope.

(** nn/modules/utils.py:10-23.  The two divisions are exact: M*(M+1) and (m-1)*m are even. *)
Definition check_consecutive_numbers (l : list Z) : result bool :=
  match l with
  | [] => Err "IndexError"
  | x :: _ =>
    assert_ (forallb (fun v => 0 <=? v) l)
    (let m := fold_left Z.min l x in
     let M := fold_left Z.max l x in
     let s := fold_left Z.add l 0 in
     Ok (Z.eqb (M * (M + 1) / 2 - (m - 1) * m / 2) s))
  end.

(** The loop of utils.py:43-48 (also basisexpansion_blocks.py:374-383): the channel indices collected under the label [l],
    for fields given by (label, size), starting at channel [p] *)
Fixpoint label_indices (l : string) (p : nat) (fs : list (string * nat)) : list nat :=
  match fs with
  | [] => []
  | (l', n) :: fs' => (if String.eqb l' l then seq p n else []) ++ label_indices l (p + n) fs'
  end.
(** ... and the indices of the fields with this label, starting at field [c] *)
Fixpoint label_fields (l : string) (c : nat) (fs : list (string * nat)) : list nat :=
  match fs with
  | [] => []
  | (l', _) :: fs' => (if String.eqb l' l then [c] else []) ++ label_fields l (S c) fs'
  end.

(** nn/modules/utils.py:26-56 [indexes_from_labels(in_type, labels)]; in_type is given by the sizes of its fields.
    The dict is a list of (label, (contiguous, fields, indices)) in insertion order. *)
Definition indexes_from_labels (sizes : list nat) (labels : list string)
  : result (list (string * (bool * list nat * list nat))) :=
  assert_ (Z.of_nat (length labels) =? Z.of_nat (length sizes))
  (let fs := combine labels sizes in
   rmap (fun l =>
     rbind (check_consecutive_numbers (map Z.of_nat (label_indices l 0 fs))) (fun c =>
     Ok (l, (c, label_fields l 0 fs, label_indices l 0 fs)))) (dedup labels)).

(** Python dict with an arbitrary key type: association list without repeated keys *)
Section Dict.
Context {K V : Type} (keqb : K -> K -> bool).
Fixpoint kget (d : list (K * V)) (k : K) : option V :=
  match d with [] => None | (k', v) :: d' => if keqb k' k then Some v else kget d' k end.
(** d[k] = v: replaces the value in place, or adds the key at the end *)
Fixpoint kset (d : list (K * V)) (k : K) (v : V) : list (K * V) :=
  match d with
  | [] => [(k, v)]
  | (k', v') :: d' => if keqb k' k then (k', v) :: d' else (k', v') :: kset d' k v
  end.
End Dict.
