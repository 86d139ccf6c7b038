(** Specification vocabulary for lists of fields: a list of channels cut into consecutive cut. *)
From Coq Require Import ZArith List Lia.
Import ListNotations.

(** [cut sizes l]: the first [s1] entries of l, then the next [s2], ... *)
Fixpoint cut {A} (sizes : list nat) (l : list A) : list (list A) :=
  match sizes with
  | [] => []
  | s :: ss => firstn s l :: cut ss (skipn s l)
  end.

(** [y] is the list of the elements of [l] at positions [F], all of which exist. *)
Definition picks {A} (l : list A) (F : list nat) (y : list A) : Prop :=
  map Some y = map (nth_error l) F.

(** Positions a Python list of length n selects for an int: i or n+i, IndexError otherwise. *)
Definition int_selects (n : nat) (z : Z) (F : list nat) : Prop :=
  (0 <= z < Z.of_nat n /\ F = [Z.to_nat z])%Z \/
  (- Z.of_nat n <= z < 0 /\ F = [Z.to_nat (Z.of_nat n + z)])%Z.

(** Positions a Python slice selects, in words: normalise negative bounds once by adding n, clip to the
    list, then walk from the start by step until the stop is reached. *)
Definition slice_selects (n : nat) (start stop step : option Z) (F : list nat) : Prop :=
  let N := Z.of_nat n in
  let st := match step with None => 1 | Some s => s end%Z in
  let norm x := (if x <? 0 then x + N else x)%Z in
  st <> 0%Z /\
  exists a b : Z,
    (0 < st -> a = match start with None => 0 | Some x => Z.max 0 (Z.min N (norm x)) end /\
               b = match stop with None => N | Some x => Z.max 0 (Z.min N (norm x)) end)%Z /\
    (st < 0 -> a = match start with None => N - 1 | Some x => Z.max (-1) (Z.min (N - 1) (norm x)) end /\
               b = match stop with None => -1 | Some x => Z.max (-1) (Z.min (N - 1) (norm x)) end)%Z /\
    (forall k f, nth_error F k = Some f -> Z.of_nat f = a + Z.of_nat k * st)%Z /\
    (forall k : nat, (k < length F)%nat <->
        ((0 < st -> a + Z.of_nat k * st < b) /\ (st < 0 -> a + Z.of_nat k * st > b))%Z).
