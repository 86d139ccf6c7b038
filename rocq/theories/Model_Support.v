(** Model of the supported_nonlinearities of representations: which ones the constructors of representations declare
    (e2cnn/group/group.py, e2cnn/group/groups/cyclicgroup.py).  The irreps declare theirs in Model_Groups.v, direct sums in Model_Rep.v,
    disentangled representations in Model_Disentangle.v. *)
From Coq Require Import DecimalString Decimal Nat Reals ZArith String List Bool.
From Verif Require Import Base Model_Groups Model_Rep Model_Regular Model_Fieldwise.
Import ListNotations.
Open Scope string_scope.

(** f'{n}' *)
Definition nat_str (n : nat) : string := NilEmpty.string_of_uint (Nat.to_uint n).
(** group.py:439-468 [_induced_nonlinearities(repr)]; [size] is repr.size, [nl] repr.supported_nonlinearities.  A set is a list; the loops over
    the set take its first element with the prefix. *)
Definition induced_nonlinearities (size : nat) (nl : list string) : list string :=
  let has x := existsb (String.eqb x) nl in
  let named pre := match find (starts_with pre) nl with Some x => x | None => pre ++ "_" ++ nat_str size end in
  (if has "pointwise" then ["pointwise"] else []) ++
  (if has "concatenated" then ["concatenated"] else []) ++
  (if has "gated" then ["gated"; named "induced_gated"] else []) ++
  (if has "norm" then ["norm"; named "induced_norm"] else []) ++
  (if has "gate" || has "induced_gate" then ["induced_gate"] else []).
(** group.py:300-331 [induced_representation(id, repr)] for an irrep of the subgroup, and (for its trivial irrep) group.py:253-298
    [quotient_representation]; the objects are kept by name, so that only the first call builds.  The product P(r) @ v
    (representation.py:972) raises ValueError when the irreps have not the size of the result. *)
Definition induced_representation {G H} (grp : fgroup G) (subs : list H) (parent : H -> G) (child : G -> option H)
    (restrict : irrep G -> result (rep H)) (name : string) (ir : irrep H) : result (rep G) :=
  rbind (build_induced grp subs parent child restrict ir) (fun p =>
  let '(irreps, cob, inv) := p in
  if (isizes irreps =? ir_size ir * (order grp / length subs))%nat
  then Ok (MkRep name irreps cob inv (induced_nonlinearities (ir_size ir) (ir_nonlin ir)))
  else Err "ValueError").
(** group.py:417-418, after [restrict_representation]: a trivial result supports 'pointwise' *)
Definition is_trivial {G} (r : rep G) : bool :=
  match rp_irreps r with
  | [ir] => meqb (ir_size ir) (ir_size ir) (rp_cob r) mid && (Z.eqb (ir_freq ir) 0 && Z.eqb (ir_flip ir) 0)
  | _ => false
  end.
Definition restrict_trivial_patch {G} (r : rep G) : rep G :=
  if is_trivial r && negb (existsb (String.eqb "pointwise") (rp_nonlin r))
  then MkRep (rp_name r) (rp_irreps r) (rp_cob r) (rp_inv r) ("pointwise" :: rp_nonlin r) else r.
(** cyclicgroup.py:222: the regular representation of a cyclic group supports 'vectorfield' in addition *)
Definition cyc_regular_representation (N : Z) : result (rep Z) :=
  rbind (cyc_fgroup N) (fun grp => rbind (regular_representation grp) (fun r =>
  Ok (MkRep (rp_name r) (rp_irreps r) (rp_cob r) (rp_inv r) ("vectorfield" :: rp_nonlin r)))).
(** dihedral groups: group.py:234-250 *)
Definition dih_regular_representation (N : Z) : result (rep (Z * Z)) := rbind (dih_fgroup N) regular_representation.
