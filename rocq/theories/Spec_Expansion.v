(** Specification vocabulary for the layout of the weights of an expanded basis. *)
From Coq Require Import Reals ZArith String List Bool.
From Verif Require Import Base Model_Groups Model_Rep Model_Utils Model_Expansion.
Import ListNotations.
Open Scope R_scope.

Section Layout.
(** fields [ins] and [outs] with names and sizes, and the sampled basis [gen] of a pair (input, output) of fields *)
Context {Rp At Id : Type} (rname : Rp -> string) (rsize rirr : Rp -> nat) (at_id : At -> Id) (at_in at_out : At -> nat)
        (id_eqb : Id -> Id -> bool) (ins outs : list Rp) (gen : Rp -> Rp -> result (sblock At)).

(** e is the element number t of the basis that maps input field i to output field o *)
Definition block_element (o i t : nat) (e : At * (nat -> mat)) : Prop :=
  exists ro ri sb, nth_error outs o = Some ro /\ nth_error ins i = Some ri /\ gen ri ro = Ok sb /\ nth_error (sb_els sb) t = Some e.

(** first channel of field i *)
Definition first_channel (l : list Rp) (i : nat) : nat := nsum (map rsize (firstn i l)).
(** first irrep of field i *)
Definition first_irrep (l : list Rp) (i : nat) : nat := nsum (map rirr (firstn i l)).

(** The weights of the expansion [b] are laid out in slices, one for each (output field, input field) pair, starting at
    [first o i]; the slices partition the weight vector; the information methods describe this very layout; the block
    (o, i) of the filter combines the basis of the pair with its slice. *)
Definition weight_layout (b : @bexp Rp At Id) : Prop :=
  exists first : nat -> nat -> nat,
    (forall o i t e, block_element o i t e -> (first o i + t < be_dimension id_eqb b)%nat) /\
    (forall x, (x < be_dimension id_eqb b)%nat ->
       exists o i t e, block_element o i t e /\ x = (first o i + t)%nat /\
         (forall o' i' t' e', block_element o' i' t' e' -> x = (first o' i' + t')%nat -> o' = o /\ i' = i /\ t' = t)) /\
    length (be_basis_info rname rsize rirr at_id at_in at_out b) = be_dimension id_eqb b /\
    (forall o i t e ro ri, block_element o i t e -> nth_error outs o = Some ro -> nth_error ins i = Some ri ->
       exists inf, be_element_info rname rirr at_id at_in at_out b (first o i + t) = Ok inf /\
         nth_error (be_basis_info rname rsize rirr at_id at_in at_out b) (first o i + t) = Some inf /\
         be_element_info_name rname rirr at_id at_in at_out id_eqb b (ei_id inf) = Ok inf /\
         ei_attr inf = fst e /\ ei_i inf = i /\ ei_o inf = o /\ ei_inrepr inf = rname ri /\ ei_outrepr inf = rname ro /\
         ei_inpos inf = (first_irrep ins i + at_in (fst e))%nat /\ ei_outpos inf = (first_irrep outs o + at_out (fst e))%nat /\
         ei_idx inf = (first o i + t)%nat) /\
    ((0 < be_dimension id_eqb b)%nat -> forall w, length w = be_dimension id_eqb b ->
       exists f, be_forward rname rsize id_eqb b w = Ok f /\
         forall o i ro ri r c s, nth_error outs o = Some ro -> nth_error ins i = Some ri -> (r < rsize ro)%nat -> (c < rsize ri)%nat ->
           f (first_channel outs o + r)%nat (first_channel ins i + c)%nat s =
           match gen ri ro with
           | Ok sb => rsum (length (sb_els sb)) (fun t => nth (first o i + t)%nat w 0 * sb_el sb t s r c)
           | Err _ => 0
           end).
End Layout.
