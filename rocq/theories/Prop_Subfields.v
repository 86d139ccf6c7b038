(** C69: the sub-fields that the name of a declared non-linearity promises are permuted by the group; so InducedNormNonLinearity and InducedNormPool are
    equivariant on every type they accept. *)
From Coq Require Import Reals ZArith String List Bool Lia Lra.
From Verif Require Import Base LinAlg Spec Spec_Fields Model_Groups Model_Rep Model_Regular Model_FieldType Model_Tensor Model_Fieldwise Model_Support Model_InduceO2 Spec_InduceO2 Spec_Fieldwise Spec_Fieldwise2 Spec_Support Spec_Subfields
  Proofs_Groups Proofs_Cont Proofs_Irreps Proofs_Rep Proofs_Restrict Proofs_Regular2 Prop_Rep Proofs_Fieldwise Proofs_Fieldwise8 Proofs_Fieldwise9 Prop_Fieldwise2 Proofs_Support Proofs_Support2 Proofs_InduceO2 Proofs_Subfields Prop_InduceO2.
Import ListNotations.
Open Scope R_scope.

(** Every representation assembled from irreps, regular, induced and quotient representations of C_N, D_N, SO(2) and O(2) by direct sums, restrictions and changes of
    basis permutes, at every element, the sub-fields of every size that it declares with a name induced_norm_k or induced_gated_k. *)
Theorem C69_declared : forall (g : grp) (r : rep (elt g)) e, assembled g r -> is_elt g e ->
  permutes_declared "induced_norm" (rp_nonlin r) (rp_size r) (rp_mat r e) /\ permutes_declared "induced_gated" (rp_nonlin r) (rp_size r) (rp_mat r e).
Proof. intros g r e A He. split; apply (assembled_declared g r); auto; [left|right]; reflexivity. Qed.
Print Assumptions C69_declared.

Lemma subfield_in pre n nls acc s : subfield_loop pre n acc nls = Ok (Some s) -> acc = Some s \/ (s <> 0%nat /\ exists x, In x nls /\ starts_with pre x = true /\ py_int (last_part "" x) = Ok s).
Proof.
  revert acc. induction nls as [|x nls IH]; intros acc E; cbn [subfield_loop] in E; [left; congruence|].
  destruct (starts_with pre x) eqn:SX.
  - destruct acc as [a|]; [discriminate|]. destruct (py_int (last_part "" x)) as [q|] eqn:PQ; [|discriminate]. cbn [rbind] in E. destruct (Nat.eqb_spec q 0); [discriminate|].
    unfold assert_ in E. destruct (n mod q =? 0)%nat; [|discriminate]. right. destruct (IH _ E) as [Q|(S0 & y & Hy & Y1 & Y2)].
    + injection Q as ->. split; [assumption|]. exists x. cbn. auto.
    + split; [exact S0|]. exists y. cbn. auto.
  - destruct (IH _ E) as [Q|(S0 & y & Hy & Y)]; [left; exact Q|]. right. split; [exact S0|]. exists y. cbn. auto.
Qed.
(** The size of the sub-fields that the modules read off the names is one of them. *)
Theorem C69_subfields : forall (g : grp) (r : rep (elt g)) e pre n s, pre = "induced_norm"%string \/ pre = "induced_gated"%string -> assembled g r -> is_elt g e ->
  field_id pre r = Ok (n, s) -> n = rp_size r /\ (0 < s)%nat /\ (n mod s = 0)%nat /\ is_block_perm (n / s) s (rp_mat r e).
Proof.
  intros g r e pre n s SP A He F. unfold field_id in F. destruct (subfield_loop pre (rp_size r) None (rp_nonlin r)) as [[q|]|] eqn:E; [| |discriminate]; [|discriminate].
  cbn [rbind] in F. injection F as <- <-. destruct (subfield_in _ _ _ _ _ E) as [Q|(S0 & x & Hx & X1 & X2)]; [discriminate|].
  destruct (assembled_declared g r pre SP A e He x q Hx X1 X2) as (k & K1 & K2). split; [reflexivity|]. split; [lia|]. rewrite K1, Nat.mod_mul, Nat.div_mul by exact S0. auto.
Qed.
Print Assumptions C69_subfields.

Section Modules.
Context {GS X : Type} (g : grp) (fits : GS -> rep (elt g) -> bool) (gs_eqb : GS -> GS -> bool) (rp_eqb : rep (elt g) -> rep (elt g) -> bool) (trivial_repr : GS -> rep (elt g)).
Notation ftype := (ftype GS (rep (elt g))).
Notation gtensor := (gtensor GS (rep (elt g)) (X -> R)).
(** InducedNormNonLinearity: whatever its learnt biases, equivariant on every type of such representations that its constructor accepts *)
Theorem C69_induced_norm : forall (t : ftype) fn bias m lb e pi junk junk' (x x' : gtensor),
  inorm_make t fn bias = Ok m -> ft_reps t <> [] -> size_pos t -> (forall r, In r (ft_reps t) -> assembled g r) -> is_elt g e -> same_shape (in_logb m) lb ->
  typed gs_eqb rp_eqb t x -> typed gs_eqb rp_eqb t x' -> acts (ft_reps t) e pi (gt_data x) (gt_data x') ->
  exists y y', inorm_forward gs_eqb rp_eqb junk (set_ilogb m lb) x = Ok y /\ inorm_forward gs_eqb rp_eqb junk' (set_ilogb m lb) x' = Ok y' /\
    gt_type y = t /\ gt_type y' = t /\ acts (ft_reps t) e pi (gt_data y) (gt_data y').
Proof.
  intros t fn bias m lb e pi junk junk' x x' MK NE SP B He SS TX TX' A. apply (C42_induced_norm gs_eqb rp_eqb t fn bias m lb e pi junk junk' x x'); auto.
  intros r n s Hr F. apply (C69_subfields g r e "induced_norm"%string n s); auto.
Qed.
(** InducedNormPool: invariant *)
Theorem C69_induced_pool : forall (t : ftype) m e pi junk junk' (x x' : gtensor),
  rp_size (trivial_repr (ft_gs t)) = 1%nat -> rp_mat (trivial_repr (ft_gs t)) e 0%nat 0%nat = 1 ->
  ipool_make fits trivial_repr t = Ok m -> ft_reps t <> [] -> size_pos t -> (forall r, In r (ft_reps t) -> assembled g r) -> is_elt g e ->
  typed gs_eqb rp_eqb t x -> typed gs_eqb rp_eqb t x' -> acts (ft_reps t) e pi (gt_data x) (gt_data x') ->
  exists y y', ipool_forward gs_eqb rp_eqb junk m x = Ok y /\ ipool_forward gs_eqb rp_eqb junk' m x' = Ok y' /\
    gt_type y = MkFT (ft_gs t) (repeat (trivial_repr (ft_gs t)) (length (ft_reps t))) /\ gt_type y' = gt_type y /\
    length (gt_data y) = length (ft_reps t) /\ follows pi (gt_data y) (gt_data y').
Proof.
  intros t m e pi junk junk' x x' T1 T2 MK NE SP B He TX TX' A. apply (C43_induced_norm_pool fits gs_eqb rp_eqb trivial_repr t m e pi junk junk' x x'); auto.
  intros r n s Hr F. apply (C69_subfields g r e "induced_norm"%string n s); auto.
Qed.
End Modules.
Print Assumptions C69_induced_norm.
Print Assumptions C69_induced_pool.

(** The direct sum of the representations of O(2) induced from frequencies 3 and 1 of SO(2) has size 8 and declares sub-fields of size 2; InducedNormNonLinearity accepts it. *)
Example C69_case : exists s3 s1 r3 r1 r, so2_irrep 3 = Ok s3 /\ so2_irrep 1 = Ok s1 /\ o2_induced_representation linv0 "a" (None, (-1)%Z) s3 = Ok r3 /\
  o2_induced_representation linv0 "b" (None, (-1)%Z) s1 = Ok r1 /\ directsum [r3; r1] None = Ok r /\ assembled O2 r /\ rp_size r = 8%nat /\ field_id "induced_norm" r = Ok (8%nat, 2%nat) /\
  exists m, inorm_make (MkFT tt [r]) "n_relu" true = Ok m.
Proof.
  destruct (proj2 (so2_irrep_ok 3) ltac:(lia)) as (s3 & E3). destruct (proj2 (so2_irrep_ok 1) ltac:(lia)) as (s1 & E1).
  destruct (C68_induced linv0 "a" 3 s3 C68_case_inv E3) as (r3 & R3 & _ & [A3 _] & S3 & _). destruct (C68_induced linv0 "b" 1 s1 C68_case_inv E1) as (r1 & R1 & _ & [A1 _] & S1 & _).
  assert (N3 : rp_nonlin r3 = ["gated"; "induced_gated_2"; "norm"; "induced_norm_2"]%string).
  { revert R3. unfold o2_induced_representation. destruct (o2_induced_from_irrep _ _ _) as [p|]; [|discriminate]. intros Q. injection Q as <-. injection E3 as <-. reflexivity. }
  assert (N1 : rp_nonlin r1 = ["gated"; "induced_gated_2"; "norm"; "induced_norm_2"]%string).
  { revert R1. unfold o2_induced_representation. destruct (o2_induced_from_irrep _ _ _) as [p|]; [|discriminate]. intros Q. injection Q as <-. injection E1 as <-. reflexivity. }
  destruct (C07_directsum _ [r3; r1] None) as [EX D]. destruct EX as (r & ER); [discriminate|]. destruct (D r ER) as (_ & D2 & _). destruct D2 as [_ SZ]; [apply Forall_cons; [exact A3|apply Forall_cons; [exact A1|apply Forall_nil]]|].
  assert (Z3 : ir_size s3 = 2%nat) by (injection E3 as <-; reflexivity). assert (Z1 : ir_size s1 = 2%nat) by (injection E1 as <-; reflexivity).
  assert (S8 : rp_size r = 8%nat) by (rewrite SZ; cbn [map nsum fold_right]; rewrite S3, S1, Z3, Z1; reflexivity).
  assert (NL : rp_nonlin r = ["gated"; "induced_gated_2"; "norm"; "induced_norm_2"]%string).
  { transitivity (nl_inters [r3; r1]); [unfold directsum in ER; injection ER as <-; reflexivity|]. cbn [nl_inters]. unfold nl_inter. rewrite N3, N1. reflexivity. }
  assert (FI : field_id "induced_norm" r = Ok (8%nat, 2%nat)) by (unfold field_id; rewrite NL, S8; reflexivity).
  exists s3, s1, r3, r1, r. repeat (split; [assumption|]). split; [|split; [exact S8|split; [exact FI|]]].
  - apply (as_sum O2 [r3; r1] None); [|exact ER]. intros q [<-|[<-|[]]]; [apply (as_induced_o2 linv0 "a" 3 s3)|apply (as_induced_o2 linv0 "b" 1 s1)]; auto using C68_case_inv.
  - unfold inorm_make. cbn [ft_reps forallb rmap]. rewrite FI, NL. cbn [rbind]. vm_compute. eexists. reflexivity.
Qed.
