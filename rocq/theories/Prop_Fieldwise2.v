(** C42, C43: the non-linearities are equivariant, the pools invariant. *)
From Coq Require Import Reals ZArith String List Bool Lia Lra.
From Verif Require Import Base LinAlg Spec Spec_Fields Model_Groups Model_Rep Model_Regular Model_FieldType Model_Tensor Model_Utils Model_Fieldwise
  Spec_Fieldwise Spec_Fieldwise2 Proofs_Groups Proofs_Irreps Proofs_Rep Proofs_Regular Proofs_Regular2 Prop_Regular
  Proofs_FieldType Proofs_Tensor Proofs_Utils Proofs_Fieldwise Proofs_Fieldwise2 Proofs_Fieldwise3 Proofs_Fieldwise4 Proofs_Fieldwise5 Proofs_Fieldwise6
  Proofs_Fieldwise7 Proofs_Fieldwise8 Proofs_Fieldwise9 Proofs_Fieldwise10 Prop_Fieldwise Proofs_Fieldwise11.
Import ListNotations.
Open Scope R_scope.

(** [acts reps g pi d d']: d' is d transformed by g (transform_fibers), its points moved by pi.  The theorems are about any two
    tensors x, x' related in this way, any values of the parameters, and any contents of uninitialised memory. *)
Section C42.
Context {GS G X : Type} (fits : GS -> rep G -> bool) (gs_eqb : GS -> GS -> bool) (rp_eqb : rep G -> rep G -> bool)
        (is_triv : rep G -> bool) (trivial_repr : GS -> rep G).
Notation chan := (X -> R).
Notation ftype := (ftype GS (rep G)).
Notation gtensor := (gtensor GS (rep G) chan).

(** ReLU, ELU and PointwiseNonLinearity with any name: permutation representations *)
Theorem C42_pointwise : forall (t : ftype) m g pi (x x' : gtensor),
  (exists fn, pointwise_make t fn = Ok m) \/ relu_make t = Ok m \/ (exists alpha, elu_make t alpha = Ok m) ->
  ft_reps t <> [] -> typed gs_eqb rp_eqb t x -> typed gs_eqb rp_eqb t x' ->
  (forall r, In r (ft_reps t) -> is_perm (rp_size r) (rp_mat r g)) ->
  acts (ft_reps t) g pi (gt_data x) (gt_data x') ->
  exists y y', pointwise_forward gs_eqb rp_eqb m x = Ok y /\ pointwise_forward gs_eqb rp_eqb m x' = Ok y' /\
    gt_type y = t /\ gt_type y' = t /\ acts (ft_reps t) g pi (gt_data y) (gt_data y').
Proof.
  intros t m g pi x x' MK NE TX TX' P A.
  assert (E : pw_in m = t).
  { destruct MK as [[fn MK]|[MK|[al MK]]].
    - unfold pointwise_make in MK. apply assert_ok in MK as [_ MK]. apply rbind_ok in MK as (f & _ & MK). injection MK as <-. reflexivity.
    - unfold relu_make in MK. apply assert_ok in MK as [_ MK]. injection MK as <-. reflexivity.
    - unfold elu_make in MK. apply assert_ok in MK as [_ MK]. injection MK as <-. reflexivity. }
  subst t. apply pointwise_equiv; auto.
Qed.
(** NormNonLinearity: orthogonal representations *)
Theorem C42_norm : forall (t : ftype) fn bias m lb g pi junk junk' (x x' : gtensor),
  norm_make t fn bias = Ok m -> ft_reps t <> [] -> size_pos t -> same_shape (nn_logb m) lb ->
  typed gs_eqb rp_eqb t x -> typed gs_eqb rp_eqb t x' ->
  (forall r, In r (ft_reps t) -> orthogonal (rp_size r) (rp_mat r g)) ->
  acts (ft_reps t) g pi (gt_data x) (gt_data x') ->
  exists y y', norm_forward gs_eqb rp_eqb junk (set_logb m lb) x = Ok y /\ norm_forward gs_eqb rp_eqb junk' (set_logb m lb) x' = Ok y' /\
    gt_type y = t /\ gt_type y' = t /\ acts (ft_reps t) g pi (gt_data y) (gt_data y').
Proof. intros. eapply norm_equiv; eauto. Qed.
(** InducedNormNonLinearity: representations that permute their sub-fields, whose size the module reads off their names *)
Theorem C42_induced_norm : forall (t : ftype) fn bias m lb g pi junk junk' (x x' : gtensor),
  inorm_make t fn bias = Ok m -> ft_reps t <> [] -> size_pos t -> same_shape (in_logb m) lb ->
  typed gs_eqb rp_eqb t x -> typed gs_eqb rp_eqb t x' ->
  (forall r n s, In r (ft_reps t) -> field_id "induced_norm" r = Ok (n, s) -> is_block_perm (n / s) s (rp_mat r g)) ->
  acts (ft_reps t) g pi (gt_data x) (gt_data x') ->
  exists y y', inorm_forward gs_eqb rp_eqb junk (set_ilogb m lb) x = Ok y /\ inorm_forward gs_eqb rp_eqb junk' (set_ilogb m lb) x' = Ok y' /\
    gt_type y = t /\ gt_type y' = t /\ acts (ft_reps t) g pi (gt_data y) (gt_data y').
Proof. intros. eapply inorm_equiv; eauto. Qed.
(** GatedNonLinearity2 (gates in a tensor of their own) and 1 (gates among the fields): any representations *)
Theorem C42_gated2 : forall (tg t : ftype) bias m b g pi junk junk' (gx gx' x x' : gtensor),
  (forall r, is_triv r = true -> rp_size r = 1%nat /\ rp_mat r g 0%nat 0%nat = 1) ->
  gated2_make gs_eqb is_triv tg t bias = Ok m -> ft_reps t <> [] -> size_pos t -> length b = length (g2_bias m) ->
  typed gs_eqb rp_eqb tg gx -> typed gs_eqb rp_eqb tg gx' -> typed gs_eqb rp_eqb t x -> typed gs_eqb rp_eqb t x' ->
  acts (ft_reps tg) g pi (gt_data gx) (gt_data gx') -> acts (ft_reps t) g pi (gt_data x) (gt_data x') ->
  exists y y', gated2_forward gs_eqb rp_eqb junk (set_bias2 m b) gx x = Ok y /\ gated2_forward gs_eqb rp_eqb junk' (set_bias2 m b) gx' x' = Ok y' /\
    gt_type y = t /\ gt_type y' = t /\ acts (ft_reps t) g pi (gt_data y) (gt_data y').
Proof. intros. eapply gated2_equiv; eauto. Qed.
Theorem C42_gated1 : forall (t : ftype) gates drop bias m b g pi junk junk' (x x' : gtensor),
  (forall r, is_triv r = true -> rp_size r = 1%nat /\ rp_mat r g 0%nat 0%nat = 1) ->
  gated1_make fits is_triv t gates drop bias = Ok m -> ft_reps (g1_out m) <> [] -> size_pos t -> length b = length (g1_bias m) ->
  typed gs_eqb rp_eqb t x -> typed gs_eqb rp_eqb t x' -> acts (ft_reps t) g pi (gt_data x) (gt_data x') ->
  exists y y', gated1_forward gs_eqb rp_eqb junk (set_bias1 m b) x = Ok y /\ gated1_forward gs_eqb rp_eqb junk' (set_bias1 m b) x' = Ok y' /\
    gt_type y = g1_out m /\ gt_type y' = g1_out m /\ acts (ft_reps (g1_out m)) g pi (gt_data y) (gt_data y').
Proof. intros. eapply gated1_equiv; eauto. Qed.
(** ConcatenatedNonLinearity: whatever the constructor accepts, if the representations are invertible *)
Theorem C42_concatenated : forall elements build (t : ftype) fn m g pi (x x' : gtensor),
  (forall name s M nl r, build name s M nl = Ok r -> rp_size r = s /\ forall g, In g elements -> meq s s (rp_mat r g) (M g)) ->
  conc_make fits elements build t fn = Ok m -> ft_reps t <> [] -> In g elements ->
  (forall r, In r (ft_reps t) -> exists B, meq (rp_size r) (rp_size r) (mmul (rp_size r) (rp_mat r g) B) mid) ->
  typed gs_eqb rp_eqb t x -> typed gs_eqb rp_eqb t x' -> acts (ft_reps t) g pi (gt_data x) (gt_data x') ->
  exists y y', conc_forward gs_eqb rp_eqb m x = Ok y /\ conc_forward gs_eqb rp_eqb m x' = Ok y' /\
    gt_type y = cc_out m /\ gt_type y' = cc_out m /\ acts (ft_reps (cc_out m)) g pi (gt_data y) (gt_data y').
Proof. intros. eapply conc_equiv; eauto. Qed.
(** VectorFieldNonLinearity: equivariant where the maximum of a field is attained once or not positive.  Missing: ties, where
    it is not equivariant (C42_vectorfield_ties_refuted). *)
Theorem C42_vectorfield_partial : forall argmax order r1 k (t : ftype) m g pi (x x' : gtensor), argmax_ok argmax ->
  vfield_make fits order (Some r1) t = Ok m -> rp_size r1 = 2%nat -> ft_reps t <> [] -> (k < order)%nat ->
  (forall r, In r (ft_reps t) -> is_shift order k (rp_mat r g)) -> is_rotation (INR k * (2 * PI / INR order)) (rp_mat r1 g) ->
  typed gs_eqb rp_eqb t x -> typed gs_eqb rp_eqb t x' -> acts (ft_reps t) g pi (gt_data x) (gt_data x') ->
  (forall b p, In b (fields (ft_reps t) (gt_data x)) -> single_max b p \/ forall i, (i < order)%nat -> val b i p <= 0) ->
  exists y y', vfield_forward gs_eqb rp_eqb argmax m x = Ok y /\ vfield_forward gs_eqb rp_eqb argmax m x' = Ok y' /\
    gt_type y = vf_out m /\ gt_type y' = vf_out m /\ acts (ft_reps (vf_out m)) g pi (gt_data y) (gt_data y').
Proof. intros. eapply vfield_equiv; eauto. Qed.

(** ** C43: the channels of the result are those of the other result at the moved points *)
Theorem C43_group_pool : forall (t : ftype) m g pi junk junk' (x x' : gtensor),
  rp_size (trivial_repr (ft_gs t)) = 1%nat -> rp_mat (trivial_repr (ft_gs t)) g 0%nat 0%nat = 1 ->
  gpool_make fits trivial_repr t = Ok m -> ft_reps t <> [] -> size_pos t -> typed gs_eqb rp_eqb t x -> typed gs_eqb rp_eqb t x' ->
  (forall r, In r (ft_reps t) -> is_perm (rp_size r) (rp_mat r g)) -> acts (ft_reps t) g pi (gt_data x) (gt_data x') ->
  exists y y', gpool_forward gs_eqb rp_eqb junk m x = Ok y /\ gpool_forward gs_eqb rp_eqb junk' m x' = Ok y' /\
    gt_type y = MkFT (ft_gs t) (repeat (trivial_repr (ft_gs t)) (length (ft_reps t))) /\ gt_type y' = gt_type y /\
    length (gt_data y) = length (ft_reps t) /\ follows pi (gt_data y) (gt_data y').
Proof.
  intros t m g pi junk junk' x x' T1 T2 MK NE SP TX TX' P A. unfold gpool_make in MK. apply assert_ok in MK as [_ MK].
  eapply (pool_equiv fits gs_eqb rp_eqb trivial_repr vmax); eauto. intros r b b' Hr M. apply (max_moved (rp_size r) (rp_mat r g) pi); auto.
Qed.
Theorem C43_norm_pool : forall (t : ftype) m g pi junk junk' (x x' : gtensor),
  rp_size (trivial_repr (ft_gs t)) = 1%nat -> rp_mat (trivial_repr (ft_gs t)) g 0%nat 0%nat = 1 ->
  npool_make fits trivial_repr t = Ok m -> ft_reps t <> [] -> size_pos t -> typed gs_eqb rp_eqb t x -> typed gs_eqb rp_eqb t x' ->
  (forall r, In r (ft_reps t) -> orthogonal (rp_size r) (rp_mat r g)) -> acts (ft_reps t) g pi (gt_data x) (gt_data x') ->
  exists y y', npool_forward gs_eqb rp_eqb junk m x = Ok y /\ npool_forward gs_eqb rp_eqb junk' m x' = Ok y' /\
    gt_type y = MkFT (ft_gs t) (repeat (trivial_repr (ft_gs t)) (length (ft_reps t))) /\ gt_type y' = gt_type y /\
    length (gt_data y) = length (ft_reps t) /\ follows pi (gt_data y) (gt_data y').
Proof.
  intros t m g pi junk junk' x x' T1 T2 MK NE SP TX TX' P A.
  eapply (pool_equiv fits gs_eqb rp_eqb trivial_repr vnorm); eauto. intros r b b' Hr M p. rewrite !vnorm_spec. apply (norm_moved (rp_size r) (rp_mat r g) pi); auto.
Qed.
Theorem C43_induced_norm_pool : forall (t : ftype) m g pi junk junk' (x x' : gtensor),
  rp_size (trivial_repr (ft_gs t)) = 1%nat -> rp_mat (trivial_repr (ft_gs t)) g 0%nat 0%nat = 1 ->
  ipool_make fits trivial_repr t = Ok m -> ft_reps t <> [] -> size_pos t -> typed gs_eqb rp_eqb t x -> typed gs_eqb rp_eqb t x' ->
  (forall r n s, In r (ft_reps t) -> field_id "induced_norm" r = Ok (n, s) -> is_block_perm (n / s) s (rp_mat r g)) ->
  acts (ft_reps t) g pi (gt_data x) (gt_data x') ->
  exists y y', ipool_forward gs_eqb rp_eqb junk m x = Ok y /\ ipool_forward gs_eqb rp_eqb junk' m x' = Ok y' /\
    gt_type y = MkFT (ft_gs t) (repeat (trivial_repr (ft_gs t)) (length (ft_reps t))) /\ gt_type y' = gt_type y /\
    length (gt_data y) = length (ft_reps t) /\ follows pi (gt_data y) (gt_data y').
Proof. intros. eapply ipool_equiv; eauto. Qed.
End C42.
Print Assumptions C42_pointwise.
Print Assumptions C42_norm.
Print Assumptions C42_induced_norm.
Print Assumptions C42_gated1.
Print Assumptions C42_gated2.
Print Assumptions C42_concatenated.
Print Assumptions C42_vectorfield_partial.
Print Assumptions C43_group_pool.
Print Assumptions C43_norm_pool.
Print Assumptions C43_induced_norm_pool.
