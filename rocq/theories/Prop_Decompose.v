(** C67: build_from_discrete_group_representation stores the given matrices and decomposes them into irreps. *)
From Coq Require Import Reals ZArith String List Bool Lia Lra Permutation FunctionalExtensionality.
From Verif Require Import Base LinAlg Spec Model_Groups Model_Rep Model_Regular Model_Fieldwise Model_Equality Model_Decompose Spec_Decompose
  Proofs_FieldType Proofs_Groups Proofs_Irreps Proofs_Rep Proofs_Regular Proofs_Regular2 Proofs_Restrict Proofs_Fieldwise2 Proofs_Equality Proofs_Decompose Proofs_Decompose2 Proofs_Decompose3 Proofs_Decompose4.
Import ListNotations.
Open Scope R_scope.

(** Whatever the numerical search [solve] returns, and whatever the matrices are (even if they are no representation): if an object is returned, then it has
    the given name, which was free, and the given nonlinearities; called, it gives back the given matrices; its character is the trace of its decomposition;
    its irreps are irreps of the group in the order of their names, its change of basis is invertible, and conjugating the irreps gives the given matrices up to numpy's tolerance. *)
Theorem C67_sound {G} (grp : fgroup G) name solve linv n rho nm known nl st : inverts linv -> build_from_discrete grp name solve linv n rho nm known nl = Ok st ->
  rp_name (st_rep st) = nm /\ ~ In nm known /\ rp_nonlin (st_rep st) = nl /\ (forall e, st_call st e = rho e) /\ (forall e, st_character st e = trace n (rp_mat (st_rep st) e)) /\
  rp_size (st_rep st) = n /\ rep_accepted (st_rep st) /\ (forall ir, In ir (rp_irreps (st_rep st)) -> In ir (fg_irreps grp)) /\
  ordered name (rp_irreps (st_rep st)) /\ forall e, In e (fg_elements grp) -> nearly n (rho e) (rp_mat (st_rep st) e).
Proof. apply build_sound. Qed.
Print Assumptions C67_sound.

(** If the matrices are those of a representation of C_N that the library knows (a change of basis of a direct sum of irreps), the irreps that are found are
    exactly the irreps of that representation with their multiplicities, and the character is the trace of the matrices. *)
Theorem C67_irreps_cyclic N grp name solve linv r nm known nl st : (0 < N)%Z -> cyc_fgroup N = Ok grp -> cyc_rep N r -> inverts linv ->
  build_from_discrete grp name solve linv (rp_size r) (rp_mat r) nm known nl = Ok st ->
  Permutation (rp_irreps (st_rep st)) (rp_irreps r) /\ cyc_rep N (st_rep st) /\ forall e, st_character st e = trace (rp_size r) (rp_mat r e).
Proof.
  intros HN GE CR INV B. rewrite cyc_fgroup_eq in GE by exact HN. injection GE as <-.
  destruct (build_sound _ _ _ _ _ _ _ _ _ _ INV B) as (_ & _ & _ & _ & CH & RS & RA & _). destruct (build_inv _ _ _ _ _ _ _ _ _ _ B) as (ms & cob & inv & M & _ & _ & _ & ->).
  destruct (cyc_multiplicities N r HN CR) as (ms' & M' & P). rewrite M in M'. injection M' as <-. cbn [st_rep rp_irreps] in *.
  assert (PM : Permutation (expand (sort_mults name ms)) (rp_irreps r)) by (transitivity (expand ms); [apply expand_perm, sort_mults_perm|exact P]).
  split; [exact PM|]. split; [split; [exact RA|]; cbn [rp_irreps]; eapply Permutation_Forall; [apply Permutation_sym, PM|apply CR]|].
  intros e. rewrite CH. rewrite <- RS at 1. rewrite (rep_trace _ e RA), (rep_trace r e (proj1 CR)). cbn [rp_irreps]. apply lsum_perm, Permutation_map, PM.
Qed.
Theorem C67_irreps_dihedral N grp name solve linv r nm known nl st : (0 < N)%Z -> dih_fgroup N = Ok grp -> dih_rep N r -> inverts linv ->
  build_from_discrete grp name solve linv (rp_size r) (rp_mat r) nm known nl = Ok st ->
  Permutation (rp_irreps (st_rep st)) (rp_irreps r) /\ dih_rep N (st_rep st) /\ forall e, st_character st e = trace (rp_size r) (rp_mat r e).
Proof.
  intros HN GE CR INV B. rewrite dih_fgroup_eq in GE by exact HN. injection GE as <-.
  destruct (build_sound _ _ _ _ _ _ _ _ _ _ INV B) as (_ & _ & _ & _ & CH & RS & RA & _). destruct (build_inv _ _ _ _ _ _ _ _ _ _ B) as (ms & cob & inv & M & _ & _ & _ & ->).
  destruct (dih_multiplicities N r HN CR) as (ms' & M' & P). rewrite M in M'. injection M' as <-. cbn [st_rep rp_irreps] in *.
  assert (PM : Permutation (expand (sort_mults name ms)) (rp_irreps r)) by (transitivity (expand ms); [apply expand_perm, sort_mults_perm|exact P]).
  split; [exact PM|]. split; [split; [exact RA|]; cbn [rp_irreps]; eapply Permutation_Forall; [apply Permutation_sym, PM|apply CR]|].
  intros e. rewrite CH. rewrite <- RS at 1. rewrite (rep_trace _ e RA), (rep_trace r e (proj1 CR)). cbn [rp_irreps]. apply lsum_perm, Permutation_map, PM.
Qed.
Print Assumptions C67_irreps_cyclic.
Print Assumptions C67_irreps_dihedral.

(** Every representation of C_N or D_N that the library knows can be built this way: the list of irreps that is handed to the search has a change of basis to
    the matrices, and with any such change of basis the object is built. *)
Theorem C67_succeeds_cyclic N grp name r nm known nl : (0 < N)%Z -> cyc_fgroup N = Ok grp -> cyc_rep N r -> ~ In nm known -> exists irs, Permutation irs (rp_irreps r) /\
  let n := rp_size r in let good := changes_basis (fg_elements grp) n (rp_mat r) (fun e => bdiag (blocks irs e)) in
  (exists D E, good D E) /\
  forall solve linv D E, good D E -> solve n (rp_mat r) irs = Ok D -> linv n D = Ok E -> (n = 1%nat -> linv 1%nat (fun _ _ => 1) = Ok (fun _ _ => 1)) ->
    exists st, build_from_discrete grp name solve linv n (rp_mat r) nm known nl = Ok st.
Proof.
  intros HN GE CR K. rewrite cyc_fgroup_eq in GE by exact HN. injection GE as <-. destruct (cyc_multiplicities N r HN CR) as (ms & M & P). exists (expand (sort_mults name ms)).
  assert (PM : Permutation (expand (sort_mults name ms)) (rp_irreps r)) by (transitivity (expand ms); [apply expand_perm, sort_mults_perm|exact P]). split; [exact PM|]. cbv zeta. split.
  - destruct (change_exists r _ (proj1 CR) PM) as (D & E & I & IT). exists D, E. split; [exact I|]. intros e _. apply IT.
  - intros solve linv D E [I IT] SO LI L1. destruct (Nat.eq_dec (rp_size r) 1) as [N1|N1].
    + apply (build_complete _ name solve linv r ms nm known nl D (fun _ _ => 1)); auto; [apply CR| |contradiction]. intros _. split; [apply L1, N1|]. split; intros i j Hi Hj; assert (i = 0%nat) as -> by lia; assert (j = 0%nat) as -> by lia; unfold mmul, mid; cbn; ring.
    + apply (build_complete _ name solve linv r ms nm known nl D E); auto; [apply CR|contradiction].
Qed.
Theorem C67_succeeds_dihedral N grp name r nm known nl : (0 < N)%Z -> dih_fgroup N = Ok grp -> dih_rep N r -> ~ In nm known -> exists irs, Permutation irs (rp_irreps r) /\
  let n := rp_size r in let good := changes_basis (fg_elements grp) n (rp_mat r) (fun e => bdiag (blocks irs e)) in
  (exists D E, good D E) /\
  forall solve linv D E, good D E -> solve n (rp_mat r) irs = Ok D -> linv n D = Ok E -> (n = 1%nat -> linv 1%nat (fun _ _ => 1) = Ok (fun _ _ => 1)) ->
    exists st, build_from_discrete grp name solve linv n (rp_mat r) nm known nl = Ok st.
Proof.
  intros HN GE CR K. rewrite dih_fgroup_eq in GE by exact HN. injection GE as <-. destruct (dih_multiplicities N r HN CR) as (ms & M & P). exists (expand (sort_mults name ms)).
  assert (PM : Permutation (expand (sort_mults name ms)) (rp_irreps r)) by (transitivity (expand ms); [apply expand_perm, sort_mults_perm|exact P]). split; [exact PM|]. cbv zeta. split.
  - destruct (change_exists r _ (proj1 CR) PM) as (D & E & I & IT). exists D, E. split; [exact I|]. intros e _. apply IT.
  - intros solve linv D E [I IT] SO LI L1. destruct (Nat.eq_dec (rp_size r) 1) as [N1|N1].
    + apply (build_complete _ name solve linv r ms nm known nl D (fun _ _ => 1)); auto; [apply CR| |contradiction]. intros _. split; [apply L1, N1|]. split; intros i j Hi Hj; assert (i = 0%nat) as -> by lia; assert (j = 0%nat) as -> by lia; unfold mmul, mid; cbn; ring.
    + apply (build_complete _ name solve linv r ms nm known nl D E); auto; [apply CR|contradiction].
Qed.
Print Assumptions C67_succeeds_cyclic.
Print Assumptions C67_succeeds_dihedral.

(** Any representation of C_N or D_N by invertible real matrices (not necessarily orthogonal, and not given as a change of basis of irreps): there is one list
    of irreps, in the order of their names, which is a direct sum with the same matrices up to a change of basis; every object that is built has these irreps
    and the right character; and with any change of basis the object is built. *)
Theorem C67_any_cyclic N grp name n rho : (0 < N)%Z -> cyc_fgroup N = Ok grp -> is_representation (cyc_el N) (cyc_combine N) cyc_identity n rho -> exists irs,
  let good := changes_basis (fg_elements grp) n rho (fun e => bdiag (blocks irs e)) in
  (forall ir, In ir irs -> In ir (fg_irreps grp)) /\ ordered name irs /\ (exists D E, good D E) /\
  (forall solve linv nm known nl st, inverts linv -> build_from_discrete grp name solve linv n rho nm known nl = Ok st ->
     rp_irreps (st_rep st) = irs /\ forall e, In e (fg_elements grp) -> st_character st e = trace n (rho e)) /\
  (forall solve linv nm known nl D E, ~ In nm known -> good D E -> solve n rho irs = Ok D -> linv n D = Ok E -> (n = 1%nat -> linv 1%nat (fun _ _ => 1) = Ok (fun _ _ => 1)) ->
     exists st, build_from_discrete grp name solve linv n rho nm known nl = Ok st).
Proof.
  intros HN GE RH. rewrite cyc_fgroup_eq in GE by exact HN. injection GE as <-. destruct (cyc_reducible N n rho HN RH) as (irs0 & D0 & E0 & IN & SZ & I0 & IT0).
  assert (CR : cyc_rep N (MkRep "" irs0 D0 E0 [])) by (split; [unfold rep_accepted, rp_size; cbn [rp_irreps rp_cob rp_inv]; rewrite SZ; exact I0|apply cyc_in_irreps; assumption]).
  destruct (cyc_multiplicities N _ HN CR) as (ms & M & P). destruct (any_build _ name n rho irs0 D0 E0 ms SZ I0 IT0 M P) as (irs & PI & R). exists irs. split; [|exact R].
  intros ir Hir. apply IN. revert Hir. apply Permutation_in, PI.
Qed.
Print Assumptions C67_any_cyclic.
Theorem C67_any_dihedral N grp name n rho : (0 < N)%Z -> dih_fgroup N = Ok grp -> is_representation (dih_el N) (dih_combine N) dih_identity n rho -> exists irs,
  let good := changes_basis (fg_elements grp) n rho (fun e => bdiag (blocks irs e)) in
  (forall ir, In ir irs -> In ir (fg_irreps grp)) /\ ordered name irs /\ (exists D E, good D E) /\
  (forall solve linv nm known nl st, inverts linv -> build_from_discrete grp name solve linv n rho nm known nl = Ok st ->
     rp_irreps (st_rep st) = irs /\ forall e, In e (fg_elements grp) -> st_character st e = trace n (rho e)) /\
  (forall solve linv nm known nl D E, ~ In nm known -> good D E -> solve n rho irs = Ok D -> linv n D = Ok E -> (n = 1%nat -> linv 1%nat (fun _ _ => 1) = Ok (fun _ _ => 1)) ->
     exists st, build_from_discrete grp name solve linv n rho nm known nl = Ok st).
Proof.
  intros HN GE RH. rewrite dih_fgroup_eq in GE by exact HN. injection GE as <-. destruct (dih_reducible N n rho HN RH) as (irs0 & D0 & E0 & IN & SZ & I0 & IT0).
  assert (CR : dih_rep N (MkRep "" irs0 D0 E0 [])) by (split; [unfold rep_accepted, rp_size; cbn [rp_irreps rp_cob rp_inv]; rewrite SZ; exact I0|apply dih_in_irreps; assumption]).
  destruct (dih_multiplicities N _ HN CR) as (ms & M & P). destruct (any_build _ name n rho irs0 D0 E0 ms SZ I0 IT0 M P) as (irs & PI & R). exists irs. split; [|exact R].
  intros ir Hir. apply IN. revert Hir. apply Permutation_in, PI.
Qed.
Print Assumptions C67_any_dihedral.

(** ** Cases that meet the hypotheses *)
(** an inverse for one matrix *)
Definition one_inv (n : nat) (D E : mat) : nat -> mat -> result mat := fun m D' =>
  if ((m =? n)%nat && forallb (fun i => forallb (fun j => if Req_EM_T (D' i j) (D i j) then true else false) (seq 0 n)) (seq 0 n))%bool then Ok E else Err "LinAlgError"%string.
Lemma one_inv_ok n D E : inverse_pair n D E -> inverts (one_inv n D E) /\ one_inv n D E n D = Ok E.
Proof.
  intros I. split.
  - intros m D' E' H. unfold one_inv in H. destruct (Nat.eqb_spec m n) as [->|]; cbn [andb] in H; [|discriminate]. destruct (forallb _ _) eqn:F; [|discriminate]. injection H as <-.
    assert (M : meq n n D' D).
    { intros i j Hi Hj. rewrite forallb_forall in F. specialize (F i ltac:(apply in_seq; lia)). rewrite forallb_forall in F. specialize (F j ltac:(apply in_seq; lia)). destruct (Req_EM_T _ _); [assumption|discriminate]. }
    destruct I as [I1 I2]. split; rewrite M; assumption.
  - unfold one_inv. rewrite Nat.eqb_refl. replace (forallb _ _) with true; [reflexivity|]. symmetry. apply forallb_forall. intros i _. apply forallb_forall. intros j _. destruct (Req_EM_T _ _) as [|NE]; [reflexivity|contradiction NE; reflexivity].
Qed.
Definition names {G} (ir : irrep G) : string := if (ir_freq ir =? 0)%Z then "irrep_0"%string else "irrep_1"%string.
Definition r4 : rep Z := MkRep "r" [cyc_ir 4 1; cyc_ir 4 0; cyc_ir 4 1] mid mid [].
Definition r3 : rep (Z * Z) := MkRep "r" [dih_ir 3 (1, 1)%Z; dih_ir 3 (0, 0)%Z] mid mid [].
Example C67_case_cyclic : cyc_rep 4 r4 /\ rp_size r4 = 5%nat /\ exists grp solve linv st, cyc_fgroup 4 = Ok grp /\ inverts linv /\ build_from_discrete grp names solve linv 5 (rp_mat r4) "new" ["r"%string] [] = Ok st.
Proof.
  assert (CR : cyc_rep 4 r4).
  { split; [apply inverse_pair_mid|]. repeat constructor; eexists; apply cyc_ir_ok; cbn; lia. }
  split; [exact CR|]. split; [reflexivity|]. exists (cyc_fg 4). destruct (C67_succeeds_cyclic 4 (cyc_fg 4) names r4 "new" ["r"%string] [] ltac:(lia) (cyc_fgroup_eq 4 ltac:(lia)) CR) as (irs & _ & (D & E & GD) & X).
  { intros [H|[]]. discriminate H. }
  destruct (one_inv_ok _ D E (proj1 GD)) as [I1 I2]. destruct (X (fun _ _ _ => Ok D) (one_inv (rp_size r4) D E) D E GD eq_refl I2) as (st & B); [intros H; discriminate H|].
  exists (fun _ _ _ => Ok D), (one_inv (rp_size r4) D E), st. split; [apply cyc_fgroup_eq; lia|]. split; [exact I1|exact B].
Qed.
Example C67_case_dihedral : dih_rep 3 r3 /\ rp_size r3 = 3%nat /\ exists grp solve linv st, dih_fgroup 3 = Ok grp /\ inverts linv /\ build_from_discrete grp names solve linv 3 (rp_mat r3) "new" ["r"%string] [] = Ok st.
Proof.
  assert (CR : dih_rep 3 r3).
  { split; [apply inverse_pair_mid|]. constructor; [exists 1%Z, 1%Z; apply (dih_ir_ok 3 (1, 1)%Z); [lia|]|constructor; [exists 0%Z, 0%Z; apply (dih_ir_ok 3 (0, 0)%Z); [lia|]|constructor]]; unfold dih_irrep_valid; cbn; lia. }
  split; [exact CR|]. split; [reflexivity|]. exists (dih_fg 3). destruct (C67_succeeds_dihedral 3 (dih_fg 3) names r3 "new" ["r"%string] [] ltac:(lia) (dih_fgroup_eq 3 ltac:(lia)) CR) as (irs & _ & (D & E & GD) & X).
  { intros [H|[]]. discriminate H. }
  destruct (one_inv_ok _ D E (proj1 GD)) as [I1 I2]. destruct (X (fun _ _ _ => Ok D) (one_inv (rp_size r3) D E) D E GD eq_refl I2) as (st & B); [intros H; discriminate H|].
  exists (fun _ _ _ => Ok D), (one_inv (rp_size r3) D E), st. split; [apply dih_fgroup_eq; lia|]. split; [exact I1|exact B].
Qed.

(** a reflection that is not orthogonal *)
Definition skew (e : Z) : mat := if (e =? 0)%Z then mid else mat2 1 1 0 (-1).
Example C67_case_any : is_representation (cyc_el 2) (cyc_combine 2) cyc_identity 2 skew /\ is_representation (dih_el 1) (dih_combine 1) dih_identity 2 (fun e => skew (fst e)) /\ ~ orthogonal 2 (skew 1).
Proof.
  assert (SQ : meq 2 2 mid (mmul 2 (mat2 1 1 0 (-1)) (mat2 1 1 0 (-1)))) by (intros i j Hi Hj; destruct i as [|[|]], j as [|[|]]; try lia; unfold mid, mmul, mat2; cbn; ring).
  split; [|split].
  - split; [reflexivity|]. intros a b Ha Hb. apply cyc_el_iff in Ha. apply cyc_el_iff in Hb. assert (a = 0 \/ a = 1)%Z as [-> | ->] by lia; assert (b = 0 \/ b = 1)%Z as [-> | ->] by lia; cbn; symmetry; try apply mmul_id_l; try apply mmul_id_r. symmetry. exact SQ.
  - destruct (dih_elements_spec 1 ltac:(lia)) as (_ & _ & E3). split; [reflexivity|]. intros a b Ha Hb. apply E3 in Ha. apply E3 in Hb. cbn in Ha, Hb. destruct Ha as [<-|[<-|[]]], Hb as [<-|[<-|[]]]; cbn; symmetry; try apply mmul_id_l; try apply mmul_id_r. symmetry. exact SQ.
  - intros [H _]. specialize (H 0%nat 0%nat ltac:(lia) ltac:(lia)). unfold skew, mmul, mtr, mat2, mid in H. cbn in H. lra.
Qed.

(** ** What is stored is a representation only up to the tolerance *)
Definition tilted (e : Z) : mat := mat2 1 (1 / 100000000) 0 1.
Theorem C67_homomorphism_refuted : exists grp solve linv st, cyc_fgroup 1 = Ok grp /\ inverts linv /\
  build_from_discrete grp names solve linv 2 tilted "new" [] [] = Ok st /\
  ~ meq 2 2 (st_call st (cyc_combine 1 0 0)) (mmul 2 (st_call st 0%Z) (st_call st 0%Z)).
Proof.
  destruct (one_inv_ok 2 mid mid (inverse_pair_mid 2)) as [INV LI]. exists (cyc_fg 1), (fun _ _ _ => Ok mid), (one_inv 2 mid mid).
  set (x := cyc_ir 1 0). assert (CR : cyc_rep 1 (MkRep "r" [x; x] mid mid [])).
  { split; [apply inverse_pair_mid|]. repeat constructor; exists 0%Z; apply cyc_ir_ok; cbn; lia. }
  destruct (cyc_multiplicities 1 _ ltac:(lia) CR) as (ms & M & P). cbn [rp_irreps] in P.
  assert (PM : expand (sort_mults names ms) = repeat x 2) by (apply Permutation_repeat; transitivity (expand ms); [apply expand_perm, sort_mults_perm|exact P]).
  assert (EX : forall e, trace 2 (tilted e) = trace (rp_size (MkRep "r" [x; x] mid mid [])) (rp_mat (MkRep "r" [x; x] mid mid []) e)).
  { intros e. rewrite (rep_trace _ e (proj1 CR)). cbn [rp_irreps]. unfold trace, tilted, mat2, x, lsum, ir_character, trace. cbn. unfold mid. cbn. ring. }
  rewrite <- (functional_extensionality _ _ EX) in M.
  assert (B : build_from_discrete (cyc_fg 1) names (fun _ _ _ => Ok mid) (one_inv 2 mid mid) 2 tilted "new" [] [] = Ok (MkStored (MkRep "new" (repeat x 2) mid mid []) tilted (new_character (sort_mults names ms)))).
  { unfold build_from_discrete, decompose_representation. rewrite M. cbn [rbind]. rewrite PM. unfold compute_change_of_basis.
    change (negb (isizes (repeat x 2) =? 2)%nat) with false. cbn [Nat.eqb rbind]. cbv iota. rewrite LI. cbn [rbind].
    rewrite (proj2 (each_ok _ _)).
    - cbn [rbind fst snd]. cbn [existsb negb assert_]. rewrite LI. cbn [rbind]. rewrite (proj2 (nearly_allclose 2 (mmul 2 mid mid) mid) (nearly_same 2 _ _ (mmul_id_l 2 2 mid))). cbn [rbind assert_]. rewrite PM. reflexivity.
    - intros e _. apply nearly_allclose. intros i j Hi Hj. assert (PE : mmul 2 (mmul 2 mid (bdiag (blocks (repeat x 2) e))) mid i j = mid i j).
      { rewrite (mmul_id_r 2 2 _ i j Hi Hj), (mmul_id_l 2 2 _ i j Hi Hj). change (blocks (repeat x 2) e) with [(1%nat, mid : mat); (1%nat, mid : mat)]. destruct i as [|[|]], j as [|[|]]; try lia; reflexivity. }
      rewrite PE. unfold tilted, mat2, mid. destruct i as [|[|]], j as [|[|]]; try lia; cbn; unfold Rabs; repeat destruct Rcase_abs; lra. }
  eexists. split; [apply cyc_fgroup_eq; lia|]. split; [exact INV|]. split; [exact B|]. cbn [st_call]. intros H. specialize (H 0%nat 1%nat ltac:(lia) ltac:(lia)). unfold tilted, mmul, mat2 in H. cbn in H. lra.
Qed.
Print Assumptions C67_homomorphism_refuted.
