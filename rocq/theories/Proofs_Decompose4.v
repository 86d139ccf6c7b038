(** For C67: any representation of C_N or D_N. *)
From Coq Require Import Reals ZArith String List Bool Lia Lra Permutation RelationClasses.
From Verif Require Import Base LinAlg Spec Spec_Irred Model_Groups Model_Rep Model_Regular Model_Fieldwise Model_Equality Model_Decompose Spec_Decompose
  Proofs_FieldType Proofs_Groups Proofs_Irreps Proofs_Rep Proofs_Regular Proofs_Regular2 Proofs_Restrict Proofs_Fieldwise2 Proofs_Equality Proofs_Irred Proofs_Irred2 Proofs_Decompose Proofs_Decompose2 Proofs_Decompose3 Proofs_Reduce.
Import ListNotations.
Open Scope R_scope.

Lemma mults_ext {G} (grp : fgroup G) chi chi' : (forall e, In e (fg_elements grp) -> chi e = chi' e) -> multiplicities grp chi = multiplicities grp chi'.
Proof.
  intros H. unfold multiplicities. generalize (fg_irreps grp). intros l. induction l as [|ir l IH]; [reflexivity|]. cbn [rmap]. rewrite IH. f_equal. f_equal. unfold multiplicity.
  rewrite (lsum_ext _ (fun e => chi e * ir_character ir (fg_inverse grp e)) (fun e => chi' e * ir_character ir (fg_inverse grp e))) by (intros e He; rewrite (H e He); reflexivity). reflexivity.
Qed.

Section Any.
Context {G : Type} (grp : fgroup G) (name : irrep G -> string).
Lemma build_from solve linv n rho ms nm known nl D E : multiplicities grp (fun e => trace n (rho e)) = Ok ms -> isizes (expand (sort_mults name ms)) = n -> ~ In nm known ->
  (n = 1%nat -> linv 1%nat (fun _ _ => 1) = Ok (fun _ _ => 1) /\ forall e, In e (fg_elements grp) -> rho e 0%nat 0%nat = bdiag (blocks (expand (sort_mults name ms)) e) 0%nat 0%nat) ->
  solve n rho (expand (sort_mults name ms)) = Ok D -> linv n D = Ok E -> changes_basis (fg_elements grp) n rho (fun e => bdiag (blocks (expand (sort_mults name ms)) e)) D E ->
  exists st, build_from_discrete grp name solve linv n rho nm known nl = Ok st.
Proof.
  intros M SZ K C1 SO LI [I IT]. set (irs := expand (sort_mults name ms)) in *.
  assert (C : exists cob inv, compute_change_of_basis grp solve linv n rho irs = Ok cob /\ linv n cob = Ok inv /\ inverse_pair n cob inv).
  { unfold compute_change_of_basis. rewrite SZ, Nat.eqb_refl. cbn [negb]. destruct (Nat.eqb_spec n 1) as [N1|N1].
    - destruct (C1 N1) as [L1 EQ]. exists (fun _ _ => 1), (fun _ _ => 1). split; [|split].
      + replace (forallb _ _) with true; [reflexivity|]. symmetry. apply forallb_forall. intros e He. destruct (Req_EM_T _ _) as [|NE]; [reflexivity|]. contradiction NE. apply EQ, He.
      + rewrite N1. exact L1.
      + rewrite N1. split; intros i j Hi Hj; assert (i = 0%nat) as -> by lia; assert (j = 0%nat) as -> by lia; unfold mmul, mid; cbn; ring.
    - exists D, E. rewrite SO. cbn [rbind]. rewrite LI. cbn [rbind]. rewrite (proj2 (each_ok _ _)); [split; [reflexivity|split; [reflexivity|exact I]]|].
      intros e He. apply nearly_allclose, nearly_same. rewrite <- (IT e He). rewrite mmul_assoc_eq. destruct I as [I1 _]. rewrite I1. symmetry. apply mmul_id_r. }
  destruct C as (cob & inv & C & L & I1 & I2). unfold build_from_discrete, decompose_representation. rewrite M. cbn [rbind]. fold irs. rewrite C. cbn [rbind fst snd].
  replace (existsb (String.eqb nm) known) with false; [|symmetry; apply not_true_is_false; intros H; apply existsb_exists in H; destruct H as (q & Hq & EQ); apply String.eqb_eq in EQ; subst; contradiction].
  cbn [negb assert_]. rewrite L. cbn [rbind]. rewrite (proj2 (nearly_allclose n _ _) (nearly_same n _ _ I1)). cbn [rbind assert_]. rewrite (proj2 (nearly_allclose n _ _) (nearly_same n _ _ I2)). cbn [rbind assert_]. eexists. reflexivity.
Qed.
(** from a direct sum of irreps *)
Lemma any_build n rho irs0 D0 E0 ms : isizes irs0 = n -> inverse_pair n D0 E0 -> (forall e, In e (fg_elements grp) -> meq n n (mmul n (rho e) D0) (mmul n D0 (bdiag (blocks irs0 e)))) ->
  multiplicities grp (fun e => trace (rp_size (MkRep "" irs0 D0 E0 [])) (rp_mat (MkRep "" irs0 D0 E0 []) e)) = Ok ms -> Permutation (expand ms) irs0 ->
  exists irs, Permutation irs irs0 /\ ordered name irs /\
  (exists D E, changes_basis (fg_elements grp) n rho (fun e => bdiag (blocks irs e)) D E) /\
  (forall solve linv nm known nl st, inverts linv -> build_from_discrete grp name solve linv n rho nm known nl = Ok st -> rp_irreps (st_rep st) = irs /\ forall e, In e (fg_elements grp) -> st_character st e = trace n (rho e)) /\
  (forall solve linv nm known nl D E, ~ In nm known -> changes_basis (fg_elements grp) n rho (fun e => bdiag (blocks irs e)) D E -> solve n rho irs = Ok D -> linv n D = Ok E ->
     (n = 1%nat -> linv 1%nat (fun _ _ => 1) = Ok (fun _ _ => 1)) -> exists st, build_from_discrete grp name solve linv n rho nm known nl = Ok st).
Proof.
  intros SZ I0 IT0 M P. set (r := MkRep "" irs0 D0 E0 []) in *. assert (RS : rp_size r = n) by exact SZ. assert (RA : rep_accepted r) by (unfold rep_accepted; rewrite RS; exact I0).
  assert (RM : forall e, In e (fg_elements grp) -> meq n n (rho e) (rp_mat r e)).
  { intros e He. unfold rp_mat. rewrite RS. cbv zeta. cbn [r rp_cob rp_inv rp_irreps]. rewrite <- (IT0 e He). rewrite mmul_assoc_eq. destruct I0 as [I1 _]. rewrite I1. symmetry. apply mmul_id_r. }
  assert (M' : multiplicities grp (fun e => trace n (rho e)) = Ok ms).
  { rewrite <- M. apply mults_ext. intros e He. rewrite RS. apply trace_ext, RM, He. }
  assert (PM : Permutation (expand (sort_mults name ms)) irs0) by (transitivity (expand ms); [apply expand_perm, sort_mults_perm|exact P]).
  assert (SZ' : isizes (expand (sort_mults name ms)) = n) by (rewrite <- SZ; apply (blocks_perm irs0 _), Permutation_sym, PM).
  assert (TR : forall e, In e (fg_elements grp) -> trace n (rho e) = lsum (map (fun ir => ir_character ir e) (expand (sort_mults name ms)))).
  { intros e He. rewrite (trace_ext n _ _ (RM e He)). rewrite <- RS at 1. rewrite (rep_trace r e RA). apply lsum_perm, Permutation_map, Permutation_sym, PM. }
  exists (expand (sort_mults name ms)). split; [exact PM|]. split; [apply sort_mults_sorted|]. split; [|split].
  - destruct (change_exists r _ RA PM) as (D & E & I & IT). rewrite RS in I, IT. exists D, E. split; [exact I|]. intros e He. rewrite (RM e He). apply IT.
  - intros solve linv nm known nl st INV B. destruct (build_inv _ _ _ _ _ _ _ _ _ _ B) as (ms' & cob & inv & Q & _ & _ & _ & ->). rewrite M' in Q. injection Q as <-. cbn [st_rep rp_irreps st_character]. split; [reflexivity|].
    intros e He. rewrite (TR e He). apply character_expand.
  - intros solve linv nm known nl D E K CB SO LI L1. apply (build_from solve linv n rho ms nm known nl D E); auto. intros N1. split; [apply L1, N1|]. intros e He.
    assert (T1 : forall A, trace 1 A = A 0%nat 0%nat) by (intros A; unfold trace; cbn; ring). rewrite <- !T1. rewrite N1 in TR. rewrite (TR e He).
    symmetry. transitivity (trace (nsum (map fst (blocks (expand (sort_mults name ms)) e))) (bdiag (blocks (expand (sort_mults name ms)) e))).
    + f_equal. rewrite <- N1, <- SZ'. unfold isizes, blocks. rewrite map_map. reflexivity.
    + rewrite trace_bdiag. unfold blocks. rewrite map_map. reflexivity.
Qed.
End Any.

Lemma irreducible_iff {G} (el el' : G -> Prop) n rho : (forall g, el g <-> el' g) -> irreducible el n rho -> irreducible el' n rho.
Proof. intros E [P H]. split; [exact P|]. intros W SW IW. apply H; [exact SW|]. intros g v Hg. apply IW, E, Hg. Qed.
Lemma cyc_reducible N n rho : (0 < N)%Z -> is_representation (cyc_el N) (cyc_combine N) cyc_identity n rho -> exists irs D E,
  (forall ir, In ir irs -> In ir (fg_irreps (cyc_fg N))) /\ isizes irs = n /\ inverse_pair n D E /\ forall e, In e (fg_elements (cyc_fg N)) -> meq n n (mmul n (rho e) D) (mmul n D (bdiag (blocks irs e))).
Proof.
  intros HN [R1 R2]. destruct (cyc_elements_spec N HN) as [E1 [E2 E3]]. apply (reducible (cyc_fg N) (cyc_fg_ok N HN)).
  - intros g Hg. apply cyc_complete; assumption.
  - intros ir Hir. destruct (cyc_md N ir HN Hir) as (A & B & C). rewrite C, B, C. lia.
  - intros ir Hir. cbn [cyc_fg fg_irreps] in Hir. apply in_map_iff in Hir. destruct Hir as (k & <- & Hk). apply cyc_ks_in in Hk; [|exact HN].
    apply (irreducible_iff (cyc_el N)); [intros g; symmetry; apply E3|]. apply (cyc_irred N k _ HN (cyc_ir_ok N k HN Hk)).
  - apply INR_lt. rewrite cyc_order by exact HN. cbn. apply IZR_lt. exact HN.
  - split; [exact R1|]. intros a b Ha Hb. apply R2; apply E3; assumption.
Qed.
Lemma dih_reducible N n rho : (0 < N)%Z -> is_representation (dih_el N) (dih_combine N) dih_identity n rho -> exists irs D E,
  (forall ir, In ir irs -> In ir (fg_irreps (dih_fg N))) /\ isizes irs = n /\ inverse_pair n D E /\ forall e, In e (fg_elements (dih_fg N)) -> meq n n (mmul n (rho e) D) (mmul n D (bdiag (blocks irs e))).
Proof.
  intros HN [R1 R2]. destruct (dih_elements_spec N HN) as [E1 [E2 E3]]. apply (reducible (dih_fg N) (dih_fg_ok N HN)).
  - intros g Hg. apply dih_complete; assumption.
  - intros ir Hir. destruct (dih_md N ir HN Hir) as (A & B & C). lia.
  - intros ir Hir. cbn [dih_fg fg_irreps] in Hir. apply in_map_iff in Hir. destruct Hir as ([j k] & <- & Hk). apply dih_ks_in in Hk; [|exact HN].
    apply (irreducible_iff (dih_el N)); [intros g; symmetry; apply E3|]. apply (dih_irred N j k _ HN (dih_ir_ok N (j, k) HN Hk)).
  - apply INR_lt. rewrite dih_order by exact HN. cbn. assert (0 < IZR N) by (apply IZR_lt; exact HN). lra.
  - split; [exact R1|]. intros a b Ha Hb. apply R2; apply E3; assumption.
Qed.
Lemma cyc_in_irreps N irs : (0 < N)%Z -> (forall ir, In ir irs -> In ir (fg_irreps (cyc_fg N))) -> Forall (fun ir => exists k, cyc_irrep N k = Ok ir) irs.
Proof. intros HN H. apply Forall_forall. intros ir Hir. apply H in Hir. cbn [cyc_fg fg_irreps] in Hir. apply in_map_iff in Hir. destruct Hir as (k & <- & Hk). apply cyc_ks_in in Hk; [|exact HN]. exists k. apply cyc_ir_ok; assumption. Qed.
Lemma dih_in_irreps N irs : (0 < N)%Z -> (forall ir, In ir irs -> In ir (fg_irreps (dih_fg N))) -> Forall (fun ir => exists j k, dih_irrep N j k = Ok ir) irs.
Proof. intros HN H. apply Forall_forall. intros ir Hir. apply H in Hir. cbn [dih_fg fg_irreps] in Hir. apply in_map_iff in Hir. destruct Hir as ([j k] & <- & Hk). apply dih_ks_in in Hk; [|exact HN]. exists j, k. apply (dih_ir_ok N (j, k)); assumption. Qed.
