(** For C67: what build_from_discrete_group_representation accepts. *)
From Coq Require Import Reals ZArith NArith Ascii String List Bool Lia Lra Permutation Sorted.
From Verif Require Import Base LinAlg Spec Model_Groups Model_Rep Model_Regular Model_Fieldwise Model_Equality Model_Decompose Spec_Decompose
  Proofs_FieldType Proofs_Groups Proofs_Rep Proofs_Regular Proofs_Fieldwise2 Proofs_Equality Proofs_Decompose.
Import ListNotations.
Open Scope R_scope.

Lemma nearly_allclose n a b : np_allclose n n a b = Ok true <-> nearly n a b.
Proof. rewrite allclose_same. unfold close_to, nearly. split; intros H i j Hi Hj; apply H; assumption. Qed.
Lemma nearly_same n a b : meq n n a b -> nearly n a b.
Proof. intros H i j Hi Hj. rewrite (H i j Hi Hj), Rminus_diag_eq by reflexivity. rewrite Rabs_R0. assert (0 <= Rabs (b i j)) by apply Rabs_pos. lra. Qed.
Lemma each_ok {G} (check : G -> result bool) els : each_element check els = Ok tt <-> forall e, In e els -> check e = Ok true.
Proof.
  induction els as [|e els IH]; [split; [intros _ e []|reflexivity]|]. cbn [each_element]. split.
  - destruct (check e) as [[|]|] eqn:C; cbn [rbind assert_]; try discriminate. intros H q [<-|Hq]; [exact C|apply (proj1 IH H), Hq].
  - intros H. rewrite (H e) by (left; reflexivity). cbn [rbind assert_]. apply IH. intros q Hq. apply H. right. exact Hq.
Qed.
Lemma expand_perm {G} (a b : list (irrep G * nat)) : Permutation a b -> Permutation (expand a) (expand b).
Proof. intros P. unfold expand. rewrite <- !flat_map_concat_map. apply Permutation_flat_map, P. Qed.
Lemma expand_in {G} (ms : list (irrep G * nat)) ir : In ir (expand ms) -> In ir (map fst ms).
Proof. unfold expand. rewrite in_concat. intros (l & Hl & H). apply in_map_iff in Hl. destruct Hl as (p & <- & Hp). apply repeat_spec in H. subst. apply in_map, Hp. Qed.
Lemma mults_irreps {G} (grp : fgroup G) chi ms : multiplicities grp chi = Ok ms -> map fst ms = fg_irreps grp.
Proof.
  unfold multiplicities. generalize (fg_irreps grp). intros l. revert ms. induction l as [|ir l IH]; intros ms E; cbn [rmap] in E; [injection E as <-; reflexivity|].
  destruct (multiplicity grp chi ir) as [m|]; cbn [rbind] in E; [|discriminate]. destruct (rmap _ l) as [q|] eqn:Q; cbn [rbind] in E; [|discriminate]. injection E as <-. cbn. f_equal. apply IH. reflexivity.
Qed.

Lemma character_expand {G} (ms : list (irrep G * nat)) e : new_character ms e = lsum (map (fun ir => ir_character ir e) (expand ms)).
Proof.
  unfold new_character, expand. induction ms as [|[ir m] ms IH]; [reflexivity|]. cbn [map concat fst snd]. rewrite map_app, lsum_app, <- IH.
  transitivity (INR m * ir_character ir e + lsum (map (fun p => INR (snd p) * ir_character (fst p) e) ms)); [reflexivity|]. f_equal.
  clear. induction m as [|m IHm]; [cbn; ring|]. rewrite S_INR. cbn [repeat map]. transitivity (ir_character ir e + INR m * ir_character ir e); [ring|]. rewrite IHm. reflexivity.
Qed.

Lemma leb_trans a : forall b c, String.leb a b = true -> String.leb b c = true -> String.leb a c = true.
Proof.
  unfold String.leb. induction a as [|x a IH]; intros [|y b] [|z c]; cbn [String.compare]; try discriminate; try reflexivity. intros H1 H2. unfold Ascii.compare in *.
  destruct (N.compare_spec (N_of_ascii x) (N_of_ascii y)); try discriminate; destruct (N.compare_spec (N_of_ascii y) (N_of_ascii z)); try discriminate; destruct (N.compare_spec (N_of_ascii x) (N_of_ascii z)); try reflexivity; try lia.
  apply (IH b c H1 H2).
Qed.
Lemma leb_refl a : String.leb a a = true.
Proof. destruct (String.leb_total a a); assumption. Qed.
Lemma expand_sorted {G} (name : irrep G -> string) (ms : list (irrep G * nat)) : StronglySorted (fun p q => String.leb (name (fst p)) (name (fst q)) = true) ms -> ordered name (expand ms).
Proof.
  intros H. induction H as [|[ir m] ms H IH F]; [constructor|]. change (expand ((ir, m) :: ms)) with (repeat ir m ++ expand ms)%list.
  assert (FE : Forall (fun b => String.leb (name ir) (name b) = true) (expand ms)).
  { apply Forall_forall. intros b Hb. apply expand_in, in_map_iff in Hb. destruct Hb as (p & <- & Hp). rewrite Forall_forall in F. apply (F p Hp). }
  clear F. induction m as [|m IHm]; [exact IH|]. cbn [repeat app]. constructor; [exact IHm|]. apply Forall_app. split; [|exact FE]. apply Forall_forall. intros b Hb. apply repeat_spec in Hb. subst. apply leb_refl.
Qed.
Lemma sort_mults_sorted {G} (name : irrep G -> string) ms : ordered name (expand (sort_mults name ms)).
Proof.
  apply expand_sorted. apply (sort_sorted (fun p q : irrep G * nat => String.leb (name (fst p)) (name (fst q)))).
  - intros a b. apply String.leb_total.
  - intros a b c. apply leb_trans.
Qed.

Section Build.
Context {G : Type} (grp : fgroup G) (name : irrep G -> string) (solve : nat -> (G -> mat) -> list (irrep G) -> result mat) (linv : nat -> mat -> result mat).
Lemma sort_mults_perm ms : Permutation (sort_mults name ms) ms.
Proof. apply sort_perm. Qed.
Lemma build_inv n rho nm known nl st : build_from_discrete grp name solve linv n rho nm known nl = Ok st -> exists ms cob inv,
  multiplicities grp (fun e => trace n (rho e)) = Ok ms /\ compute_change_of_basis grp solve linv n rho (expand (sort_mults name ms)) = Ok cob /\ ~ In nm known /\ linv n cob = Ok inv /\
  st = MkStored (MkRep nm (expand (sort_mults name ms)) cob inv nl) rho (new_character (sort_mults name ms)).
Proof.
  unfold build_from_discrete, decompose_representation. destruct (multiplicities _ _) as [ms|]; cbn [rbind]; [|discriminate].
  destruct (compute_change_of_basis _ _ _ _ _ _) as [cob|] eqn:C; cbn [rbind fst snd]; [|discriminate]. destruct (existsb (String.eqb nm) known) eqn:K; cbn [negb assert_]; [discriminate|].
  destruct (linv n cob) as [inv|] eqn:L; cbn [rbind]; [|discriminate]. destruct (np_allclose n n (mmul n cob inv) mid) as [[|]|]; cbn [rbind assert_]; try discriminate.
  destruct (np_allclose n n (mmul n inv cob) mid) as [[|]|]; cbn [rbind assert_]; try discriminate. intros H; injection H as <-. exists ms, cob, inv. repeat split; auto.
  intros HI. assert (existsb (String.eqb nm) known = true) by (apply existsb_exists; exists nm; split; [exact HI|apply String.eqb_refl]). congruence.
Qed.
Lemma build_sound n rho nm known nl st : inverts linv -> build_from_discrete grp name solve linv n rho nm known nl = Ok st ->
  rp_name (st_rep st) = nm /\ ~ In nm known /\ rp_nonlin (st_rep st) = nl /\ (forall e, st_call st e = rho e) /\ (forall e, st_character st e = trace n (rp_mat (st_rep st) e)) /\ rp_size (st_rep st) = n /\ rep_accepted (st_rep st) /\
  (forall ir, In ir (rp_irreps (st_rep st)) -> In ir (fg_irreps grp)) /\ ordered name (rp_irreps (st_rep st)) /\ forall e, In e (fg_elements grp) -> nearly n (rho e) (rp_mat (st_rep st) e).
Proof.
  intros INV B. destruct (build_inv _ _ _ _ _ _ B) as (ms & cob & inv & M & C & K & L & ->). cbn [st_rep st_call rp_name rp_nonlin rp_irreps]. pose proof (INV _ _ _ L) as IP.
  set (irs := expand (sort_mults name ms)) in *. unfold compute_change_of_basis in C. destruct (Nat.eqb_spec (isizes irs) n) as [SZ|]; cbn [negb] in C; [|discriminate].
  assert (RS : rp_size (MkRep nm irs cob inv nl) = n) by exact SZ.
  split; [reflexivity|]. split; [exact K|]. split; [reflexivity|]. split; [reflexivity|].
  assert (RA : rep_accepted (MkRep nm irs cob inv nl)) by (unfold rep_accepted; rewrite RS; exact IP). split; [intros e; rewrite <- RS, rep_trace by exact RA; apply character_expand|]. split; [exact RS|]. split; [exact RA|]. split.
  - intros ir Hir. rewrite <- (mults_irreps grp _ ms M). apply expand_in. revert Hir. apply Permutation_in, expand_perm, sort_mults_perm.
  - split; [apply sort_mults_sorted|]. intros e He. unfold rp_mat. rewrite RS. cbv zeta. cbn [rp_cob rp_inv rp_irreps]. destruct (Nat.eqb_spec n 1) as [N1|N1].
    + destruct (forallb _ _) eqn:F; cbn [assert_] in C; [|discriminate]. injection C as <-. rewrite forallb_forall in F. specialize (F e He). destruct (Req_EM_T _ _) as [E|]; [|discriminate]. clear SZ RS. subst n.
      apply nearly_same. intros i j Hi Hj. assert (i = 0%nat) as -> by lia. assert (j = 0%nat) as -> by lia. rewrite E. destruct IP as [I1 _]. specialize (I1 0%nat 0%nat Nat.lt_0_1 Nat.lt_0_1). unfold mmul in *. cbn in *. unfold mid in I1. cbn in I1. nra.
    + destruct (solve n rho irs) as [D|]; cbn [rbind] in C; [|discriminate]. destruct (linv n D) as [Di|] eqn:LD; cbn [rbind] in C; [|discriminate].
      destruct (each_element _ _) as [[]|] eqn:EA; cbn [rbind] in C; [|discriminate]. injection C as <-. rewrite LD in L. injection L as <-. apply nearly_allclose. apply (proj1 (each_ok _ _) EA e He).
Qed.
(** with the multiplicities of a representation, and a change of basis *)
Lemma build_complete (r : rep G) ms nm known nl D E : rep_accepted r -> multiplicities grp (fun e => trace (rp_size r) (rp_mat r e)) = Ok ms -> Permutation (expand ms) (rp_irreps r) -> ~ In nm known ->
  (rp_size r = 1%nat -> linv 1 (fun _ _ => 1) = Ok E /\ inverse_pair 1 (fun _ _ => 1) E) ->
  (rp_size r <> 1%nat -> solve (rp_size r) (rp_mat r) (expand (sort_mults name ms)) = Ok D /\ linv (rp_size r) D = Ok E /\ inverse_pair (rp_size r) D E /\
     forall e, In e (fg_elements grp) -> meq (rp_size r) (rp_size r) (mmul (rp_size r) (rp_mat r e) D) (mmul (rp_size r) D (bdiag (blocks (expand (sort_mults name ms)) e)))) ->
  exists st, build_from_discrete grp name solve linv (rp_size r) (rp_mat r) nm known nl = Ok st.
Proof.
  intros RA M P K C1 C2. set (n := rp_size r) in *. set (irs := expand (sort_mults name ms)) in *.
  assert (PI : Permutation irs (rp_irreps r)) by (transitivity (expand ms); [apply expand_perm, sort_mults_perm|exact P]).
  assert (SZ : isizes irs = n) by (apply (blocks_perm (rp_irreps r) irs), Permutation_sym, PI).
  assert (C : exists cob inv, compute_change_of_basis grp solve linv n (rp_mat r) irs = Ok cob /\ linv n cob = Ok inv /\ inverse_pair n cob inv).
  { unfold compute_change_of_basis. rewrite SZ, Nat.eqb_refl. cbn [negb]. destruct (Nat.eqb_spec n 1) as [N1|N1].
    - destruct (C1 N1) as [L I]. exists (fun _ _ => 1), E. rewrite N1. split; [|split; [exact L|exact I]].
      replace (forallb _ _) with true; [reflexivity|]. symmetry. apply forallb_forall. intros e He. destruct (Req_EM_T _ _) as [|NE]; [reflexivity|]. contradiction NE.
      assert (T1 : forall A, trace 1 A = A 0%nat 0%nat) by (intros A; unfold trace; cbn; ring). rewrite <- !T1. pose proof (rep_trace r e RA) as RT. fold n in RT. rewrite N1 in RT. rewrite RT. clear RT.
      assert (BT : trace 1 (bdiag (blocks irs e)) = lsum (map (fun ir => ir_character ir e) irs)).
      { transitivity (trace (nsum (map fst (blocks irs e))) (bdiag (blocks irs e))).
        - f_equal. rewrite <- N1, <- SZ. unfold isizes, blocks. rewrite map_map. reflexivity.
        - rewrite trace_bdiag. unfold blocks. rewrite map_map. reflexivity. }
      rewrite BT. apply lsum_perm. apply Permutation_map, Permutation_sym, PI.
    - destruct (C2 N1) as (SO & L & I & IT). exists D, E. rewrite SO. cbn [rbind]. rewrite L. cbn [rbind]. rewrite (proj2 (each_ok _ _)); [split; [reflexivity|split; [reflexivity|exact I]]|].
      intros e He. apply nearly_allclose, nearly_same. rewrite <- (IT e He). rewrite mmul_assoc_eq. destruct I as [I1 _]. rewrite I1. symmetry. apply mmul_id_r. }
  destruct C as (cob & inv & C & L & I1 & I2). unfold build_from_discrete, decompose_representation. rewrite M. cbn [rbind]. fold irs. rewrite C. cbn [rbind fst snd].
  replace (existsb (String.eqb nm) known) with false; [|symmetry; apply not_true_is_false; intros H; apply existsb_exists in H; destruct H as (q & Hq & EQ); apply String.eqb_eq in EQ; subst; contradiction].
  cbn [negb assert_]. rewrite L. cbn [rbind]. rewrite (proj2 (nearly_allclose n _ _) (nearly_same n _ _ I1)). cbn [rbind assert_]. rewrite (proj2 (nearly_allclose n _ _) (nearly_same n _ _ I2)). cbn [rbind assert_]. eexists. reflexivity.
Qed.
(** a change of basis exists *)
Lemma change_exists (r : rep G) irs : rep_accepted r -> Permutation irs (rp_irreps r) -> exists D E, inverse_pair (rp_size r) D E /\
  forall e, meq (rp_size r) (rp_size r) (mmul (rp_size r) (rp_mat r e) D) (mmul (rp_size r) D (bdiag (blocks irs e))).
Proof.
  intros RA P. destruct (blocks_perm _ _ (Permutation_sym P)) as (SZ & S0 & T & I & E). change (isizes (rp_irreps r)) with (rp_size r) in *. set (n := rp_size r) in *. exists (mmul n (rp_cob r) S0), (mmul n T (rp_inv r)).
  split; [apply inverse_pair_mul; [exact RA|exact I]|]. intros e. unfold rp_mat. fold n. cbv zeta. destruct RA as [_ I2]. fold n in I2.
  rewrite !mmul_assoc_eq. rewrite <- (mmul_assoc_eq n n n n (rp_inv r) (rp_cob r) S0). rewrite I2. rewrite mmul_id_l. rewrite (E e). reflexivity.
Qed.
End Build.
