(** C53: the non-linearities a representation declares are ones its matrices allow; so the modules that check the declaration are
    equivariant on every representation that can be built. *)
From Coq Require Import Reals ZArith String List Bool Lia Lra.
From Verif Require Import Base LinAlg Spec Spec_Fields Model_Groups Model_Rep Model_Regular Model_FieldType Model_Tensor Model_Disentangle Model_Fieldwise Model_Support Spec_Fieldwise Spec_Fieldwise2 Spec_Support
  Proofs_Groups Proofs_Cont Proofs_Irreps Proofs_Rep Proofs_Restrict Proofs_Regular Proofs_Regular2 Proofs_Induced Prop_Regular Prop_Rep Proofs_FieldType Proofs_Fieldwise Proofs_Fieldwise8 Proofs_Fieldwise9 Prop_Fieldwise
  Prop_Fieldwise2 Prop_Fieldwise3 Proofs_Support Proofs_Support2.
Import ListNotations.
Open Scope R_scope.

(** Every representation built from irreps, regular, induced and quotient representations by direct sums, restrictions, disentangling
    and changes of basis consists of irreps of its group, is accepted by the constructor, and at every element its matrix is one on
    which the non-linearities it declares may act. *)
Theorem C53_declared : forall (g : grp) (r : rep (elt g)), built g r ->
  is_group g /\ rep_accepted r /\ Forall (is_irrep g) (rp_irreps r) /\
  forall e, is_elt g e -> compatible (rp_nonlin r) (rp_size r) (rp_mat r e).
Proof. intros g r B. destruct (built_sound g r B) as [S1 S2 S3 S4]. auto. Qed.
Print Assumptions C53_declared.

(** ** The modules *)
Section Modules.
Context {GS X : Type} (g : grp) (fits : GS -> rep (elt g) -> bool) (gs_eqb : GS -> GS -> bool) (rp_eqb : rep (elt g) -> rep (elt g) -> bool) (trivial_repr : GS -> rep (elt g)).
Notation ftype := (ftype GS (rep (elt g))).
Notation gtensor := (gtensor GS (rep (elt g)) (X -> R)).
Lemma declared nl (t : ftype) e (P : nat -> mat -> Prop) : (forall r, In r (ft_reps t) -> built g r) -> is_elt g e -> all_support nl t = true ->
  (forall n A l, compatible l n A -> In nl l -> P n A) -> forall r, In r (ft_reps t) -> P (rp_size r) (rp_mat r e).
Proof.
  intros B He AS H r Hr. unfold all_support in AS. rewrite forallb_forall in AS. specialize (AS r Hr). unfold supports in AS. apply in_has in AS.
  apply (H _ _ (rp_nonlin r)); auto. apply (C53_declared g r (B r Hr)); auto.
Qed.
(** ReLU, ELU and PointwiseNonLinearity *)
Theorem C53_pointwise : forall (t : ftype) m e pi (x x' : gtensor),
  (exists fn, pointwise_make t fn = Ok m) \/ relu_make t = Ok m \/ (exists alpha, elu_make t alpha = Ok m) ->
  ft_reps t <> [] -> (forall r, In r (ft_reps t) -> built g r) -> is_elt g e -> typed gs_eqb rp_eqb t x -> typed gs_eqb rp_eqb t x' ->
  acts (ft_reps t) e pi (gt_data x) (gt_data x') ->
  exists y y', pointwise_forward gs_eqb rp_eqb m x = Ok y /\ pointwise_forward gs_eqb rp_eqb m x' = Ok y' /\
    gt_type y = t /\ gt_type y' = t /\ acts (ft_reps t) e pi (gt_data y) (gt_data y').
Proof.
  intros t m e pi x x' MK NE B He TX TX' A. apply (C42_pointwise gs_eqb rp_eqb t m e pi x x'); auto.
  assert (AS : all_support "pointwise" t = true).
  { destruct MK as [[fn MK]|[MK|[al MK]]]; [unfold pointwise_make in MK|unfold relu_make in MK|unfold elu_make in MK]; apply assert_ok in MK; tauto. }
  apply (declared "pointwise" t e is_perm); auto. intros n M l C. apply (co_pointwise _ _ _ C).
Qed.
(** NormNonLinearity *)
Theorem C53_norm : forall (t : ftype) fn bias m lb e pi junk junk' (x x' : gtensor),
  norm_make t fn bias = Ok m -> ft_reps t <> [] -> size_pos t -> (forall r, In r (ft_reps t) -> built g r) -> is_elt g e -> same_shape (nn_logb m) lb ->
  typed gs_eqb rp_eqb t x -> typed gs_eqb rp_eqb t x' -> acts (ft_reps t) e pi (gt_data x) (gt_data x') ->
  exists y y', norm_forward gs_eqb rp_eqb junk (set_logb m lb) x = Ok y /\ norm_forward gs_eqb rp_eqb junk' (set_logb m lb) x' = Ok y' /\
    gt_type y = t /\ gt_type y' = t /\ acts (ft_reps t) e pi (gt_data y) (gt_data y').
Proof.
  intros t fn bias m lb e pi junk junk' x x' MK NE SP B He SS TX TX' A. apply (C42_norm gs_eqb rp_eqb t fn bias m lb e pi junk junk' x x'); auto.
  assert (AS : all_support "norm" t = true) by (unfold norm_make in MK; apply assert_ok in MK; tauto).
  apply (declared "norm" t e orthogonal); auto. intros n M l C. apply (co_norm _ _ _ C).
Qed.
(** ConcatenatedNonLinearity; moreover its test of the matrices accepts these representations *)
Theorem C53_concatenated : forall elements build (t : ftype) fn m e pi (x x' : gtensor),
  (forall name s M nl r, build name s M nl = Ok r -> rp_size r = s /\ forall h, In h elements -> meq s s (rp_mat r h) (M h)) ->
  conc_make fits elements build t fn = Ok m -> ft_reps t <> [] -> (forall r, In r (ft_reps t) -> built g r) -> is_elt g e -> In e elements ->
  typed gs_eqb rp_eqb t x -> typed gs_eqb rp_eqb t x' -> acts (ft_reps t) e pi (gt_data x) (gt_data x') ->
  exists y y', conc_forward gs_eqb rp_eqb m x = Ok y /\ conc_forward gs_eqb rp_eqb m x' = Ok y' /\
    gt_type y = cc_out m /\ gt_type y' = cc_out m /\ acts (ft_reps (cc_out m)) e pi (gt_data y) (gt_data y').
Proof.
  intros elements build t fn m e pi x x' HB MK NE B He Hin TX TX' A. apply (C42_concatenated fits gs_eqb rp_eqb elements build t fn m e pi x x'); auto.
  assert (AS : all_support "concatenated" t = true) by (unfold conc_make in MK; apply assert_ok in MK; tauto).
  intros r Hr. pose proof (declared "concatenated" t e is_signed_perm B He AS (fun n M l C => co_concatenated _ _ _ C) r Hr) as SP.
  apply signed_okind in SP as [[O _] _]. exists (mtr (rp_mat r e)). exact O.
Qed.
Theorem C53_concatenated_accepts : forall (r : rep (elt g)) elements build, built g r -> In "concatenated"%string (rp_nonlin r) -> (forall e, In e elements -> is_elt g e) ->
  conc_rep elements build r = build ("concatenated_" ++ rp_name r)%string (2 * rp_size r)%nat (fun e => conc_mat (rp_mat r e)) ("pointwise"%string :: rp_nonlin r).
Proof.
  intros r elements build B NL HE. unfold conc_rep. rewrite (proj2 (forallb_forall _ _)); [reflexivity|].
  intros e He. apply C42_concatenated_accepts. destruct (C53_declared g r B) as (_ & _ & _ & C). apply (co_concatenated _ _ _ (C e (HE e He))); auto.
Qed.
(** GroupPooling *)
Theorem C53_group_pool : forall (t : ftype) m e pi junk junk' (x x' : gtensor),
  rp_size (trivial_repr (ft_gs t)) = 1%nat -> rp_mat (trivial_repr (ft_gs t)) e 0%nat 0%nat = 1 ->
  gpool_make fits trivial_repr t = Ok m -> ft_reps t <> [] -> size_pos t -> (forall r, In r (ft_reps t) -> built g r) -> is_elt g e ->
  typed gs_eqb rp_eqb t x -> typed gs_eqb rp_eqb t x' -> acts (ft_reps t) e pi (gt_data x) (gt_data x') ->
  exists y y', gpool_forward gs_eqb rp_eqb junk m x = Ok y /\ gpool_forward gs_eqb rp_eqb junk' m x' = Ok y' /\
    gt_type y = MkFT (ft_gs t) (repeat (trivial_repr (ft_gs t)) (length (ft_reps t))) /\ gt_type y' = gt_type y /\
    length (gt_data y) = length (ft_reps t) /\ follows pi (gt_data y) (gt_data y').
Proof.
  intros t m e pi junk junk' x x' T1 T2 MK NE SP B He TX TX' A. apply (C43_group_pool fits gs_eqb rp_eqb trivial_repr t m e pi junk junk' x x'); auto.
  assert (AS : all_support "pointwise" t = true) by (unfold gpool_make in MK; apply assert_ok in MK; tauto).
  apply (declared "pointwise" t e is_perm); auto. intros n M l C. apply (co_pointwise _ _ _ C).
Qed.
End Modules.
Print Assumptions C53_pointwise.
Print Assumptions C53_norm.
Print Assumptions C53_concatenated.
Print Assumptions C53_concatenated_accepts.
Print Assumptions C53_group_pool.

(** ** Non-vacuity *)
(** for every N: the regular representation of D_N, restricted to C_N, plus the trivial representation of C_N, is built and declares
    'pointwise' and 'norm' *)
Example C53_ex : forall N, (0 < N)%Z -> exists reg res triv r, dih_regular_representation N = Ok reg /\ built (Dih N) reg /\ built (Cyc N) res /\ rp_size res = (2 * Z.to_nat N)%nat /\
  cyc_irrep N 0 = Ok triv /\ directsum [res; rep_of_irrep "irrep_0" triv] None = Ok r /\ built (Cyc N) r /\ In "pointwise"%string (rp_nonlin r) /\ In "norm"%string (rp_nonlin r).
Proof.
  intros N HN. destruct (dih_regular N HN) as (reg & ER & SZ & IR & _ & AC & _ & NL & _). exists reg.
  assert (DR : dih_regular_representation N = Ok reg) by (unfold dih_regular_representation; rewrite (dih_fgroup_eq N HN); exact ER).
  assert (BR : built (Dih N) reg) by (apply built_regular_dih; auto).
  assert (SG : exists parent child, dih_subgroup N (None, N) = Ok (SubC N parent child)).
  { destruct (proj2 (dih_subgroup_ok N (None, N) HN)) as [s E]. { cbn [fst snd]. split; [auto|]. split; [apply Z_mod_same_full|exact I]. }
    pose proof (dih_subgroup_spec N (None, N) s HN E) as X. destruct s as [M p c|M p c].
    - destruct X as [X _]. cbn in X. subst M. eauto.
    - exfalso. revert E. unfold dih_subgroup, assert_. cbn [fst snd]. destruct (1 <=? N)%Z; [|discriminate]. destruct (Z.eqb (N mod N) 0); [|discriminate].
      unfold cyc_group, assert_. destruct (0 <? N)%Z; discriminate. }
  destruct SG as (parent & child & SG). destruct C08_restriction as (_ & _ & RD & _).
  assert (DP : dih_rep N reg) by (split; [exact AC|apply Forall_forall; exact IR]).
  destruct (RD N (None, N) "restricted"%string reg _ HN SG DP) as [(inv & res & E & A) G].
  destruct (G inv res E A) as (G1 & _ & _).
  assert (BS : built (Cyc N) (restrict_trivial_patch res)).
  { apply (built_restricted (Dih N) (Cyc N) parent (restrict_representation "restricted" (dih_restrict_one_C N (None, N))) reg inv); auto. apply (res_dih_c N (None, N) _ N parent child SG). }
  assert (NR : rp_nonlin res = rp_nonlin reg) by (apply (restrict_nl _ _ _ _ _ E)).
  assert (PT : restrict_trivial_patch res = res). { unfold restrict_trivial_patch. replace (existsb (String.eqb "pointwise") (rp_nonlin res)) with true by (rewrite NR, NL; reflexivity). rewrite andb_false_r. reflexivity. }
  rewrite PT in BS. assert (exists triv, cyc_irrep N 0 = Ok triv /\ In "pointwise"%string (ir_nonlin triv) /\ In "norm"%string (ir_nonlin triv)) as (triv & ET & T1 & T2).
  { unfold cyc_irrep, assert_. assert (C : ((0 <=? 0) && (0 <=? N / 2))%Z = true) by (apply andb_true_iff; split; apply Z.leb_le; [lia|apply Z.div_pos; lia]). rewrite C. eexists. split; [reflexivity|]. cbn. auto. }
  exists res, triv. eexists. split; [exact DR|]. split; [exact BR|]. split; [exact BS|]. split; [exact (eq_trans G1 SZ)|]. split; [exact ET|]. split; [reflexivity|]. split.
  { apply (built_sum (Cyc N) [res; rep_of_irrep "irrep_0" triv] None); [|reflexivity]. intros q [<-|[<-|[]]]; [exact BS|]. apply built_irrep; [exact HN|]. exists 0%Z. exact ET. }
  cbn [rp_nonlin nl_inters rep_of_irrep]. unfold nl_inter. split; apply filter_In; (split; [cbn [elt]; rewrite NR, NL; cbn; auto|]); apply existsb_exists.
  - exists "pointwise"%string. split; [exact T1|reflexivity].
  - exists "norm"%string. split; [exact T2|reflexivity].
Qed.

(** ** A direct sum with a change of basis keeps the declaration, although the matrices change *)
Definition shear : mat := mat2 1 1 0 1.
Definition shear_inv : mat := mat2 1 (-1) 0 1.
Definition c2reg : rep Z := match cyc_regular_representation 2 with Ok r => r | Err _ => MkRep "" [] mid mid [] end.
Definition sheared : rep Z :=
  match directsum [c2reg] None with Ok r => MkRep (rp_name r) (rp_irreps r) (mmul 2 shear (rp_cob r)) (mmul 2 (rp_inv r) shear_inv) (rp_nonlin r) | Err _ => c2reg end.
Lemma shear_pair : inverse_pair 2 shear shear_inv.
Proof.
  split; intros i j Hi Hj; destruct i as [|[|i]]; try lia; destruct j as [|[|j]]; try lia; unfold mmul, shear, shear_inv, mat2, mid; cbn; ring.
Qed.
Lemma c2reg_facts : cyc_regular_representation 2 = Ok c2reg /\ rp_size c2reg = 2%nat /\ rep_accepted c2reg /\
  rp_nonlin c2reg = ["vectorfield"; "pointwise"; "norm"; "gated"; "concatenated"]%string /\ meq 2 2 (rp_mat c2reg 1%Z) (mat2 0 1 1 0).
Proof.
  destruct (cyc_regular 2 ltac:(lia)) as (q & EQ & SZ & IR & OC & AC & _ & NL & M).
  assert (E : cyc_regular_representation 2 = Ok (MkRep (rp_name q) (rp_irreps q) (rp_cob q) (rp_inv q) ("vectorfield"%string :: rp_nonlin q))).
  { unfold cyc_regular_representation. rewrite (cyc_fgroup_eq 2) by lia. cbn [rbind]. rewrite EQ. reflexivity. }
  assert (F : c2reg = MkRep (rp_name q) (rp_irreps q) (rp_cob q) (rp_inv q) ("vectorfield"%string :: rp_nonlin q)) by (unfold c2reg; rewrite E; reflexivity).
  rewrite F. split; [exact E|]. split; [exact SZ|]. split; [exact AC|]. split; [cbn [rp_nonlin]; rewrite NL; reflexivity|].
  intros i j Hi Hj. assert (H1 : cyc_el 2 1) by reflexivity. specialize (M 1%Z H1 i j Hi Hj). unfold rp_mat in *. cbn [rp_irreps rp_cob rp_inv] in *.
  unfold rp_size in *. cbn [rp_irreps] in *. rewrite M. destruct i as [|[|i]]; try lia; destruct j as [|[|j]]; try lia; cbv -[IZR]; reflexivity.
Qed.
Lemma sheared_facts : directsum_cob [c2reg] shear (rp_inv sheared) None = Ok sheared /\ rep_accepted sheared /\ rp_size sheared = 2%nat /\
  rp_nonlin sheared = rp_nonlin c2reg /\ meq 2 2 (rp_mat sheared 1%Z) (mat2 1 0 1 (-1)).
Proof.
  destruct c2reg_facts as (E & SZ & AC & NL & M). destruct (C07_directsum _ [c2reg] None) as [_ D].
  destruct (D _ eq_refl) as (D1 & D2 & D3). destruct (D2 ltac:(constructor; auto)) as [D4 D5]. set (r0 := MkRep _ _ _ _ _) in D1, D3, D4, D5.
  assert (S0 : rp_size r0 = 2%nat) by (rewrite D5; cbn; rewrite SZ; reflexivity).
  assert (SH : sheared = MkRep (rp_name r0) (rp_irreps r0) (mmul 2 shear (rp_cob r0)) (mmul 2 (rp_inv r0) shear_inv) (rp_nonlin r0)) by reflexivity.
  assert (SS : rp_size sheared = 2%nat) by (rewrite SH; exact S0).
  assert (AS : rep_accepted sheared). { unfold rep_accepted. rewrite SS, SH. cbn [rp_cob rp_inv]. unfold rep_accepted in D4. rewrite S0 in D4. apply inverse_pair_mmul; [exact shear_pair|exact D4]. }
  assert (DC : directsum_cob [c2reg] shear (rp_inv sheared) None = Ok sheared).
  { unfold directsum_cob. change (directsum [c2reg] None) with (Ok r0). cbn [rbind]. rewrite S0. rewrite SH. cbn [rp_inv]. reflexivity. }
  split; [exact DC|]. split; [exact AS|]. split; [exact SS|]. split; [reflexivity|].
  destruct (C07_directsum_change_of_basis _ [c2reg] shear (rp_inv sheared) None sheared r0 ltac:(constructor; auto) eq_refl DC AS shear_inv ltac:(rewrite S0; exact shear_pair)) as [_ C].
  specialize (C 1%Z). rewrite SS in C. rewrite C. assert (M0 : meq 2 2 (rp_mat r0 1%Z) (mat2 0 1 1 0)).
  { specialize (D3 1%Z). cbn [map] in D3. rewrite SZ in D3. change (nsum [2%nat]) with 2%nat in D3. rewrite D3, bdiag_single. exact M. }
  rewrite M0. intros i j Hi Hj. destruct i as [|[|i]]; try lia; destruct j as [|[|j]]; try lia; unfold mmul, shear, shear_inv, mat2; cbn; ring.
Qed.
(** The direct sum of one regular representation of C_2 with a shear as change of basis is accepted and declares 'pointwise' and 'norm'.
    Its matrices are not orthogonal, and ReLU, which accepts the type, does not commute with the generator. *)
Theorem C53_change_of_basis_refuted : exists m (x x' y y' : gtensor unit (rep Z) (unit -> R)), let t := MkFT tt [sheared] in
  built (Cyc 2) c2reg /\ directsum_cob [c2reg] shear (rp_inv sheared) None = Ok sheared /\ rep_accepted sheared /\ inverse_pair 2 shear shear_inv /\
  In "pointwise"%string (rp_nonlin sheared) /\ In "norm"%string (rp_nonlin sheared) /\ cyc_el 2 1%Z /\ ~ orthogonal (rp_size sheared) (rp_mat sheared 1%Z) /\
  relu_make t = Ok m /\ typed ueqb req t x /\ typed ueqb req t x' /\ acts (ft_reps t) 1%Z (fun p => p) (gt_data x) (gt_data x') /\
  pointwise_forward ueqb req m x = Ok y /\ pointwise_forward ueqb req m x' = Ok y' /\ ~ acts (ft_reps t) 1%Z (fun p => p) (gt_data y) (gt_data y').
Proof.
  destruct c2reg_facts as (E & SZ & AC & NL & M). destruct sheared_facts as (DC & AS & SS & NS & MS). rewrite NL in NS.
  set (t := MkFT tt [sheared]). assert (AL : all_support "pointwise" t = true). { unfold all_support, t. cbn [ft_reps forallb]. unfold supports. rewrite NS. reflexivity. }
  set (c0 := (fun _ => 0) : unit -> R). set (c1 := (fun _ => 1) : unit -> R). set (cm := (fun _ => -1) : unit -> R).
  exists (MkPW t relu), (MkGT [c0; c1] t), (MkGT [c0; cm] t), (MkGT (map (fun c => fun p => relu (c p)) [c0; c1]) t), (MkGT (map (fun c => fun p => relu (c p)) [c0; cm]) t). cbv zeta.
  assert (LN : nsum (map rp_size (ft_reps t)) = 2%nat) by (unfold t; cbn [ft_reps map]; rewrite SS; reflexivity).
  assert (TT : ft_eqb ueqb req t t = true) by (unfold t, ft_eqb; cbn [ft_reps ft_gs]; unfold ueqb; cbn -[sheared]; unfold req; rewrite String.eqb_refl; reflexivity).
  assert (TY : forall a b : unit -> R, typed ueqb req t (MkGT [a; b] t)).
  { intros a b. split; [exact TT|]. rewrite LN. reflexivity. }
  assert (FW : forall a b : unit -> R, pointwise_forward ueqb req (MkPW t relu) (MkGT [a; b] t) = Ok (MkGT (map (fun c => fun p => relu (c p)) [a; b]) t)).
  { intros a b. unfold pointwise_forward. cbn [gt_type gt_data pw_in pw_fun]. rewrite TT. cbn [assert_]. unfold mk_gt, ft_size. rewrite LN. reflexivity. }
  split; [apply built_regular_cyc; [lia|exact E]|]. split; [exact DC|]. split; [exact AS|]. split; [exact shear_pair|]. split; [rewrite NS; cbn; auto|]. split; [rewrite NS; cbn; auto 6|]. split; [reflexivity|].
  split. { intros [O _]. rewrite SS in O. specialize (O 1%nat 1%nat ltac:(lia) ltac:(lia)). unfold mmul, mtr in O. cbn [rsum] in O. rewrite !MS in O by lia. unfold mat2, mid in O. cbn in O. lra. }
  split. { unfold relu_make. rewrite AL. reflexivity. } split; [apply TY|]. split; [apply TY|].
  assert (FL : forall a b : unit -> R, fields (ft_reps t) [a; b] = [[a; b]]) by (intros; unfold fields; cbn [t ft_reps map]; rewrite SS; reflexivity).
  split.
  { apply moved_acts; [discriminate|cbn [gt_data length]; auto|cbn [gt_data length]; auto|]. intros f r b b' Hr Hb Hb'. cbn [gt_data] in Hb, Hb'. rewrite FL in Hb, Hb'.
    destruct f as [|f]; [|destruct f; discriminate Hr]. cbn -[sheared] in Hr, Hb, Hb'. injection Hr as <-. injection Hb as <-. injection Hb' as <-. rewrite SS. split; [reflexivity|]. split; [reflexivity|].
    intros p a Ha. cbn [rsum]. rewrite !MS by lia. destruct a as [|[|a]]; [| |lia]; cbn; unfold c0, c1, cm; ring. }
  split; [apply FW|]. split; [apply FW|]. intros A. cbn [gt_data map] in A.
  assert (MV : moved 2 (rp_mat sheared 1%Z) (fun p : unit => p) [(fun p => relu (c0 p)); (fun p => relu (c1 p))] [(fun p => relu (c0 p)); (fun p => relu (cm p))]).
  { rewrite <- SS. eapply (acts_moved (ft_reps t) 1%Z (fun p : unit => p)) with (f := 0%nat); [|exact A|reflexivity|rewrite FL; reflexivity|rewrite FL; reflexivity]. exact (eq_sym LN). }
  destruct MV as (_ & _ & MV). specialize (MV tt 1%nat ltac:(lia)). cbn [rsum] in MV. rewrite !MS in MV by lia. unfold val, mat2, relu, c0, c1, cm in MV. cbn -[Rmax] in MV. 
  rewrite !(Rmax_left 0 0), (Rmax_right 0 1), (Rmax_left 0 (-1)) in MV by lra. lra.
Qed.
Print Assumptions C53_change_of_basis_refuted.

(** ** NormPool does not look at the declaration *)
(** the regular representation of C_2 after a change of basis, declaring nothing; NormPool accepts it, and its result is not invariant *)
Definition undeclared : rep Z := change_basis c2reg shear shear_inv "sheared" None.
Definition triv2 : rep Z := match cyc_irrep 2 0 with Ok ir => rep_of_irrep "irrep_0" ir | Err _ => c2reg end.
Lemma undeclared_facts : rp_size undeclared = 2%nat /\ rep_accepted undeclared /\ meq 2 2 (rp_mat undeclared 1%Z) (mat2 1 0 1 (-1)).
Proof.
  destruct c2reg_facts as (E & SZ & AC & NL & M). destruct (C07_change_basis _ c2reg shear shear_inv "sheared"%string None AC ltac:(rewrite SZ; exact shear_pair)) as (A & S & C).
  rewrite SZ in *. split; [exact S|]. split; [exact A|]. unfold undeclared. rewrite (C 1%Z), M.
  intros i j Hi Hj. destruct i as [|[|i]]; try lia; destruct j as [|[|j]]; try lia; unfold mmul, shear, shear_inv, mat2; cbn; ring.
Qed.
Theorem C43_norm_pool_unsupported_refuted : exists m (x x' y y' : gtensor unit (rep Z) (unit -> R)), let t := MkFT tt [undeclared] in
  built (Cyc 2) undeclared /\ rp_nonlin undeclared = [] /\ cyc_el 2 1%Z /\ npool_make any (fun _ => triv2) t = Ok m /\
  typed ueqb req t x /\ typed ueqb req t x' /\ acts (ft_reps t) 1%Z (fun p => p) (gt_data x) (gt_data x') /\
  npool_forward ueqb req (fun _ _ => 0) m x = Ok y /\ npool_forward ueqb req (fun _ _ => 0) m x' = Ok y' /\
  val (gt_data y) 0 tt = 1 /\ val (gt_data y') 0 tt = sqrt 2.
Proof.
  destruct c2reg_facts as (E & SZ & AC & NL & M). destruct undeclared_facts as (SS & AS & MS). set (t := MkFT tt [undeclared]).
  set (c0 := (fun _ => 0) : unit -> R). set (c1 := (fun _ => 1) : unit -> R).
  assert (LN : nsum (map rp_size (ft_reps t)) = 2%nat) by (unfold t; cbn [ft_reps map]; rewrite SS; reflexivity).
  assert (TT : ft_eqb ueqb req t t = true) by (unfold t, ft_eqb; cbn [ft_reps ft_gs]; unfold ueqb; cbn -[undeclared]; unfold req; rewrite String.eqb_refl; reflexivity).
  assert (TY : forall a b : unit -> R, typed ueqb req t (MkGT [a; b] t)). { intros a b. split; [exact TT|]. rewrite LN. reflexivity. }
  assert (FL : forall a b : unit -> R, fields (ft_reps t) [a; b] = [[a; b]]) by (intros; unfold fields; cbn [t ft_reps map]; rewrite SS; reflexivity).
  assert (SP : size_pos t) by (intros r [<-|[]]; rewrite SS; lia).
  assert (T1 : rp_size triv2 = 1%nat) by reflexivity.
  assert (MK : exists m, npool_make any (fun _ => triv2) t = Ok m).
  { unfold npool_make, pool_make_with.
    assert (P : exists e, pool_index t = Ok e) by (unfold pool_index; cbn [t ft_reps map]; rewrite SS; eexists; reflexivity). destruct P as [e P]. rewrite P. eexists. reflexivity. }
  destruct MK as [m MK].
  destruct (C41_norm_pool any ueqb req (fun _ => triv2) t m (fun _ _ => 0) (MkGT [c1; c0] t) T1 MK SP (TY c1 c0)) as (y & F & _ & _ & V).
  destruct (C41_norm_pool any ueqb req (fun _ => triv2) t m (fun _ _ => 0) (MkGT [c1; c1] t) T1 MK SP (TY c1 c1)) as (y' & F' & _ & _ & V').
  exists m, (MkGT [c1; c0] t), (MkGT [c1; c1] t), y, y'. cbv zeta. split.
  { apply (built_changed (Cyc 2) c2reg shear shear_inv "sheared"); [apply built_regular_cyc; [lia|exact E]|]. cbn [elt]. rewrite SZ. exact shear_pair. }
  split; [reflexivity|]. split; [reflexivity|]. split; [exact MK|]. split; [apply TY|]. split; [apply TY|]. split.
  { apply moved_acts; [discriminate|cbn [gt_data length]; auto|cbn [gt_data length]; auto|]. intros f r b b' Hr Hb Hb'. cbn [gt_data] in Hb, Hb'. rewrite FL in Hb, Hb'.
    destruct f as [|f]; [|destruct f; discriminate Hr]. cbn -[undeclared] in Hr, Hb, Hb'. injection Hr as <-. injection Hb as <-. injection Hb' as <-. rewrite SS. split; [reflexivity|]. split; [reflexivity|].
    intros p a Ha. cbn [rsum]. rewrite !MS by lia. destruct a as [|[|a]]; [| |lia]; cbn; unfold c0, c1; ring. }
  split; [exact F|]. split; [exact F'|]. cbn [gt_data] in V, V'. rewrite FL in V, V'. rewrite (V 0%nat [c1; c0] eq_refl tt), (V' 0%nat [c1; c1] eq_refl tt).
  unfold norm_of. cbn [length rsum]. unfold val. cbn [nth]. unfold c0, c1. split; [|apply f_equal; ring]. transitivity (sqrt 1); [apply f_equal; ring|apply sqrt_1].
Qed.
Print Assumptions C43_norm_pool_unsupported_refuted.
