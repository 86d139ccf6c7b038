(** C42, C43: representations of the library that meet the hypotheses; concrete cases; where the vector field fails. *)
From Coq Require Import Reals ZArith String List Bool Lia Lra.
From Verif Require Import Base LinAlg Spec Spec_Fields Model_Groups Model_Rep Model_Regular Model_FieldType Model_Tensor Model_Utils Model_Fieldwise
  Spec_Fieldwise Spec_Fieldwise2 Proofs_Groups Proofs_Irreps Proofs_Rep Proofs_Regular Proofs_Regular2 Proofs_Induced Prop_Regular
  Proofs_FieldType Proofs_Tensor Proofs_Utils Proofs_Fieldwise Proofs_Fieldwise2 Proofs_Fieldwise3 Proofs_Fieldwise4 Proofs_Fieldwise5 Proofs_Fieldwise6
  Proofs_Fieldwise7 Proofs_Fieldwise8 Proofs_Fieldwise9 Proofs_Fieldwise10 Prop_Fieldwise Proofs_Fieldwise11 Prop_Fieldwise2.
Import ListNotations.
Open Scope R_scope.

(** ** The hypotheses on the representations, for the representations of the library *)
(** regular representations of all C_N and D_N: permutations, cyclic shifts for C_N *)
Theorem C42_regular_cyclic : forall N r g, (0 < N)%Z -> regular_representation (cyc_fg N) = Ok r -> cyc_el N g ->
  is_perm (rp_size r) (rp_mat r g) /\ orthogonal (rp_size r) (rp_mat r g) /\ is_shift (Z.to_nat N) (Z.to_nat g) (rp_mat r g).
Proof.
  intros N r g HN E Hg. assert (P : is_perm (rp_size r) (rp_mat r g)).
  { destruct (cyc_regular N HN) as (r' & E' & SZ & _ & _ & _ & _ & _ & I). rewrite E in E'. injection E' as <-. rewrite SZ.
    destruct (cyc_elements_spec N HN) as [E1 [_ E3]]. assert (O : order (cyc_fg N) = Z.to_nat N) by exact E1. rewrite <- O in *.
    apply (regular_perm (cyc_fg N) (cyc_fg_ok N HN) g); [apply E3; auto|apply I; auto]. }
  split; [exact P|]. split; [apply perm_orthogonal; auto|apply cyc_shift; auto].
Qed.
Print Assumptions C42_regular_cyclic.
Theorem C42_regular_dihedral : forall N r g, (0 < N)%Z -> regular_representation (dih_fg N) = Ok r -> dih_el N g ->
  is_perm (rp_size r) (rp_mat r g) /\ orthogonal (rp_size r) (rp_mat r g).
Proof.
  intros N r g HN E Hg. assert (P : is_perm (rp_size r) (rp_mat r g)).
  { destruct (dih_regular N HN) as (r' & E' & SZ & _ & _ & _ & _ & _ & I). rewrite E in E'. injection E' as <-. rewrite SZ.
    destruct (dih_elements_spec N HN) as [E1 [_ E3]]. assert (O : order (dih_fg N) = (2 * Z.to_nat N)%nat) by exact E1. rewrite <- O in *.
    apply (regular_perm (dih_fg N) (dih_fg_ok N HN) g); [apply E3; auto|apply I; auto]. }
  split; [exact P|apply perm_orthogonal; auto].
Qed.
Print Assumptions C42_regular_dihedral.
(** induced representations of orthogonal ones, for every finite group and subgroup *)
Theorem C42_induced : forall (G H : Type) (grp : fgroup G) (subs : list H) parent child opH invH eH s rho g,
  fgroup_ok grp -> subgroup_ok grp subs parent child opH invH eH -> is_orthogonal_rep (fun h => In h subs) s rho -> In g (fg_elements grp) ->
  is_block_perm (length (representatives grp subs parent)) s (ind_mat grp subs parent child s rho g).
Proof. intros. eapply induced_block_perm; eauto. Qed.
Print Assumptions C42_induced.

Lemma nodup_map_in {A B} (f : A -> B) l : (forall a b, In a l -> In b l -> f a = f b -> a = b) -> NoDup l -> NoDup (map f l).
Proof.
  intros H N. induction N as [|a l NI N IH]; [constructor|]. cbn [map]. constructor.
  - intros I. apply in_map_iff in I as (b & E & Hb). apply NI. rewrite <- (H b a); cbn; auto.
  - apply IH. intros u v Hu Hv. apply H; cbn; auto.
Qed.
(** ConcatenatedNonLinearity rejects no signed permutation *)
Lemma filter_one n k : (k < n)%nat -> length (filter (fun j => j =? k)%nat (seq 0 n)) = 1%nat.
Proof.
  intros H. replace n with (k + S (n - S k))%nat by lia. rewrite seq_app, filter_app, app_length. cbn [seq filter]. rewrite Nat.add_0_l, Nat.eqb_refl. cbn [length].
  assert (Z : forall a m, (forall j, (a <= j < a + m)%nat -> j <> k) -> filter (fun j => j =? k)%nat (seq a m) = []).
  { intros a m. revert a. induction m as [|m IH]; intros a Q; [reflexivity|]. cbn [seq filter]. destruct (Nat.eqb_spec a k) as [->|]; [exfalso; apply (Q k); lia|]. apply IH. intros j Hj. apply Q. lia. }
  rewrite !Z by lia. reflexivity.
Qed.
Theorem C42_concatenated_accepts : forall n A, is_signed_perm n A -> conc_ok n A = true.
Proof.
  intros n A (s & e & B & E & H).
  assert (NZ : forall i j, (i < n)%nat -> (j < n)%nat -> nz (A i j) = (j =? s i)%nat).
  { intros i j Hi Hj. rewrite H by auto. unfold nz. destruct (Nat.eqb_spec j (s i)); destruct (Req_EM_T _ 0) as [Q|Q]; auto; [destruct (E i Hi); lra|lra]. }
  unfold conc_ok. rewrite !andb_true_iff. split; [split|].
  - apply forallb_forall. intros i Hi. apply in_seq in Hi. apply Nat.leb_le.
    rewrite (filter_ext_in _ (fun j => j =? s i)%nat) by (intros j Hj; apply in_seq in Hj; apply NZ; lia). rewrite filter_one; [lia|apply B; lia].
  - apply Nat.eqb_eq. rewrite nodup_fixed_point; [reflexivity|].
    rewrite (map_ext_in _ (fun i => Z.of_nat (s i))).
    + apply nodup_map_in; [|apply seq_NoDup]. intros i j Hi Hj Q. apply in_seq in Hi, Hj. apply B; lia.
    + intros i Hi. apply in_seq in Hi. destruct (List.find _ _) as [j|] eqn:F.
      * apply find_some in F as [F1 F2]. apply in_seq in F1. rewrite NZ in F2 by lia. apply Nat.eqb_eq in F2. congruence.
      * exfalso. assert (L : (s i < n)%nat) by (apply B; lia). pose proof (find_none _ _ F (s i) ltac:(apply in_seq; lia)) as Q. cbv beta in Q. rewrite NZ in Q by lia. rewrite Nat.eqb_refl in Q. discriminate.
  - apply forallb_forall. intros i Hi. apply forallb_forall. intros j Hj. apply in_seq in Hi, Hj. destruct (Req_EM_T (A i j) 1); [auto|]. destruct (Req_EM_T (A i j) (-1)); [auto|].
    rewrite NZ by lia. destruct (Nat.eqb_spec j (s i)) as [Q|]; [|reflexivity]. exfalso. rewrite (H i j) in * by lia. destruct (Nat.eqb_spec j (s i)); [|congruence]. destruct (E i ltac:(lia)); congruence.
Qed.
Print Assumptions C42_concatenated_accepts.

(** ** Concrete cases *)
Definition ueqb (_ _ : unit) : bool := true.
Definition req {G} (r r' : rep G) : bool := String.eqb (rp_name r) (rp_name r').
Definition any {A B} (_ : A) (_ : B) : bool := true.
Lemma acts_ex {G X} (reps : list (rep G)) g (pi : X -> X) (d : list (X -> R)) : reps <> [] -> exists d', length d' = length d /\ acts reps g pi d d'.
Proof.
  intros NE. destruct (transform_total reps g (fun p i => val d i (pi p)) NE) as [t' T]. exists (map (fun i p => t' p i) (seq 0 (length d))).
  assert (L : length (map (fun i p => t' p i) (seq 0 (length d))) = length d) by (rewrite map_length, seq_length; auto). split; [auto|]. split; [auto|]. exists t'. split; [auto|].
  intros p i Hi. unfold val. rewrite (nth_indep _ (fun _ => 0) (fun p => t' p 0%nat)) by lia. rewrite (map_nth (fun i p => t' p i)), seq_nth by auto. reflexivity.
Qed.
(** every tensor that the module accepts can be transformed by every element, with every map of the points *)
Lemma typed_ex {GS G X} gs_eqb rp_eqb (t : ftype GS (rep G)) g (pi : X -> X) x : ft_reps t <> [] -> typed gs_eqb rp_eqb t x ->
  exists x', typed gs_eqb rp_eqb t x' /\ acts (ft_reps t) g pi (gt_data x) (gt_data x').
Proof.
  intros NE [T L]. destruct (acts_ex (ft_reps t) g pi (gt_data x) NE) as (d' & L' & A). exists (MkGT d' (gt_type x)). split; [split; [exact T|cbn; congruence]|exact A].
Qed.

Lemma irrep_rep_mat {G} name (ir : irrep G) g : meq (ir_size ir) (ir_size ir) (rp_mat (rep_of_irrep name ir) g) (ir_mat ir g).
Proof.
  unfold rp_mat, rep_of_irrep. cbn [rp_cob rp_irreps rp_inv]. cbv zeta.
  replace (rp_size _) with (ir_size ir) by (unfold rp_size; cbn; lia).
  rewrite mmul_id_r, mmul_id_l. apply bdiag_single.
Qed.
(** the irreps 0, 1, 2 of C_4; sizes 1, 2, 1 *)
Definition c4 (k : Z) : rep Z := match cyc_irrep 4 k with Ok ir => rep_of_irrep ("irrep_" ++ (if (k =? 0)%Z then "0" else if (k =? 1)%Z then "1" else "2"))%string ir | Err _ => MkRep "" [] mid mid [] end.
Definition t_irr : ftype unit (rep Z) := MkFT tt [c4 1; c4 0; c4 1; c4 2].
Lemma c4_mat k ir g : cyc_irrep 4 k = Ok ir -> meq (ir_size ir) (ir_size ir) (rp_mat (c4 k) g) (ir_mat ir g).
Proof. intros E. unfold c4. rewrite E. apply irrep_rep_mat. Qed.
Lemma c4_orth k g : (0 <= k <= 2)%Z -> cyc_el 4 g -> orthogonal (rp_size (c4 k)) (rp_mat (c4 k) g).
Proof.
  intros Hk Hg. assert (exists ir, cyc_irrep 4 k = Ok ir) as [ir E].
  { unfold cyc_irrep. rewrite (proj2 (andb_true_iff _ _)) by (split; apply Z.leb_le; cbn; lia). cbn [assert_]. cbv zeta. destruct (k =? 0)%Z; [eauto|]. destruct (_ && _)%bool; eauto. }
  pose proof (c4_mat k ir g E) as M. assert (SZ : rp_size (c4 k) = ir_size ir) by (unfold c4; rewrite E; unfold rp_size, rep_of_irrep; cbn; lia).
  rewrite SZ. apply (orthogonal_ext _ (ir_mat ir g)); [symmetry; exact M|]. apply (cyc_irrep_rep 4 k ir ltac:(lia) E). exact Hg.
Qed.
Lemma in_irr r : In r (ft_reps t_irr) -> exists k, (0 <= k <= 2)%Z /\ r = c4 k.
Proof. cbn [t_irr ft_reps In]. intros [<-|[<-|[<-|[<-|[]]]]]; [exists 1%Z|exists 0%Z|exists 1%Z|exists 2%Z]; (split; [lia|reflexivity]). Qed.
Example C42_norm_ex : exists m, norm_make t_irr "n_relu" true = Ok m /\ ft_reps t_irr <> [] /\ size_pos t_irr /\
  (forall g r, cyc_el 4 g -> In r (ft_reps t_irr) -> orthogonal (rp_size r) (rp_mat r g)) /\
  forall (X : Type) g (pi : X -> X) x, typed ueqb req t_irr x -> exists x', typed ueqb req t_irr x' /\ acts (ft_reps t_irr) g pi (gt_data x) (gt_data x').
Proof.
  eexists. split; [reflexivity|]. split; [discriminate|]. split. { intros r H. cbn [t_irr ft_reps In] in H. destruct H as [<-|[<-|[<-|[<-|[]]]]]; vm_compute; lia. }
  split; [intros g r Hg Hr; destruct (in_irr r Hr) as (k & Hk & ->); apply c4_orth; auto|]. intros. apply typed_ex; [discriminate|auto].
Qed.
(** gates: two trivial fields, gating fields of sizes 2 and 1 *)
Definition triv4 (r : rep Z) : bool := String.eqb (rp_name r) "irrep_0".
Definition t_gat : ftype unit (rep Z) := MkFT tt [c4 0; c4 1; c4 0; c4 2].
(** irrep_0 acts as the number 1 *)
Lemma c4_0 g : rp_size (c4 0) = 1%nat /\ rp_mat (c4 0) g 0%nat 0%nat = 1.
Proof.
  split; [reflexivity|]. destruct (cyc_irrep 4 0) as [ir|] eqn:E; [|discriminate]. pose proof (c4_mat 0 ir g E) as M. cbn in E. injection E as <-. rewrite M by (cbn; lia). reflexivity.
Qed.
Example C42_gated1_ex : exists m, gated1_make any triv4 t_gat (Some ["gate"; "gated"; "gate"; "gated"]%string) true (fun _ => 0) = Ok m /\
  ft_reps (g1_out m) = [c4 1; c4 2] /\ size_pos t_gat /\ length (g1_bias m) = 2%nat.
Proof. eexists. split; [reflexivity|]. split; [reflexivity|]. split; [|reflexivity]. intros r H. cbn [t_gat ft_reps In] in H. destruct H as [<-|[<-|[<-|[<-|[]]]]]; vm_compute; lia. Qed.
Example C42_gated2_ex : exists m, gated2_make ueqb triv4 (MkFT tt [c4 0; c4 0; c4 0; c4 0]) t_irr (fun _ => 0) = Ok m /\ length (g2_bias m) = 4%nat.
Proof. eexists. split; [reflexivity|]. reflexivity. Qed.

(** two regular fields of C_4, with 'vectorfield' added as cyclicgroup.py:222 does, and an induced_norm of sub-field size 1 *)
Definition add_nl {G} (nl : string) (r : rep G) : rep G := MkRep (rp_name r) (rp_irreps r) (rp_cob r) (rp_inv r) (nl :: rp_nonlin r).
Lemma regular_name {G} (grp : fgroup G) r : regular_representation grp = Ok r -> rp_name r = "regular"%string /\ rp_nonlin r = ["pointwise"; "norm"; "gated"; "concatenated"]%string.
Proof. unfold regular_representation. intros E. apply rbind_ok in E as ([[a b] c] & _ & E). injection E as <-. auto. Qed.
Lemma regular_make_ok {A} (f : A -> bool) l : (forall a, In a l -> f a = true) -> forallb f l = true.
Proof. intros H. apply forallb_forall. exact H. Qed.
Example C42_pointwise_ex : forall N n, (0 < N)%Z -> (0 < n)%nat -> exists r m, regular_representation (cyc_fg N) = Ok r /\
  let t := MkFT tt (repeat r n) in relu_make t = Ok m /\ ft_reps t <> [] /\ size_pos t /\
  (forall g r', cyc_el N g -> In r' (ft_reps t) -> is_perm (rp_size r') (rp_mat r' g)).
Proof.
  intros N n HN Hn. destruct (cyc_regular N HN) as (r & E & SZ & _). destruct (regular_name _ _ E) as [NA NL]. exists r. unfold relu_make, all_support. cbn [ft_reps].
  rewrite (proj2 (forallb_forall _ _)). 2:{ intros r' H. apply repeat_spec in H. subst r'. unfold supports. rewrite NL. reflexivity. }
  cbn [assert_]. eexists. split; [exact E|]. split; [reflexivity|]. split; [destruct n; [lia|discriminate]|]. split.
  - intros r' H. cbn [ft_reps] in H. apply repeat_spec in H. subst r'. rewrite SZ. lia.
  - intros g r' Hg H. apply repeat_spec in H. subst r'. apply (C42_regular_cyclic N r g HN E Hg).
Qed.
(** the concatenated non-linearity of the regular fields *)
Definition plain_build {G} (name : string) (s : nat) (M : G -> mat) (nl : list string) : result (rep G) := Ok (MkRep name [MkIrrep s s 0 0 M nl] mid mid nl).
Example C42_concatenated_ex : forall N, (0 < N)%Z -> exists r m, regular_representation (cyc_fg N) = Ok r /\
  let t := MkFT tt [r; r] in conc_make any (cyc_elements N) plain_build t "c_relu" = Ok m /\
  (forall g, cyc_el N g -> exists B, meq (rp_size r) (rp_size r) (mmul (rp_size r) (rp_mat r g) B) mid) /\
  (forall name s M nl r, plain_build name s M nl = Ok r -> rp_size r = s /\ forall g : Z, In g (cyc_elements N) -> meq s s (rp_mat r g) (M g)).
Proof.
  intros N HN. destruct (cyc_regular N HN) as (r & E & SZ & _). destruct (regular_name _ _ E) as [NA NL]. exists r.
  assert (CO : conc_rep (cyc_elements N) plain_build r = plain_build ("concatenated_" ++ rp_name r)%string (2 * rp_size r)%nat (fun g => conc_mat (rp_mat r g)) ("pointwise"%string :: rp_nonlin r)).
  { unfold conc_rep. rewrite (proj2 (forallb_forall _ _)); [reflexivity|]. intros g Hg. apply C42_concatenated_accepts.
    destruct (C42_regular_cyclic N r g HN E) as [(s & B & H) _]; [apply (cyc_elements_spec N HN); auto|]. exists s, (fun _ => 1). split; [auto|]. split; [auto|exact H]. }
  unfold conc_make, all_support. cbn [ft_reps forallb]. unfold supports. rewrite NL. cbn [rmap]. rewrite CO. unfold plain_build at 1 2. cbn [existsb String.eqb Ascii.eqb Bool.eqb orb andb assert_ rbind].
  eexists. split; [exact E|]. split; [reflexivity|]. split.
  - intros g Hg. destruct (C42_regular_cyclic N r g HN E Hg) as (_ & [O _] & _). exists (mtr (rp_mat r g)). exact O.
  - intros name s M nl r' Er. injection Er as <-. split; [unfold rp_size; cbn; lia|]. intros g _. 
    pose proof (irrep_rep_mat name (MkIrrep s s 0 0 M nl) g) as Q. unfold rep_of_irrep in Q. exact Q.
Qed.

(** ** The vector-field non-linearity *)
Definition vf_rep (N : Z) : result (rep Z) := rbind (regular_representation (cyc_fg N)) (fun r => Ok (add_nl "vectorfield" r)).
(** irrep_1 of C_N *)
Definition vf_irr (N : Z) : result (rep Z) := rbind (cyc_irrep N 1) (fun ir => Ok (rep_of_irrep "irrep_1" ir)).
Lemma vf_make N n r r1 : (1 < N)%Z -> (0 < n)%nat -> vf_rep N = Ok r -> vf_irr N = Ok r1 ->
  vfield_make any (Z.to_nat N) (Some r1) (MkFT tt (repeat r n)) = Ok (MkVF (MkFT tt (repeat r n)) (MkFT tt (repeat r1 n)) (Z.to_nat N)) /\ rp_size r = Z.to_nat N /\
  (forall g, cyc_el N g -> is_shift (Z.to_nat N) (Z.to_nat g) (rp_mat r g)).
Proof.
  intros HN Hn E E1. unfold vf_rep in E. apply rbind_ok in E as (r0 & E & Q). injection Q as <-. destruct (regular_name _ _ E) as [NA NL].
  destruct (cyc_regular N ltac:(lia)) as (r' & E' & SZ & _). rewrite E in E'. injection E' as <-.
  assert (S0 : rp_size (add_nl "vectorfield" r0) = Z.to_nat N) by exact SZ.
  split; [|split; [exact S0|intros g Hg; exact (cyc_shift N r0 g ltac:(lia) E Hg)]].
  unfold vfield_make. cbn [ft_reps ft_gs]. rewrite (proj2 (Nat.ltb_lt _ _)) by lia. cbn [assert_].
  rewrite (proj2 (forallb_forall _ _)).
  2:{ intros q H. apply repeat_spec in H. subst q. unfold supports. cbn [add_nl rp_nonlin rp_name]. rewrite NA, S0, Nat.eqb_refl. reflexivity. }
  cbn [assert_]. rewrite repeat_length. unfold mk_ftype. rewrite repeat_length. rewrite (proj2 (Z.ltb_lt _ _)) by lia. cbn [assert_].
  rewrite (proj2 (forallb_forall _ _)) by reflexivity. reflexivity.
Qed.
Lemma vf_irr_rot N r1 : (2 < N)%Z -> vf_irr N = Ok r1 -> rp_size r1 = 2%nat /\ forall g, cyc_el N g -> is_rotation (INR (Z.to_nat g) * (2 * PI / INR (Z.to_nat N))) (rp_mat r1 g).
Proof.
  intros HN E. unfold vf_irr in E. apply rbind_ok in E as (ir & E & Q). injection Q as <-.
  unfold cyc_irrep in E. apply assert_ok in E as [_ E]. cbv zeta in E. change (1 =? 0)%Z with false in E. cbv iota in E.
  assert (F : (1 =? N / 2)%Z && (N mod 2 =? 0)%Z = false).
  { destruct (Z.eqb_spec 1 (N / 2)) as [Q|]; [|reflexivity]. destruct (Z.eqb_spec (N mod 2) 0) as [Q'|]; [|reflexivity]. pose proof (Z.div_mod N 2 ltac:(lia)). lia. }
  rewrite andb_comm in F. rewrite F in E. injection E as <-. split; [reflexivity|]. intros g Hg. apply cyc_el_iff in Hg.
  match goal with |- is_rotation _ (rp_mat (rep_of_irrep _ ?i) _) => pose proof (irrep_rep_mat "irrep_1" i g) as M end. cbn [ir_mat ir_size] in M.
  rewrite !INR_IZR_INZ, !Z2Nat.id by lia. unfold is_rotation. rewrite !M by lia. unfold psi, mat2. cbn. replace (1 * (IZR g * (2 * PI / IZR N)) + 0) with (IZR g * (2 * PI / IZR N)) by ring. auto.
Qed.
Example C42_vectorfield_ex : forall N n, (2 < N)%Z -> (0 < n)%nat -> exists r r1 m, vf_rep N = Ok r /\ vf_irr N = Ok r1 /\
  let t := MkFT tt (repeat r n) in vfield_make any (Z.to_nat N) (Some r1) t = Ok m /\ rp_size r1 = 2%nat /\ ft_reps t <> [] /\
  forall g, cyc_el N g -> (Z.to_nat g < Z.to_nat N)%nat /\ (forall r', In r' (ft_reps t) -> is_shift (Z.to_nat N) (Z.to_nat g) (rp_mat r' g)) /\
    is_rotation (INR (Z.to_nat g) * (2 * PI / INR (Z.to_nat N))) (rp_mat r1 g).
Proof.
  intros N n HN Hn. destruct (cyc_regular N ltac:(lia)) as (r0 & E & _). destruct (vf_irr N) as [r1|] eqn:E1.
  2:{ exfalso. unfold vf_irr in E1. unfold cyc_irrep in E1. rewrite (proj2 (andb_true_iff _ _)) in E1 by (split; apply Z.leb_le; [lia|apply Z.div_le_lower_bound; lia]). cbn [assert_] in E1. cbv zeta in E1. change (1 =? 0)%Z with false in E1. cbv iota in E1.
      destruct (_ && _)%bool in E1; discriminate. }
  assert (ER : vf_rep N = Ok (add_nl "vectorfield" r0)) by (unfold vf_rep; rewrite E; reflexivity).
  destruct (vf_make N n _ r1 ltac:(lia) Hn ER E1) as (MK & SZ & SH). destruct (vf_irr_rot N r1 HN E1) as [S1 RO].
  eexists _, r1, _. split; [exact ER|]. split; [reflexivity|]. split; [exact MK|]. split; [auto|]. split; [destruct n; [lia|discriminate]|]. intros g Hg. split; [apply cyc_el_iff in Hg; lia|].
  split; [|auto]. intros r' H. apply repeat_spec in H. subst r'. auto.
Qed.

(** Where several entries of a field are the maximum, rotating the input does not rotate the output: for every C_N with N > 2
    and whichever of the maxima torch.max picks. *)
Theorem C42_vectorfield_ties_refuted : forall argmax N r r1, argmax_ok argmax -> (2 < N)%Z -> vf_rep N = Ok r -> vf_irr N = Ok r1 ->
  exists m (x x' y y' : gtensor unit (rep Z) (unit -> R)) g, let t := MkFT tt [r] in cyc_el N g /\
    vfield_make any (Z.to_nat N) (Some r1) t = Ok m /\ typed ueqb req t x /\ typed ueqb req t x' /\ acts (ft_reps t) g (fun p => p) (gt_data x) (gt_data x') /\
    vfield_forward ueqb req argmax m x = Ok y /\ vfield_forward ueqb req argmax m x' = Ok y' /\
    ~ acts (ft_reps (gt_type y)) g (fun p => p) (gt_data y) (gt_data y').
Proof.
  intros argmax N r r1 AM HN E E1. destruct (vf_make N 1 r r1 ltac:(lia) ltac:(lia) E E1) as (MK & SZ & SH). destruct (vf_irr_rot N r1 HN E1) as [S1 RO]. cbn [repeat] in MK.
  set (t := MkFT tt [r]) in *. set (n := Z.to_nat N) in *. set (d := repeat (fun _ : unit => 1) n).
  set (m := MkVF t (MkFT tt [r1]) n) in *. set (x := MkGT d t : gtensor unit (rep Z) (unit -> R)).
  assert (G1 : cyc_el N 1) by (apply cyc_el_iff; lia). specialize (SH 1%Z G1). specialize (RO 1%Z G1). change (Z.to_nat 1) with 1%nat in *.
  assert (TY : typed ueqb req t x). { split; [unfold ft_eqb; cbn; unfold req; rewrite String.eqb_refl; reflexivity|]. cbn. unfold d. rewrite repeat_length, SZ. lia. }
  assert (VD : forall i p, (i < n)%nat -> val d i p = 1). { intros i p Hi. unfold val, d. rewrite (nth_indep _ _ (fun _ => 1)) by (rewrite repeat_length; auto). rewrite nth_repeat. reflexivity. }
  assert (LD : length d = n) by apply repeat_length.
  (* the field does not change *)
  assert (A : acts (ft_reps t) 1%Z (fun p => p) d d).
  { apply moved_acts; [discriminate|cbn; rewrite LD, SZ; lia|cbn; rewrite LD, SZ; lia|]. intros f r' b b' Hr Hb Hb'. rewrite Hb in Hb'. injection Hb' as <-.
    destruct f as [|f]; [|destruct f; discriminate]. injection Hr as <-. assert (b = d). { cbn in Hb. injection Hb as <-. apply firstn_all2. rewrite LD, SZ. lia. } subst b.
    rewrite SZ. fold n. split; [exact LD|]. split; [exact LD|]. intros p a Ha. destruct (shift_perm n 1 _ ltac:(lia) SH) as (s & B & P). rewrite (rsum_perm n s _ (fun _ => 1) a B P Ha (fun c => val d c p)).
    rewrite !VD by (auto; apply B; auto). ring. }
  destruct (C41_vectorfield any ueqb req argmax n r1 t m x AM MK S1 TY) as (y & F & T & LY & V).
  exists m, x, x, y, y, 1%Z. split; [auto|]. split; [exact MK|]. split; [exact TY|]. split; [exact TY|]. split; [exact A|]. split; [exact F|]. split; [exact F|].
  intros B. rewrite T in B, V. cbn [ft_gs ft_reps t length repeat] in B, V, LY. rewrite Nat.mul_1_r in LY.
  destruct (V 0%nat d) as (v & Hv & L2 & VA). { cbn. f_equal. apply firstn_all2. rewrite LD, SZ. lia. }
  assert (B' : moved (rp_size r1) (rp_mat r1 1%Z) (fun p : unit => p) v v) by (apply (acts_moved [r1] 1%Z (fun p => p) (gt_data y) (gt_data y) ltac:(cbn; rewrite LY, S1; lia) B 0%nat r1); auto).
  destruct (VA tt 1) as [_ VA']. { split; [exists 0%nat; rewrite VD by lia; split; [lia|auto]|]. intros i Hi. rewrite VD by lia. lra. }
  destruct (VA' ltac:(lra)) as (i & _ & _ & V0 & V1). destruct B' as (_ & _ & M). rewrite S1 in M. pose proof (M tt 0%nat ltac:(lia)) as M0. pose proof (M tt 1%nat ltac:(lia)) as M1.
  cbn [rsum] in M0, M1. destruct RO as (R1 & R2 & R3 & R4). rewrite R1, R2 in M0. rewrite R3, R4 in M1.
  set (a := INR 1 * (2 * PI / INR n)) in *. set (c := INR i * (2 * PI / INR n)) in *. rewrite Rmult_1_l in V0, V1. rewrite V0, V1 in M0, M1.
  assert (C : cos a = 1). { pose proof (sin2_cos2 c) as Q. unfold Rsqr in Q. nra. }
  assert (0 < a < 2 * PI).
  { unfold a. pose proof PI_RGT_0. assert (2 < INR n) by (change 2 with (INR 2); apply lt_INR; lia). change (INR 1) with 1. split.
    - apply Rmult_lt_0_compat; [lra|]. apply Rdiv_lt_0_compat; lra.
    - rewrite Rmult_1_l. apply (Rmult_lt_reg_r (INR n)); [lra|]. unfold Rdiv. rewrite Rmult_assoc, Rinv_l by lra. nra. }
  assert (a <= PI \/ PI <= a) as [H1|H1] by lra.
  - pose proof (cos_decreasing_1 0 a ltac:(lra) ltac:(lra) ltac:(lra) ltac:(lra) ltac:(lra)) as Q. rewrite cos_0 in Q. lra.
  - pose proof (cos_increasing_1 a (2 * PI) ltac:(lra) ltac:(lra) ltac:(lra) ltac:(lra) ltac:(lra)) as Q. rewrite cos_2PI in Q. lra.
Qed.
Print Assumptions C42_vectorfield_ties_refuted.
(** For C_2 the constructor accepts the type, but every call fails: irrep_1 has one channel, the vectors have two. *)
Theorem C42_vectorfield_C2_refuted : forall argmax n r r1 (X : Type), (0 < n)%nat -> vf_rep 2 = Ok r -> vf_irr 2 = Ok r1 ->
  exists m, let t := MkFT tt (repeat r n) in vfield_make any 2 (Some r1) t = Ok m /\
    forall (x : gtensor unit (rep Z) (X -> R)), typed ueqb req t x -> vfield_forward ueqb req argmax m x = Err "RuntimeError"%string.
Proof.
  intros argmax n r r1 X Hn E E1. destruct (vf_make 2 n r r1 ltac:(lia) Hn E E1) as (MK & SZ & _). eexists. split; [exact MK|]. intros x [T L]. unfold vfield_forward. cbn [vf_in vf_out vf_n].
  rewrite T. cbn [assert_]. assert (S1 : rp_size r1 = 1%nat). { unfold vf_irr in E1. cbn in E1. injection E1 as <-. reflexivity. }
  assert (OUT : forall q s k, rp_size q = s -> nsum (map rp_size (repeat (q : rep Z) k)) = (k * s)%nat).
  { intros q s k Q. induction k as [|k IH]; [reflexivity|]. cbn [repeat map]. change (nsum (rp_size q :: map rp_size (repeat q k))) with (rp_size q + nsum (map rp_size (repeat q k)))%nat. rewrite IH, Q. lia. }
  cbn [ft_reps] in L. rewrite (OUT r 2%nat n SZ) in L. change (Z.to_nat 2) with 2%nat.
  rewrite view_blocks; [|lia|rewrite L; apply Nat.mod_mul; lia]. cbn [rbind].
  assert (LB : length (Proofs_Fieldwise3.blocks 2 (gt_data x)) = n) by (unfold Proofs_Fieldwise3.blocks; rewrite map_length, seq_length, L; apply Nat.div_mul; lia).
  unfold ft_chans, ft_size. cbn [ft_reps]. rewrite LB.
  rewrite (OUT r1 1%nat n S1), Nat.mul_1_r. rewrite (proj2 (Nat.eqb_neq (n / 2) n)); [rewrite andb_false_r; reflexivity|]. pose proof (Nat.div_lt n 2 Hn ltac:(lia)). lia.
Qed.
Print Assumptions C42_vectorfield_C2_refuted.
(** Induced norms: a rotation as one sub-field of size 2, and a regular field as four sub-fields of size 1. *)
Lemma block_perm_one m A : orthogonal m A -> is_block_perm 1 m A.
Proof.
  intros O. exists (fun q => q), (fun _ => A). split; [split; auto|]. split; [auto|]. intros q q' i j Hq Hq' Hi Hj. assert (q = 0 /\ q' = 0)%nat as [-> ->] by lia. reflexivity.
Qed.
Lemma block_perm_perm n A : is_perm n A -> is_block_perm n 1 A.
Proof.
  intros (s & B & H). exists s, (fun _ => mid). split; [auto|]. split. { intros q _. split; intros i j Hi Hj; assert (i = 0 /\ j = 0)%nat as [-> ->] by lia; unfold mmul, mtr, mid; cbn; ring. }
  intros q q' i j Hq Hq' Hi Hj. assert (i = 0 /\ j = 0)%nat as [-> ->] by lia. rewrite !Nat.mul_1_r, !Nat.add_0_r. rewrite H by auto. reflexivity.
Qed.
Example C42_induced_norm_ex : exists r m m', regular_representation (cyc_fg 4) = Ok r /\
  let t := MkFT tt [add_nl "induced_norm_1" r; add_nl "induced_norm_2" (c4 1); add_nl "induced_norm_1" r] in
  inorm_make t "n_relu" true = Ok m /\ in_ids m = [(4, 1); (2, 2); (4, 1)]%nat /\ ipool_make any (fun _ => c4 0) t = Ok m' /\ size_pos t /\
  forall g r' n s, cyc_el 4 g -> In r' (ft_reps t) -> field_id "induced_norm" r' = Ok (n, s) -> is_block_perm (n / s) s (rp_mat r' g).
Proof.
  destruct (cyc_regular 4 ltac:(lia)) as (r & E & SZ & _). destruct (regular_name _ _ E) as [NA NL]. exists r. change (Z.to_nat 4) with 4%nat in SZ.
  assert (I1 : field_id "induced_norm" (add_nl "induced_norm_1" r) = Ok (4, 1)%nat).
  { unfold field_id. change (rp_size (add_nl "induced_norm_1" r)) with (rp_size r). rewrite SZ. cbn [add_nl rp_nonlin]. rewrite NL. vm_compute. reflexivity. }
  assert (I2 : field_id "induced_norm" (add_nl "induced_norm_2" (c4 1)) = Ok (2, 2)%nat) by (vm_compute; reflexivity).
  set (r1 := add_nl "induced_norm_1" r) in *. set (r2 := add_nl "induced_norm_2" (c4 1)) in *.
  assert (S1 : existsb (starts_with "induced_norm") (rp_nonlin r1) = true) by reflexivity. assert (S2 : existsb (starts_with "induced_norm") (rp_nonlin r2) = true) by reflexivity.
  unfold inorm_make, ipool_make. cbn [ft_reps ft_gs rmap forallb length repeat]. rewrite I1, I2, S1, S2. cbn [rbind andb assert_].
  eexists _, _. split; [exact E|]. split; [reflexivity|]. split; [reflexivity|]. split; [reflexivity|]. split.
  - intros r' [<-|[<-|[<-|[]]]]; [change (rp_size r1) with (rp_size r)| |change (rp_size r1) with (rp_size r)]; try (rewrite SZ; lia). vm_compute. lia.
  - intros g r' n s Hg [<-|[<-|[<-|[]]]] F; [rewrite I1 in F|rewrite I2 in F|rewrite I1 in F]; injection F as <- <-; try (apply block_perm_one; exact (c4_orth 1 g ltac:(lia) Hg));
      pose proof (proj1 (C42_regular_cyclic 4 r g eq_refl E Hg)) as P; rewrite SZ in P; exact (block_perm_perm 4 _ P).
Qed.
