(** C53: every representation that can be built declares only what its matrices allow. *)
From Coq Require Import Reals ZArith String List Bool Lia Lra.
From Verif Require Import Base LinAlg Spec Model_Groups Model_Rep Model_Regular Model_Disentangle Model_Support Model_InduceO2 Spec_InduceO2 Spec_Fieldwise Spec_Support
  Proofs_Groups Proofs_Cont Proofs_Irreps Proofs_Rep Proofs_Restrict Proofs_Regular Proofs_Regular2 Proofs_Induced Prop_Regular Prop_Rep Proofs_Fieldwise11 Prop_Fieldwise3 Prop_Disentangle Proofs_Support Proofs_InduceO2.
Import ListNotations.
Open Scope R_scope.

(** a matrix of size 1 *)
Lemma orth1 A : orthogonal 1 A -> is_signed_perm 1 A.
Proof.
  intros O. apply signed_okind. split; [auto|]. intros i j Hi Hj. destruct O as [O _]. specialize (O i i Hi Hi).
  unfold mmul, mtr, mid in O. rewrite Nat.eqb_refl in O. cbn [rsum] in O. assert (i = 0%nat) by lia. assert (j = 0%nat) by lia. subst i j.
  right. assert (E : (A 0%nat 0%nat - 1) * (A 0%nat 0%nat + 1) = 0) by lra. apply Rmult_integral in E. destruct E; [left|right]; lra.
Qed.
Lemma mid_perm n A : meq n n A mid -> is_perm n A.
Proof.
  intros E. exists (fun i => i). split; [split; auto|]. intros i j Hi Hj. rewrite E by auto. unfold mid. rewrite Nat.eqb_sym. reflexivity.
Qed.

(** ** irreps *)
Record irrep_kind (G : Type) (el : G -> Prop) (ir : irrep G) : Prop := {
  ik_orth : forall e, el e -> orthogonal (ir_size ir) (ir_mat ir e);
  ik_point : In "pointwise"%string (ir_nonlin ir) -> ir_size ir = 1%nat /\ forall e, ir_mat ir e = mid;
  ik_gate : In "gate"%string (ir_nonlin ir) -> forall e, ir_mat ir e = mid;
  ik_conc : In "concatenated"%string (ir_nonlin ir) -> ir_size ir = 1%nat;
  ik_triv : ir_freq ir = 0%Z -> ir_flip ir = 0%Z -> ir_size ir = 1%nat /\ forall e, ir_mat ir e = mid }.
Ltac inl := match goal with H : In _ _ |- _ => cbn in H; repeat (destruct H as [H|H]; [discriminate H|]); destruct H end.
Lemma irrep_is g ir : is_group g -> is_irrep g ir -> irrep_kind (elt g) (is_elt g) ir.
Proof.
  destruct g as [N|N| |]; cbn [is_group is_irrep elt is_elt]; intros HG HI.
  - destruct HI as [k E]. pose proof (proj2 (cyc_irrep_rep N k ir HG E)) as O. split; [exact O| | | |]; clear O;
    unfold cyc_irrep, assert_ in E; destruct ((0 <=? k) && (k <=? N / 2))%Z; try discriminate;
    (destruct (Z.eqb_spec k 0); [|destruct (_ && _)%bool]); injection E as <-; cbn [ir_nonlin ir_size ir_mat ir_freq ir_flip]; intros; auto; try (exfalso; inl); try contradiction.
  - destruct HI as (j & k & E). pose proof (proj2 (dih_irrep_rep N j k ir HG E)) as O. split; [exact O| | | |]; clear O;
    unfold dih_irrep, assert_ in E; destruct (Z.eqb j 0 || Z.eqb j 1)%bool; try discriminate; destruct ((0 <=? k) && (k <=? N / 2))%Z; try discriminate;
    (destruct (Z.eqb_spec j 0); (destruct (Z.eqb_spec k 0); [|destruct (_ && _)%bool])); try discriminate; injection E as <-; cbn [ir_nonlin ir_size ir_mat ir_freq ir_flip]; intros; auto; try (exfalso; inl); try contradiction.
  - destruct HI as [k E]. pose proof (proj1 (proj2 (so2_irrep_rep k ir E))) as O. split; [exact O| | | |]; clear O;
    unfold so2_irrep, assert_ in E; destruct (0 <=? k)%Z; try discriminate;
    (destruct (Z.eqb_spec k 0)); injection E as <-; cbn [ir_nonlin ir_size ir_mat ir_freq ir_flip]; intros; auto; try (exfalso; inl); try contradiction.
  - destruct HI as (j & k & E). pose proof (proj1 (proj2 (o2_irrep_rep j k ir E))) as O. split; [exact O| | | |]; clear O;
    unfold o2_irrep, assert_ in E; destruct (Z.eqb j 0 || Z.eqb j 1)%bool; try discriminate; destruct (0 <=? k)%Z; try discriminate;
    (destruct (Z.eqb_spec j 0); (destruct (Z.eqb_spec k 0))); try discriminate; injection E as <-; cbn [ir_nonlin ir_size ir_mat ir_freq ir_flip]; intros; auto; try (exfalso; inl); try contradiction.
Qed.
Lemma compatible_ext nl n A B : meq n n A B -> compatible nl n A -> compatible nl n B.
Proof.
  intros E [C1 C2 C3 C4]. split; intros H.
  - apply perm_okind. apply (okind_ext _ _ _ _ E). apply perm_okind; auto.
  - apply (orthogonal_ext n A B E); auto.
  - apply signed_okind. apply (okind_ext _ _ _ _ E). apply signed_okind; auto.
  - rewrite <- E. auto.
Qed.

(** ** the invariant *)
Record sound (g : grp) (r : rep (elt g)) : Prop := {
  sd_group : is_group g;
  sd_acc : rep_accepted r;
  sd_irreps : Forall (is_irrep g) (rp_irreps r);
  sd_comp : forall e, is_elt g e -> compatible (rp_nonlin r) (rp_size r) (rp_mat r e) }.

Lemma isizes_one {G} (ir : irrep G) : isizes [ir] = ir_size ir.
Proof. unfold isizes. cbn. lia. Qed.
Lemma rep_of_irrep_mat {G} name (ir : irrep G) e : meq (ir_size ir) (ir_size ir) (rp_mat (rep_of_irrep name ir) e) (ir_mat ir e).
Proof.
  unfold rp_mat, rp_size, rep_of_irrep. cbn [rp_irreps rp_cob rp_inv]. rewrite isizes_one.
  rewrite mmul_id_l, mmul_id_r. cbn [blocks map]. apply bdiag_single.
Qed.
Lemma sound_irrep g ir name : is_group g -> is_irrep g ir -> sound g (rep_of_irrep name ir).
Proof.
  intros HG HI. destruct (irrep_is g ir HG HI) as [K1 K2 K3 K4 _]. split; auto.
  - apply inverse_pair_mid.
  - cbn. constructor; auto.
  - intros e He. assert (SZ : rp_size (rep_of_irrep name ir) = ir_size ir) by (unfold rp_size, isizes; cbn; lia). rewrite SZ.
    apply (compatible_ext _ _ (ir_mat ir e)); [symmetry; apply rep_of_irrep_mat|]. cbn [rep_of_irrep rp_nonlin]. split; intros H.
    + apply mid_perm. destruct (K2 H) as [_ ->]. reflexivity.
    + auto.
    + specialize (K1 e He). rewrite (K4 H) in *. apply orth1; auto.
    + rewrite (K3 H). reflexivity.
Qed.

(** ** regular representations *)
Lemma perm_compatible nl n A : ~ In "gate"%string nl -> is_perm n A -> compatible nl n A.
Proof.
  intros NG P. split; intros H; auto.
  - apply perm_orthogonal; auto.
  - apply signed_okind. apply perm_okind in P as [O X]. split; [auto|]. intros i j Hi Hj. destruct (X i j Hi Hj); unfold epm; auto.
  - contradiction.
Qed.
Lemma sound_cyc N r : (0 < N)%Z -> cyc_regular_representation N = Ok r -> sound (Cyc N) r.
Proof.
  intros HN E. unfold cyc_regular_representation in E. rewrite (cyc_fgroup_eq N HN) in E. cbn [rbind] in E.
  destruct (cyc_regular N HN) as (q & EQ & SZ & IR & OC & AC & _ & NL & _). rewrite EQ in E. cbn [rbind] in E. injection E as <-. split; auto.
  - cbn [rp_irreps]. apply Forall_forall. intros ir Hir. exact (IR ir Hir).
  - intros e He. cbn [rp_nonlin]. apply perm_compatible.
    + cbn [elt]. rewrite NL. intros H. inl.
    + exact (proj1 (C42_regular_cyclic N q e HN EQ He)).
Qed.
Lemma sound_dih N r : (0 < N)%Z -> dih_regular_representation N = Ok r -> sound (Dih N) r.
Proof.
  intros HN E. unfold dih_regular_representation in E. rewrite (dih_fgroup_eq N HN) in E. cbn [rbind] in E.
  destruct (dih_regular N HN) as (q & EQ & SZ & IR & OC & AC & _ & NL & _). rewrite EQ in E. injection E as <-. split; auto.
  - apply Forall_forall. intros ir Hir. exact (IR ir Hir).
  - intros e He. apply perm_compatible.
    + cbn [elt]. rewrite NL. intros H. inl.
    + exact (proj1 (C42_regular_dihedral N q e HN EQ He)).
Qed.

(** ** induced representations *)
Lemma in_has x nl : existsb (String.eqb x) nl = true -> In x nl.
Proof. intros H. apply existsb_exists in H as (y & Hy & E). apply String.eqb_eq in E. subst. auto. Qed.
Lemma starts_with_find pre nl x : find (Model_Fieldwise.starts_with pre) nl = Some x -> Model_Fieldwise.starts_with pre x = true.
Proof. intros H. apply find_some in H. tauto. Qed.
(** a name made by the builder has the given prefix *)
Lemma named_prefix pre s nl x : Model_Fieldwise.starts_with pre (pre ++ "_" ++ nat_str s)%string = true ->
  match find (Model_Fieldwise.starts_with pre) nl with Some y => y | None => (pre ++ "_" ++ nat_str s)%string end = x -> Model_Fieldwise.starts_with pre x = true.
Proof. intros H. destruct (find _ nl) as [y|] eqn:F; intros <-; [apply (starts_with_find pre nl y F)|auto]. Qed.
Lemma induced_nl size nl x : In x (induced_nonlinearities size nl) ->
  (x = "pointwise"%string \/ x = "norm"%string \/ x = "concatenated"%string -> In x nl) /\ x <> "gate"%string.
Proof.
  unfold induced_nonlinearities. rewrite !in_app_iff.
  assert (W : forall pre y, Model_Fieldwise.starts_with pre y = true -> pre = "induced_gated"%string \/ pre = "induced_norm"%string ->
    y <> "pointwise"%string /\ y <> "norm"%string /\ y <> "concatenated"%string /\ y <> "gate"%string).
  { intros pre y HP HQ. repeat apply conj; intros ->; destruct HQ as [-> | ->]; vm_compute in HP; discriminate. }
  intros [H|[H|[H|[H|H]]]].
  - destruct (existsb _ nl) eqn:E; [|destruct H]. destruct H as [<-|[]]. split; [intros _; apply in_has; auto|discriminate].
  - destruct (existsb _ nl) eqn:E; [|destruct H]. destruct H as [<-|[]]. split; [intros _; apply in_has; auto|discriminate].
  - destruct (existsb _ nl) eqn:E; [|destruct H]. destruct H as [<-|[H|[]]]; [split; [intros [?|[?|?]]; discriminate|discriminate]|].
    apply (named_prefix "induced_gated" size nl x eq_refl) in H. destruct (W _ _ H ltac:(auto)) as (W1 & W2 & W3 & W4). split; [intros [?|[?|?]]; contradiction|auto].
  - destruct (existsb _ nl) eqn:E; [|destruct H]. destruct H as [<-|[H|[]]]; [split; [intros _; apply in_has; auto|discriminate]|].
    apply (named_prefix "induced_norm" size nl x eq_refl) in H. destruct (W _ _ H ltac:(auto)) as (W1 & W2 & W3 & W4). split; [intros [?|[?|?]]; contradiction|auto].
  - destruct (_ || _)%bool; [|destruct H]. destruct H as [<-|[]]. split; [intros [?|[?|?]]; discriminate|discriminate].
Qed.
Lemma expand_in {G} (ms : list (irrep G * nat)) ir : In ir (expand ms) -> exists m, In (ir, m) ms.
Proof. unfold expand. intros H. apply in_concat in H as (l & Hl & H). apply in_map_iff in Hl as ([i m] & <- & Hm). cbn [fst snd] in H. apply repeat_spec in H. subst. eauto. Qed.
Lemma build_irreps {G H} (fg : fgroup G) (subs : list H) parent child restrict ir irreps cob inv :
  build_induced fg subs parent child restrict ir = Ok (irreps, cob, inv) -> forall i, In i irreps -> In i (fg_irreps fg).
Proof.
  unfold build_induced. destruct (rmap _ (fg_elements fg)) as [mats|]; [|discriminate]. cbn [rbind].
  destruct (multiplicities _ _) as [ms|] eqn:EM; [|discriminate]. cbn [rbind]. destruct (rmap _ ms) as [rows|]; [|discriminate]. cbn [rbind]. unfold assert_.
  destruct (meqb _ _ _ _); [|discriminate]. destruct (meqb _ _ _ _); [|discriminate]. destruct (forallb _ _); [|discriminate].
  intros E. assert (X : irreps = expand ms) by congruence. subst irreps. intros i Hi. apply expand_in in Hi as (m & Hm).
  unfold multiplicities in EM. apply Proofs_Induced.rmap_inv in EM. clear E. induction EM as [|a [b k] l l' E F IH]; [destruct Hm|].
  destruct Hm as [Q|Hm]; [|right; auto]. destruct (multiplicity _ _ a) as [z|]; [|discriminate]. cbn [rbind] in E. left. congruence.
Qed.
Lemma ind_entries {G H} (fg : fgroup G) (OK : fgroup_ok fg) (subs : list H) parent child opH invH eH
  (SOK : subgroup_ok fg subs parent child opH invH eH) s (rho : H -> mat) g (E : R -> Prop) : E 0 -> In g (fg_elements fg) ->
  (forall h i j, In h subs -> (i < s)%nat -> (j < s)%nat -> E (rho h i j)) ->
  forall i j, (i < length (representatives fg subs parent) * s)%nat -> (j < length (representatives fg subs parent) * s)%nat -> E (ind fg subs parent child s rho g i j).
Proof.
  intros Z Hg HE i j Hi Hj. assert (0 < s)%nat by (destruct s; lia).
  assert (Bi : (i / s < length (representatives fg subs parent))%nat) by (apply Nat.div_lt_upper_bound; lia).
  assert (Bj : (j / s < length (representatives fg subs parent))%nat) by (apply Nat.div_lt_upper_bound; lia).
  unfold ind, rho0. destruct (child _) as [h|] eqn:Ec; [|exact Z]. apply HE; [|apply Nat.mod_upper_bound; lia|apply Nat.mod_upper_bound; lia].
  refine (proj1 (child_some fg subs parent child opH invH eH SOK _ _ _ Ec)).
  apply (op_el fg OK); [apply (inv_el fg OK); apply (rp_el fg OK subs parent child opH invH eH SOK); auto|].
  apply (op_el fg OK); auto. apply (rp_el fg OK subs parent child opH invH eH SOK); auto.
Qed.
Lemma ind_sound {G H} (fg : fgroup G) (OK : fgroup_ok fg) (subs : list H) parent child opH invH eH
  (SOK : subgroup_ok fg subs parent child opH invH eH) restrict name (ir : irrep H) r (P : irrep G -> Prop) :
  (forall i, In i (fg_irreps fg) -> P i) -> is_representation (fun h => In h subs) opH eH (ir_size ir) (ir_mat ir) -> irrep_kind H (fun h => In h subs) ir ->
  induced_representation fg subs parent child restrict name ir = Ok r ->
  rep_accepted r /\ Forall P (rp_irreps r) /\ forall g, In g (fg_elements fg) -> compatible (rp_nonlin r) (rp_size r) (rp_mat r g).
Proof.
  intros HP HR [K1 K2 K3 K4 _] E. unfold induced_representation in E. destruct (build_induced _ _ _ _ _ _) as [[[irreps cob] inv]|] eqn:EB; [|discriminate]. cbn [rbind] in E.
  rewrite (quotient_size fg OK subs parent child opH invH eH SOK) in E.
  destruct (Nat.eqb_spec (isizes irreps) (ir_size ir * length (representatives fg subs parent))) as [SZ|]; [|discriminate]. injection E as <-.
  rewrite Nat.mul_comm in SZ. destruct (build_induced_spec fg OK subs parent child opH invH eH SOK restrict ir irreps cob inv EB) as (OC & EI & EM).
  set (n := (length (representatives fg subs parent) * ir_size ir)%nat) in *.
  split; [|split].
  - unfold rep_accepted, rp_size. cbn [rp_irreps rp_cob rp_inv]. rewrite SZ, EI. exact OC.
  - cbn [rp_irreps]. apply Forall_forall. intros i Hi. apply HP. apply (build_irreps _ _ _ _ _ _ _ _ _ EB); auto.
  - intros g Hg. unfold rp_mat, rp_size. cbn [rp_irreps rp_cob rp_inv rp_nonlin]. rewrite SZ. apply (compatible_ext _ _ (ind fg subs parent child (ir_size ir) (ir_mat ir) g)).
    { symmetry. apply EM; auto. }
    pose proof (ind_orth fg OK subs parent child opH invH eH SOK (ir_size ir) (ir_mat ir) HR K1 g Hg) as OI. fold n in OI.
    split; intros HN; destruct (induced_nl _ _ _ HN) as [N1 N2]; try congruence; auto.
    + destruct (K2 (N1 ltac:(auto))) as [S1 M1]. apply perm_okind. split; [exact OI|]. unfold n.
      apply (ind_entries fg OK subs parent child opH invH eH SOK); auto; [left; auto|]. intros h i j _ Hi Hj. rewrite M1. unfold e01, mid. destruct (Nat.eqb i j); auto.
    + specialize (K4 (N1 ltac:(auto))). apply signed_okind. split; [exact OI|]. unfold n.
      apply (ind_entries fg OK subs parent child opH invH eH SOK); auto; [left; auto|]. intros h i j Hh Hi Hj. specialize (K1 h Hh). rewrite K4 in K1. apply orth1 in K1. apply signed_okind in K1 as [_ X]. apply X; lia.
Qed.
Lemma cyc_fg_irreps N i : (0 < N)%Z -> In i (fg_irreps (cyc_fg N)) -> is_irrep (Cyc N) i.
Proof. intros HN Hi. cbn in Hi. apply in_map_iff in Hi as (k & <- & Hk). exists k. apply cyc_ir_ok; auto. apply cyc_ks_in; auto. Qed.
Lemma dih_fg_irreps N i : (0 < N)%Z -> In i (fg_irreps (dih_fg N)) -> is_irrep (Dih N) i.
Proof. intros HN Hi. cbn [dih_fg fg_irreps] in Hi. apply in_map_iff in Hi as ([j k] & <- & Hk). exists j, k. apply (dih_ir_ok N (j, k)); auto. apply dih_ks_in; auto. Qed.
Lemma kind_iff {G} (el el' : G -> Prop) ir : (forall x, el' x -> el x) -> irrep_kind G el ir -> irrep_kind G el' ir.
Proof. intros H [K1 K2 K3 K4 K5]. split; auto. Qed.

Lemma sound_ind_cyc N fg M sg parent child restrict name ir r : (0 < N)%Z -> cyc_fgroup N = Ok fg -> cyc_subgroup N M = Ok (sg, parent, child) ->
  is_irrep (Cyc M) ir -> induced_representation fg (cyc_elements M) parent child restrict name ir = Ok r -> sound (Cyc N) r.
Proof.
  intros HN EG ES HI E. rewrite (cyc_fgroup_eq N HN) in EG. injection EG as <-.
  destruct (proj1 (cyc_subgroup_ok N M HN) ltac:(eauto)) as [HM _]. destruct (cyc_elements_spec M HM) as [_ [_ EM]]. destruct (cyc_elements_spec N HN) as [_ [_ EN]].
  destruct (ind_sound (cyc_fg N) (cyc_fg_ok N HN) _ _ _ _ _ _ (sub_ok_CC N M sg parent child HN ES) restrict name ir r (is_irrep (Cyc N))) as (A & B & C); auto.
  - intros i Hi. apply cyc_fg_irreps; auto.
  - destruct HI as [k Hk]. apply (is_rep_iff (cyc_el M)); [intros; symmetry; auto|]. apply (cyc_irrep_rep M k ir HM Hk).
  - apply (kind_iff (cyc_el M)); [intros x Hx; apply EM; auto|]. exact (irrep_is (Cyc M) ir HM HI).
  - split; auto. intros e He. apply C. apply EN. exact He.
Qed.
Lemma sound_ind_dih_c N fg id M parent child restrict name ir r : (0 < N)%Z -> dih_fgroup N = Ok fg -> dih_subgroup N id = Ok (SubC M parent child) ->
  is_irrep (Cyc M) ir -> induced_representation fg (cyc_elements M) parent child restrict name ir = Ok r -> sound (Dih N) r.
Proof.
  intros HN EG ES HI E. rewrite (dih_fgroup_eq N HN) in EG. injection EG as <-.
  pose proof (dih_sub_pos _ _ _ HN ES) as HM. cbv beta iota in HM. destruct (cyc_elements_spec M HM) as [_ [_ EM]]. destruct (dih_elements_spec N HN) as [_ [_ EN]].
  pose proof (sub_ok_D N id _ HN ES) as SO. cbv beta iota in SO.
  destruct (ind_sound (dih_fg N) (dih_fg_ok N HN) _ _ _ _ _ _ SO restrict name ir r (is_irrep (Dih N))) as (A & B & C); auto.
  - intros i Hi. apply dih_fg_irreps; auto.
  - destruct HI as [k Hk]. apply (is_rep_iff (cyc_el M)); [intros; symmetry; auto|]. apply (cyc_irrep_rep M k ir HM Hk).
  - apply (kind_iff (cyc_el M)); [intros x Hx; apply EM; auto|]. exact (irrep_is (Cyc M) ir HM HI).
  - split; auto. intros e He. apply C. apply EN. exact He.
Qed.
Lemma sound_ind_dih_d N fg id M parent child restrict name ir r : (0 < N)%Z -> dih_fgroup N = Ok fg -> dih_subgroup N id = Ok (SubD M parent child) ->
  is_irrep (Dih M) ir -> induced_representation fg (dih_elements M) parent child restrict name ir = Ok r -> sound (Dih N) r.
Proof.
  intros HN EG ES HI E. rewrite (dih_fgroup_eq N HN) in EG. injection EG as <-.
  pose proof (dih_sub_pos _ _ _ HN ES) as HM. cbv beta iota in HM. destruct (dih_elements_spec M HM) as [_ [_ EM]]. destruct (dih_elements_spec N HN) as [_ [_ EN]].
  pose proof (sub_ok_D N id _ HN ES) as SO. cbv beta iota in SO.
  destruct (ind_sound (dih_fg N) (dih_fg_ok N HN) _ _ _ _ _ _ SO restrict name ir r (is_irrep (Dih N))) as (A & B & C); auto.
  - intros i Hi. apply dih_fg_irreps; auto.
  - destruct HI as (j & k & Hk). apply (is_rep_iff (dih_el M)); [intros; symmetry; auto|]. apply (dih_irrep_rep M j k ir HM Hk).
  - apply (kind_iff (dih_el M)); [intros x Hx; apply EM; auto|]. exact (irrep_is (Dih M) ir HM HI).
  - split; auto. intros e He. apply C. apply EN. exact He.
Qed.

(** ** direct sums, restrictions, parts *)
Lemma nl_inters_in {G} (l : list (rep G)) x : In x (nl_inters l) -> forall q, In q l -> In x (rp_nonlin q).
Proof.
  induction l as [|r l IH]; [intros _ q []|]. intros H q Hq. cbn [nl_inters] in H. destruct l as [|r' l]; [destruct Hq as [<-|[]]; auto|].
  unfold nl_inter in H. apply filter_In in H as [H1 H2]. apply in_has in H2. destruct Hq as [<-|Hq]; auto.
Qed.
Lemma bsize_reps {G} (l : list (rep G)) (f : rep G -> mat) : bsize (map (fun q => (rp_size q, f q)) l) = nsum (map rp_size l).
Proof. unfold bsize. rewrite map_map. reflexivity. Qed.
Lemma sum_compatible {G} nl (l : list (rep G)) e : (forall q, In q l -> (forall x, In x nl -> In x (rp_nonlin q)) /\ compatible (rp_nonlin q) (rp_size q) (rp_mat q e)) ->
  compatible nl (nsum (map rp_size l)) (bdiag (map (fun s => (rp_size s, rp_mat s e)) l)).
Proof.
  intros H. rewrite <- (bsize_reps l (fun q => rp_mat q e)).
  assert (F : forall (P : nat -> mat -> Prop), (forall q, In q l -> P (rp_size q) (rp_mat q e)) -> Forall (fun p => P (fst p) (snd p)) (map (fun s => (rp_size s, rp_mat s e)) l)).
  { intros P HP. apply Forall_forall. intros p Hp. apply in_map_iff in Hp as (q & <- & Hq). apply HP; auto. }
  split; intros HN.
  - apply perm_okind, okind_sum; [left; auto|]. apply (F (okind e01)). intros q Hq. destruct (H q Hq) as [H1 H2]. apply perm_okind. apply (co_pointwise _ _ _ H2); auto.
  - apply bdiag_orth. apply (F orthogonal). intros q Hq. destruct (H q Hq) as [H1 H2]. apply (co_norm _ _ _ H2); auto.
  - apply signed_okind, okind_sum; [left; auto|]. apply (F (okind epm)). intros q Hq. destruct (H q Hq) as [H1 H2]. apply signed_okind. apply (co_concatenated _ _ _ H2); auto.
  - apply bdiag_mid. apply (F (fun n A => meq n n A mid)). intros q Hq. destruct (H q Hq) as [H1 H2]. apply (co_gate _ _ _ H2); auto.
Qed.
Lemma sound_sum g l name r : (forall q, In q l -> sound g q) -> directsum l name = Ok r -> sound g r.
Proof.
  intros HS E. destruct (C07_directsum _ l name) as [_ D]. destruct (D r E) as (D1 & D2 & D3).
  destruct D2 as [D2 D4]; [apply Forall_forall; intros q Hq; apply (sd_acc _ _ (HS q Hq))|].
  assert (NL : rp_nonlin r = nl_inters l) by (unfold directsum in E; destruct l; [discriminate|]; injection E as <-; reflexivity).
  split.
  - destruct l as [|q l]; [discriminate|]. apply (sd_group _ _ (HS q ltac:(cbn; auto))).
  - auto.
  - rewrite D1. apply Forall_forall. intros i Hi. apply in_concat in Hi as (s & Hs & Hi). apply in_map_iff in Hs as (q & <- & Hq). pose proof (sd_irreps _ _ (HS q Hq)) as F. rewrite Forall_forall in F. auto.
  - intros e He. rewrite D4, NL. apply (compatible_ext _ _ (bdiag (map (fun s => (rp_size s, rp_mat s e)) l))); [symmetry; apply D3|].
    apply sum_compatible. intros q Hq. split; [intros x Hx; apply (nl_inters_in l); auto|]. apply (sd_comp _ _ (HS q Hq)); auto.
Qed.
Lemma o2_sub_pos id s : o2_subgroup id = Ok (SubFin s) -> match s with SubC M _ _ => (0 < M)%Z | SubD M _ _ => (0 < M)%Z end.
Proof.
  destruct id as [[a|] m]; unfold o2_subgroup, assert_; cbn [fst snd].
  - destruct (Z.eqb_spec m 0); [discriminate|]. destruct (_ || _)%bool; [|discriminate]. destruct (Z.eqb_spec m (-1)); [discriminate|].
    destruct (Z.eqb_spec m 1); [cbn; intros E; injection E as <-; lia|]. destruct (Z.ltb_spec 1 m); [|discriminate].
    unfold dih_group, assert_. destruct (0 <? m)%Z eqn:L; [|discriminate]. cbn [rbind]. intros E; injection E as <-. lia.
  - destruct (Z.eqb_spec m (-1)); [discriminate|]. unfold cyc_group, assert_. destruct (Z.ltb_spec 0 m); [|discriminate]. cbn [rbind]. intros E; injection E as <-. lia.
Qed.
Lemma restrict_nl {G H} prefix one (r : rep G) inv (r' : rep H) : restrict_representation prefix one r inv = Ok r' -> rp_nonlin r' = rp_nonlin r.
Proof. unfold restrict_representation. destruct (restrict_all _ _) as [p|]; [|discriminate]. cbn [rbind]. intros E; injection E as <-. reflexivity. Qed.
Lemma restricts_good g h parent f : restricts g h parent f -> is_group g -> is_group h /\ (forall e, is_elt h e -> is_elt g (parent e)) /\
  forall r inv r', rep_accepted r -> Forall (is_irrep g) (rp_irreps r) -> f r inv = Ok r' -> rep_accepted r' ->
    rp_size r' = rp_size r /\ Forall (is_irrep h) (rp_irreps r') /\ rp_nonlin r' = rp_nonlin r /\
    forall e, is_elt h e -> meq (rp_size r) (rp_size r) (rp_mat r' e) (rp_mat r (parent e)).
Proof.
  destruct C08_restriction as (RC & RS & RD & RO).
  intros H HG. destruct H as [N M prefix sg parent child E|M prefix sg parent child E|N id prefix M parent child E|N id prefix M parent child E
    |id prefix M parent child E|id prefix M parent child E|id prefix parent child E|id prefix parent child E]; cbn [is_group is_elt is_irrep elt] in *.
  - destruct (proj1 (cyc_subgroup_ok N M HG) ltac:(eauto)) as [HM _]. destruct (cyc_subgroup_spec N M sg parent child HG E) as [_ [EM _]].
    split; [auto|]. split; [apply (em_el _ _ _ _ _ _ _ _ _ EM)|]. intros r inv r' A F ER A'.
    destruct (RC N M prefix r sg parent child HG E (conj A F)) as [_ G]. destruct (G inv r' ER A') as (G1 & [_ G2] & G3). split; [auto|]. split; [exact G2|]. split; [apply (restrict_nl _ _ _ _ _ ER)|exact G3].
  - destruct (so2_subgroup_spec M _ E) as (p & c & EQ & HM & EM & _). assert (parent = p) by congruence. subst p.
    split; [auto|]. split; [apply (em_el _ _ _ _ _ _ _ _ _ EM)|]. intros r inv r' A F ER A'.
    destruct (RS M prefix r sg parent child E (conj A F)) as [_ G]. destruct (G inv r' ER A') as (G1 & [_ G2] & G3). split; [auto|]. split; [exact G2|]. split; [apply (restrict_nl _ _ _ _ _ ER)|exact G3].
  - pose proof (dih_sub_pos _ _ _ HG E) as HM. destruct (dih_subgroup_spec N id _ HG E) as [_ [EM _]].
    split; [exact HM|]. split; [apply (em_el _ _ _ _ _ _ _ _ _ EM)|]. intros r inv r' A F ER A'.
    destruct (RD N id prefix r _ HG E (conj A F)) as [_ G]. destruct (G inv r' ER A') as (G1 & [_ G2] & G3). split; [auto|]. split; [exact G2|]. split; [apply (restrict_nl _ _ _ _ _ ER)|exact G3].
  - pose proof (dih_sub_pos _ _ _ HG E) as HM. destruct (dih_subgroup_spec N id _ HG E) as [_ [EM _]].
    split; [exact HM|]. split; [apply (em_el _ _ _ _ _ _ _ _ _ EM)|]. intros r inv r' A F ER A'.
    destruct (RD N id prefix r _ HG E (conj A F)) as [_ G]. destruct (G inv r' ER A') as (G1 & [_ G2] & G3). split; [auto|]. split; [exact G2|]. split; [apply (restrict_nl _ _ _ _ _ ER)|exact G3].
  - pose proof (o2_sub_pos _ _ E) as HM. destruct (o2_fin_subgroup_spec id _ E) as [EM _].
    split; [exact HM|]. split; [apply (em_el _ _ _ _ _ _ _ _ _ EM)|]. intros r inv r' A F ER A'.
    destruct (RO id prefix r _ E (conj A F)) as [_ G]. destruct (G inv r' ER A') as (G1 & [_ G2] & G3). split; [auto|]. split; [exact G2|]. split; [apply (restrict_nl _ _ _ _ _ ER)|exact G3].
  - pose proof (o2_sub_pos _ _ E) as HM. destruct (o2_fin_subgroup_spec id _ E) as [EM _].
    split; [exact HM|]. split; [apply (em_el _ _ _ _ _ _ _ _ _ EM)|]. intros r inv r' A F ER A'.
    destruct (RO id prefix r _ E (conj A F)) as [_ G]. destruct (G inv r' ER A') as (G1 & [_ G2] & G3). split; [auto|]. split; [exact G2|]. split; [apply (restrict_nl _ _ _ _ _ ER)|exact G3].
  - destruct (o2_fin_subgroup_spec id _ E) as [EM _].
    split; [exact I|]. split; [apply (em_el _ _ _ _ _ _ _ _ _ EM)|]. intros r inv r' A F ER A'.
    destruct (RO id prefix r _ E (conj A F)) as [_ G]. destruct (G inv r' ER A') as (G1 & [_ G2] & G3). split; [auto|]. split; [exact G2|]. split; [apply (restrict_nl _ _ _ _ _ ER)|exact G3].
  - destruct (o2_fin_subgroup_spec id _ E) as [EM _].
    split; [exact I|]. split; [apply (em_el _ _ _ _ _ _ _ _ _ EM)|]. intros r inv r' A F ER A'.
    destruct (RO id prefix r _ E (conj A F)) as [_ G]. destruct (G inv r' ER A') as (G1 & [_ G2] & G3). split; [auto|]. split; [exact G2|]. split; [apply (restrict_nl _ _ _ _ _ ER)|exact G3].
Qed.
Lemma sound_patch g r : sound g r -> sound g (restrict_trivial_patch r).
Proof.
  intros S0. unfold restrict_trivial_patch. destruct (is_trivial r) eqn:T; [|exact S0]. destruct (existsb _ _) eqn:X; [exact S0|]. cbn [andb negb].
  destruct S0 as [S1 S2 S3 S4]. split; auto. intros e He. cbn [rp_nonlin]. specialize (S4 e He). destruct S4 as [C1 C2 C3 C4]. split; auto.
  - intros _. unfold is_trivial in T. unfold rp_size, rp_mat, rep_accepted, rp_size in *. cbn [rp_irreps rp_cob rp_inv] in *. destruct (rp_irreps r) as [|ir [|? ?]]; try discriminate.
    apply andb_true_iff in T as [T1 T2]. apply andb_true_iff in T2 as [T2 T3]. apply Z.eqb_eq in T2, T3. apply meqb_true in T1.
    destruct (ik_triv _ _ _ (irrep_is g ir S1 (Forall_inv S3)) T2 T3) as [SZ MM]. apply mid_perm. rewrite isizes_one in *.
    cbn [blocks map]. rewrite bdiag_single, MM, mmul_id_r. destruct S2 as [S2 _]. exact S2.
  - cbn. intros [H|H]; [discriminate|]. auto.
  - cbn. intros [H|H]; [discriminate|]. auto.
  - cbn. intros [H|H]; [discriminate|]. auto.
Qed.
Lemma sound_restricted g h parent f r inv r' : restricts g h parent f -> sound g r -> f r inv = Ok r' -> rep_accepted r' -> sound h r'.
Proof.
  intros R0 [S1 S2 S3 S4] E A. destruct (restricts_good g h parent f R0 S1) as (G1 & G2 & G3). destruct (G3 r inv r' S2 S3 E A) as (H1 & H2 & H3 & H4).
  split; auto. intros e He. rewrite H1, H3. apply (compatible_ext _ _ (rp_mat r (parent e))); [symmetry; auto|auto].
Qed.
Lemma sound_part g r P parts q : sound g r -> disentangle r = Ok (P, parts) -> In q parts -> sound g q.
Proof.
  intros [S1 S2 S3 S4] E Hq. destruct (C49_disentangle r S2) as (P' & parts' & E' & HP & HR & HS & HM). rewrite E in E'. assert (P' = P) by congruence. assert (parts' = parts) by congruence. subst P' parts'.
  destruct (HR q Hq) as (A & B & C). split; auto.
  - apply Forall_forall. intros i Hi. rewrite Forall_forall in S3. auto.
  - intros e He. specialize (S4 e He). specialize (HM e). unfold side_by_side in HM. rewrite C. destruct S4 as [C1 C2 C3 C4].
    assert (F : forall (K : nat -> mat -> Prop), Forall (fun p => K (fst p) (snd p)) (map (fun s => (rp_size s, rp_mat s e)) parts) -> K (rp_size q) (rp_mat q e)).
    { intros K HK. rewrite Forall_forall in HK. apply (HK (rp_size q, rp_mat q e)). apply in_map_iff. exists q. auto. }
    assert (BS : bsize (map (fun s => (rp_size s, rp_mat s e)) parts) = rp_size r) by (rewrite (bsize_reps parts (fun s => rp_mat s e)); auto).
    split; intros HN.
    + apply perm_okind. apply (F (okind e01)). apply okind_part. rewrite BS. apply (okind_ext _ _ _ _ HM). apply okind_conj; auto. apply perm_okind; auto.
    + apply (F (fun n A => orthogonal n A)). assert (O : okind (fun _ => True) (rp_size r) (bdiag (map (fun s => (rp_size s, rp_mat s e)) parts))).
      { apply (okind_ext _ _ _ _ HM). apply okind_conj; auto. split; auto. }
      rewrite <- BS in O. apply okind_part in O. eapply Forall_impl; [|exact O]. intros p [X _]. exact X.
    + apply signed_okind. apply (F (okind epm)). apply okind_part. rewrite BS. apply (okind_ext _ _ _ _ HM). apply okind_conj; auto. apply signed_okind; auto.
    + apply (F (fun n A => meq n n A mid)). apply mid_part. rewrite BS. rewrite <- HM. apply mid_conj; auto.
Qed.
Lemma sound_ind_o2 linv name k sir r : inverts_id linv -> so2_irrep k = Ok sir -> o2_induced_representation linv name (None, (-1)%Z) sir = Ok r -> sound O2 r.
Proof.
  intros L E ER. destruct (induced_unique _ _ _ _ _ L E ER) as (_ & OR & RS & _ & M). destruct (induced_rep _ _ _ _ _ L E ER) as [_ RO].
  assert (NL : rp_nonlin r = induced_nonlinearities (ir_size sir) (ir_nonlin sir)) by (revert ER; unfold o2_induced_representation; destruct (o2_induced_from_irrep _ _ _) as [p|]; [|discriminate]; intros Q; injection Q as <-; reflexivity).
  assert (CO : forall e, o2_el e -> compatible (rp_nonlin r) (rp_size r) (rp_mat r e)).
  { intros e HE. constructor.
    + intros IN. rewrite NL in IN. revert E. unfold so2_irrep, assert_. destruct (0 <=? k)%Z; [|discriminate]. destruct (k =? 0)%Z; intros Q; injection Q as <-; cbn in IN; [|exfalso; intuition discriminate].
      destruct e as [f a]. assert (HF := HE). apply o2_el_iff in HF. cbn in RS. rewrite RS.
      exists (fun i => if (f =? 0)%Z then i else (1 - i)%nat). split; [destruct HF as [-> | ->]; cbn [Z.eqb]; split; intros; lia|].
      intros i j Hi Hj. rewrite M by (auto; rewrite RS; lia). unfold induced_at. cbn. do 2 (destruct i as [|i]; [do 2 (destruct j as [|j]; [destruct HF as [-> | ->]; reflexivity|]); lia|]); lia.
    + intros _. apply RO, HE.
    + intros IN. exfalso. rewrite NL in IN. revert E. unfold so2_irrep, assert_. destruct (0 <=? k)%Z; [|discriminate]. destruct (k =? 0)%Z; intros Q; injection Q as <-; cbn in IN; intuition discriminate.
    + intros IN. exfalso. rewrite NL in IN. revert E. unfold so2_irrep, assert_. destruct (0 <=? k)%Z; [|discriminate]. destruct (k =? 0)%Z; intros Q; injection Q as <-; cbn in IN; intuition discriminate. }
  split; [exact I|apply OR|apply OR|exact CO].
Qed.

Theorem built_sound g r : built g r -> sound g r.
Proof.
  intros B. induction B as [g ir name HG HI|N r HN E|N r HN E|N fg M sg parent child restrict name ir r HN EG ES HI E|N fg id M parent child restrict name ir r HN EG ES HI E
    |N fg id M parent child restrict name ir r HN EG ES HI E|linv name k ir r HL ES E|g l name r _ IH E|g h parent f r inv r' R0 _ IH E A|g r P parts q _ IH E Hq|g r Q Qinv name _ IH HQ].
  - apply sound_irrep; auto.
  - apply sound_cyc; auto.
  - apply sound_dih; auto.
  - eapply sound_ind_cyc; eauto.
  - eapply sound_ind_dih_c; eauto.
  - eapply sound_ind_dih_d; eauto.
  - eapply sound_ind_o2; eauto.
  - eapply sound_sum; eauto.
  - apply sound_patch. eapply sound_restricted; eauto.
  - eapply sound_part; eauto.
  - destruct IH as [S1 S2 S3 S4]. destruct (C07_change_basis _ r Q Qinv name None S2 HQ) as (A & SZ & _). split; auto.
    intros e He. cbn [change_basis rp_nonlin]. split; intros H; destruct H.
Qed.
