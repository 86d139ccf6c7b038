(** C69: the sub-fields that a representation declares are permuted. *)
From Coq Require Import Reals ZArith String List Bool Lia Lra RelationClasses.
From Verif Require Import Base LinAlg Spec Model_Groups Model_Rep Model_Regular Model_Fieldwise Model_Disentangle Model_Support Model_InduceO2 Spec_InduceO2 Spec_Fieldwise Spec_Support Spec_Subfields
  Proofs_Groups Proofs_Cont Proofs_Irreps Proofs_Rep Proofs_Restrict Proofs_Regular Proofs_Regular2 Proofs_Induced Prop_Regular Prop_Rep Proofs_Fieldwise11 Prop_Fieldwise3 Proofs_Support Proofs_InduceO2 Proofs_Support2.
Import ListNotations.
Open Scope R_scope.

Definition subname (pre : string) : Prop := pre = "induced_norm"%string \/ pre = "induced_gated"%string.

Lemma assembled_built g r : assembled g r -> built g r.
Proof. induction 1; [eapply built_irrep|eapply built_regular_cyc|eapply built_regular_dih|eapply built_induced_cyc|eapply built_induced_dih_c|eapply built_induced_dih_d|eapply built_induced_o2|eapply built_sum|eapply built_restricted|eapply built_changed]; eauto. Qed.

(** irreps declare no sub-fields and have size 1 or 2 *)
Lemma irrep_names g ir pre : is_irrep g ir -> subname pre -> (ir_size ir = 1 \/ ir_size ir = 2)%nat /\ forall x, In x (ir_nonlin ir) -> starts_with pre x = false.
Proof.
  intros HI SP. assert (W : forall l, forallb (fun x => negb (starts_with "induced_norm" x || starts_with "induced_gated" x)) l = true -> forall x, In x l -> starts_with pre x = false).
  { intros l Hl x Hx. rewrite forallb_forall in Hl. specialize (Hl x Hx). apply negb_true_iff, orb_false_iff in Hl as [A B]. destruct SP as [-> | ->]; assumption. }
  destruct g as [N|N| |]; cbn [is_irrep elt] in *.
  - destruct HI as [k E]. unfold cyc_irrep, assert_ in E; destruct ((0 <=? k) && (k <=? N / 2))%Z; try discriminate;
    (destruct (Z.eqb_spec k 0); [|destruct (_ && _)%bool]); injection E as <-; cbn [ir_nonlin ir_size]; (split; [auto|apply W; reflexivity]).
  - destruct HI as (j & k & E). unfold dih_irrep, assert_ in E; destruct (Z.eqb j 0 || Z.eqb j 1)%bool; try discriminate; destruct ((0 <=? k) && (k <=? N / 2))%Z; try discriminate;
    (destruct (Z.eqb_spec j 0); (destruct (Z.eqb_spec k 0); [|destruct (_ && _)%bool])); try discriminate; injection E as <-; cbn [ir_nonlin ir_size]; (split; [auto|apply W; reflexivity]).
  - destruct HI as [k E]. unfold so2_irrep, assert_ in E; destruct (0 <=? k)%Z; try discriminate;
    (destruct (Z.eqb_spec k 0)); injection E as <-; cbn [ir_nonlin ir_size]; (split; [auto|apply W; reflexivity]).
  - destruct HI as (j & k & E). unfold o2_irrep, assert_ in E; destruct (Z.eqb j 0 || Z.eqb j 1)%bool; try discriminate; destruct (0 <=? k)%Z; try discriminate;
    (destruct (Z.eqb_spec j 0); (destruct (Z.eqb_spec k 0))); try discriminate; injection E as <-; cbn [ir_nonlin ir_size]; (split; [auto|apply W; reflexivity]).
Qed.

(** the size in the name that an induced representation declares is that of the inducing irrep *)
Lemma induced_name pre size nl x s : subname pre -> (size = 1 \/ size = 2)%nat -> (forall y, In y nl -> forall p, subname p -> starts_with p y = false) ->
  In x (induced_nonlinearities size nl) -> starts_with pre x = true -> py_int (last_part "" x) = Ok s -> s = size.
Proof.
  intros SP HS HN. unfold induced_nonlinearities. rewrite !in_app_iff.
  assert (F : forall p, subname p -> find (starts_with p) nl = None).
  { intros p Hp. destruct (find (starts_with p) nl) as [y|] eqn:Q; [|reflexivity]. apply find_some in Q as [Q1 Q2]. rewrite (HN y Q1 p Hp) in Q2. discriminate. }
  rewrite !F by (unfold subname; auto).
  assert (D : forall (b : bool) (l : list string), In x (if b then l else []) -> In x l) by (intros [|] l H; [exact H|destruct H]).
  intros [H|[H|[H|[H|H]]]] PX PI; apply D in H; cbn in H; destruct SP as [-> | ->]; destruct HS as [-> | ->];
  repeat (destruct H as [<-|H]; [try discriminate PX; vm_compute in PI; congruence|]); destruct H.
Qed.

Lemma block_perm_ext k m A B : meq (k * m) (k * m) A B -> is_block_perm k m B -> is_block_perm k m A.
Proof. intros H (s & O & b & o & X). exists s, O. split; [exact b|]. split; [exact o|]. intros. rewrite H by nia. apply X; assumption. Qed.
Lemma declared_ext pre nl n A B : meq n n A B -> permutes_declared pre nl n B -> permutes_declared pre nl n A.
Proof. intros H P x s Hx HP HS. destruct (P x s Hx HP HS) as (k & -> & K). exists k. split; [reflexivity|]. exact (block_perm_ext _ _ _ _ H K). Qed.

Lemma block_perm_sum k1 k2 m A B : is_block_perm k1 m A -> is_block_perm k2 m (fun i j => B i j) ->
  is_block_perm (k1 + k2) m (fun i j => if (i <? k1 * m)%nat then (if (j <? k1 * m)%nat then A i j else 0) else (if (j <? k1 * m)%nat then 0 else B (i - k1 * m)%nat (j - k1 * m)%nat)).
Proof.
  intros (s1 & O1 & [b1 b1'] & o1 & X1) (s2 & O2 & [b2 b2'] & o2 & X2).
  exists (fun q => if (q <? k1)%nat then s1 q else (k1 + s2 (q - k1))%nat), (fun q => if (q <? k1)%nat then O1 q else O2 (q - k1)%nat).
  split; [split|split].
  - intros q Hq. destruct (Nat.ltb_spec q k1) as [L|L]; [specialize (b1 q L); lia|]. specialize (b2 (q - k1)%nat ltac:(lia)). lia.
  - intros q q' Hq Hq'. destruct (Nat.ltb_spec q k1) as [L|L]; destruct (Nat.ltb_spec q' k1) as [L'|L']; intros E.
    + apply b1'; assumption.
    + specialize (b1 q L). lia.
    + specialize (b1 q' L'). lia.
    + assert (q - k1 = q' - k1)%nat by (apply b2'; lia). lia.
  - intros q Hq. destruct (Nat.ltb_spec q k1); [apply o1; assumption|apply o2; lia].
  - intros q q' i j Hq Hq' Hi Hj.
    assert (F : forall q i, (i < m)%nat -> (q * m + i <? k1 * m)%nat = (q <? k1)%nat).
    { intros u v Hv. destruct (Nat.ltb_spec u k1); [apply Nat.ltb_lt; nia|apply Nat.ltb_ge; nia]. }
    rewrite (F q i Hi), (F q' j Hj). destruct (Nat.ltb_spec q k1) as [L|L]; destruct (Nat.ltb_spec q' k1) as [L'|L'].
    + apply X1; assumption.
    + destruct (Nat.eqb_spec q' (s1 q)) as [E|]; [specialize (b1 q L); lia|reflexivity].
    + destruct (Nat.eqb_spec q' (k1 + s2 (q - k1)%nat)%nat) as [E|]; [lia|reflexivity].
    + replace (q * m + i - k1 * m)%nat with ((q - k1) * m + i)%nat by nia. replace (q' * m + j - k1 * m)%nat with ((q' - k1) * m + j)%nat by nia.
      rewrite X2 by lia. destruct (Nat.eqb_spec (q' - k1)%nat (s2 (q - k1)%nat)); destruct (Nat.eqb_spec q' (k1 + s2 (q - k1)%nat)%nat); try lia; reflexivity.
Qed.
Lemma block_perm_bdiag m (l : list (nat * mat)) : (forall p, In p l -> exists k, fst p = (k * m)%nat /\ is_block_perm k m (snd p)) ->
  exists k, nsum (map fst l) = (k * m)%nat /\ is_block_perm k m (bdiag l).
Proof.
  induction l as [|[n A] l IH]; intros H.
  - exists 0%nat. split; [reflexivity|]. exists (fun q => q), (fun _ => mid). split; [split; intros; lia|]. split; intros; lia.
  - destruct (H (n, A) ltac:(cbn; auto)) as (k1 & E1 & K1). cbn [fst snd] in *. destruct IH as (k2 & E2 & K2); [intros p Hp; apply H; cbn; auto|].
    exists (k1 + k2)%nat. split; [change (nsum (map fst ((n, A) :: l))) with (n + nsum (map fst l))%nat; rewrite E1, E2; nia|]. subst n. apply (block_perm_sum k1 k2 m A (bdiag l) K1 K2).
Qed.

Lemma o2_block_perm s rho f a : (f = 0 \/ f = 1)%Z -> (forall x, orthogonal s (rho x)) -> is_block_perm 2 s (induced_at s rho (f, a)).
Proof.
  intros HF O. exists (fun q => if (f =? 0)%Z then q else (1 - q)%nat), (fun q => rho (if (q =? 0)%nat then a else - a)). split; [|split].
  - destruct HF as [-> | ->]; cbn [Z.eqb]; split; intros; lia.
  - intros q _. apply O.
  - intros q q' i j Hq Hq' Hi Hj. assert (F1 : (q * s + i <? s)%nat = (q =? 0)%nat) by (destruct q as [|[|q]]; [apply Nat.ltb_lt; lia|apply Nat.ltb_ge; lia|lia]).
    assert (F2 : (q' * s + j <? s)%nat = (q' =? 0)%nat) by (destruct q' as [|[|q']]; [apply Nat.ltb_lt; lia|apply Nat.ltb_ge; lia|lia]).
    unfold induced_at. rewrite F1, F2. cbn [fst snd].
    destruct q as [|[|q]]; [| |lia]; (destruct q' as [|[|q']]; [| |lia]); destruct HF as [-> | ->]; cbn [Nat.eqb Bool.eqb Z.eqb negb Nat.sub]; try reflexivity;
    rewrite ?Nat.mul_0_l, ?Nat.add_0_l, ?Nat.mul_1_l, ?(Nat.add_comm s), ?Nat.add_sub; reflexivity.
Qed.

(** induced representations of finite groups *)
Lemma ind_declared {G H} (fg : fgroup G) (OK : fgroup_ok fg) (subs : list H) parent child opH invH eH
  (SOK : subgroup_ok fg subs parent child opH invH eH) restrict name (ir : irrep H) r pre : subname pre ->
  is_orthogonal_rep (fun h => In h subs) (ir_size ir) (ir_mat ir) -> (ir_size ir = 1 \/ ir_size ir = 2)%nat -> (forall y, In y (ir_nonlin ir) -> forall p, subname p -> starts_with p y = false) ->
  induced_representation fg subs parent child restrict name ir = Ok r ->
  forall g, In g (fg_elements fg) -> permutes_declared pre (rp_nonlin r) (rp_size r) (rp_mat r g).
Proof.
  intros SP OR HS HN E g Hg. unfold induced_representation in E. destruct (build_induced _ _ _ _ _ _) as [[[irreps cob] inv]|] eqn:EB; [|discriminate]. cbn [rbind] in E.
  rewrite (quotient_size fg OK subs parent child opH invH eH SOK) in E.
  destruct (Nat.eqb_spec (isizes irreps) (ir_size ir * length (representatives fg subs parent))) as [SZ|]; [|discriminate]. injection E as <-.
  rewrite Nat.mul_comm in SZ. destruct (build_induced_spec fg OK subs parent child opH invH eH SOK restrict ir irreps cob inv EB) as (OC & EI & EM).
  intros x s Hx HP PI. cbn [rp_nonlin] in Hx. assert (s = ir_size ir) as -> by (eapply induced_name; eauto).
  exists (length (representatives fg subs parent)). unfold rp_size, rp_mat, rp_size. cbn [rp_irreps rp_cob rp_inv]. split; [exact SZ|]. rewrite SZ.
  apply (block_perm_ext _ _ _ (ind fg subs parent child (ir_size ir) (ir_mat ir) g)); [apply EM; auto|].
  destruct (induced_matrix_ok fg OK subs parent child opH invH eH SOK (ir_size ir) (ir_mat ir) g Hg) as (M & EQ & HM).
  pose proof (induced_block_perm fg OK subs parent child opH invH eH SOK (ir_size ir) (ir_mat ir) g OR Hg) as BP. unfold ind_mat in BP. rewrite EQ in BP.
  apply (block_perm_ext _ _ _ M); [symmetry; exact HM|exact BP].
Qed.

Theorem assembled_declared g r pre : subname pre -> assembled g r -> forall e, is_elt g e -> permutes_declared pre (rp_nonlin r) (rp_size r) (rp_mat r e).
Proof.
  intros SP B. induction B as [g ir name HG HI|N r HN E|N r HN E|N fg M sg parent child restrict name ir r HN EG ES HI E|N fg id M parent child restrict name ir r HN EG ES HI E
    |N fg id M parent child restrict name ir r HN EG ES HI E|linv name k ir r HL ES E|g l name r HB IH E|g h parent f r inv r' R0 HB IH E A|g r Q Qinv name _ IH HQ]; intros e He.
  - intros x s Hx HP _. cbn [rep_of_irrep rp_nonlin] in Hx. rewrite (proj2 (irrep_names g ir pre HI SP) x Hx) in HP. discriminate.
  - intros x s Hx HP _. exfalso. unfold cyc_regular_representation in E. rewrite (cyc_fgroup_eq N HN) in E. cbn [rbind] in E.
    destruct (cyc_regular N HN) as (q & EQ & _ & _ & _ & _ & _ & NL & _). rewrite EQ in E. cbn [rbind] in E. injection E as <-. cbn [rp_nonlin elt] in Hx. rewrite NL in Hx.
    cbn in Hx. destruct SP as [-> | ->]; repeat (destruct Hx as [<-|Hx]; [discriminate HP|]); destruct Hx.
  - intros x s Hx HP _. exfalso. unfold dih_regular_representation in E. rewrite (dih_fgroup_eq N HN) in E. cbn [rbind] in E.
    destruct (dih_regular N HN) as (q & EQ & _ & _ & _ & _ & _ & NL & _). rewrite EQ in E. injection E as <-. cbn [elt] in Hx. rewrite NL in Hx.
    cbn in Hx. destruct SP as [-> | ->]; repeat (destruct Hx as [<-|Hx]; [discriminate HP|]); destruct Hx.
  - rewrite (cyc_fgroup_eq N HN) in EG. injection EG as <-.
    destruct (proj1 (cyc_subgroup_ok N M HN) ltac:(eauto)) as [HM _]. destruct (cyc_elements_spec M HM) as [_ [_ EM]]. destruct (cyc_elements_spec N HN) as [_ [_ EN]].
    apply (ind_declared (cyc_fg N) (cyc_fg_ok N HN) _ _ _ _ _ _ (sub_ok_CC N M sg parent child HN ES) restrict name ir r pre SP); auto.
    + destruct HI as [k Hk]. intros x Hx. apply (cyc_irrep_rep M k ir HM Hk), EM, Hx.
    + apply (irrep_names (Cyc M) ir pre HI SP).
    + intros y Hy p Hp. exact (proj2 (irrep_names (Cyc M) ir p HI Hp) y Hy).
    + apply EN, He.
  - rewrite (dih_fgroup_eq N HN) in EG. injection EG as <-.
    pose proof (dih_sub_pos _ _ _ HN ES) as HM. cbv beta iota in HM. destruct (cyc_elements_spec M HM) as [_ [_ EM]]. destruct (dih_elements_spec N HN) as [_ [_ EN]].
    pose proof (sub_ok_D N id _ HN ES) as SO. cbv beta iota in SO.
    apply (ind_declared (dih_fg N) (dih_fg_ok N HN) _ _ _ _ _ _ SO restrict name ir r pre SP); auto.
    + destruct HI as [k Hk]. intros x Hx. apply (cyc_irrep_rep M k ir HM Hk), EM, Hx.
    + apply (irrep_names (Cyc M) ir pre HI SP).
    + intros y Hy p Hp. exact (proj2 (irrep_names (Cyc M) ir p HI Hp) y Hy).
    + apply EN, He.
  - rewrite (dih_fgroup_eq N HN) in EG. injection EG as <-.
    pose proof (dih_sub_pos _ _ _ HN ES) as HM. cbv beta iota in HM. destruct (dih_elements_spec M HM) as [_ [_ EM]]. destruct (dih_elements_spec N HN) as [_ [_ EN]].
    pose proof (sub_ok_D N id _ HN ES) as SO. cbv beta iota in SO.
    apply (ind_declared (dih_fg N) (dih_fg_ok N HN) _ _ _ _ _ _ SO restrict name ir r pre SP); auto.
    + destruct HI as (j & k & Hk). intros x Hx. apply (dih_irrep_rep M j k ir HM Hk), EM, Hx.
    + apply (irrep_names (Dih M) ir pre HI SP).
    + intros y Hy p Hp. exact (proj2 (irrep_names (Dih M) ir p HI Hp) y Hy).
    + apply EN, He.
  - assert (HI : is_irrep So2 ir) by (exists k; exact ES). destruct (induced_unique _ _ _ _ _ HL ES E) as (_ & _ & RS & _ & M).
    assert (NL : rp_nonlin r = induced_nonlinearities (ir_size ir) (ir_nonlin ir)) by (revert E; unfold o2_induced_representation; destruct (o2_induced_from_irrep _ _ _) as [p|]; [|discriminate]; intros X; injection X as <-; reflexivity).
    intros x s Hx HP PI. assert (Hx' : In x (induced_nonlinearities (ir_size ir) (ir_nonlin ir))) by (rewrite <- NL; exact Hx).
    assert (s = ir_size ir) as ->.
    { eapply (induced_name pre); eauto; [apply (irrep_names So2 ir pre HI SP)|]. intros y Hy p Hp. exact (proj2 (irrep_names So2 ir p HI Hp) y Hy). }
    exists 2%nat. split; [exact RS|]. apply (block_perm_ext _ _ _ (induced_at (ir_size ir) (ir_mat ir) e)); [rewrite <- RS; apply M, He|].
    destruct e as [f a]. apply o2_block_perm; [apply o2_el_iff in He; exact He|]. intros y. apply (so2_irrep_rep k ir ES). exact I.
  - destruct (C07_directsum _ l name) as [_ D]. destruct (D r E) as (_ & D2 & D3).
    destruct D2 as [_ D4]; [apply Forall_forall; intros q Hq; apply (sd_acc _ _ (built_sound g q (assembled_built g q (HB q Hq))))|].
    assert (NL : rp_nonlin r = nl_inters l) by (unfold directsum in E; destruct l; [discriminate|]; injection E as <-; reflexivity).
    rewrite D4, NL. apply (declared_ext _ _ _ _ _ (D3 e)). intros x s Hx HP PI.
    destruct (block_perm_bdiag s (map (fun q => (rp_size q, rp_mat q e)) l)) as (k & K1 & K2).
    { intros p Hp. apply in_map_iff in Hp as (q & <- & Hq). cbn [fst snd]. apply (IH q Hq e He x s); auto. apply (nl_inters_in l x Hx q Hq). }
    exists k. rewrite map_map in K1. split; [exact K1|exact K2].
  - pose proof (built_sound g r (assembled_built g r HB)) as S0. destruct (restricts_good g h parent f R0 (sd_group _ _ S0)) as (G1 & G2 & G3).
    destruct (G3 r inv r' (sd_acc _ _ S0) (sd_irreps _ _ S0) E A) as (H1 & _ & H3 & H4).
    assert (P : permutes_declared pre (rp_nonlin r') (rp_size r') (rp_mat r' e)).
    { rewrite H1, H3. apply (declared_ext _ _ _ _ _ (H4 e He)). apply IH, G2, He. }
    unfold restrict_trivial_patch. destruct (is_trivial r' && _)%bool; [|exact P]. intros x s Hx HP PI. cbn [rp_nonlin] in Hx. destruct Hx as [<-|Hx].
    + exfalso. destruct SP as [-> | ->]; discriminate HP.
    + exact (P x s Hx HP PI).
  - intros x s Hx. destruct Hx.
Qed.
