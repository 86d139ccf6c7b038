(** C59: the irreps of a group are irreducible, pairwise inequivalent and complete. *)
From Coq Require Import Reals ZArith String List Bool Lia Lra.
From Verif Require Import Base LinAlg Spec Spec_Irred Model_Groups Model_Rep Model_Regular Spec_Support Proofs_Groups Proofs_Cont Proofs_Irreps Proofs_Rep Proofs_Regular Proofs_Regular2 Prop_Regular Proofs_Irred Proofs_Irred2 Proofs_Decompose4.
Import ListNotations.
Open Scope R_scope.

(** Every irrep of C_N, D_N, SO(2) and O(2) is irreducible, and the equivariant maps from it to itself have the dimension that the irrep
    announces as sum_of_squares_constituents. *)
Theorem C59_irreducible : forall (g : grp) (ir : irrep (elt g)), is_group g -> is_irrep g ir ->
  irreducible (is_elt g) (ir_size ir) (ir_mat ir) /\ commutant_dim (is_elt g) (ir_size ir) (ir_mat ir) (ir_sos ir).
Proof.
  intros [N|N| |] ir HG HI; cbn [is_group is_irrep elt is_elt] in *.
  - destruct HI as [k E]. exact (cyc_irred N k ir HG E).
  - destruct HI as [j [k E]]. exact (dih_irred N j k ir HG E).
  - destruct HI as [k E]. exact (so2_irred k ir E).
  - destruct HI as [j [k E]]. exact (o2_irred j k ir E).
Qed.
Print Assumptions C59_irreducible.

Lemma cyc_names N k ir : cyc_irrep N k = Ok ir -> ir_flip ir = 0%Z /\ ir_freq ir = k.
Proof. unfold cyc_irrep, assert_. destruct (_ && _)%bool; [|discriminate]. destruct (Z.eqb_spec k 0); [|destruct (_ && _)%bool]; intros E; injection E as <-; split; reflexivity. Qed.
Lemma dih_names N j k ir : dih_irrep N j k = Ok ir -> ir_flip ir = j /\ ir_freq ir = k.
Proof.
  unfold dih_irrep, assert_. destruct (_ || _)%bool; [|discriminate]. destruct (_ && _)%bool; [|discriminate].
  destruct (Z.eqb_spec j 0); (destruct (Z.eqb_spec k 0); [|destruct (_ && _)%bool]); intros E; try discriminate; injection E as <-; split; reflexivity.
Qed.
Lemma so2_names k ir : so2_irrep k = Ok ir -> ir_flip ir = 0%Z /\ ir_freq ir = k.
Proof. unfold so2_irrep, assert_. destruct (0 <=? k)%Z; [|discriminate]. destruct (Z.eqb_spec k 0) as [->|]; intros E; injection E as <-; split; reflexivity. Qed.
Lemma o2_names j k ir : o2_irrep j k = Ok ir -> ir_flip ir = j /\ ir_freq ir = k.
Proof.
  unfold o2_irrep, assert_. destruct (_ || _)%bool; [|discriminate]. destruct (0 <=? k)%Z; [|discriminate].
  destruct (Z.eqb_spec j 0); (destruct (Z.eqb_spec k 0)); intros E; try discriminate; injection E as <-; split; reflexivity.
Qed.

(** Between two different irreps of a group (of different frequency, or one with and one without sign under reflections) the only
    equivariant linear map is zero; in particular they are not equivalent. *)
Theorem C59_inequivalent : forall (g : grp) (a b : irrep (elt g)) A, is_group g -> is_irrep g a -> is_irrep g b -> (ir_flip a, ir_freq a) <> (ir_flip b, ir_freq b) ->
  intertwines (is_elt g) (ir_size a) (ir_mat a) (ir_size b) (ir_mat b) A -> meq (ir_size b) (ir_size a) A mzero.
Proof.
  intros [N|N| |] a b A HG Ha Hb D; cbn [is_group is_irrep elt is_elt] in *.
  - destruct Ha as [k Ea], Hb as [l Eb]. destruct (cyc_names N k a Ea) as [F1 F2], (cyc_names N l b Eb) as [F3 F4]. apply (cyc_distinct N k l a b A HG Ea Eb). congruence.
  - destruct Ha as [j [k Ea]], Hb as [j' [l Eb]]. destruct (dih_names N j k a Ea) as [F1 F2], (dih_names N j' l b Eb) as [F3 F4]. apply (dih_distinct N j k j' l a b A HG Ea Eb). congruence.
  - destruct Ha as [k Ea], Hb as [l Eb]. destruct (so2_names k a Ea) as [F1 F2], (so2_names l b Eb) as [F3 F4]. apply (so2_distinct k l a b A Ea Eb). congruence.
  - destruct Ha as [j [k Ea]], Hb as [j' [l Eb]]. destruct (o2_names j k a Ea) as [F1 F2], (o2_names j' l b Eb) as [F3 F4]. apply (o2_distinct j k j' l a b A Ea Eb). congruence.
Qed.
Print Assumptions C59_inequivalent.

Lemma rmap_all {A B} (f : A -> result B) l m : rmap f l = Ok m -> forall b, In b m -> exists a, In a l /\ f a = Ok b.
Proof.
  revert m. induction l as [|a l IH]; cbn [rmap]; intros m E b Hb; [injection E as <-; destruct Hb|].
  destruct (f a) as [c|] eqn:Ea; cbn [rbind] in E; [|discriminate]. destruct (rmap f l) as [q|] eqn:El; cbn [rbind] in E; [|discriminate]. injection E as <-.
  destruct Hb as [<-|Hb]; [exists a; split; [left; reflexivity|exact Ea]|]. destruct (IH q eq_refl b Hb) as (a' & H1 & H2). exists a'. split; [right; exact H1|exact H2].
Qed.

(** The irreps of C_N and of D_N are complete: every representation (of any size, over the reals) has a non-zero equivariant map to one of
    them, and if it is irreducible it is one of them up to a change of basis. *)
Theorem C59_complete : forall N, (0 < N)%Z ->
  (forall grp n rho, cyc_fgroup N = Ok grp -> (0 < n)%nat -> is_representation (cyc_el N) (cyc_combine N) cyc_identity n rho ->
     (exists ir A, In ir (fg_irreps grp) /\ intertwines (cyc_el N) n rho (ir_size ir) (ir_mat ir) A /\ ~ meq (ir_size ir) n A mzero) /\
     (irreducible (cyc_el N) n rho -> exists ir, In ir (fg_irreps grp) /\ equivalent (cyc_el N) n rho (ir_size ir) (ir_mat ir))) /\
  (forall grp n rho, dih_fgroup N = Ok grp -> (0 < n)%nat -> is_representation (dih_el N) (dih_combine N) dih_identity n rho ->
     (exists ir A, In ir (fg_irreps grp) /\ intertwines (dih_el N) n rho (ir_size ir) (ir_mat ir) A /\ ~ meq (ir_size ir) n A mzero) /\
     (irreducible (dih_el N) n rho -> exists ir, In ir (fg_irreps grp) /\ equivalent (dih_el N) n rho (ir_size ir) (ir_mat ir))).
Proof.
  intros N HN. split.
  - intros grp n rho EG Hn HR. rewrite (cyc_fgroup_eq N HN) in EG. injection EG as <-. destruct (cyc_regular N HN) as (r & ER & SZ & IR & OR & AC & MU & _ & RP).
    destruct (cyc_elements_spec N HN) as (E1 & _ & E3). assert (O : order (cyc_fg N) = Z.to_nat N) by exact E1.
    pose proof (proj1 (C09_multiplicities N HN) (cyc_fg N) r (cyc_fgroup_eq N HN) ER) as MU'.
    assert (C : exists ir A, In ir (fg_irreps (cyc_fg N)) /\ intertwines (cyc_el N) n rho (ir_size ir) (ir_mat ir) A /\ ~ meq (ir_size ir) n A mzero).
    { destruct (contains_irrep (cyc_fg N) (cyc_fg_ok N HN) r n rho ER) as (ir & B & Hi & IB & NB).
      - rewrite O. exact SZ.
      - exact AC.
      - intros g Hg. rewrite O. apply RP. apply E3. exact Hg.
      - exact Hn.
      - destruct HR as [R1 R2]. split; [exact R1|]. intros a b Ha Hb. apply R2; apply E3; assumption.
      - exists ir, B. split; [rewrite <- MU'; exact Hi|]. split; [|exact NB]. intros g Hg. apply IB. apply E3. exact Hg. }
    split; [exact C|]. intros IRR. destruct C as (ir & A & Hi & IA & NA). exists ir. split; [exact Hi|]. apply (schur (cyc_el N) n rho _ _ A IRR); [|exact IA|exact NA].
    rewrite <- MU' in Hi. destruct (IR ir Hi) as [k Ek]. apply (cyc_irred N k ir HN Ek).
  - intros grp n rho EG Hn HR. rewrite (dih_fgroup_eq N HN) in EG. injection EG as <-. destruct (dih_regular N HN) as (r & ER & SZ & IR & OR & AC & MU & _ & RP).
    destruct (dih_elements_spec N HN) as (E1 & _ & E3). assert (O : order (dih_fg N) = (2 * Z.to_nat N)%nat) by exact E1.
    assert (MI : forall ir, In ir (rp_irreps r) -> In ir (fg_irreps (dih_fg N))).
    { intros ir Hi. pose proof (proj2 (C09_multiplicities N HN) (dih_fg N) r (dih_fgroup_eq N HN) ER) as M. rewrite M in Hi. apply in_concat in Hi as (l & Hl & Hi). apply in_map_iff in Hl as (q & <- & Hq). apply repeat_spec in Hi. subst. exact Hq. }
    assert (C : exists ir A, In ir (rp_irreps r) /\ intertwines (dih_el N) n rho (ir_size ir) (ir_mat ir) A /\ ~ meq (ir_size ir) n A mzero).
    { destruct (contains_irrep (dih_fg N) (dih_fg_ok N HN) r n rho ER) as (ir & B & Hi & IB & NB).
      - rewrite O. exact SZ.
      - exact AC.
      - intros g Hg. rewrite O. apply RP. apply E3. exact Hg.
      - exact Hn.
      - destruct HR as [R1 R2]. split; [exact R1|]. intros a b Ha Hb. apply R2; apply E3; assumption.
      - exists ir, B. split; [exact Hi|]. split; [|exact NB]. intros g Hg. apply IB. apply E3. exact Hg. }
    destruct C as (ir & A & Hi & IA & NA). split; [exists ir, A; auto|]. intros IRR. exists ir. split; [apply MI; exact Hi|]. apply (schur (dih_el N) n rho _ _ A IRR); [|exact IA|exact NA].
    destruct (IR ir Hi) as (j & k & Ek). apply (dih_irred N j k ir HN Ek).
Qed.
Print Assumptions C59_complete.

Lemma NoDup_app_disjoint {A} (l m : list A) : NoDup l -> NoDup m -> (forall x, In x l -> ~ In x m) -> NoDup (l ++ m).
Proof.
  induction l as [|a l IH]; intros Hl Hm D; [exact Hm|]. inversion Hl; subst. cbn [app]. constructor.
  - intros H. apply in_app_or in H as [H|H]; [contradiction|]. exact (D a (or_introl eq_refl) H).
  - apply IH; [assumption|assumption|]. intros x Hx. apply D. right. exact Hx.
Qed.
(** The list of irreps of a finite group contains no irrep twice, and the squares of the sizes, divided by the announced dimension of the
    equivariant maps, add up to the order of the group. *)
Theorem C59_counting : forall N, (0 < N)%Z ->
  (forall grp, cyc_fgroup N = Ok grp -> NoDup (map (fun ir => (ir_flip ir, ir_freq ir)) (fg_irreps grp)) /\
     nsum (map (fun ir => (ir_size ir * ir_size ir / ir_sos ir)%nat) (fg_irreps grp)) = length (fg_elements grp)) /\
  (forall grp, dih_fgroup N = Ok grp -> NoDup (map (fun ir => (ir_flip ir, ir_freq ir)) (fg_irreps grp)) /\
     nsum (map (fun ir => (ir_size ir * ir_size ir / ir_sos ir)%nat) (fg_irreps grp)) = length (fg_elements grp)).
Proof.
  intros N HN. split.
  - intros grp EG. pose proof EG as EG'. rewrite (cyc_fgroup_eq N HN) in EG'. injection EG' as <-. unfold cyc_fgroup in EG. destruct (cyc_group N) as [gg|] eqn:GG; cbn [rbind] in EG; [|discriminate].
    destruct (cyc_irreps N) as [irs|] eqn:IRS; cbn [rbind] in EG; [|discriminate]. assert (EI : fg_irreps (cyc_fg N) = irs) by exact (eq_sym (f_equal (fun r => match r with Ok g => fg_irreps g | Err _ => [] end) EG)). clear EG.
    destruct (cyc_regular N HN) as (r & ER & SZ & IR & _). pose proof (proj1 (C09_multiplicities N HN) (cyc_fg N) r (cyc_fgroup_eq N HN) ER) as MU. rewrite EI in MU. split.
    + rewrite EI. unfold cyc_irreps in IRS. clear - IRS.
      assert (NM : forall l m, rmap (cyc_irrep N) l = Ok m -> map (fun ir => (ir_flip ir, ir_freq ir)) m = map (fun k => (0%Z, k)) l).
      { induction l as [|k l IH]; cbn [rmap]; intros m E; [injection E as <-; reflexivity|]. destruct (cyc_irrep N k) as [c|] eqn:Ec; cbn [rbind] in E; [|discriminate].
        destruct (rmap (cyc_irrep N) l) as [q|]; cbn [rbind] in E; [|discriminate]. injection E as <-. cbn [map]. rewrite (IH q eq_refl). destruct (cyc_names N k c Ec) as [-> ->]. reflexivity. }
      rewrite (NM _ _ IRS). rewrite map_map. apply FinFun.Injective_map_NoDup; [|apply seq_NoDup]. intros a b E. injection E as E. lia.
    + destruct (cyc_elements_spec N HN) as (E1 & _ & _). transitivity (Z.to_nat N); [|symmetry; exact E1]. rewrite <- SZ. unfold rp_size, isizes. rewrite MU, EI. f_equal. apply map_ext_in. intros ir Hi. rewrite <- MU in Hi. destruct (IR ir Hi) as [k Ek].
      destruct (cyc_kind N k ir HN Ek) as (_ & ([S1|S2] & _) & P1 & P2); [rewrite (P1 S1), S1; reflexivity|rewrite (proj1 (P2 S2)), S2; reflexivity].
  - intros grp EG. pose proof EG as EG'. rewrite (dih_fgroup_eq N HN) in EG'. injection EG' as <-. pose proof EG as EG'. unfold dih_fgroup in EG. destruct (dih_group N) as [gg|] eqn:GG; cbn [rbind] in EG; [|discriminate].
    destruct (dih_irreps N) as [irs|] eqn:IRS; cbn [rbind] in EG; [|discriminate]. assert (EI : fg_irreps (dih_fg N) = irs) by exact (eq_sym (f_equal (fun r => match r with Ok g => fg_irreps g | Err _ => [] end) EG)). clear EG.
    destruct (dih_regular N HN) as (r & ER & SZ & IR & _). pose proof (proj2 (C09_multiplicities N HN) (dih_fg N) r EG' ER) as MU. split.
    + rewrite EI. unfold dih_irreps in IRS.
      assert (NM : forall l m, rmap (fun jk => dih_irrep N (fst jk) (snd jk)) l = Ok m -> map (fun ir => (ir_flip ir, ir_freq ir)) m = l).
      { induction l as [|[j k] l IH]; cbn [rmap fst snd]; intros m E; [injection E as <-; reflexivity|]. destruct (dih_irrep N j k) as [c|] eqn:Ec; cbn [rbind] in E; [|discriminate].
        destruct (rmap _ l) as [q|]; cbn [rbind] in E; [|discriminate]. injection E as <-. cbn [map]. rewrite (IH q eq_refl). destruct (dih_names N j k c Ec) as [-> ->]. reflexivity. }
      rewrite (NM _ _ IRS). constructor.
      * intros Hin. apply in_app_or in Hin as [Hin|Hin]; [apply in_map_iff in Hin as (q & E & _); discriminate|]. destruct (Z.eqb_spec (N mod 2) 0) as [Z|]; [|destruct Hin]. destruct Hin as [E|[]]. injection E as E. pose proof (Z.div_mod N 2 ltac:(lia)). lia.
      * apply NoDup_app_disjoint.
        -- apply FinFun.Injective_map_NoDup; [|apply seq_NoDup]. intros a b E. injection E as E. lia.
        -- destruct (N mod 2 =? 0)%Z; repeat constructor. intros [].
        -- intros x Hx Hy. apply in_map_iff in Hx as (q & <- & _). destruct (N mod 2 =? 0)%Z; [|destruct Hy]. destruct Hy as [E|[]]. discriminate.
    + destruct (dih_elements_spec N HN) as (E1 & _ & _). transitivity (2 * Z.to_nat N)%nat; [|symmetry; exact E1]. rewrite <- SZ. unfold rp_size, isizes. rewrite MU.
      assert (Q : forall l, (forall ir, In ir l -> ir_sos ir = 1%nat) -> nsum (map (fun ir : irrep (Z * Z) => (ir_size ir * ir_size ir / ir_sos ir)%nat) l) = nsum (map ir_size (concat (map (fun ir => repeat ir (ir_size ir)) l)))).
      { induction l as [|ir l IH]; intros H; [reflexivity|]. cbn [map concat]. rewrite map_app, nsum_app, <- IH by (intros; apply H; right; assumption). cbn [nsum fold_right]. f_equal. rewrite (H ir) by (left; reflexivity). rewrite Nat.div_1_r.
        clear. enough (E : forall m, nsum (map ir_size (repeat ir m)) = (m * ir_size ir)%nat) by (rewrite E; reflexivity). induction m; [reflexivity|]. cbn [repeat map nsum fold_right] in *. unfold nsum in IHm. rewrite IHm. reflexivity. }
      apply Q. intros ir Hi. rewrite EI in Hi. unfold dih_irreps in IRS. destruct (rmap_all _ _ _ IRS ir Hi) as ([j k] & _ & E). cbn [fst snd] in E. apply (dih_kind N j k ir HN E).
Qed.
Print Assumptions C59_counting.

(** ** Instances *)
(** the representation of C_4 on the plane is irreducible and not one of the two of size 1; D_3 has three irreps: 1 + 1 + 4 = 6 *)
Example C59_ex : exists a b, cyc_irrep 4 1 = Ok a /\ cyc_irrep 4 2 = Ok b /\ ir_size a = 2%nat /\ ir_size b = 1%nat /\ irreducible (cyc_el 4) 2 (ir_mat a) /\ commutant_dim (cyc_el 4) 2 (ir_mat a) 2.
Proof.
  destruct (cyc_irrep 4 1) as [a|] eqn:Ea; [|discriminate]. destruct (cyc_irrep 4 2) as [b|] eqn:Eb; [|discriminate]. exists a, b. split; [reflexivity|]. split; [reflexivity|].
  assert (Sa : ir_size a = 2%nat) by (injection Ea as <-; reflexivity). assert (Da : ir_sos a = 2%nat) by (injection Ea as <-; reflexivity). split; [exact Sa|]. split; [injection Eb as <-; reflexivity|].
  destruct (C59_irreducible (Cyc 4) a ltac:(reflexivity) (ex_intro _ 1%Z Ea)) as [I C]. change (irreducible (cyc_el 4) (ir_size a) (ir_mat a)) in I. change (commutant_dim (cyc_el 4) (ir_size a) (ir_mat a) (ir_sos a)) in C. rewrite Sa in I, C. rewrite Da in C. split; assumption.
Qed.
(** a representation that is not given by the library: C_4 on the plane in another basis, (x, y) -> (x + 2 y, - x - y); it is irreducible, hence
    equivalent to one of the irreps *)
Definition oblique (g : Z) : mat := if (g =? 0)%Z then mid else if (g =? 1)%Z then mat2 1 2 (-1) (-1) else if (g =? 2)%Z then mat2 (-1) 0 0 (-1) else mat2 (-1) (-2) 1 1.
Example C59_complete_ex : exists grp, cyc_fgroup 4 = Ok grp /\ is_representation (cyc_el 4) (cyc_combine 4) cyc_identity 2 oblique /\ irreducible (cyc_el 4) 2 oblique.
Proof.
  exists (cyc_fg 4). split; [apply cyc_fgroup_eq; lia|]. split.
  - split; [intros i j Hi Hj; reflexivity|]. intros a b Ha Hb. apply cyc_el_iff in Ha, Hb.
    assert (Q : forall z : Z, (0 <= z < 4)%Z -> z = 0%Z \/ z = 1%Z \/ z = 2%Z \/ z = 3%Z) by lia. intros i j Hi Hj.
    destruct (Q a Ha) as [->|[->|[->| ->]]], (Q b Hb) as [->|[->|[->| ->]]]; unfold cyc_combine, oblique, mmul, mid, mat2; (destruct i as [|[|]]; [| |lia]); (destruct j as [|[|]]; [| |lia]); cbn; lra.
  - split; [lia|]. intros W (S0 & SL & SE) I. destruct (Classical_Prop.classic (exists v, W v /\ ~ veq 2 v (fun _ => 0))) as [(v & Wv & Nv)|N].
    + right. intros u. pose proof (I 1%Z v ltac:(reflexivity) Wv) as Wr. set (p := v 0%nat). set (q := v 1%nat).
      assert (P : p * p + 2 * p * q + 2 * q * q <> 0).
      { intros E. apply Nv. pose proof (Rle_0_sqr (p + q)) as Q1. pose proof (Rle_0_sqr q) as Q2. unfold Rsqr in *. assert (H1 : q * q = 0) by lra. assert (H2 : (p + q) * (p + q) = 0) by lra.
        apply Rmult_integral in H1, H2. intros i Hi. destruct i as [|[|]]; [| |lia]; fold p q; lra. }
      refine (SE _ u _ (SL ((u 0%nat * (- p - q) - u 1%nat * (p + 2 * q)) / - (p * p + 2 * p * q + 2 * q * q)) ((p * u 1%nat - q * u 0%nat) / - (p * p + 2 * p * q + 2 * q * q)) v _ Wv Wr)).
      assert (R0 : mvec 2 (oblique 1) v 0%nat = p + 2 * q) by (unfold mvec, oblique, mat2, p, q; cbn; ring).
      assert (R1 : mvec 2 (oblique 1) v 1%nat = - p - q) by (unfold mvec, oblique, mat2, p, q; cbn; ring).
      intros i Hi. destruct i as [|[|]]; [| |lia]; rewrite ?R0, ?R1; fold p q; field; lra.
    + left. intros v Wv. destruct (Classical_Prop.classic (veq 2 v (fun _ => 0))) as [E|E]; [exact E|]. exfalso. apply N. eauto.
Qed.

(** Every representation of C_N and of D_N by real matrices is a direct sum of the irreps up to a change of basis. *)
Theorem C59_direct_sum : forall N, (0 < N)%Z ->
  (forall grp n rho, cyc_fgroup N = Ok grp -> is_representation (cyc_el N) (cyc_combine N) cyc_identity n rho ->
     exists irs, Forall (fun ir => In ir (fg_irreps grp)) irs /\ equivalent (cyc_el N) (isizes irs) (fun g => bdiag (blocks irs g)) n rho) /\
  (forall grp n rho, dih_fgroup N = Ok grp -> is_representation (dih_el N) (dih_combine N) dih_identity n rho ->
     exists irs, Forall (fun ir => In ir (fg_irreps grp)) irs /\ equivalent (dih_el N) (isizes irs) (fun g => bdiag (blocks irs g)) n rho).
Proof.
  intros N HN. split; intros grp n rho GE RH.
  - rewrite cyc_fgroup_eq in GE by exact HN. injection GE as <-. destruct (cyc_reducible N n rho HN RH) as (irs & D & E & IN & SZ & I & IT). exists irs. split; [apply Forall_forall, IN|]. split; [exact SZ|]. rewrite SZ. exists D, E. split; [exact I|].
    intros g Hg. destruct (cyc_elements_spec N HN) as (_ & _ & E3). rewrite <- (IT g) by (apply E3, Hg). rewrite mmul_assoc_eq. rewrite (proj1 I). symmetry. apply mmul_id_r.
  - rewrite dih_fgroup_eq in GE by exact HN. injection GE as <-. destruct (dih_reducible N n rho HN RH) as (irs & D & E & IN & SZ & I & IT). exists irs. split; [apply Forall_forall, IN|]. split; [exact SZ|]. rewrite SZ. exists D, E. split; [exact I|].
    intros g Hg. destruct (dih_elements_spec N HN) as (_ & _ & E3). rewrite <- (IT g) by (apply E3, Hg). rewrite mmul_assoc_eq. rewrite (proj1 I). symmetry. apply mmul_id_r.
Qed.
Print Assumptions C59_direct_sum.
