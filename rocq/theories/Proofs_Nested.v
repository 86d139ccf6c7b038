(** For C57: nested sequences and flat ones. *)
From Coq Require Import ZArith String List Bool Lia.
From Verif Require Import Base Model_Groups Model_Utils Model_Modules Spec_Modules Proofs_Modules Proofs_FieldType Prop_Modules Prop_Export Model_Nested Spec_Nested.
Import ListNotations.

Fixpoint tree_ind' {A} (P : tree A -> Prop) (HL : forall a, P (Leaf a)) (HN : forall l, Forall P l -> P (Node l)) (t : tree A) : P t :=
  match t with
  | Leaf a => HL a
  | Node l => HN l ((fix all l : Forall P l := match l with [] => Forall_nil _ | a :: l' => Forall_cons a (tree_ind' P HL HN a) (all l') end) l)
  end.
Lemma leaves_tmap {A B} (f : A -> B) t : leaves (tmap f t) = map f (leaves t).
Proof.
  induction t as [a|l IH] using tree_ind'; [reflexivity|]. cbn [tmap leaves]. induction IH as [|a l E _ IH]; [reflexivity|]. cbn [map flat_map]. rewrite map_app, <- E, <- IH. reflexivity.
Qed.
Lemma filled_tmap {A B} (f : A -> B) t : filled t -> filled (tmap f t).
Proof.
  induction t as [a|l IH] using tree_ind'; intros F; [constructor|]. inversion F as [|a l' F1 F2]; subst. inversion IH as [|? ? I1 I2]; subst. cbn [tmap map]. constructor; [apply I1; auto|].
  clear - F2 I2. induction l' as [|a l' IH]; cbn [map]; [constructor|]. inversion F2; subst. inversion I2; subst. constructor; auto.
Qed.
Lemma filled_leaves {A} (t : tree A) : filled t -> leaves t <> [].
Proof.
  induction t as [a|l IH] using tree_ind'; intros F; [discriminate|]. inversion F as [|a l' F1 F2]; subst. inversion IH as [|? ? I1 I2]; subst. cbn [leaves flat_map]. intros E. apply app_eq_nil in E as [E _]. exact (I1 F1 E).
Qed.
Lemma chained_app {A} (R : A -> A -> Prop) l1 l2 : chained R (l1 ++ l2) <-> chained R l1 /\ chained R l2 /\ match rev l1, l2 with a :: _, b :: _ => R a b | _, _ => True end.
Proof.
  induction l1 as [|a l1 IH].
  - cbn [app rev]. split; [intros H; split; [apply chained_nil|auto]|tauto].
  - cbn [app]. rewrite !chained_cons, IH. cbn [rev]. destruct l1 as [|a1 l1].
    + cbn [app rev]. destruct l2; tauto.
    + cbn [app]. assert (E : rev (a1 :: l1) <> []) by (cbn [rev]; intros E; apply app_eq_nil in E as [_ E]; discriminate). destruct (rev (a1 :: l1)) as [|z r]; [congruence|]. cbn [app]. tauto.
Qed.

Section Nested.
Context {T X : Type} (type_eqb : T -> T -> bool) (ty : X -> T) (attr : string -> bool).
Hypothesis AT : forall n, attr (py_str n) = false.
Notation emod := (emodule T X).
Notation R := (fun a b : emod => type_eqb (em_in b) (em_out a) = true).
Notation bld := (build type_eqb ty attr).
Notation chk := (checks type_eqb ty).
Fixpoint build_all (l : list (tree emod)) : result (list emod) := match l with [] => Ok [] | a :: l' => rbind (bld a) (fun m => rbind (build_all l') (fun ms => Ok (m :: ms))) end.
Lemma build_node l : bld (Node l) = rbind (build_all l) (fun ms => rbind (seq_make type_eqb attr ms) (seq_module type_eqb ty)).
Proof. reflexivity. Qed.

(** run of checked modules, with the checks of SequentialModule *)
Lemma run_all_app l1 : forall (l2 : list emod) x, run_all (l1 ++ l2) x = rbind (run_all l1 x) (run_all l2).
Proof. induction l1 as [|m l1 IH]; intros l2 x; [reflexivity|]. cbn [app run_all]. destruct (em_fwd m x); [apply IH|reflexivity]. Qed.
Lemma run_out l m x y : chk m -> run_all (l ++ [m]) x = Ok y -> type_eqb (ty y) (em_out m) = true.
Proof. intros C F. rewrite run_all_app in F. apply rbind_ok in F as (z & _ & F). cbn [run_all] in F. apply rbind_ok in F as (y' & F & E). injection E as <-. apply (proj2 (C z)). exact F. Qed.
Lemma seq_run l s : is_chain type_eqb l s -> l <> [] -> Forall chk l -> forall x, seq_forward type_eqb ty s x = run_all l x.
Proof.
  intros (S2 & S3 & S4 & _) NE C x. destruct l as [|m0 l0] eqn:EL; [congruence|]. rewrite <- EL in *. unfold seq_forward. rewrite S2, S3, S4, EL. cbn [opt_eqb].
  destruct (type_eqb (ty x) (em_in m0)) eqn:E.
  - cbn [assert_]. rewrite <- EL. destruct (run_all l x) as [y|er] eqn:F; [|reflexivity]. cbn [rbind].
    assert (LE : rev l <> []) by (intros Q; apply (f_equal (@rev _)) in Q; rewrite rev_involutive in Q; cbn in Q; congruence).
    destruct (rev l) as [|mz r] eqn:RV; [congruence|]. assert (LL : l = rev r ++ [mz]) by (rewrite <- (rev_involutive l), RV; reflexivity).
    cbn [opt_eqb]. rewrite LL in F, C. apply Forall_app in C as [_ C]. inversion C as [|? ? C1 _]; subst. rewrite (run_out _ _ _ _ C1 F). reflexivity.
  - cbn [assert_ run_all]. inversion C as [|? ? C1 C2 Q]; [congruence|]. rewrite EL in *. injection Q as -> ->. rewrite (proj1 (C1 x) E). reflexivity.
Qed.
(** a module that behaves as the sequence l *)
Definition stands (m : emod) (l : list emod) : Prop :=
  chained R l /\ (exists a r, l = a :: r /\ em_in m = em_in a) /\ (exists z r, rev l = z :: r /\ em_out m = em_out z) /\ forall x, em_fwd m x = run_all l x.
Lemma stands_checks m l : stands m l -> Forall chk l -> chk m.
Proof.
  intros (_ & (a & r & -> & E1) & (z & r' & E2 & E3) & F) C x. rewrite E1, E3, F. split.
  - intros E. inversion C as [|? ? C1 _]; subst. cbn [run_all]. rewrite (proj1 (C1 x) E). reflexivity.
  - intros y H. assert (LL : a :: r = rev r' ++ [z]) by (rewrite <- (rev_involutive (a :: r)), E2; reflexivity). rewrite LL in *. apply Forall_app in C as [_ C]. inversion C; subst. eapply run_out; eauto.
Qed.
Lemma stands_concat (ms : list emod) Ls : Forall2 stands ms Ls -> Forall (Forall chk) Ls ->
  (chained R ms <-> chained R (concat Ls)) /\ (forall x, run_all ms x = run_all (concat Ls) x) /\
  match ms with [] => concat Ls = [] | m :: _ => exists a r, concat Ls = a :: r /\ em_in m = em_in a end /\
  match rev ms with [] => True | m :: _ => exists a r, rev (concat Ls) = a :: r /\ em_out m = em_out a end.
Proof.
  intros F C. induction F as [|m L ms Ls H F IH].
  - cbn. split; [tauto|]. split; auto.
  - inversion C as [|? ? C1 C2]; subst. destruct (IH C2) as (I1 & I2 & I3 & I4). pose proof H as (H1 & (a & r & E1 & E2) & (z & r' & E3 & E4) & E5). cbn [concat].
    split; [|split; [|split]].
    + rewrite chained_cons, chained_app, E3. rewrite I1. destruct ms as [|m2 ms].
      * rewrite I3. split; [intros _; split; [auto|split; [apply chained_nil|exact I]]|intros _; split; [exact I|apply chained_nil]].
      * destruct I3 as (a2 & r2 & E6 & E7). rewrite E6. rewrite E7, E4. tauto.
    + intros x. cbn [run_all]. rewrite run_all_app, <- E5. destruct (em_fwd m x); [apply I2|reflexivity].
    + exists a, (r ++ concat Ls). rewrite E1. auto.
    + cbn [rev]. rewrite rev_app_distr. destruct ms as [|m2 ms].
      * cbn [rev app]. rewrite I3. cbn [rev app]. exists z, r'. auto.
      * destruct (rev (m2 :: ms)) as [|mz rm] eqn:RV; [cbn [rev] in RV; apply app_eq_nil in RV as [_ RV]; discriminate|]. cbn [app]. destruct I4 as (a2 & r2 & E6 & E7). rewrite E6. cbn [app]. eauto.
Qed.
Lemma seq_stands (ms : list emod) s : seq_make type_eqb attr ms = Ok s -> is_chain type_eqb ms s.
Proof.
  intros MK. destruct (C39_construction _ _ type_eqb attr ms AT) as [K1 K2].
  destruct (chained_dec (fun a b : emod => type_eqb (em_in b) (em_out a)) ms) as [C|C]; [|rewrite (K2 C) in MK; discriminate].
  destruct (K1 C) as (s' & S1 & S2). rewrite MK in S1. injection S1 as <-. exact S2.
Qed.
Lemma flat_map_concat {A B} (f : A -> list B) l : flat_map f l = concat (map f l).
Proof. induction l; cbn; congruence. Qed.
Lemma build_stands t : filled t -> Forall chk (leaves t) -> forall m, bld t = Ok m -> stands m (leaves t).
Proof.
  induction t as [a|l IH] using tree_ind'; intros FI C m B.
  - cbn [build] in B. injection B as <-. cbn [leaves]. split; [apply chained_cons; split; [exact I|apply chained_nil]|]. split; [eauto|]. split; [cbn; eauto|]. intros x. cbn [run_all]. destruct (em_fwd a x); reflexivity.
  - rewrite build_node in B. apply rbind_ok in B as (ms & B1 & B). apply rbind_ok in B as (s & B2 & B). cbn [leaves] in C |- *. rewrite flat_map_concat in *.
    assert (FL : Forall filled l) by (inversion FI; subst; auto). assert (NE : l <> []) by (inversion FI; discriminate).
    assert (C' : Forall (Forall chk) (map leaves l)) by (apply Forall_concat; exact C).
    assert (S : Forall2 stands ms (map leaves l)).
    { clear - IH FL C' B1. revert ms B1. induction IH as [|t l H _ IHl]; intros ms B1; cbn [build_all map] in *; [injection B1 as <-; constructor|].
      inversion FL; subst. inversion C'; subst. apply rbind_ok in B1 as (m0 & M0 & B1). apply rbind_ok in B1 as (ms0 & M1 & B1). injection B1 as <-. constructor; [apply H; auto|apply IHl; auto]. }
    destruct (stands_concat _ _ S C') as (Q1 & Q2 & Q3 & Q4). pose proof (seq_stands _ _ B2) as CH. pose proof CH as (S2 & S3 & S4 & S5).
    assert (NM : ms <> []) by (intros ->; inversion S as [Q|]; destruct l; [congruence|discriminate]).
    assert (CM : Forall chk ms). { clear - S C'. induction S as [|m L ms Ls H S IH]; [constructor|]. inversion C'; subst. constructor; [eapply stands_checks; eauto|auto]. }
    unfold seq_module in B. rewrite S3, S4 in B. destruct ms as [|m0 ms]; [congruence|]. destruct (rev (m0 :: ms)) as [|mz r] eqn:RV; [discriminate|]. injection B as <-.
    split; [apply Q1; exact S5|]. split; [exact Q3|]. split; [exact Q4|]. intros x. cbn [em_fwd]. rewrite (seq_run _ _ CH NM CM). apply Q2.
Qed.
Lemma build_total t : filled t -> Forall chk (leaves t) -> chained R (leaves t) -> exists m, bld t = Ok m.
Proof.
  induction t as [a|l IH] using tree_ind'; intros FI C CH; [cbn; eauto|]. rewrite build_node. cbn [leaves] in C, CH. rewrite flat_map_concat in *.
  assert (FL : Forall filled l) by (inversion FI; subst; auto). assert (NE : l <> []) by (inversion FI; discriminate).
  assert (C' : Forall (Forall chk) (map leaves l)) by (apply Forall_concat; exact C).
  assert (B : exists ms, build_all l = Ok ms /\ Forall2 stands ms (map leaves l)).
  { clear NE FI C. induction IH as [|t l H _ IHl]; cbn [build_all map concat] in *; [exists []; split; [reflexivity|constructor]|]. inversion FL; subst. inversion C'; subst.
    apply chained_app in CH as (CH1 & CH2 & _). destruct H as [m M]; auto. rewrite M. cbn [rbind]. destruct IHl as (ms & M1 & M2); auto. rewrite M1. cbn [rbind]. exists (m :: ms). split; [reflexivity|].
    constructor; auto. apply build_stands; auto. }
  destruct B as (ms & B & S). rewrite B. cbn [rbind]. destruct (stands_concat _ _ S C') as (Q1 & Q2 & Q3 & Q4).
  destruct (C39_construction _ _ type_eqb attr ms AT) as [K1 _]. destruct (K1 (proj2 Q1 CH)) as (s & S1 & _ & S3 & S4 & _). rewrite S1. cbn [rbind]. unfold seq_module. rewrite S3, S4.
  destruct ms as [|m0 ms]; [exfalso; destruct l as [|t0 l]; [congruence|]; inversion S|].
  destruct (rev (m0 :: ms)) as [|mz r] eqn:RV; [cbn [rev] in RV; apply app_eq_nil in RV as [_ RV]; discriminate|]. eauto.
Qed.
Lemma build_error t : filled t -> Forall chk (leaves t) -> forall er, bld t = Err er -> er = "AssertionError"%string.
Proof.
  induction t as [a|l IH] using tree_ind'; intros FI C er B; [discriminate|]. rewrite build_node in B. cbn [leaves] in C. rewrite flat_map_concat in *.
  assert (FL : Forall filled l) by (inversion FI; subst; auto). assert (NE : l <> []) by (inversion FI; discriminate).
  assert (C' : Forall (Forall chk) (map leaves l)) by (apply Forall_concat; exact C).
  destruct (build_all l) as [ms|er'] eqn:BA; cbn [rbind] in B.
  - assert (NM : ms <> []). { destruct l as [|t0 l]; [congruence|]. cbn [build_all] in BA. apply rbind_ok in BA as (m0 & _ & BA). apply rbind_ok in BA as (ms0 & _ & BA). injection BA as <-. discriminate. }
    destruct (C39_construction _ _ type_eqb attr ms AT) as [K1 K2]. destruct (chained_dec (fun a b : emod => type_eqb (em_in b) (em_out a)) ms) as [D|D].
    + exfalso. destruct (K1 D) as (s & S1 & _ & S3 & S4 & _). rewrite S1 in B. cbn [rbind] in B. unfold seq_module in B. rewrite S3, S4 in B. destruct ms as [|m0 ms]; [congruence|].
      destruct (rev (m0 :: ms)) as [|mz r] eqn:RV; [cbn [rev] in RV; apply app_eq_nil in RV as [_ RV]; discriminate|discriminate].
    + rewrite (K2 D) in B. injection B as <-. reflexivity.
  - injection B as ->. clear NE FI C. induction IH as [|t l H _ IHl]; cbn [build_all map] in *; [discriminate|]. inversion FL; subst. inversion C'; subst.
    destruct (bld t) as [m|e1] eqn:BT; cbn [rbind] in BA; [|injection BA as ->; apply H; auto]. destruct (build_all l) as [ms|e2]; cbn [rbind] in BA; [discriminate|]. injection BA as ->. apply IHl; auto.
Qed.
(** the whole comparison *)
Lemma nested_flat t : filled t -> Forall chk (leaves t) ->
  match bld t with
  | Ok m => exists s, seq_make type_eqb attr (leaves t) = Ok s /\ sq_in s = Some (em_in m) /\ sq_out s = Some (em_out m) /\ forall x, em_fwd m x = seq_forward type_eqb ty s x
  | Err er => seq_make type_eqb attr (leaves t) = Err er
  end.
Proof.
  intros FI C. destruct (C39_construction _ _ type_eqb attr (leaves t) AT) as [K1 K2]. destruct (bld t) as [m|er] eqn:B.
  - destruct (build_stands t FI C m B) as (S1 & (a & r & E1 & E2) & (z & r' & E3 & E4) & F). destruct (K1 S1) as (s & Q1 & Q). pose proof Q as (Q2 & Q3 & Q4 & _). exists s. split; [exact Q1|].
    rewrite Q3, Q4, E3, E1, E2, E4. split; [reflexivity|]. split; [reflexivity|]. intros x. rewrite F. symmetry. apply seq_run; auto. apply filled_leaves; auto.
  - rewrite (build_error t FI C er B). apply K2. intros CH. destruct (build_total t FI C CH) as [m M]. congruence.
Qed.
End Nested.

From Coq Require Import Reals.
From Verif Require Import LinAlg Spec Model_Rep Model_FieldType Model_GSpace Model_Tensor Model_Conv Model_ConvT Model_Fieldwise Model_BatchNorm Model_Pool Model_Upsample Model_NormMax Model_Mask Model_Disentangle Model_Dropout
  Model_Expansion Model_Regular Model_Net Spec_Net Proofs_Net6 Model_Export Spec_Export Proofs_Export Model_Shape Spec_Shape Proofs_Shape Prop_Shape.

(** ** the modules of the library *)
Section Mods.
Context {G B : Type} (argmax : list R -> nat) (junk : nat -> B * (nat * nat) -> R) (junkn : nat -> nat -> R) (cob_id : rep G -> bool) (bt : batch B).
Notation teqb := (ft_eqb (space_eqb (G := G)) rep_eqb).
Notation modl := (xlayer_module argmax junk junkn cob_id bt).
Lemma wrong_type (l : layer G) x t : teqb t (layer_in l) = false -> layer_forward argmax junk junkn cob_id bt l (x, t) = Err "AssertionError"%string.
Proof.
  intros E. destruct l; cbn [layer_forward layer_in fst snd] in *; unfold on_channels, on_entries; cbn [fst snd];
  unfold conv_forward, tconv_forward, maxpool_forward, amaxpool_forward, avgpool_forward, aavgpool_forward, adpool_forward, nmaxpool_forward, upsampling_forward, pointwise_forward, norm_forward, inorm_forward,
    gated1_forward, conc_forward, vfield_forward, gpool_forward, npool_forward, pool_forward, ipool_forward, nbn_forward, inner_forward, gnorm_forward, dismod_forward, fdrop_forward, pdrop_forward; cbv zeta; cbn [gt_type];
  unfold ctype in *; rewrite E; reflexivity.
Qed.
Lemma modl_checks (l : xlayer G) : checks teqb snd (modl l).
Proof.
  intros [x t]. cbn [snd xlayer_module em_in em_out em_fwd]. split.
  - intros E. destruct l as [m|al m|u|l]; cbn [xlayer_forward xlayer_in snd] in *; try (apply (wrong_type (LPointwise m)); exact E); [unfold ctype in *; rewrite E; reflexivity|apply wrong_type; exact E].
  - intros [y t'] F. cbn [snd]. destruct l as [m|al m|u|l]; cbn [xlayer_forward xlayer_out snd] in *; try (exact (out_type argmax junk junkn cob_id bt (LPointwise m) x t y t' F)); [apply assert_ok in F as [E F]; injection F as <- <-; exact E|exact (out_type argmax junk junkn cob_id bt l x t y t' F)].
Qed.
Lemma modls_check (t : tree (xlayer G)) : Forall (checks teqb snd) (leaves (tmap modl t)).
Proof. rewrite leaves_tmap. apply Forall_map. apply Forall_forall. intros l _. apply modl_checks. Qed.
End Mods.
(** ** export *)
Lemma texport_leaves {A C D} (f : A -> result (C * D)) t t' : texport f t = Ok t' -> rmap f (leaves t) = Ok (leaves t') /\ (filled t -> filled t').
Proof.
  revert t'. induction t as [a|l IH] using tree_ind'; intros t' E; cbn [texport] in E.
  - apply rbind_ok in E as (b & E & E'). injection E' as <-. cbn [leaves rmap]. rewrite E. split; [reflexivity|constructor].
  - apply rbind_ok in E as (bs & E & E'). injection E' as <-. cbn [leaves].
    assert (Q : rmap f (flat_map leaves l) = Ok (flat_map leaves bs) /\ (Forall filled l -> Forall filled bs) /\ (l <> [] -> bs <> [])).
    { revert bs E. induction IH as [|a l H _ IH]; intros bs E; [injection E as <-; cbn; auto|]. apply rbind_ok in E as (b & E1 & E). apply rbind_ok in E as (bs' & E2 & E). injection E as <-.
      destruct (H _ E1) as [H1 H2]. destruct (IH _ E2) as (H3 & H4 & _). cbn [flat_map]. split; [|split; [intros FF; inversion FF; subst; constructor; auto|discriminate]].
      revert H1 H3. generalize (leaves a), (leaves b), (flat_map leaves l), (flat_map leaves bs'). clear. intros la lb l2 l3 H1 H2. revert lb H1. induction la as [|x la IH]; intros lb H1; cbn [rmap app] in *; [injection H1 as <-; exact H2|].
      apply rbind_ok in H1 as (y & Y & H1). apply rbind_ok in H1 as (ys & YS & H1). injection H1 as <-. rewrite Y. cbn [rbind]. rewrite (IH _ YS). reflexivity. }
    destruct Q as (Q1 & Q2 & Q3). split; [exact Q1|]. intros FF. inversion FF as [|a l' F1 F2]; subst. destruct bs as [|b bs]; [exfalso; apply Q3; [discriminate|reflexivity]|].
    specialize (Q2 ltac:(constructor; auto)). inversion Q2; subst. constructor; auto.
Qed.
Lemma ttree_leaves {B} (bt : batch B) t : forall z, ttree_forward bt t z = tnet_forward bt (leaves t) z.
Proof.
  assert (APP : forall l1 l2 z, tnet_forward bt (l1 ++ l2) z = rbind (tnet_forward bt l1 z) (tnet_forward bt l2)).
  { induction l1 as [|a l1 IH]; intros l2 z; [reflexivity|]. cbn [app tnet_forward]. destruct (tlayer_forward bt a z); [apply IH|reflexivity]. }
  induction t as [a|l IH] using tree_ind'; intros z; cbn [ttree_forward leaves].
  - cbn [tnet_forward]. destruct (tlayer_forward bt a z); reflexivity.
  - revert z. induction IH as [|a l H _ IH]; intros z; [reflexivity|]. cbn [flat_map]. rewrite APP, H. destruct (tnet_forward bt (leaves a) z) as [y|]; [|reflexivity]. cbn [rbind]. apply IH.
Qed.
(** ** shapes *)
Lemma tree_in_leaves {G} (t : tree (xlayer G)) : filled t -> exists a r, leaves t = a :: r /\ tree_in t = Ok (xlayer_in a).
Proof.
  induction t as [a|l IH] using tree_ind'; intros FI; [exists a, []; auto|]. inversion FI as [|a l' F1 F2]; subst. inversion IH as [|? ? I1 _]; subst. destruct (I1 F1) as (b & r & E1 & E2). cbn [leaves flat_map tree_in]. rewrite E1.
  exists b, (r ++ flat_map leaves l'). auto.
Qed.
Lemma tree_tells {G B} argmax junk junkn cob_id (bt : batch B) batch (t : tree (xlayer G)) : filled t -> Forall announces (leaves t) -> forall x y,
  run_all (map (xlayer_module argmax junk junkn cob_id bt) (leaves t)) x = Ok y -> tree_shape t (shape_of batch x) = Ok (shape_of batch y).
Proof.
  induction t as [a|l IH] using tree_ind'; intros FI A x y R.
  - cbn [leaves map run_all] in R. apply rbind_ok in R as (z & R & E). injection E as <-. cbn [xlayer_module em_fwd] in R. destruct x as [x u], z as [z u']. cbn [leaves] in A. inversion A; subst. exact (announces_tells argmax junk junkn cob_id bt a ltac:(assumption) batch x u z u' R).
  - destruct (tree_in_leaves _ FI) as (a & r & E1 & E2). cbn [tree_shape]. rewrite E2. cbn [rbind]. destruct x as [x u]. unfold shape_of at 1. cbn [fst snd].
    assert (TI : ft_eqb space_eqb rep_eqb u (xlayer_in a) = true).
    { rewrite E1 in R. cbn [map run_all xlayer_module em_fwd] in R. apply rbind_ok in R as (z & R & _). exact (fwd_in argmax junk junkn cob_id bt a x u z R). }
    replace (Z.of_nat (ct_size u) =? Z.of_nat (ct_size (xlayer_in a)))%Z with true by (rewrite (teqb_size _ _ TI), Z.eqb_refl; reflexivity). cbn [assert_].
    assert (FL : Forall filled l) by (inversion FI; subst; auto). cbn [leaves] in A, R. clear FI E1 E2 TI a r.
    change (batch, Z.of_nat (ct_size u), DInt (Z.of_nat (a_h x)), DInt (Z.of_nat (a_w x))) with (shape_of batch (x, u)).
    generalize dependent (x, u). clear x u. induction IH as [|a l H _ IH]; intros x R; [injection R as <-; reflexivity|].
    cbn [flat_map] in A, R. apply Forall_app in A as [A1 A2]. inversion FL; subst. rewrite map_app, run_all_app in R. apply rbind_ok in R as (z & R1 & R2). rewrite (H ltac:(assumption) A1 x z R1). cbn [rbind]. apply IH; auto.
Qed.
