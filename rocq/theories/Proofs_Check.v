(** For C66: the loop of check_equivariance. *)
From Coq Require Import Reals ZArith String List Bool Lia Lra FunctionalExtensionality.
From Verif Require Import Base LinAlg Spec Spec_Fields Model_Groups Model_Rep Proofs_Rep Proofs_Restrict Model_FieldType Proofs_FieldType Model_GSpace Spec_GSpace Proofs_GSpace Model_Tensor Model_Utils Model_Modules Model_Conv Spec_Conv
  Proofs_Conv Proofs_Conv2 Proofs_Conv3 Proofs_Conv4 Proofs_Conv5 Proofs_Conv6 Proofs_Tensor Prop_Pool Model_Fieldwise Spec_Fieldwise Spec_Fieldwise2 Model_BatchNorm Spec_BatchNorm
  Model_Support Spec_Support Model_Net Spec_Net Proofs_Net Proofs_Net2 Proofs_Net3 Proofs_Net4 Proofs_Net5 Proofs_Net6 Model_Train Spec_Train Proofs_Train Proofs_Train2 Model_Check Spec_Check.
Import ListNotations.
Open Scope R_scope.

(** * comparing tensors *)
Section Compare.
Context {G B : Type} (bt : batch B).
Notation tensor := (arr (B -> vec) * ctype G)%type.

Lemma flat_map_same {A C} (f g : A -> list C) l : (forall a, In a l -> f a = g a) -> flat_map f l = flat_map g l.
Proof. induction l as [|a l IH]; intros H; cbn; [reflexivity|]. rewrite (H a) by (left; reflexivity). rewrite IH; [reflexivity|]. intros b Hb. apply H. right. exact Hb. Qed.
Lemma all_entries_in n (y : arr (B -> vec)) b c i j : (b < bt_n bt)%nat -> (c < n)%nat -> (i < a_h y)%nat -> (j < a_w y)%nat -> In (a_px y i j (bt_at bt b) c) (all_entries bt n y).
Proof.
  intros Hb Hc Hi Hj. unfold all_entries. apply in_flat_map. exists b. split; [apply in_seq; lia|]. apply in_flat_map. exists c. split; [apply in_seq; lia|].
  apply in_flat_map. exists i. split; [apply in_seq; lia|]. apply in_map_iff. exists j. split; [reflexivity|]. apply in_seq. lia.
Qed.
(** the pairs of entries with the same position *)
Definition pairs (n : nat) (y z : arr (B -> vec)) : list (R * R) :=
  flat_map (fun b => flat_map (fun c => flat_map (fun i => map (fun j => (a_px y i j (bt_at bt b) c, a_px z i j (bt_at bt b) c)) (seq 0 (a_w y))) (seq 0 (a_h y))) (seq 0 n)) (seq 0 (bt_n bt)).
Lemma combine_map {A X Y} (f : A -> X) (g : A -> Y) l : combine (map f l) (map g l) = map (fun a => (f a, g a)) l.
Proof. induction l; cbn; congruence. Qed.
Lemma combine_app' {X Y} (l1 : list X) (m1 : list Y) : length l1 = length m1 -> forall l2 m2, combine (l1 ++ l2) (m1 ++ m2) = (combine l1 m1 ++ combine l2 m2)%list.
Proof. revert m1. induction l1 as [|a l1 IH]; intros [|b m1] L l2 m2; try discriminate; cbn; [reflexivity|]. rewrite IH by (cbn in L; lia). reflexivity. Qed.
Lemma combine_flat_map {A X Y} (f : A -> list X) (g : A -> list Y) l : (forall a, length (f a) = length (g a)) -> combine (flat_map f l) (flat_map g l) = flat_map (fun a => combine (f a) (g a)) l.
Proof. intros H. induction l as [|a l IH]; cbn; [reflexivity|]. rewrite combine_app' by apply H. rewrite IH. reflexivity. Qed.
Lemma flat_map_len {A X Y} (f : A -> list X) (g : A -> list Y) l : (forall a, length (f a) = length (g a)) -> length (flat_map f l) = length (flat_map g l).
Proof. intros H. induction l as [|a l IH]; cbn; [reflexivity|]. rewrite !app_length, H, IH. reflexivity. Qed.
Lemma pairs_combine n y z : a_h y = a_h z -> a_w y = a_w z -> combine (all_entries bt n y) (all_entries bt n z) = pairs n y z.
Proof.
  intros H W. unfold all_entries, pairs. rewrite <- H, <- W.
  rewrite combine_flat_map by (intros b; apply flat_map_len; intros c; apply flat_map_len; intros i; rewrite !map_length; reflexivity). apply flat_map_same. intros b _.
  rewrite combine_flat_map by (intros c; apply flat_map_len; intros i; rewrite !map_length; reflexivity). apply flat_map_same. intros c _.
  rewrite combine_flat_map by (intros i; rewrite !map_length; reflexivity). apply flat_map_same. intros i _. apply combine_map.
Qed.
Lemma pairs_in n y z p : In p (pairs n y z) <-> exists b c i j, (b < bt_n bt)%nat /\ (c < n)%nat /\ (i < a_h y)%nat /\ (j < a_w y)%nat /\ p = (a_px y i j (bt_at bt b) c, a_px z i j (bt_at bt b) c).
Proof.
  unfold pairs. split.
  - intros H. apply in_flat_map in H as (b & Hb & H). apply in_flat_map in H as (c & Hc & H). apply in_flat_map in H as (i & Hi & H). apply in_map_iff in H as (j & E & Hj).
    apply in_seq in Hb, Hc, Hi, Hj. exists b, c, i, j. rewrite <- E. repeat split; lia.
  - intros (b & c & i & j & Hb & Hc & Hi & Hj & ->). apply in_flat_map. exists b. split; [apply in_seq; lia|]. apply in_flat_map. exists c. split; [apply in_seq; lia|].
    apply in_flat_map. exists i. split; [apply in_seq; lia|]. apply in_map_iff. exists j. split; [reflexivity|]. apply in_seq. lia.
Qed.
Lemma close_iff atol rtol a b : close atol rtol a b = true <-> Rabs (a - b) <= atol + rtol * Rabs b.
Proof. unfold close. destruct (Rle_dec _ _); split; intros; auto; discriminate. Qed.
(** compare succeeds if the tensors agree *)
Lemma compare_ok atol rtol (y z : tensor) : (exists err, compare bt atol rtol y z = Ok err) <-> agree bt atol rtol y z.
Proof.
  unfold compare, agree. split.
  - intros [err E]. destruct ((a_h (fst y) =? a_h (fst z)) && (a_w (fst y) =? a_w (fst z)) && (ct_size (snd y) =? ct_size (snd z)))%nat%bool eqn:D; [|discriminate]. cbn [negb] in E.
    apply andb_true_iff in D as [D D3]. apply andb_true_iff in D as [D1 D2]. apply Nat.eqb_eq in D1, D2, D3. cbv zeta in E. rewrite <- D3 in E. rewrite (pairs_combine _ _ _ D1 D2) in E.
    split; [exact D1|]. split; [exact D2|]. split; [exact D3|]. destruct (pairs (ct_size (snd y)) (fst y) (fst z)) as [|p ps] eqn:EP; [discriminate|]. rewrite <- EP in E. apply assert_ok in E as [E _]. split.
    + assert (I : In p (pairs (ct_size (snd y)) (fst y) (fst z))) by (rewrite EP; left; reflexivity). apply pairs_in in I as (b & c & i & j & H1 & H2 & H3 & H4 & _). lia.
    + intros b c i j Hb Hc Hi Hj. rewrite forallb_forall in E. specialize (E (a_px (fst y) i j (bt_at bt b) c, a_px (fst z) i j (bt_at bt b) c)). cbn [fst snd] in E. apply close_iff, E. apply pairs_in. exists b, c, i, j. auto 10.
  - intros (D1 & D2 & D3 & (P1 & P2 & P3 & P4) & H). rewrite D1, D2, D3, !Nat.eqb_refl. cbn [andb negb]. cbv zeta. rewrite <- D3. rewrite (pairs_combine _ _ _ D1 D2).
    destruct (pairs (ct_size (snd y)) (fst y) (fst z)) as [|p ps] eqn:EP.
    { exfalso. assert (I : In (a_px (fst y) 0 0 (bt_at bt 0) 0%nat, a_px (fst z) 0 0 (bt_at bt 0) 0%nat) (pairs (ct_size (snd y)) (fst y) (fst z))) by (apply pairs_in; exists 0%nat, 0%nat, 0%nat, 0%nat; auto 10). rewrite EP in I. exact I. }
    rewrite <- EP. replace (forallb _ _) with true; [eexists; reflexivity|]. symmetry. apply forallb_forall. intros q Hq. apply pairs_in in Hq as (b & c & i & j & H1 & H2 & H3 & H4 & ->). cbn [fst snd]. apply close_iff. apply H; auto.
Qed.
Lemma fold_zero {A} (f : A -> R) l : (forall a, In a l -> f a = 0) -> fold_right Rplus 0 (map f l) = 0.
Proof. induction l as [|a l IH]; intros H; cbn; [reflexivity|]. rewrite (H a) by (left; reflexivity). rewrite IH; [ring|]. intros b Hb. apply H. right. exact Hb. Qed.
Lemma same_compare atol rtol (t : ctype G) y z : 0 <= atol -> 0 <= rtol -> same_field (ct_size t) y z -> (0 < ct_size t)%nat -> some_entry bt (y, t) -> compare bt atol rtol (y, t) (z, t) = Ok 0.
Proof.
  intros A R (D1 & D2 & V) N (P1 & P3 & P4). cbn [fst] in *.
  assert (AG : agree bt atol rtol (y, t) (z, t)).
  { unfold agree. cbn [fst snd]. split; [exact D1|]. split; [exact D2|]. split; [reflexivity|]. split; [auto|]. intros b c i j Hb Hc Hi Hj. rewrite (V i j (bt_at bt b) c Hi Hj Hc). rewrite Rminus_eq_0, Rabs_R0. pose proof (Rmult_le_pos rtol (Rabs (a_px z i j (bt_at bt b) c)) R (Rabs_pos _)). lra. }
  destruct (proj2 (compare_ok atol rtol (y, t) (z, t)) AG) as [err E]. rewrite E. f_equal. unfold compare in E. cbn [fst snd] in E. rewrite D1, D2, !Nat.eqb_refl in E. cbn [andb negb] in E. cbv zeta in E.
  rewrite (pairs_combine _ _ _ D1 D2) in E. destruct (pairs (ct_size t) y z) as [|p ps] eqn:EP; [discriminate|]. rewrite <- EP in E. apply assert_ok in E as [_ E]. injection E as <-.
  unfold mean. rewrite fold_zero; [unfold Rdiv; ring|]. intros q Hq. apply pairs_in in Hq as (b & c & i & j & H1 & H2 & H3 & H4 & ->). cbn [fst snd]. rewrite (V i j (bt_at bt b) c H3 H4 H2), Rminus_eq_0. apply Rabs_R0.
Qed.
End Compare.

(** * calls in evaluation mode *)
Lemma set_same {K St} keqb (st : K -> St) k : (forall a b, reflect (a = b) (keqb a b)) -> set_at keqb st k (st k) = st.
Proof. intros E. apply functional_extensionality. intros k'. unfold set_at. destruct (E k k'); [subst; reflexivity|reflexivity]. Qed.
Lemma state_loop_keep {K St A} keqb (key : K -> string) idx (step : K -> St -> list A -> result (St * list A)) x : (forall a b, reflect (a = b) (keqb a b)) ->
  (forall k s fm r, step k s fm = Ok r -> fst r = s) -> forall order st out r, state_loop keqb key idx step x order st out = Ok r -> fst r = st.
Proof.
  intros EP K0. induction order as [|a l IH]; cbn [state_loop]; intros st out r E; [injection E as <-; reflexivity|].
  apply rbind_ok in E as (ci & _ & E). apply rbind_ok in E as (fm & _ & E). apply rbind_ok in E as (sv & S & E). apply rbind_ok in E as (o & _ & E).
  rewrite (K0 _ _ _ _ S), (set_same keqb st a EP) in E. exact (IH _ _ _ E).
Qed.
Section Eval.
Context {G B : Type} (argmax : list R -> nat) (cob_id : rep G -> bool) (bt : batch B).
Notation tensor := (arr (B -> vec) * ctype G)%type.
Lemma bn3d_keep eps mo n s m bl r : bn3d_forward false eps mo n s m bl = Ok r -> fst r = m.
Proof.
  unfold bn3d_forward. cbn [andb orb]. intros E. repeat match type of E with (if ?c then _ else _) = _ => destruct c; [discriminate|] end. cbv zeta in E.
  apply rbind_ok in E as (st & S & E). apply rbind_ok in E as (z & _ & E). apply rbind_ok in E as (z' & _ & E). apply rbind_ok in E as (o & _ & E). injection E as <-. cbn [fst].
  destruct m as [p [st0|] b]; cbn in S |- *; injection S as <-; reflexivity.
Qed.
Lemma nbn_keep {K} keqb key ksize ksub n (m m1 : nbn (GS := space G) (G := G) (K := K)) x y : nbn_forward space_eqb rep_eqb keqb key ksize ksub false n m x = Ok (y, m1) -> m1 = m.
Proof.
  unfold nbn_forward. intros E. apply assert_ok in E as [_ E]. cbv zeta in E. apply rbind_ok in E as (vs & V & E). injection V as <-. apply rbind_ok in E as (d & _ & E). apply rbind_ok in E as (z & _ & E).
  injection E as _ <-. destruct m; reflexivity.
Qed.
Lemma inner_keep n junk (m m1 : ibn) (x y : gtensor (space G) (rep G) (nat -> R)) : inner_forward space_eqb rep_eqb false n junk m x = Ok (y, m1) -> m1 = m.
Proof.
  unfold inner_forward. intros E. apply assert_ok in E as [_ E]. apply rbind_ok in E as (so & S & E). apply rbind_ok in E as (z & _ & E). injection E as _ <-.
  assert (Q : fst so = ib_bn m); [refine (state_loop_keep Nat.eqb py_str _ _ _ Nat.eqb_spec _ _ _ _ _ S)|rewrite Q; destruct m; reflexivity]. intros k s fm r E. apply rbind_ok in E as (bl & _ & E). apply rbind_ok in E as (r0 & F & E). injection E as <-. exact (bn3d_keep _ _ _ _ _ _ _ F).
Qed.
Lemma gnorm_keep n junk (m m1 : gbn) (x y : gtensor (space G) (rep G) (nat -> R)) : gnorm_forward space_eqb rep_eqb cob_id false n junk m x = Ok (y, m1) -> m1 = m.
Proof.
  unfold gnorm_forward. intros E. apply assert_ok in E as [_ E]. cbv zeta in E. apply rbind_ok in E as (so & S & E). apply rbind_ok in E as (z & _ & E). injection E as _ <-.
  assert (Q : fst so = gb_stats m); [refine (state_loop_keep String.eqb (fun l => l) _ _ _ String.eqb_spec _ _ _ _ _ S)|rewrite Q; destruct m; reflexivity]. intros k s fm r E. destruct (find _ _); [|discriminate]. unfold gn_step in E. cbn [andb] in E.
  apply rbind_ok in E as (bl & _ & E). apply rbind_ok in E as (st & S' & E). injection S' as <-. apply rbind_ok in E as (z0 & _ & E). apply rbind_ok in E as (o & _ & E). injection E as <-. reflexivity.
Qed.
Lemma next_keep junkn (l l1 : layer G) (x : tensor) : in_eval l -> layer_next cob_id junkn bt l x = Ok l1 -> l1 = l.
Proof.
  destruct l; cbn [in_eval layer_next]; intros E F; try (injection F as <-; reflexivity); subst; apply rbind_ok in F as (m1 & F & F'); injection F' as <-; unfold state_of in F; apply rbind_ok in F as ([y m2] & F & F'); injection F' as <-; cbn [snd].
  - rewrite (nbn_keep _ _ _ _ _ _ _ _ _ F). reflexivity.
  - rewrite (nbn_keep _ _ _ _ _ _ _ _ _ F). reflexivity.
  - rewrite (inner_keep _ _ _ _ _ _ F). reflexivity.
  - rewrite (gnorm_keep _ _ _ _ _ _ F). reflexivity.
Qed.
Lemma call_keep junk junkn ls : Forall in_eval ls -> forall (x y : tensor) ls1, call_all argmax cob_id junk junkn bt ls x = Ok (y, ls1) -> ls1 = ls.
Proof.
  induction 1 as [|l ls E _ IH]; cbn [call_all]; intros x y ls1 F; [injection F as _ <-; reflexivity|].
  apply rbind_ok in F as (z & _ & F). apply rbind_ok in F as (l1 & N & F). apply rbind_ok in F as ([y1 r] & C & F). injection F as <- <-. cbn [snd]. rewrite (next_keep _ _ _ _ E N), (IH _ _ _ C). reflexivity.
Qed.
End Eval.

(** * the loop *)
Section Loop.
Context {G B St : Type} (bt : batch B) (call : St -> arr (B -> vec) * ctype G -> result (arr (B -> vec) * ctype G * St)) (move : arr (B -> vec) * ctype G -> gelt -> result (arr (B -> vec) * ctype G)) (atol rtol : R).
Lemma loop_zero x (inv : St -> Prop) els : (forall s e, inv s -> In e els -> exists y s1 out1 x' out2 s2, call s x = Ok (y, s1) /\ move y e = Ok out1 /\ move x e = Ok x' /\ call s1 x' = Ok (out2, s2) /\ compare bt atol rtol out1 out2 = Ok 0 /\ inv s2) ->
  forall s, inv s -> exists s', check_loop bt call move atol rtol x els s = Ok (map (fun e => (e, 0)) els, s') /\ inv s'.
Proof.
  induction els as [|e els IH]; intros H s I; cbn [check_loop map]; [eexists; split; [reflexivity|exact I]|].
  destruct (H s e I (or_introl eq_refl)) as (y & s1 & out1 & x' & out2 & s2 & C1 & M1 & M2 & C2 & D & I2).
  destruct (IH (fun s e' Is Ie => H s e' Is (or_intror Ie)) s2 I2) as (s' & L & I'). exists s'. rewrite C1. cbn [rbind fst snd]. rewrite M1. cbn [rbind]. rewrite M2. cbn [rbind]. rewrite C2. cbn [rbind fst snd]. rewrite D. cbn [rbind]. rewrite L. auto.
Qed.
End Loop.
Lemma function_loop {G B} (bt : batch B) (f : arr (B -> vec) * ctype G -> result (arr (B -> vec) * ctype G)) move atol rtol x els :
  (exists r, check_loop bt (fun (_ : unit) x => rbind (f x) (fun y => Ok (y, tt))) move atol rtol x els tt = Ok r) <->
  forall e, In e els -> exists y out1 x' out2, f x = Ok y /\ move y e = Ok out1 /\ move x e = Ok x' /\ f x' = Ok out2 /\ agree bt atol rtol out1 out2.
Proof.
  induction els as [|e els IH]; cbn [check_loop]; [split; [intros _ ? []|intros _; eexists; reflexivity]|]. split.
  - intros [r E]. apply rbind_ok in E as ([y []] & E1 & E). apply rbind_ok in E1 as (y0 & F1 & E1). injection E1 as ->. cbn [fst snd] in E. apply rbind_ok in E as (out1 & M1 & E). apply rbind_ok in E as (x' & M2 & E).
    apply rbind_ok in E as ([out2 []] & E2 & E). apply rbind_ok in E2 as (y2 & F2 & E2). injection E2 as ->. cbn [fst snd] in E. apply rbind_ok in E as (err & D & E). apply rbind_ok in E as (r' & E & _).
    intros e' [<-|I]; [|exact (proj1 IH (ex_intro _ r' E) e' I)]. exists y, out1, x', out2. repeat (split; [assumption|]). apply compare_ok. exists err. exact D.
  - intros H. destruct (H e (or_introl eq_refl)) as (y & out1 & x' & out2 & F1 & M1 & M2 & F2 & A). apply compare_ok in A as [err D]. destruct (proj2 IH (fun e' I => H e' (or_intror I))) as [r E].
    rewrite F1. cbn [rbind fst snd]. rewrite M1. cbn [rbind]. rewrite M2. cbn [rbind]. rewrite F2. cbn [rbind fst snd]. rewrite D. cbn [rbind]. rewrite E. eexists. reflexivity.
Qed.

(** * the testing elements *)
Lemma testing_element g e : In e (testing_elements g) -> fg_is_element g e = true.
Proof.
  destruct g; cbn [testing_elements]; intros H.
  - apply in_map_iff in H as (k & <- & H). unfold cyc_elements in H. apply in_map_iff in H as (i & <- & H). apply in_seq in H. cbn. unfold cyc_is_element. apply andb_true_iff. split; [apply Z.leb_le|apply Z.ltb_lt]; lia.
  - apply in_map_iff in H as (k & <- & H). unfold dih_elements in H. apply in_app_or in H as [H|H]; apply in_map_iff in H as (i & <- & H); apply in_seq in H; cbn; unfold dih_is_element; cbn; apply andb_true_iff; split; (apply Z.leb_le || apply Z.ltb_lt); lia.
  - apply in_map_iff in H as (k & <- & H). reflexivity.
  - apply in_app_or in H as [H|H]; apply in_map_iff in H as (i & <- & H); reflexivity.
Qed.
Lemma testing_all g e : finite_group g -> fg_is_element g e = true -> In e (testing_elements g).
Proof.
  destruct g; cbn [finite_group]; intros [] H; destruct e as [z| |z z0|]; try discriminate; cbn in H |- *.
  - unfold cyc_is_element in H. apply andb_true_iff in H as [H1 H2]. apply Z.leb_le in H1. apply Z.ltb_lt in H2. apply in_map. unfold cyc_elements. apply in_map_iff. exists (Z.to_nat z). split; [lia|]. apply in_seq. lia.
  - unfold dih_is_element in H. apply andb_true_iff in H as [H H3]. apply andb_true_iff in H as [H1 H2]. cbn [fst snd] in *. apply Z.leb_le in H2. apply Z.ltb_lt in H3. apply in_map_iff. exists (z, z0). split; [reflexivity|]. unfold dih_elements.
    apply in_or_app. apply orb_true_iff in H1 as [H1|H1]; apply Z.eqb_eq in H1; subst z; [left|right]; apply in_map_iff; exists (Z.to_nat z0); (split; [f_equal; lia|apply in_seq; lia]).
Qed.

(** * networks *)
Section Network.
Context {G B : Type} (sp : space G) (isrep : rep G -> Prop) (PS : planar_space G sp isrep) (argmax : list R -> nat) (cob_id : rep G -> bool) (fits : space G -> rep G -> bool) (bt : batch B) (interp : forall A : Type, R -> R -> arr A -> arr A).
Hypothesis AM : argmax_ok argmax.
Hypothesis NB : numbered bt.
Lemma ok_size g t : ok_type sp isrep g t -> (0 < ct_size t)%nat.
Proof.
  intros (_ & N & H). unfold ct_size. destruct (ft_reps t) as [|r rs]; [contradiction|]. destruct (H r (or_introl eq_refl)) as (_ & P & _). unfold nsum. cbn. lia.
Qed.
Lemma network_step junks junkns net t x e : Forall in_eval net -> usable sp isrep cob_id fits net t e ->
  (forall i, exists y, run_all (map (layer_module argmax (junks i) (junkns i) cob_id bt) net) (x, t) = Ok y /\ some_entry bt y /\ suits_all argmax cob_id bt (junks i) (junkns i) net (x, t)) ->
  forall atol rtol k, 0 <= atol -> 0 <= rtol -> exists y out1 x' out2, net_call bt argmax cob_id junks junkns (k, net) (x, t) = Ok (y, (S k, net)) /\ move_full interp y e = Ok out1 /\ move_full interp (x, t) e = Ok x' /\
    net_call bt argmax cob_id junks junkns (S k, net) x' = Ok (out2, (S (S k), net)) /\ compare bt atol rtol out1 out2 = Ok 0.
Proof.
  intros EV (g & He & Hg & GE & GL & OT) RU atol rtol k A0 R0. destruct (space_ok _ _ _ PS) as [code [el [inv SF]]]. destruct (exact_angle _ _ (sf_constructed _ _ _ _ _ SF) He GE) as (kk & Hk & Ek).
  destruct (RU k) as ([y t'] & F & SE & SU). pose proof OT as (T1 & T2 & _).
  destruct (rel_transform (B := B) sp isrep PS e g kk He Hg Hk interp t x T1 T2) as (x1 & X1 & X2).
  destruct (call_step sp isrep PS e g kk argmax cob_id bt fits He GE Hg Hk Ek AM NB (junks k) (junks (S k)) (junkns k) (junkns (S k)) net GL t x x1 y t' OT X2 F SU) as (O' & y' & ls1 & C1 & C2 & RY & _).
  pose proof O' as (U1 & U2 & _). pose proof (call_keep argmax cob_id bt _ _ net EV _ _ _ C1) as ->.
  destruct (rel_transform (B := B) sp isrep PS e g kk He Hg Hk interp t' y U1 U2) as (y1 & Y1 & Y2).
  exists (y, t'), (y1, t'), (x1, t), (y', t'). unfold net_call, move_full. cbn [fst snd]. rewrite C1. cbn [rbind fst snd]. rewrite Y1, X1. cbn [rbind fst snd]. rewrite C2. cbn [rbind fst snd].
  repeat (split; [reflexivity|]). apply same_compare; auto; [eapply rel_unique; eauto|eapply ok_size; eauto|]. destruct SE as (P1 & P2 & P3). destruct Y2 as (D1 & D2 & _). cbn [amap a_h a_w] in D1, D2.
  destruct (turn_h (gflip (sp_obj sp) e) kk y) as [E1 E2]. split; [exact P1|]. cbn [fst] in *. rewrite D1, D2, E1, E2. clear - P2 P3. unfold turn. rewrite !rot90_red. destruct (mod4 kk) as [Q|[Q|[Q|Q]]]; rewrite Q; destruct (gflip _ _); cbn; lia.
Qed.
Lemma network_check junks junkns net t x atol rtol : Forall in_eval net -> ft_gs t = sp -> (forall e, In e (testing_elements (sp_group (sp_obj sp))) -> usable sp isrep cob_id fits net t e) ->
  (forall i, exists y, run_all (map (layer_module argmax (junks i) (junkns i) cob_id bt) net) (x, t) = Ok y /\ some_entry bt y /\ suits_all argmax cob_id bt (junks i) (junkns i) net (x, t)) ->
  0 <= atol -> 0 <= rtol -> check_network bt argmax cob_id junks junkns interp atol rtol net (x, t) = Ok (map (fun e => (e, 0)) (testing_elements (sp_group (sp_obj sp))), net).
Proof.
  intros EV TS US RU A0 R0. unfold check_network. cbn [snd]. rewrite TS.
  destruct (loop_zero bt (net_call bt argmax cob_id junks junkns) (move_full interp) atol rtol (x, t) (fun s => snd s = net) (testing_elements (sp_group (sp_obj sp)))) with (s := (0%nat, net)) as (s' & L & I).
  - intros [k n] e I Ie. cbn [snd] in I. subst n. destruct (network_step junks junkns net t x e EV (US e Ie) RU atol rtol k A0 R0) as (y & out1 & x' & out2 & C1 & M1 & M2 & C2 & D).
    exists y, (S k, net), out1, x', out2, (S (S k), net). auto 10.
  - reflexivity.
  - rewrite L. cbn [rbind fst snd]. rewrite I. reflexivity.
Qed.
End Network.
