(** Proofs about the histories of SO(2) and O(2): objects only grow. *)
From Coq Require Import Reals ZArith String List Bool Arith Lia Lra.
From Verif Require Import Base Model_Groups Model_Rep Model_FieldType Model_Utils Model_Hist Proofs_FieldType.
Import ListNotations.
Open Scope Z_scope.

Lemma axis_eqb_spec a b : axis_eqb a b = true <-> a = b.
Proof.
  destruct a as [x|], b as [y|]; cbn; try (split; [discriminate|discriminate]); try (split; [reflexivity|reflexivity]).
  destruct (Req_EM_T x y) as [->|N]; split; intros H; auto; try discriminate. injection H as H. tauto.
Qed.
Lemma oid_eqb_spec a b : oid_eqb a b = true <-> a = b.
Proof.
  destruct a as [x m], b as [y n]. unfold oid_eqb. cbn [fst snd]. rewrite andb_true_iff, axis_eqb_spec, Z.eqb_eq.
  split; [intros [-> ->]; auto|intros H; injection H; auto].
Qed.
Lemma zpair_eqb_spec a b : zpair_eqb a b = true <-> a = b.
Proof.
  destruct a as [x m], b as [y n]. unfold zpair_eqb. cbn [fst snd]. rewrite andb_true_iff, !Z.eqb_eq.
  split; [intros [-> ->]; auto|intros H; injection H; auto].
Qed.
Lemma existsb_z k l : existsb (Z.eqb k) l = true <-> In k l.
Proof. rewrite existsb_exists. split; [intros (x & H & E); apply Z.eqb_eq in E; subst; auto|intros H; exists k; rewrite Z.eqb_refl; auto]. Qed.
Lemma existsb_zp k l : existsb (zpair_eqb k) l = true <-> In k l.
Proof.
  rewrite existsb_exists. split; [intros (x & H & E); apply zpair_eqb_spec in E; subst; auto|].
  intros H; exists k. rewrite (proj2 (zpair_eqb_spec k k) eq_refl). auto.
Qed.

Lemma kget_app (l : list (oid * subref)) id r id' :
  kget oid_eqb (l ++ [(id, r)]) id' = match kget oid_eqb l id' with Some v => Some v | None => if oid_eqb id id' then Some r else None end.
Proof. induction l as [|[i v] l IH]; cbn; auto. destruct (oid_eqb i id'); auto. Qed.
Lemma kget_in (l : list (oid * subref)) id r : kget oid_eqb l id = Some r -> In (id, r) l.
Proof.
  induction l as [|[i v] l IH]; cbn; [discriminate|]. destruct (oid_eqb i id) eqn:E; intros H; [|auto].
  apply oid_eqb_spec in E. injection H as H. subst. auto.
Qed.

Lemma set_nth_length {A} n (x : A) l : length (set_nth n x l) = length l.
Proof. revert n; induction l as [|y l IH]; intros [|n]; cbn; auto. Qed.
Lemma set_nth_eq {A} n (x y : A) l : nth_error l n = Some y -> nth_error (set_nth n x l) n = Some x.
Proof. revert n; induction l as [|z l IH]; intros [|n]; cbn; auto; discriminate. Qed.
Lemma set_nth_neq {A} n m (x : A) l : n <> m -> nth_error (set_nth n x l) m = nth_error l m.
Proof. revert n m; induction l as [|z l IH]; intros [|n] [|m] H; cbn; auto; try congruence. Qed.

Lemma add_key_incl {A} eqb (l : list A) x y : In y l -> In y (add_key eqb l x).
Proof. unfold add_key. destruct existsb; auto. intros. apply in_or_app. auto. Qed.
Lemma add_key_in {A} eqb (l : list A) x y : In y (add_key eqb l x) -> In y l \/ y = x.
Proof. unfold add_key. destruct existsb; auto. intros H. apply in_app_or in H. cbn in H. intuition. Qed.
Lemma add_key_has {A} (eqb : A -> A -> bool) (l : list A) x : (forall a b, eqb a b = true <-> a = b) -> In x (add_key eqb l x).
Proof.
  intros S. unfold add_key. destruct (existsb (eqb x) l) eqn:E; [|apply in_or_app; cbn; auto].
  apply existsb_exists in E. destruct E as (y & H & E). apply S in E. subst. auto.
Qed.
Lemma fold_add_incl {A} (eqb : A -> A -> bool) xs : forall (l : list A) y, In y l -> In y (fold_left (add_key eqb) xs l).
Proof. induction xs as [|x xs IH]; intros l y H; cbn; auto. apply IH, add_key_incl, H. Qed.
Lemma fold_add_has {A} (eqb : A -> A -> bool) (S : forall a b, eqb a b = true <-> a = b) xs :
  forall (l : list A) y, In y xs -> In y (fold_left (add_key eqb) xs l).
Proof.
  induction xs as [|x xs IH]; intros l y H; cbn; [destruct H|]. destruct H as [->|H]; auto.
  apply fold_add_incl, add_key_has, S.
Qed.
Lemma fold_add_in {A} (eqb : A -> A -> bool) xs : forall (l : list A) y, In y (fold_left (add_key eqb) xs l) -> In y l \/ In y xs.
Proof.
  induction xs as [|x xs IH]; intros l y H; cbn in *; auto. apply IH in H. destruct H as [H|H]; auto.
  apply add_key_in in H. destruct H as [H|H]; auto.
Qed.
Lemma in_zrange k F : In k (zrange F) <-> 0 <= k <= F.
Proof.
  unfold zrange. rewrite in_map_iff. split.
  - intros (n & E & H). apply in_seq in H. lia.
  - intros H. exists (Z.to_nat k). split; [lia|]. apply in_seq. lia.
Qed.
Lemma so2_build_has F l k : 0 <= k <= F -> In k (so2_build F l).
Proof. intros H. apply fold_add_has; [apply Z.eqb_eq|]. right. apply in_zrange, H. Qed.
Lemma o2_build_has F l j k : (j, k) = (0, 0) \/ j = 1 /\ 0 <= k <= F -> In (j, k) (o2_build F l).
Proof.
  intros H. apply fold_add_has; [apply zpair_eqb_spec|]. destruct H as [->|[-> H]]; [left; auto|right].
  apply (in_map (fun k => (1, k))), in_zrange, H.
Qed.

(** valid names *)
Definition valid (jk : Z * Z) : Prop := jk = (0, 0) \/ fst jk = 1 /\ 0 <= snd jk.
Lemma o2_irrep_valid j k ir : o2_irrep j k = Ok ir -> valid (j, k).
Proof.
  unfold o2_irrep, assert_, valid. cbn [fst snd].
  destruct (Z.eqb_spec j 0), (Z.eqb_spec j 1), (Z.leb_spec 0 k), (Z.eqb_spec k 0); cbn; intros HH; try discriminate; subst; auto; lia.
Qed.
Lemma valid_irrep jk : valid jk -> exists ir, o2_irrep (fst jk) (snd jk) = Ok ir /\ ir_freq ir = snd jk /\ ir_flip ir = fst jk.
Proof.
  destruct jk as [j k]. unfold valid, o2_irrep, assert_. cbn [fst snd]. intros [H|[-> H]].
  - injection H as -> ->. cbn. eauto.
  - cbn. destruct (Z.leb_spec 0 k); [|lia]. destruct (Z.eqb_spec k 0); eauto.
Qed.
Lemma so2_irrep_ok k : 0 <= k -> exists ir, so2_irrep k = Ok ir /\ ir_freq ir = k.
Proof. intros H. unfold so2_irrep, assert_. destruct (Z.leb_spec 0 k); [|lia]. destruct (Z.eqb_spec k 0); subst; eauto. Qed.

(** * Objects only grow *)
Definition covers (F : Z) (o : cgroup) : Prop :=
  match o with
  | CSO2 q => forall k, 0 <= k <= F -> In k (so_irreps q)
  | CO2 q => forall jk, valid jk -> snd jk <= F -> In jk (oo_irreps q)
  end.
Definition ext (o o' : cgroup) : Prop :=
  match o, o' with
  | CSO2 x, CSO2 y => so_max x <= so_max y /\ incl (so_irreps x) (so_irreps y)
  | CO2 x, CO2 y => oo_max x <= oo_max y /\ incl (oo_irreps x) (oo_irreps y) /\ incl (oo_induced x) (oo_induced y) /\
      forall id r, kget oid_eqb (oo_subs x) id = Some r -> kget oid_eqb (oo_subs y) id = Some r
  | _, _ => False
  end.
Lemma ext_refl o : ext o o.
Proof. destruct o; cbn; intuition. Qed.
Lemma ext_trans a b c : ext a b -> ext b c -> ext a c.
Proof.
  destruct a as [x|x], b as [y|y], c as [z|z]; cbn; try tauto.
  - intros [A B] [C D]. split; [lia|]. eapply incl_tran; eauto.
  - intros (A & B & I & C) (A' & B' & I' & C'). split; [lia|]. split; [eapply incl_tran; eauto|].
    split; [eapply incl_tran; eauto|]. eauto.
Qed.
Lemma covers_ext F o o' : covers F o -> ext o o' -> covers F o'.
Proof. destruct o, o'; cbn; try tauto; intros H E; destruct E as (_ & I); [|destruct I as [I _]]; intros; apply I, H; auto. Qed.
Lemma covers_le F F' o : covers F o -> F' <= F -> covers F' o.
Proof. destruct o; cbn; intros H L; intros; apply H; auto; lia. Qed.

Definition grows (s s' : cstate) : Prop :=
  forall a o, nth_error (cs_objs s) a = Some o -> exists o', nth_error (cs_objs s') a = Some o' /\ ext o o'.
(** a subgroup requested in between has the irreps of the frequencies known to the group before *)
Definition later_subs (s s' : cstate) : Prop :=
  forall a o o' id b, nth_error (cs_objs s) a = Some (CO2 o) -> nth_error (cs_objs s') a = Some (CO2 o') ->
    kget oid_eqb (oo_subs o) id = None -> kget oid_eqb (oo_subs o') id = Some (SRobj b) ->
    exists q, nth_error (cs_objs s') b = Some q /\ covers (oo_max o) q.
Definition evolves (s s' : cstate) : Prop := grows s s' /\ later_subs s s'.
Lemma evolves_refl s : evolves s s.
Proof.
  split; [intros a o H; exists o; split; auto; apply ext_refl|]. intros a o o' id b H H' N Y. congruence.
Qed.
Lemma evolves_trans s1 s2 s3 : evolves s1 s2 -> evolves s2 s3 -> evolves s1 s3.
Proof.
  intros [G1 L1] [G2 L2]. split.
  - intros a o H. destruct (G1 a o H) as (o2 & H2 & E2). destruct (G2 a o2 H2) as (o3 & H3 & E3). exists o3. split; auto.
    eapply ext_trans; eauto.
  - intros a o o3 id b H H3 N Y. destruct (G1 a _ H) as (x & H2 & E2). destruct x as [|o2]; [destruct E2|].
    destruct E2 as (M & _).
    destruct (kget oid_eqb (oo_subs o2) id) as [r|] eqn:K.
    + destruct (G2 a _ H2) as (y & H3' & E3). rewrite H3 in H3'. injection H3' as <-. destruct E3 as (_ & _ & _ & S).
      pose proof (S id r K) as S'. rewrite Y in S'. injection S' as <-.
      destruct (L1 a o o2 id b H H2 N K) as (q & Hq & C). destruct (G2 b q Hq) as (q' & Hq' & E). exists q'. split; auto.
      eapply covers_ext; eauto.
    + destruct (L2 a o2 o3 id b H2 H3 K Y) as (q & Hq & C). exists q. split; auto. eapply covers_le; eauto.
Qed.
Lemma evolves_append s s' n : cs_objs s' = cs_objs s ++ [n] -> evolves s s'.
Proof.
  intros E. split.
  - intros a o H. exists o. split; [|apply ext_refl]. rewrite E. rewrite nth_error_app1; auto. apply nth_error_Some. congruence.
  - intros a o o' id b H H' N Y. rewrite E, nth_error_app1 in H' by (apply nth_error_Some; congruence). congruence.
Qed.
(** an object replaced by a larger one with the same subgroups *)
Lemma evolves_put s a o o' : nth_error (cs_objs s) a = Some o -> ext o o' ->
  (forall x y, o = CO2 x -> o' = CO2 y -> oo_subs x = oo_subs y) -> evolves s (put a o' s).
Proof.
  intros H E S. split.
  - intros c x Hx. unfold put. cbn [cs_objs]. destruct (Nat.eq_dec a c) as [->|N].
    + rewrite H in Hx. injection Hx as <-. exists o'. split; auto. eapply set_nth_eq; eauto.
    + rewrite set_nth_neq by auto. exists x. split; auto. apply ext_refl.
  - intros c x y id b Hx Hy N Y. unfold put in *. cbn [cs_objs] in *. destruct (Nat.eq_dec a c) as [->|Nc].
    + rewrite (set_nth_eq _ _ _ _ H) in Hy. injection Hy as ->. rewrite H in Hx. injection Hx as ->.
      rewrite (S x y eq_refl eq_refl) in N. congruence.
    + rewrite set_nth_neq in Hy by auto. congruence.
Qed.
(** a new subgroup remembered *)
Lemma evolves_remember s a o id r : nth_error (cs_objs s) a = Some (CO2 o) -> kget oid_eqb (oo_subs o) id = None ->
  (forall b, r = SRobj b -> exists q, nth_error (cs_objs s) b = Some q /\ b <> a /\ covers (oo_max o) q) ->
  evolves s (put a (CO2 (MkO2 (oo_max o) (oo_irreps o) (oo_subs o ++ [(id, r)]) (oo_induced o))) s).
Proof.
  intros H K C. split.
  - intros c x Hx. unfold put. cbn [cs_objs]. destruct (Nat.eq_dec a c) as [->|N].
    + rewrite H in Hx. injection Hx as <-. eexists. split; [eapply set_nth_eq; eauto|]. cbn. split; [lia|]. split; [apply incl_refl|].
      split; [apply incl_refl|]. intros id' r' K'. rewrite kget_app, K'. auto.
    + rewrite set_nth_neq by auto. exists x. split; auto. apply ext_refl.
  - intros c x y id' b Hx Hy N Y. unfold put in *. cbn [cs_objs] in *. destruct (Nat.eq_dec a c) as [->|Nc].
    + rewrite (set_nth_eq _ _ _ _ H) in Hy. injection Hy as <-. cbn [oo_subs] in Y. rewrite H in Hx. injection Hx as <-.
      rewrite kget_app, N in Y. destruct (oid_eqb id id') eqn:E; [|discriminate]. injection Y as ->.
      destruct (C b eq_refl) as (q & Hq & Nb & Cq). exists q. split; auto. rewrite set_nth_neq by auto. auto.
    + rewrite set_nth_neq in Hy by auto. congruence.
Qed.

Lemma so2_new_covers F o : so2_new F = Ok o -> 0 <= F /\ covers F o /\ o = CSO2 (MkSO2 F (so2_build F [])).
Proof.
  unfold so2_new, assert_. destruct (Z.leb_spec 0 F); [|discriminate]. intros E. injection E as <-. split; auto. split; auto.
  intros k Hk. apply so2_build_has, Hk.
Qed.
Lemma o2_new_covers F o : o2_new F = Ok o -> 0 <= F /\ covers F o /\ o = CO2 (MkO2 F (o2_build F []) [] []).
Proof.
  unfold o2_new, assert_. destruct (Z.leb_spec 0 F); [|discriminate]. intros E. injection E as <-. split; auto. split; auto.
  intros [j k] V L. cbn in L. apply o2_build_has. destruct V as [V|[V1 V2]]; cbn in *; auto.
Qed.

Lemma request_so2_evolves F s : evolves s (fst (request_so2 F s)).
Proof.
  unfold request_so2. destruct (cs_so2 s) as [a|].
  - destruct (nth_error (cs_objs s) a) as [[o|o]|] eqn:H; cbn [fst]; try apply evolves_refl.
    destruct (Z.ltb_spec (so_max o) F); cbn [fst]; [|apply evolves_refl].
    eapply evolves_put; eauto; [|discriminate]. cbn [ext so_max so_irreps]. split; [lia|]. intros k Hk. apply fold_add_incl, Hk.
  - destruct (so2_new F) eqn:N; cbn [fst]; [|apply evolves_refl]. eapply evolves_append. reflexivity.
Qed.
Lemma request_o2_evolves F s : evolves s (fst (request_o2 F s)).
Proof.
  unfold request_o2. destruct (cs_o2 s) as [a|].
  - destruct (nth_error (cs_objs s) a) as [[o|o]|] eqn:H; cbn [fst]; try apply evolves_refl.
    destruct (Z.ltb_spec (oo_max o) F); cbn [fst]; [|apply evolves_refl].
    eapply evolves_put; eauto.
    + cbn [ext oo_max oo_irreps oo_subs oo_induced]. split; [lia|]. split; [intros k Hk; apply fold_add_incl, Hk|]. split; [apply incl_refl|auto].
    + intros x y Ex Ey. injection Ex as <-. injection Ey as <-. reflexivity.
  - destruct (o2_new F) eqn:N; cbn [fst]; [|apply evolves_refl]. eapply evolves_append. reflexivity.
Qed.
Lemma obj_so2_irrep_evolves a k s : evolves s (fst (obj_so2_irrep a k s)).
Proof.
  unfold obj_so2_irrep. destruct (nth_error (cs_objs s) a) as [[o|o]|] eqn:H; try apply evolves_refl.
  destruct (so2_irrep k) eqn:E; cbn [fst]; [|apply evolves_refl].
  eapply evolves_put; eauto; [|discriminate]. cbn. split; [lia|]. intros x Hx. apply add_key_incl, Hx.
Qed.
Lemma obj_o2_irrep_evolves a j k s : evolves s (fst (obj_o2_irrep a j k s)).
Proof.
  unfold obj_o2_irrep. destruct (nth_error (cs_objs s) a) as [[o|o]|] eqn:H; try apply evolves_refl.
  destruct (o2_irrep j k) eqn:E; cbn [fst]; [|apply evolves_refl].
  eapply evolves_put; eauto.
  - cbn. split; [lia|]. split; [intros x Hx; apply add_key_incl, Hx|]. split; [apply incl_refl|auto].
  - intros x y Ex Ey. injection Ex as <-. injection Ey as <-. reflexivity.
Qed.
Lemma nth_new s n a o : nth_error (cs_objs s) a = Some o -> nth_error (cs_objs (new_obj n s)) a = Some o /\ a <> length (cs_objs s).
Proof.
  intros H. assert (L : (a < length (cs_objs s))%nat) by (apply nth_error_Some; congruence). split; [|lia].
  cbn. rewrite nth_error_app1; auto.
Qed.
Lemma nth_new_last s n : nth_error (cs_objs (new_obj n s)) (length (cs_objs s)) = Some n.
Proof. cbn. rewrite nth_error_app2, Nat.sub_diag by lia. reflexivity. Qed.
Lemma obj_o2_subgroup_evolves a id s : evolves s (fst (obj_o2_subgroup a id s)).
Proof.
  unfold obj_o2_subgroup. destruct (nth_error (cs_objs s) a) as [[o|o]|] eqn:H; try apply evolves_refl.
  destruct (o2_subgroup id) as [sub|x] eqn:S; try apply evolves_refl.
  destruct (kget oid_eqb (oo_subs o) id) eqn:K; try apply evolves_refl.
  destruct sub as [p c|p c|f]; cbn [fst].
  - destruct (o2_new (oo_max o)) as [n|] eqn:N; cbn [fst]; try apply evolves_refl.
    destruct (o2_new_covers _ _ N) as (_ & C & _). destruct (nth_new s n a _ H) as [Ha Na].
    eapply evolves_trans; [apply (evolves_append s (new_obj n s) n); reflexivity|].
    apply evolves_remember; auto. intros b Eb. injection Eb as <-. exists n. split; [apply nth_new_last|]. split; auto.
  - destruct (so2_new (oo_max o)) as [n|] eqn:N; cbn [fst]; try apply evolves_refl.
    destruct (so2_new_covers _ _ N) as (_ & C & _). destruct (nth_new s n a _ H) as [Ha Na].
    eapply evolves_trans; [apply (evolves_append s (new_obj n s) n); reflexivity|].
    apply evolves_remember; auto. intros b Eb. injection Eb as <-. exists n. split; [apply nth_new_last|]. split; auto.
  - apply evolves_remember; auto. discriminate.
Qed.
Lemma obj_o2_restrict_evolves a id rg l s : evolves s (fst (obj_o2_restrict a id rg l s)).
Proof.
  unfold obj_o2_restrict. destruct same_group; cbn [fst]; try apply evolves_refl.
  pose proof (obj_o2_subgroup_evolves a id s) as E. destruct (obj_o2_subgroup a id s) as [s1 r]. cbn [fst] in E.
  destruct r; cbn [fst]; auto.
Qed.
Lemma fold_irreps_evolves a l : forall s, evolves s (fold_left (fun s (jk : Z * Z) => fst (obj_o2_irrep a (fst jk) (snd jk) s)) l s).
Proof.
  induction l as [|jk l IH]; intros s; cbn; [apply evolves_refl|]. eapply evolves_trans; [|apply IH]. apply obj_o2_irrep_evolves.
Qed.
Lemma obj_o2_induce_evolves a id rg k s : evolves s (fst (obj_o2_induce a id rg k s)).
Proof.
  unfold obj_o2_induce. destruct (nth_error (cs_objs s) a) as [[o|o]|] eqn:H; try apply evolves_refl.
  destruct (nth_error (cs_objs s) rg) as [[q|q]|] eqn:Hq; try apply evolves_refl.
  destruct (negb _); try apply evolves_refl. destruct (existsb _ (oo_induced o)); try apply evolves_refl.
  destruct (oid_eqb id (None, -1)); try apply evolves_refl.
  pose proof (obj_o2_subgroup_evolves a id s) as E. destruct (obj_o2_subgroup a id s) as [s1 r]. cbn [fst] in E.
  destruct r as [[|b]|x]; cbn [fst]; auto. destruct (same_group s1 rg b); cbn [fst]; auto.
  set (l := if 0 <? k then [(1, k)] else [(0, 0); (1, 0)]).
  pose proof (fold_irreps_evolves a l s1) as E2. set (s2 := fold_left _ l s1) in *.
  assert (E12 : evolves s s2) by (eapply evolves_trans; eauto).
  destruct (snd (obj_o2_restrict a id a l s2)); cbn [fst]; auto.
  destruct (nth_error (cs_objs s2) a) as [[x|x]|] eqn:Hx; cbn [fst]; auto.
  eapply evolves_trans; [exact E12|]. eapply evolves_put; eauto.
  - cbn. split; [lia|]. split; [apply incl_refl|]. split; [apply incl_appl, incl_refl|auto].
  - intros u v Eu Ev. injection Eu as <-. injection Ev as <-. reflexivity.
Qed.
Lemma cstep_evolves s op : evolves s (cstep s op).
Proof.
  destruct op; cbn [cstep].
  - apply request_so2_evolves.
  - apply request_o2_evolves.
  - apply obj_so2_irrep_evolves.
  - apply obj_o2_irrep_evolves.
  - apply obj_o2_subgroup_evolves.
  - apply evolves_refl.
  - apply obj_o2_restrict_evolves.
  - apply obj_o2_induce_evolves.
Qed.
Lemma run_evolves ops : forall s, evolves s (run ops s).
Proof.
  induction ops as [|op ops IH]; intros s; [apply evolves_refl|]. change (run (op :: ops) s) with (run ops (cstep s op)).
  eapply evolves_trans; [apply cstep_evolves|apply IH].
Qed.

(** * Reachable states *)
Definition wf_sub (s : cstate) (p : oid * subref) : Prop :=
  match o2_subgroup (fst p), snd p with
  | Ok (SubFin _), SRfin => True
  | Ok (SubO2 _ _), SRobj b => exists q, nth_error (cs_objs s) b = Some (CO2 q)
  | Ok (SubSO2 _ _), SRobj b => exists q, nth_error (cs_objs s) b = Some (CSO2 q)
  | _, _ => False
  end.
Definition wf_obj (s : cstate) (o : cgroup) : Prop :=
  match o with
  | CSO2 q => 0 <= so_max q /\ covers (so_max q) o /\ Forall (fun k => 0 <= k) (so_irreps q)
  | CO2 q => 0 <= oo_max q /\ covers (oo_max q) o /\ Forall valid (oo_irreps q) /\ Forall (wf_sub s) (oo_subs q)
  end.
Definition wf (s : cstate) : Prop :=
  (forall a o, nth_error (cs_objs s) a = Some o -> wf_obj s o) /\
  (forall a, cs_so2 s = Some a -> exists o, nth_error (cs_objs s) a = Some (CSO2 o)) /\
  (forall a, cs_o2 s = Some a -> exists o, nth_error (cs_objs s) a = Some (CO2 o)).
Lemma wf_sub_grows s s' p : grows s s' -> wf_sub s p -> wf_sub s' p.
Proof.
  intros G. unfold wf_sub. destruct (o2_subgroup (fst p)) as [[u v|u v|f]|x], (snd p) as [|b]; auto; intros [q Hq];
    destruct (G b _ Hq) as (q' & Hq' & E); destruct q'; cbn in E; try tauto; eauto.
Qed.
Lemma wf_obj_grows s s' o : grows s s' -> wf_obj s o -> wf_obj s' o.
Proof.
  intros G. destruct o as [q|q]; cbn [wf_obj]; [tauto|]. intros (A & B & C & D). split; [auto|]. split; [auto|]. split; [auto|].
  eapply Forall_impl; [|exact D]. intros p. apply wf_sub_grows, G.
Qed.
Lemma wf_init : wf cs_init.
Proof. split; [intros [|a] o H; discriminate H|]. split; intros a H; discriminate H. Qed.
Lemma class_grows s s' : grows s s' ->
  (forall a, (exists o, nth_error (cs_objs s) a = Some (CSO2 o)) -> exists o, nth_error (cs_objs s') a = Some (CSO2 o)) /\
  (forall a, (exists o, nth_error (cs_objs s) a = Some (CO2 o)) -> exists o, nth_error (cs_objs s') a = Some (CO2 o)).
Proof.
  intros G. split; intros a [o H]; destruct (G a _ H) as (o' & H' & E); destruct o'; cbn in E; try tauto; eauto.
Qed.
Lemma wf_put s a o o' : wf s -> nth_error (cs_objs s) a = Some o -> grows s (put a o' s) -> wf_obj s o' -> wf (put a o' s).
Proof.
  intros (W & W1 & W2) H G Wo. destruct (class_grows _ _ G) as [C1 C2]. split; [|split].
  - intros c x Hx. apply (wf_obj_grows s); auto. unfold put in Hx. cbn [cs_objs] in Hx. destruct (Nat.eq_dec a c) as [->|N].
    + rewrite (set_nth_eq _ _ _ _ H) in Hx. injection Hx as <-. auto.
    + rewrite set_nth_neq in Hx by auto. eapply W; eauto.
  - intros c Hc. apply C1, W1, Hc.
  - intros c Hc. apply C2, W2, Hc.
Qed.
Lemma wf_new s n p1 p2 : wf s -> wf_obj s n ->
  (forall a, p1 = Some a -> cs_so2 s = Some a \/ a = length (cs_objs s) /\ exists o, n = CSO2 o) ->
  (forall a, p2 = Some a -> cs_o2 s = Some a \/ a = length (cs_objs s) /\ exists o, n = CO2 o) ->
  wf (MkCS (cs_objs s ++ [n]) p1 p2).
Proof.
  intros (W & W1 & W2) Wn P1 P2. set (s' := MkCS _ _ _).
  assert (E : evolves s s') by (eapply evolves_append; reflexivity). destruct E as [G _]. destruct (class_grows _ _ G) as [C1 C2].
  assert (L : nth_error (cs_objs s') (length (cs_objs s)) = Some n) by (cbn; rewrite nth_error_app2, Nat.sub_diag by lia; reflexivity).
  split; [|split].
  - intros c x Hx. apply (wf_obj_grows s); auto. cbn [cs_objs s'] in Hx.
    destruct (Nat.lt_ge_cases c (length (cs_objs s))).
    + rewrite nth_error_app1 in Hx by auto. eapply W; eauto.
    + rewrite nth_error_app2 in Hx by auto. destruct (c - length (cs_objs s))%nat as [|[|]]; cbn in Hx; try discriminate.
      injection Hx as <-. auto.
  - intros c Hc. destruct (P1 c Hc) as [O|[-> [o ->]]]; [apply C1, W1, O|]. eauto.
  - intros c Hc. destruct (P2 c Hc) as [O|[-> [o ->]]]; [apply C2, W2, O|]. eauto.
Qed.
Lemma so2_build_nonneg F l : Forall (fun k => 0 <= k) l -> Forall (fun k => 0 <= k) (so2_build F l).
Proof.
  intros H. apply Forall_forall. intros k Hk. apply fold_add_in in Hk. destruct Hk as [Hk|[<-|Hk]]; [|lia|apply in_zrange in Hk; lia].
  rewrite Forall_forall in H. auto.
Qed.
Lemma o2_build_valid F l : Forall valid l -> Forall valid (o2_build F l).
Proof.
  intros H. apply Forall_forall. intros k Hk. apply fold_add_in in Hk. destruct Hk as [Hk|[<-|Hk]]; [|left; auto|].
  - rewrite Forall_forall in H. auto.
  - apply in_map_iff in Hk. destruct Hk as (x & <- & Hx). apply in_zrange in Hx. right. cbn. lia.
Qed.
Lemma so2_new_wf s F o : so2_new F = Ok o -> wf_obj s o.
Proof.
  intros E. destruct (so2_new_covers _ _ E) as (P & C & ->). split; [auto|]. split; [exact C|]. cbn [so_irreps]. apply so2_build_nonneg. constructor.
Qed.
Lemma o2_new_wf s F o : o2_new F = Ok o -> wf_obj s o.
Proof.
  intros E. destruct (o2_new_covers _ _ E) as (P & C & ->). split; [auto|]. split; [exact C|]. split; [cbn [oo_irreps]; apply o2_build_valid; constructor|constructor].
Qed.
Lemma o2_covers_build F l s i : covers F (CO2 (MkO2 F (o2_build F l) s i)).
Proof. intros [j k] V L. cbn in L. apply o2_build_has. destruct V as [V|[V1 V2]]; cbn in *; auto. Qed.

Lemma request_so2_wf F s : wf s -> wf (fst (request_so2 F s)).
Proof.
  intros Hw. pose proof (request_so2_evolves F s) as [G _]. unfold request_so2 in *. destruct (cs_so2 s) as [a|] eqn:P.
  - destruct (nth_error (cs_objs s) a) as [[o|o]|] eqn:H; cbn [fst] in *; auto.
    destruct (Z.ltb_spec (so_max o) F); cbn [fst] in *; auto.
    eapply wf_put; eauto. destruct Hw as (W & _). destruct (W _ _ H) as (A & B & C). split; [cbn; lia|].
    split; [intros k Hk; apply so2_build_has, Hk|]. apply so2_build_nonneg, C.
  - destruct (so2_new F) as [n|] eqn:N; cbn [fst] in *; auto. apply wf_new; [auto|eapply so2_new_wf; eauto| |auto].
    intros a Ea. injection Ea as <-. right. split; auto. destruct (so2_new_covers _ _ N) as (_ & _ & ->). eauto.
Qed.
Lemma request_o2_wf F s : wf s -> wf (fst (request_o2 F s)).
Proof.
  intros Hw. pose proof (request_o2_evolves F s) as [G _]. unfold request_o2 in *. destruct (cs_o2 s) as [a|] eqn:P.
  - destruct (nth_error (cs_objs s) a) as [[o|o]|] eqn:H; cbn [fst] in *; auto.
    destruct (Z.ltb_spec (oo_max o) F); cbn [fst] in *; auto.
    eapply wf_put; eauto. destruct Hw as (W & _). destruct (W _ _ H) as (A & B & C & D). split; [cbn; lia|].
    split; [apply o2_covers_build|]. split; [apply o2_build_valid, C|exact D].
  - destruct (o2_new F) as [n|] eqn:N; cbn [fst] in *; auto. apply wf_new; [auto|eapply o2_new_wf; eauto|auto|].
    intros a Ea. injection Ea as <-. right. split; auto. destruct (o2_new_covers _ _ N) as (_ & _ & ->). eauto.
Qed.
Lemma obj_so2_irrep_wf a k s : wf s -> wf (fst (obj_so2_irrep a k s)).
Proof.
  intros Hw. pose proof (obj_so2_irrep_evolves a k s) as [G _]. unfold obj_so2_irrep in *.
  destruct (nth_error (cs_objs s) a) as [[o|o]|] eqn:H; auto.
  destruct (so2_irrep k) eqn:E; cbn [fst] in *; auto.
  eapply wf_put; eauto. destruct Hw as (W & _). destruct (W _ _ H) as (A & B & C). split; [auto|]. cbn [so_max so_irreps].
  split; [intros x Hx; apply add_key_incl, B, Hx|]. apply Forall_forall. intros x Hx. apply add_key_in in Hx.
  destruct Hx as [Hx| ->]; [rewrite Forall_forall in C; auto|]. unfold so2_irrep, assert_ in E. destruct (Z.leb_spec 0 k); auto; discriminate.
Qed.
Lemma obj_o2_irrep_wf a j k s : wf s -> wf (fst (obj_o2_irrep a j k s)).
Proof.
  intros Hw. pose proof (obj_o2_irrep_evolves a j k s) as [G _]. unfold obj_o2_irrep in *.
  destruct (nth_error (cs_objs s) a) as [[o|o]|] eqn:H; auto.
  destruct (o2_irrep j k) eqn:E; cbn [fst] in *; auto.
  eapply wf_put; eauto. destruct Hw as (W & _). destruct (W _ _ H) as (A & B & C & D). split; [auto|]. cbn [oo_max oo_irreps oo_subs].
  split; [intros x Hx L; apply add_key_incl, B; auto|]. split; [|exact D]. apply Forall_forall. intros x Hx. apply add_key_in in Hx.
  destruct Hx as [Hx| ->]; [rewrite Forall_forall in C; auto|]. eapply o2_irrep_valid; eauto.
Qed.
Lemma wf_remember s a o id r : wf s -> nth_error (cs_objs s) a = Some (CO2 o) -> wf_sub s (id, r) ->
  grows s (put a (CO2 (MkO2 (oo_max o) (oo_irreps o) (oo_subs o ++ [(id, r)]) (oo_induced o))) s) ->
  wf (put a (CO2 (MkO2 (oo_max o) (oo_irreps o) (oo_subs o ++ [(id, r)]) (oo_induced o))) s).
Proof.
  intros Hw H Ws G. eapply wf_put; eauto. destruct Hw as (W & _). destruct (W _ _ H) as (A & B & C & D).
  split; [auto|]. split; [exact B|]. split; [exact C|]. cbn [oo_subs]. apply Forall_app. split; auto.
Qed.
Lemma obj_o2_subgroup_wf a id s : wf s -> wf (fst (obj_o2_subgroup a id s)).
Proof.
  intros Hw. unfold obj_o2_subgroup. destruct (nth_error (cs_objs s) a) as [[o|o]|] eqn:H; auto.
  destruct (o2_subgroup id) as [sub|x] eqn:S; auto.
  destruct (kget oid_eqb (oo_subs o) id) eqn:K; auto.
  destruct sub as [p c|p c|f]; cbn [fst].
  - destruct (o2_new (oo_max o)) as [n|] eqn:N; cbn [fst]; auto.
    destruct (o2_new_covers _ _ N) as (_ & C & En). destruct (nth_new s n a _ H) as [Ha Na].
    assert (Wn : wf (new_obj n s)) by (apply wf_new; auto; eapply o2_new_wf; eauto).
    apply wf_remember; auto.
    + unfold wf_sub. cbn [fst snd]. rewrite S, nth_new_last, En. eauto.
    + apply evolves_remember; auto. intros b Eb. injection Eb as <-. exists n. split; [apply nth_new_last|]. split; auto.
  - destruct (so2_new (oo_max o)) as [n|] eqn:N; cbn [fst]; auto.
    destruct (so2_new_covers _ _ N) as (_ & C & En). destruct (nth_new s n a _ H) as [Ha Na].
    assert (Wn : wf (new_obj n s)) by (apply wf_new; auto; eapply so2_new_wf; eauto).
    apply wf_remember; auto.
    + unfold wf_sub. cbn [fst snd]. rewrite S, nth_new_last, En. eauto.
    + apply evolves_remember; auto. intros b Eb. injection Eb as <-. exists n. split; [apply nth_new_last|]. split; auto.
  - apply wf_remember; auto.
    + unfold wf_sub. cbn [fst snd]. rewrite S. auto.
    + apply evolves_remember; auto. discriminate.
Qed.
Lemma obj_o2_restrict_wf a id rg l s : wf s -> wf (fst (obj_o2_restrict a id rg l s)).
Proof.
  intros Hw. unfold obj_o2_restrict. destruct same_group; cbn [fst]; auto.
  pose proof (obj_o2_subgroup_wf a id s Hw) as E. destruct (obj_o2_subgroup a id s) as [s1 r]. cbn [fst] in E.
  destruct r; cbn [fst]; auto.
Qed.
Lemma fold_irreps_wf a l : forall s, wf s -> wf (fold_left (fun s (jk : Z * Z) => fst (obj_o2_irrep a (fst jk) (snd jk) s)) l s).
Proof. induction l as [|jk l IH]; intros s H; cbn; auto. apply IH, obj_o2_irrep_wf, H. Qed.
Lemma obj_o2_induce_wf a id rg k s : wf s -> wf (fst (obj_o2_induce a id rg k s)).
Proof.
  intros Hw. unfold obj_o2_induce. destruct (nth_error (cs_objs s) a) as [[o|o]|] eqn:H; auto.
  destruct (nth_error (cs_objs s) rg) as [[q|q]|] eqn:Hq; auto.
  destruct (negb _); auto. destruct (existsb _ (oo_induced o)); auto.
  destruct (oid_eqb id (None, -1)); auto.
  pose proof (obj_o2_subgroup_wf a id s Hw) as E. destruct (obj_o2_subgroup a id s) as [s1 r]. cbn [fst] in E.
  destruct r as [[|b]|x]; cbn [fst]; auto. destruct (same_group s1 rg b); cbn [fst]; auto.
  set (l := if 0 <? k then [(1, k)] else [(0, 0); (1, 0)]).
  pose proof (fold_irreps_wf a l s1 E) as E2. set (s2 := fold_left _ l s1) in *.
  destruct (snd (obj_o2_restrict a id a l s2)); cbn [fst]; auto.
  destruct (nth_error (cs_objs s2) a) as [[x|x]|] eqn:Hx; cbn [fst]; auto.
  eapply wf_put; eauto.
  - eapply evolves_put; eauto.
    + cbn. split; [lia|]. split; [apply incl_refl|]. split; [apply incl_appl, incl_refl|auto].
    + intros u v Eu Ev. injection Eu as <-. injection Ev as <-. reflexivity.
  - destruct E2 as (W & _). destruct (W _ _ Hx) as (A & B & C & D). split; [auto|]. split; [exact B|]. split; [exact C|]. exact D.
Qed.
Lemma cstep_wf s op : wf s -> wf (cstep s op).
Proof.
  intros W. destruct op; cbn [cstep].
  - apply request_so2_wf, W.
  - apply request_o2_wf, W.
  - apply obj_so2_irrep_wf, W.
  - apply obj_o2_irrep_wf, W.
  - apply obj_o2_subgroup_wf, W.
  - exact W.
  - apply obj_o2_restrict_wf, W.
  - apply obj_o2_induce_wf, W.
Qed.
Lemma run_wf ops : forall s, wf s -> wf (run ops s).
Proof. induction ops as [|op ops IH]; intros s W; auto. change (run (op :: ops) s) with (run ops (cstep s op)). apply IH, cstep_wf, W. Qed.
