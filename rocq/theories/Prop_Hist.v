(** C51: SO(2) and O(2) over the life of a process. *)
From Coq Require Import Reals ZArith String List Bool Arith Lia Lra.
From Verif Require Import Base Model_Groups Model_Rep Model_FieldType Model_Utils Model_Hist Spec_Hist Proofs_FieldType Proofs_Restrict Proofs_Hist.
Import ListNotations.
Open Scope Z_scope.

(** * Requests *)
Lemma irrep_ptr a j k s : cs_so2 (fst (obj_o2_irrep a j k s)) = cs_so2 s /\ cs_o2 (fst (obj_o2_irrep a j k s)) = cs_o2 s.
Proof. unfold obj_o2_irrep. destruct (nth_error (cs_objs s) a) as [[o|o]|]; auto. destruct o2_irrep; auto. Qed.
Lemma irreps_ptr a l : forall s, let s' := fold_left (fun s (jk : Z * Z) => fst (obj_o2_irrep a (fst jk) (snd jk) s)) l s in
  cs_so2 s' = cs_so2 s /\ cs_o2 s' = cs_o2 s.
Proof.
  induction l as [|jk l IH]; intros s; cbn; auto. destruct (IH (fst (obj_o2_irrep a (fst jk) (snd jk) s))) as [A B].
  destruct (irrep_ptr a (fst jk) (snd jk) s) as [C D]. split; congruence.
Qed.
Lemma subgroup_ptr a id s : cs_so2 (fst (obj_o2_subgroup a id s)) = cs_so2 s /\ cs_o2 (fst (obj_o2_subgroup a id s)) = cs_o2 s.
Proof.
  unfold obj_o2_subgroup. destruct (nth_error (cs_objs s) a) as [[o|o]|]; auto. destruct (o2_subgroup id) as [[p c|p c|f]|x]; auto;
    destruct (kget oid_eqb (oo_subs o) id); auto; [destruct o2_new|destruct so2_new]; auto.
Qed.
Lemma restrict_ptr a id rg l s : cs_so2 (fst (obj_o2_restrict a id rg l s)) = cs_so2 s /\ cs_o2 (fst (obj_o2_restrict a id rg l s)) = cs_o2 s.
Proof.
  unfold obj_o2_restrict. destruct same_group; auto. pose proof (subgroup_ptr a id s) as P. destruct (obj_o2_subgroup a id s) as [s1 [r|x]]; auto.
Qed.
Lemma induce_ptr a id rg k s : cs_so2 (fst (obj_o2_induce a id rg k s)) = cs_so2 s /\ cs_o2 (fst (obj_o2_induce a id rg k s)) = cs_o2 s.
Proof.
  unfold obj_o2_induce. destruct (nth_error (cs_objs s) a) as [[o|o]|]; auto. destruct (nth_error (cs_objs s) rg) as [[q|q]|]; auto.
  destruct (negb _); auto. destruct (existsb _ _); auto. destruct (oid_eqb _ _); auto.
  pose proof (subgroup_ptr a id s) as P. destruct (obj_o2_subgroup a id s) as [s1 [[|b]|x]]; auto. cbn [fst] in P.
  destruct (same_group s1 rg b); auto. set (l := if 0 <? k then _ else _). pose proof (irreps_ptr a l s1) as Q. cbv zeta in Q.
  set (s2 := fold_left _ l s1) in *. destruct P, Q.
  destruct (snd (obj_o2_restrict a id a l s2)); cbn [fst]; [|split; congruence].
  destruct (nth_error (cs_objs s2) a) as [[x|x]|]; cbn [fst put cs_so2 cs_o2]; split; congruence.
Qed.
Lemma step_ptr s op : (forall a, cs_so2 s = Some a -> cs_so2 (cstep s op) = Some a) /\ (forall a, cs_o2 s = Some a -> cs_o2 (cstep s op) = Some a).
Proof.
  destruct op as [F|F|b k|b j k|b id|b id rg l|b id rg l|b id rg k]; cbn [cstep].
  - unfold request_so2. destruct (cs_so2 s) as [b|] eqn:E.
    + destruct (nth_error (cs_objs s) b) as [[o|o]|]; cbn [fst]; try (split; intros; congruence). destruct (so_max o <? F); cbn; split; intros; congruence.
    + destruct so2_new; cbn; split; intros; congruence.
  - unfold request_o2. destruct (cs_o2 s) as [b|] eqn:E.
    + destruct (nth_error (cs_objs s) b) as [[o|o]|]; cbn [fst]; try (split; intros; congruence). destruct (oo_max o <? F); cbn; split; intros; congruence.
    + destruct o2_new; cbn; split; intros; congruence.
  - unfold obj_so2_irrep. destruct (nth_error (cs_objs s) b) as [[o|o]|]; auto. destruct so2_irrep; auto.
  - destruct (irrep_ptr b j k s) as [-> ->]. auto.
  - destruct (subgroup_ptr b id s) as [-> ->]. auto.
  - auto.
  - destruct (restrict_ptr b id rg l s) as [-> ->]. auto.
  - destruct (induce_ptr b id rg k s) as [-> ->]. auto.
Qed.
Lemma run_ptr ops : forall s, (forall a, cs_so2 s = Some a -> cs_so2 (run ops s) = Some a) /\ (forall a, cs_o2 s = Some a -> cs_o2 (run ops s) = Some a).
Proof.
  induction ops as [|op ops IH]; intros s; auto. change (run (op :: ops) s) with (run ops (cstep s op)).
  destruct (IH (cstep s op)) as [A B], (step_ptr s op) as [C D]. split; auto.
Qed.

(** In every reachable state o2_group(F) returns the one object, and from then on, whatever happens later, the irreps up to the frequency
    F are available and every other request returns the same object. *)
Lemma run_app ops ops' s : run (ops ++ ops') s = run ops' (run ops s).
Proof. unfold run. apply fold_left_app. Qed.
Lemma request_o2_ok s F : wf s -> 0 <= F -> exists a, snd (request_o2 F s) = Ok a /\ cs_o2 (fst (request_o2 F s)) = Some a /\
  exists o, nth_error (cs_objs (fst (request_o2 F s))) a = Some (CO2 o) /\ F <= oo_max o.
Proof.
  intros (W & _ & P) HF. unfold request_o2. destruct (cs_o2 s) as [a|] eqn:E.
  - destruct (P a eq_refl) as [o Ho]. rewrite Ho. exists a. destruct (Z.ltb_spec (oo_max o) F); cbn [fst snd]; (split; [reflexivity|]).
    + split; [exact E|]. eexists. split; [eapply set_nth_eq; eauto|]. cbn. lia.
    + split; [exact E|]. exists o. auto.
  - unfold o2_new, assert_. destruct (Z.leb_spec 0 F); [|lia]. cbn [fst snd cs_o2 cs_objs]. eexists. split; [reflexivity|]. split; [reflexivity|].
    rewrite nth_error_app2, Nat.sub_diag by lia. eexists. split; [reflexivity|]. cbn. lia.
Qed.
Lemma request_so2_ok s F : wf s -> 0 <= F -> exists a, snd (request_so2 F s) = Ok a /\ cs_so2 (fst (request_so2 F s)) = Some a /\
  exists o, nth_error (cs_objs (fst (request_so2 F s))) a = Some (CSO2 o) /\ F <= so_max o.
Proof.
  intros (W & P & _) HF. unfold request_so2. destruct (cs_so2 s) as [a|] eqn:E.
  - destruct (P a eq_refl) as [o Ho]. rewrite Ho. exists a. destruct (Z.ltb_spec (so_max o) F); cbn [fst snd]; (split; [reflexivity|]).
    + split; [exact E|]. eexists. split; [eapply set_nth_eq; eauto|]. cbn. lia.
    + split; [exact E|]. exists o. auto.
  - unfold so2_new, assert_. destruct (Z.leb_spec 0 F); [|lia]. cbn [fst snd cs_so2 cs_objs]. eexists. split; [reflexivity|]. split; [reflexivity|].
    rewrite nth_error_app2, Nat.sub_diag by lia. eexists. split; [reflexivity|]. cbn. lia.
Qed.
Theorem C51_request_o2 : forall ops F, 0 <= F -> exists a, snd (request_o2 F (run ops cs_init)) = Ok a /\
  forall ops', let s := run (ops ++ RequestO2 F :: ops') cs_init in
    (forall j k ir, o2_irrep j k = Ok ir -> k <= F -> has_o2_irrep s a (j, k)) /\
    (forall F', 0 <= F' -> snd (request_o2 F' s) = Ok a).
Proof.
  intros ops F HF. pose proof (run_wf ops cs_init wf_init) as W. set (s0 := run ops cs_init) in *.
  destruct (request_o2_ok s0 F W HF) as (a & R & P & o & Ho & L). exists a. split; auto. intros ops' s.
  assert (Es : s = run ops' (fst (request_o2 F s0))).
  { unfold s. rewrite run_app. reflexivity. }
  assert (W1 : wf (fst (request_o2 F s0))) by (apply request_o2_wf, W).
  assert (Ws : wf s) by (rewrite Es; apply run_wf, W1).
  assert (Ps : cs_o2 s = Some a) by (rewrite Es; apply run_ptr, P).
  split.
  - intros j k ir Hir Hk. destruct (run_evolves ops' (fst (request_o2 F s0))) as [G _]. rewrite <- Es in G.
    destruct (G _ _ Ho) as (x & Hx & E). destruct x as [|x]; [destruct E|]. exists x. split; auto.
    destruct E as (_ & I & _). apply I. destruct W1 as (W1 & _). destruct (W1 _ _ Ho) as (_ & C & _). apply C; [eapply o2_irrep_valid; eauto|cbn; lia].
  - intros F' HF'. destruct (request_o2_ok s F' Ws HF') as (b & Rb & Pb & _). rewrite Rb.
    destruct (step_ptr s (RequestO2 F')) as [_ D]. cbn [cstep] in D. rewrite (D a Ps) in Pb. congruence.
Qed.
Print Assumptions C51_request_o2.
Theorem C51_request_so2 : forall ops F, 0 <= F -> exists a, snd (request_so2 F (run ops cs_init)) = Ok a /\
  forall ops', let s := run (ops ++ RequestSO2 F :: ops') cs_init in
    (forall k, 0 <= k <= F -> has_so2_irrep s a k) /\
    (forall F', 0 <= F' -> snd (request_so2 F' s) = Ok a).
Proof.
  intros ops F HF. pose proof (run_wf ops cs_init wf_init) as W. set (s0 := run ops cs_init) in *.
  destruct (request_so2_ok s0 F W HF) as (a & R & P & o & Ho & L). exists a. split; auto. intros ops' s.
  assert (Es : s = run ops' (fst (request_so2 F s0))).
  { unfold s. rewrite run_app. reflexivity. }
  assert (W1 : wf (fst (request_so2 F s0))) by (apply request_so2_wf, W).
  assert (Ws : wf s) by (rewrite Es; apply run_wf, W1).
  assert (Ps : cs_so2 s = Some a) by (rewrite Es; apply run_ptr, P).
  split.
  - intros k Hk. destruct (run_evolves ops' (fst (request_so2 F s0))) as [G _]. rewrite <- Es in G.
    destruct (G _ _ Ho) as (x & Hx & E). destruct x as [x|]; [|destruct E]. exists x. split; auto.
    destruct E as (_ & I). apply I. destruct W1 as (W1 & _). destruct (W1 _ _ Ho) as (_ & C & _). apply C. lia.
  - intros F' HF'. destruct (request_so2_ok s F' Ws HF') as (b & Rb & Pb & _). rewrite Rb.
    destruct (step_ptr s (RequestSO2 F')) as [D _]. cbn [cstep] in D. rewrite (D a Ps) in Pb. congruence.
Qed.
Print Assumptions C51_request_so2.

(** * Subgroups and restrictions keep working *)
Lemma subgroup_again a id s s1 r : obj_o2_subgroup a id s = (s1, Ok r) -> forall s2, grows s1 s2 -> obj_o2_subgroup a id s2 = (s2, Ok r).
Proof.
  intros E s2 G. unfold obj_o2_subgroup in E. destruct (nth_error (cs_objs s) a) as [[o|o]|] eqn:H; try discriminate.
  destruct (o2_subgroup id) as [sub|] eqn:S; try discriminate.
  assert (K : exists x, nth_error (cs_objs s1) a = Some (CO2 x) /\ kget oid_eqb (oo_subs x) id = Some r).
  { destruct (kget oid_eqb (oo_subs o) id) eqn:K.
    - assert (s1 = s /\ s0 = r) as [-> ->] by (split; congruence). eauto.
    - assert (R : forall s' r', nth_error (cs_objs s') a = Some (CO2 o) ->
        s1 = put a (CO2 (MkO2 (oo_max o) (oo_irreps o) (oo_subs o ++ [(id, r')]) (oo_induced o))) s' -> r = r' ->
        exists x, nth_error (cs_objs s1) a = Some (CO2 x) /\ kget oid_eqb (oo_subs x) id = Some r).
      { intros s' r' Hs -> ->. eexists. split; [eapply set_nth_eq; eauto|]. cbn [oo_subs]. rewrite kget_app, K.
        rewrite (proj2 (oid_eqb_spec id id) eq_refl). auto. }
      destruct sub as [p c|p c|f].
      + destruct (o2_new (oo_max o)) as [n|] eqn:N; try discriminate. cbv beta zeta in E. apply (R (new_obj n s) (SRobj (length (cs_objs s)))); [apply nth_new, H|congruence|congruence].
      + destruct (so2_new (oo_max o)) as [n|] eqn:N; try discriminate. cbv beta zeta in E. apply (R (new_obj n s) (SRobj (length (cs_objs s)))); [apply nth_new, H|congruence|congruence].
      + cbv beta zeta in E. apply (R s SRfin); [exact H|congruence|congruence]. }
  destruct K as (x & Hx & K). destruct (G _ _ Hx) as (y & Hy & Ey). destruct y as [|y]; [destruct Ey|]. destruct Ey as (_ & _ & _ & Sub).
  unfold obj_o2_subgroup. rewrite Hy, S, (Sub _ _ K). reflexivity.
Qed.
Theorem C51_subgroup_persists : forall s a id s1 r ops, obj_o2_subgroup a id s = (s1, Ok r) ->
  obj_o2_subgroup a id (run ops s1) = (run ops s1, Ok r).
Proof. intros s a id s1 r ops E. eapply subgroup_again; eauto. apply run_evolves. Qed.
Print Assumptions C51_subgroup_persists.

Lemma rmap_ext_in {A B} (f g : A -> result B) l : (forall x, In x l -> f x = g x) -> rmap f l = rmap g l.
Proof.
  induction l as [|x l IH]; intros H; cbn; auto. rewrite (H x (or_introl eq_refl)). destruct (g x); cbn; auto.
  rewrite IH; auto. intros y Hy. apply H. right; auto.
Qed.
Lemma rmap_inv {A B} (f : A -> result B) l : forall bs, rmap f l = Ok bs -> forall x, In x l -> exists b, f x = Ok b.
Proof.
  induction l as [|x l IH]; intros bs; [intros _ y []|]. cbn. destruct (f x) as [b|] eqn:E; cbn; [|discriminate].
  destruct (rmap f l) as [bs'|] eqn:R; cbn; [|discriminate]. intros _ y [->|Hy]; eauto.
Qed.
Lemma find_grows s s' r l : grows s s' -> find_irreps s r l = Ok tt -> find_irreps s' r l = Ok tt.
Proof.
  intros G. unfold find_irreps. destruct r as [|b], l as [fs|fs|f]; auto; destruct (nth_error (cs_objs s) b) as [[q|q]|] eqn:H; try discriminate;
    destruct (forallb _ fs) eqn:F; try discriminate; intros _; destruct (G _ _ H) as (y & -> & E); destruct y as [y|y]; cbn [ext] in E; try contradiction; destruct E as (_ & I);
    rewrite forallb_forall in F.
  - destruct I as (I & _). rewrite (proj2 (forallb_forall _ _)); auto. intros x Hx. apply existsb_zp, I, existsb_zp, F, Hx.
  - rewrite (proj2 (forallb_forall _ _)); auto. intros x Hx. apply existsb_z, I, existsb_z, F, Hx.
Qed.
Lemma same_group_refl s a : is_o2 s a -> same_group s a a = true.
Proof. intros [o H]. unfold same_group. rewrite H. cbn. apply Z.eqb_refl. Qed.
Theorem C51_restrict_persists : forall s a id irreps s1 out ops, obj_o2_restrict a id a irreps s = (s1, Ok out) ->
  obj_o2_restrict a id a irreps (run ops s1) = (run ops s1, Ok out).
Proof.
  intros s a id irreps s1 out ops E. pose proof (proj1 (run_evolves ops s1)) as G. set (s2 := run ops s1) in *.
  unfold obj_o2_restrict in E. destruct (same_group s a a) eqn:SG; [|discriminate].
  destruct (obj_o2_subgroup a id s) as [s1' r] eqn:S. destruct r as [sg|x]; [|discriminate].
  assert (s1' = s1) as -> by congruence.
  destruct (nth_error (cs_objs s1) a) as [[o|o]|] eqn:H; try discriminate. apply (f_equal snd) in E. cbn [snd] in E.
  destruct (G _ _ H) as (y & Hy & Ey). destruct y as [|y]; [destruct Ey|]. destruct Ey as (_ & I & _).
  unfold obj_o2_restrict. rewrite same_group_refl by (eexists; eauto). rewrite (subgroup_again _ _ _ _ _ S s2 G), Hy. f_equal.
  destruct (rmap _ irreps) as [l|] eqn:R1 in E; [|discriminate]. cbn [rbind] in E.
  destruct (rmap _ l) as [us|] eqn:R2 in E; [|discriminate]. cbn [rbind] in E. injection E as <-.
  rewrite (rmap_ext_in _ (fun jk => if existsb (zpair_eqb jk) (oo_irreps o)
               then rbind (o2_irrep (fst jk) (snd jk)) (fun ir => o2_restrict_irrep ir id) else Err "KeyError")).
  - rewrite R1. cbn [rbind]. rewrite (rmap_ext_in _ (fun p => find_irreps s1 sg (snd p))), R2; auto.
    intros p Hp. destruct (rmap_inv _ _ _ R2 p Hp) as [[] Hu]. rewrite Hu. eapply find_grows; eauto.
  - intros jk Hjk. destruct (rmap_inv _ _ _ R1 jk Hjk) as [u Hu]. cbv beta in Hu.
    destruct (existsb (zpair_eqb jk) (oo_irreps o)) eqn:X; [|discriminate]. rewrite (proj2 (existsb_zp jk (oo_irreps y))); auto.
    apply I, existsb_zp, X.
Qed.
Print Assumptions C51_restrict_persists.
Theorem C51_restrict_so2_persists : forall s a id irreps out ops, snd (obj_so2_restrict a id a irreps s) = Ok out ->
  snd (obj_so2_restrict a id a irreps (run ops s)) = Ok out.
Proof.
  intros s a id irreps out ops E. pose proof (proj1 (run_evolves ops s)) as G. set (s2 := run ops s) in *.
  unfold obj_so2_restrict in *. cbn [snd] in *. destruct (same_group s a a) eqn:SG; [|discriminate].
  destruct (so2_subgroup id) eqn:S; [|discriminate]. cbn [rbind] in *.
  destruct (nth_error (cs_objs s) a) as [[o|o]|] eqn:H; try discriminate.
  destruct (G _ _ H) as (y & Hy & Ey). destruct y as [y|]; [|destruct Ey]. destruct Ey as (_ & I).
  unfold same_group. rewrite Hy. cbn [cgroup_eqb]. rewrite Z.eqb_refl. rewrite <- E. apply rmap_ext_in. intros k Hk.
  destruct (rmap_inv _ _ _ E k Hk) as [u Hu]. cbv beta in Hu.
  destruct (existsb (Z.eqb k) (so_irreps o)) eqn:X; [|discriminate]. rewrite (proj2 (existsb_z k (so_irreps y))); auto. apply I, existsb_z, X.
Qed.
Print Assumptions C51_restrict_so2_persists.

(** * When restriction succeeds *)
Lemma finite_sub id : finite_id id -> exists f, o2_subgroup id = Ok (SubFin f).
Proof.
  destruct id as [[x|] M]; unfold finite_id; cbn [fst snd]; intros [P Q].
  - unfold o2_subgroup. cbn [fst snd]. destruct (Z.eqb_spec M 0); [lia|].
    assert (A : (Rleb 0 x && Rltb x (2 * PI / IZR M))%bool = true).
    { unfold Rleb, Rltb. destruct (Rle_dec 0 x), (Rlt_dec x (2 * PI / IZR M)); auto; lra. }
    rewrite A. cbn [orb assert_]. destruct (Z.eqb_spec M (-1)); [lia|]. destruct (Z.eqb_spec M 1); [cbn; eauto|].
    destruct (Z.ltb_spec 1 M); [|lia]. unfold dih_group, assert_. destruct (Z.ltb_spec 0 M); [|lia]. cbn. eauto.
  - unfold o2_subgroup. cbn [fst snd]. destruct (Z.eqb_spec M (-1)); [lia|]. unfold cyc_group, assert_. destruct (Z.ltb_spec 0 M); [|lia]. cbn. eauto.
Qed.
Lemma finite_irrep id ir j k : finite_id id -> o2_irrep j k = Ok ir -> exists C l, o2_restrict_irrep ir id = Ok (C, IrFin l).
Proof.
  destruct id as [[x|] M]; unfold finite_id; cbn [fst snd]; intros [P Q] Hir.
  - destruct (Z.eq_dec M 1) as [->|N].
    + destruct (o2_restrict_one_flip x j k ir) as (C & s & E & _); [lra|auto|]. unfold o2_restrict_one_C in E.
      destruct (o2_restrict_irrep ir (Some x, 1)) as [[C' [l|l|[l|l]]]|]; cbn in E; try discriminate; eauto.
    + destruct (o2_restrict_one_dih x M j k ir) as (C & s & E & _); [lia|auto|auto|]. unfold o2_restrict_one_D in E.
      destruct (o2_restrict_irrep ir (Some x, M)) as [[C' [l|l|[l|l]]]|]; cbn in E; try discriminate; eauto.
  - destruct (o2_restrict_one_rot M j k ir) as (C & s & E & _); [auto|auto|]. unfold o2_restrict_one_C in E.
    destruct (o2_restrict_irrep ir (None, M)) as [[C' [l|l|[l|l]]]|]; cbn in E; try discriminate; eauto.
Qed.
Lemma rmap_total {A B} (f : A -> result B) l : (forall x, In x l -> exists b, f x = Ok b) -> exists bs, rmap f l = Ok bs /\
  forall b, In b bs -> exists x, In x l /\ f x = Ok b.
Proof.
  induction l as [|x l IH]; intros H; cbn; [exists []; split; auto; intros b []|]. destruct (H x (or_introl eq_refl)) as [b Hb]. rewrite Hb. cbn.
  destruct IH as (bs & Hbs & Q); [intros y Hy; apply H; right; auto|]. rewrite Hbs. cbn. exists (b :: bs). split; auto.
  intros b' [<-|Hb']; [exists x; auto|]. destruct (Q b' Hb') as (y & Hy & E). exists y. auto.
Qed.
(** the subgroup of a well-formed state, after it has been asked for *)
Lemma subgroup_ok a id s sub : wf s -> is_o2 s a -> o2_subgroup id = Ok sub ->
  exists s1 r, obj_o2_subgroup a id s = (s1, Ok r) /\ wf s1 /\ evolves s s1 /\ wf_sub s1 (id, r) /\
    exists o, nth_error (cs_objs s1) a = Some (CO2 o) /\ kget oid_eqb (oo_subs o) id = Some r.
Proof.
  intros W [o Ho] S. pose proof (obj_o2_subgroup_wf a id s W) as W1. pose proof (obj_o2_subgroup_evolves a id s) as E1.
  assert (X : exists s1 r, obj_o2_subgroup a id s = (s1, Ok r)).
  { unfold obj_o2_subgroup. rewrite Ho, S. destruct (kget oid_eqb (oo_subs o) id); [eauto|].
    destruct W as (W & _). destruct (W _ _ Ho) as (M & _). unfold o2_new, so2_new, assert_. destruct (Z.leb_spec 0 (oo_max o)); [|lia].
    destruct sub; eauto. }
  destruct X as (s1 & r & E). rewrite E in W1, E1. cbn [fst] in W1, E1. exists s1, r. split; auto. split; auto. split; auto.
  destruct (proj1 E1 _ _ Ho) as (y & Hy & Ey). destruct y as [|y]; [destruct Ey|].
  assert (K : kget oid_eqb (oo_subs y) id = Some r).
  { pose proof (subgroup_again _ _ _ _ _ E s1 (proj1 (evolves_refl s1))) as A. unfold obj_o2_subgroup in A. rewrite Hy, S in A.
    destruct (kget oid_eqb (oo_subs y) id) eqn:K; [congruence|]. exfalso.
    assert (L : forall s' (x : cgroup), length (cs_objs (put a x s')) = length (cs_objs s')) by (intros; cbn; apply set_nth_length).
    destruct sub as [p c|p c|f].
    - destruct (o2_new (oo_max y)) as [n|]; [|discriminate]. apply (f_equal (fun p => length (cs_objs (fst p)))) in A. cbn [fst] in A.
      rewrite L in A. cbn in A. rewrite app_length in A. cbn in A. lia.
    - destruct (so2_new (oo_max y)) as [n|]; [|discriminate]. apply (f_equal (fun p => length (cs_objs (fst p)))) in A. cbn [fst] in A.
      rewrite L in A. cbn in A. rewrite app_length in A. cbn in A. lia.
    - apply (f_equal (fun p => nth_error (cs_objs (fst p)) a)) in A. cbn [fst] in A. rewrite Hy in A. unfold put in A. cbn [cs_objs] in A.
      rewrite (set_nth_eq _ _ _ _ Hy) in A. injection A as A. apply (f_equal (fun o => length (oo_subs o))) in A. cbn [oo_subs] in A.
      rewrite app_length in A. cbn in A. lia. }
  split; [|exists y; auto]. destruct W1 as (W1 & _). destruct (W1 _ _ Hy) as (_ & _ & _ & D). rewrite Forall_forall in D. apply D, kget_in, K.
Qed.
Lemma restrict_ok a id irreps s : wf s -> is_o2 s a -> (forall jk, In jk irreps -> has_o2_irrep s a jk) ->
  (exists sub, o2_subgroup id = Ok sub) ->
  (forall s1 r jk ir, obj_o2_subgroup a id s = (s1, Ok r) -> wf_sub s1 (id, r) -> In jk irreps -> o2_irrep (fst jk) (snd jk) = Ok ir ->
     exists p, o2_restrict_irrep ir id = Ok p /\ find_irreps s1 r (snd p) = Ok tt) ->
  exists s1 out, obj_o2_restrict a id a irreps s = (s1, Ok out).
Proof.
  intros W A Hs [sub S] Hall. destruct (subgroup_ok a id s sub W A S) as (s1 & r & E & W1 & E1 & Ws & o & Ho & K).
  unfold obj_o2_restrict. rewrite (same_group_refl s a A), E, Ho.
  destruct (rmap_total (fun jk => if existsb (zpair_eqb jk) (oo_irreps o)
               then rbind (o2_irrep (fst jk) (snd jk)) (fun ir => o2_restrict_irrep ir id) else Err "KeyError") irreps) as (bs & R & Q).
  - intros jk Hjk. destruct (Hs jk Hjk) as (x & Hx & I). destruct (proj1 E1 _ _ Hx) as (y & Hy & Ey). rewrite Ho in Hy. injection Hy as <-.
    destruct Ey as (_ & J & _). rewrite (proj2 (existsb_zp jk (oo_irreps o))) by (apply J, I).
    destruct W as (W & _). destruct (W _ _ Hx) as (_ & _ & V & _). rewrite Forall_forall in V.
    destruct (valid_irrep jk (V jk I)) as (ir & Hir & _). rewrite Hir. cbn [rbind].
    destruct (Hall s1 r jk ir E Ws Hjk Hir) as (p & Hp & _). eauto.
  - rewrite R. cbn [rbind].
    destruct (rmap_total (fun p => find_irreps s1 r (snd p)) bs) as (us & R2 & _).
    + intros b Hb. destruct (Q b Hb) as (jk & Hjk & Hb'). cbv beta in Hb'. destruct (existsb (zpair_eqb jk) (oo_irreps o)); [|discriminate].
      destruct (o2_irrep (fst jk) (snd jk)) as [ir|] eqn:Hir; [|discriminate]. cbn [rbind] in Hb'.
      destruct (Hall s1 r jk ir E Ws Hjk Hir) as (p & Hp & F). rewrite Hp in Hb'. injection Hb' as <-. eauto.
    + rewrite R2. cbn [rbind]. eauto.
Qed.

(** Restriction to the finite subgroups never fails: in every reachable state, every available irrep. *)
Theorem C51_restrict_finite : forall ops a id irreps, let s := run ops cs_init in
  is_o2 s a -> finite_id id -> (forall jk, In jk irreps -> has_o2_irrep s a jk) ->
  exists s1 out, obj_o2_restrict a id a irreps s = (s1, Ok out).
Proof.
  intros ops a id irreps s A F Hs. destruct (finite_sub id F) as [f S]. apply restrict_ok; auto; [apply run_wf, wf_init|eauto|].
  intros s1 r jk ir _ Ws Hjk Hir. destruct (finite_irrep id ir _ _ F Hir) as (C & l & E). exists (C, IrFin l). split; auto.
  cbn [snd]. unfold wf_sub in Ws. cbn [fst snd] in Ws. rewrite S in Ws. destruct r; [reflexivity|destruct Ws].
Qed.
Print Assumptions C51_restrict_finite.
Theorem C51_restrict_so2 : forall ops a id irreps, let s := run ops cs_init in
  is_so2 s a -> 0 < id -> (forall k, In k irreps -> has_so2_irrep s a k) ->
  exists out, snd (obj_so2_restrict a id a irreps s) = Ok out.
Proof.
  intros ops a id irreps s [o Ho] F Hs. pose proof (run_wf ops cs_init wf_init) as (W & _). fold s in W. destruct (W _ _ Ho) as (_ & _ & P).
  unfold obj_so2_restrict. cbn [snd]. unfold same_group. rewrite Ho. cbn [cgroup_eqb]. rewrite Z.eqb_refl.
  assert (S : exists f, so2_subgroup id = Ok f).
  { unfold so2_subgroup, cyc_group, assert_. destruct (Z.ltb_spec 0 id); [|lia]. cbn. eauto. }
  destruct S as [f S]. rewrite S. cbn [rbind].
  destruct (rmap_total (fun k => if existsb (Z.eqb k) (so_irreps o) then rbind (so2_irrep k) (fun ir => so2_restrict_irrep ir id) else Err "KeyError") irreps)
    as (bs & R & _); [|rewrite R; eauto].
  intros k Hk. destruct (Hs k Hk) as (x & Hx & I). rewrite Ho in Hx. injection Hx as <-. rewrite (proj2 (existsb_z k _) I).
  rewrite Forall_forall in P. destruct (so2_irrep_ok k (P k I)) as (ir & Hir & _). rewrite Hir. cbn [rbind].
  destruct (so2_restrict_one_spec id k ir F Hir) as (C & l & E & _). unfold so2_restrict_one in E.
  destruct (so2_restrict_irrep ir id) as [p|]; [eauto|discriminate].
Qed.
Print Assumptions C51_restrict_so2.

(** Restriction to SO(2), or to O(2) about another axis, succeeds at every later time for the irreps up to the frequency the group had
    before that subgroup was first asked for.  Missing for the full claim: the irreps added later (see the refutations). *)
Theorem C51_restrict_continuous_partial : forall ops ops' a F id irreps, let s := run ops cs_init in
  o2_frequency s a F -> continuous_id id -> never_requested s a id ->
  (forall j k, In (j, k) irreps -> k <= F /\ exists ir, o2_irrep j k = Ok ir) ->
  exists s1 out, obj_o2_restrict a id a irreps (run ops' s) = (s1, Ok out).
Proof.
  intros ops ops' a F id irreps s (o & Ho & <-) C N Hir.
  assert (W0 : wf s) by (apply run_wf, wf_init). assert (W : wf (run ops' s)) by (apply run_wf, W0).
  pose proof (run_evolves ops' s) as E2. set (s2 := run ops' s) in *.
  assert (N' : kget oid_eqb (oo_subs o) id = None).
  { destruct (kget oid_eqb (oo_subs o) id) eqn:K; auto. exfalso. eapply N; eauto. apply kget_in, K. }
  destruct (proj1 E2 _ _ Ho) as (y & Hy & Ey). destruct y as [|y]; [destruct Ey|].
  assert (S : exists sub, o2_subgroup id = Ok sub).
  { destruct id as [[x|] M]; unfold continuous_id in C; cbn [snd] in C; subst M; unfold o2_subgroup; cbn [fst snd Z.eqb].
    - rewrite (proj2 (Z.ltb_lt (-1) 0)) by lia. rewrite orb_true_r. cbn [assert_ Z.eqb Pos.eqb]. eauto.
    - cbn [Pos.eqb]. eauto. }
  apply restrict_ok; auto; [exists y; auto| |].
  - intros [j k] Hjk. exists y. split; auto. destruct Ey as (_ & I & _). apply I. destruct W0 as (W0 & _). destruct (W0 _ _ Ho) as (_ & Cv & _).
    destruct (Hir j k Hjk) as (L & ir & Hi). apply Cv; [eapply o2_irrep_valid; eauto|auto].
  - intros s3 r [j k] ir E Ws Hjk Hi. cbn [fst snd] in Hi. destruct (Hir j k Hjk) as (L & _).
    pose proof (o2_irrep_valid j k ir Hi) as V.
    assert (Ev : ir_freq ir = k /\ ir_flip ir = j).
    { destruct (valid_irrep (j, k) V) as (ir' & Hi' & P1 & P2). cbn [fst snd] in *. rewrite Hi in Hi'. injection Hi' as <-. auto. }
    destruct Ev as [Ef Ej].
    assert (E3 : evolves s s3).
    { eapply evolves_trans; [exact E2|]. pose proof (obj_o2_subgroup_evolves a id s2) as X. rewrite E in X. exact X. }
    destruct S as [sub S]. destruct (subgroup_ok a id s2 sub W (ex_intro _ y Hy) S) as (s3' & r' & E' & _ & _ & _ & z & Hz & K).
    assert (s3' = s3 /\ r' = r) as [-> ->] by (split; congruence).
    assert (Cov : forall b, r = SRobj b -> exists q, nth_error (cs_objs s3) b = Some q /\ covers (oo_max o) q).
    { intros b ->. eapply (proj2 E3 a o z id b); eauto. }
    destruct id as [[x|] M]; unfold continuous_id in C; cbn [snd] in C; subst M.
    + assert (S' : exists p c, o2_subgroup (Some x, -1) = Ok (SubO2 p c)).
      { unfold o2_subgroup. cbn [fst snd Z.eqb]. rewrite (proj2 (Z.ltb_lt (-1) 0)) by lia. rewrite orb_true_r. cbn [assert_ Z.eqb Pos.eqb]. eauto. }
      destruct S' as (p & c & S'). unfold wf_sub in Ws. cbn [fst snd] in Ws. rewrite S' in Ws. destruct r as [|b]; [destruct Ws|].
      destruct Ws as [q Hq]. destruct (Cov b eq_refl) as (q' & Hq' & Cq). rewrite Hq in Hq'. injection Hq' as <-.
      unfold o2_restrict_irrep. rewrite S'. cbn [rbind fst snd Z.eqb Pos.eqb]. eexists. split; [reflexivity|]. cbn [snd find_irreps]. rewrite Hq, Ef, Ej.
      cbn [forallb]. rewrite (proj2 (existsb_zp (j, k) (oo_irreps q))); [reflexivity|]. apply Cq; auto.
    + assert (S' : exists p c, o2_subgroup (None, -1) = Ok (SubSO2 p c)) by (cbn; eauto).
      destruct S' as (p & c & S'). unfold wf_sub in Ws. cbn [fst snd] in Ws. rewrite S' in Ws. destruct r as [|b]; [destruct Ws|].
      destruct Ws as [q Hq]. destruct (Cov b eq_refl) as (q' & Hq' & Cq). rewrite Hq in Hq'. injection Hq' as <-.
      unfold o2_restrict_irrep. rewrite S'. cbn [rbind fst snd Z.eqb Pos.eqb]. eexists. split; [reflexivity|]. cbn [snd find_irreps]. rewrite Hq, Ef.
      cbn [forallb]. rewrite (proj2 (existsb_z k (so_irreps q))); [reflexivity|]. apply Cq. destruct V as [V|[_ V]]; [injection V as -> ->|cbn in V]; lia.
Qed.
Print Assumptions C51_restrict_continuous_partial.

(** * Where the claim fails *)
(** An irrep that became available after the subgroup SO(2) was first asked for cannot be restricted to it. *)
Theorem C51_restrict_grown_refuted : forall F F', 0 <= F < F' ->
  exists ops, let s := run ops cs_init in
    (forall op, In op ops -> op = RequestO2 F \/ op = SubgroupO2 0 (None, -1) \/ op = RequestO2 F') /\
    has_o2_irrep s 0 (1, F') /\ snd (obj_o2_restrict 0 (None, -1) 0 [(1, F')] s) = Err "KeyError".
Proof.
  intros F F' H. exists [RequestO2 F; SubgroupO2 0 (None, -1); RequestO2 F']. cbv zeta. split; [intros op; cbn; intuition|].
  assert (E : run [RequestO2 F; SubgroupO2 0 (None, -1); RequestO2 F'] cs_init =
    MkCS [CO2 (MkO2 F' (o2_build F' (o2_build F [])) [((None, -1), SRobj 1)] []); CSO2 (MkSO2 F (so2_build F []))] None (Some 0%nat)).
  { unfold run. cbn [fold_left cstep]. unfold request_o2 at 2. cbn [cs_init cs_o2 cs_objs cs_so2]. unfold o2_new, assert_.
    destruct (Z.leb_spec 0 F); [|lia]. cbn [fst length app]. unfold obj_o2_subgroup. cbn [nth_error cs_objs].
    change (o2_subgroup (None, -1)) with (Ok (SubSO2 (fun e => (0, e)) (fun e => if Z.eqb (fst e) 0 then Some (snd e) else None))).
    cbn [oo_subs kget oo_max oo_irreps oo_induced]. unfold so2_new, assert_. destruct (Z.leb_spec 0 F); [|lia]. unfold put, new_obj. cbn [fst cs_objs app set_nth length cs_so2 cs_o2].
    unfold request_o2. cbn [cs_o2 cs_objs nth_error oo_max]. destruct (Z.ltb_spec F F'); [|lia].
    unfold put. cbn [fst cs_objs set_nth cs_so2 cs_o2 oo_irreps oo_subs oo_induced]. reflexivity. }
  rewrite E. split; [eexists; split; [reflexivity|]; apply o2_build_has; right; lia|].
  unfold obj_o2_restrict, same_group. cbn [cs_objs nth_error cgroup_eqb oo_max]. rewrite Z.eqb_refl. unfold obj_o2_subgroup. cbn [nth_error cs_objs].
  change (o2_subgroup (None, -1)) with (Ok (SubSO2 (fun e => (0, e)) (fun e => if Z.eqb (fst e) 0 then Some (snd e) else None))).
  cbn [oo_subs kget]. rewrite (proj2 (oid_eqb_spec (None, -1) (None, -1)) eq_refl). cbn [snd nth_error cs_objs oo_irreps rmap fst].
  rewrite (proj2 (existsb_zp (1, F') _)) by (apply o2_build_has; right; lia).
  destruct (valid_irrep (1, F')) as (ir & Hir & Ef & _); [right; cbn; lia|]. cbn [fst snd] in Hir, Ef. rewrite Hir. cbn [rbind].
  change (o2_restrict_irrep ir (None, -1)) with (Ok (mid, IrSO2 [ir_freq ir])). cbn [rbind rmap snd find_irreps nth_error cs_objs forallb so_irreps].
  rewrite Ef. destruct (existsb (Z.eqb F') (so2_build F [])) eqn:X; [|reflexivity]. exfalso. apply existsb_z, fold_add_in in X.
  destruct X as [[]|[X|X]]; [lia|apply in_zrange in X; lia].
Qed.
Print Assumptions C51_restrict_grown_refuted.

(** An irrep above the maximum frequency, obtained from [irrep(1, k)], is available but cannot be restricted to SO(2), although the subgroup
    was never asked for before. *)
Theorem C51_restrict_high_refuted : forall F k, 0 <= F < k ->
  let s := run [RequestO2 F; IrrepO2 0 1 k] cs_init in
  has_o2_irrep s 0 (1, k) /\ snd (obj_o2_restrict 0 (None, -1) 0 [(1, k)] s) = Err "KeyError".
Proof.
  intros F k H. cbv zeta. destruct (valid_irrep (1, k)) as (ir & Hir & Ef & _); [right; cbn; lia|]. cbn [fst snd] in Hir, Ef.
  assert (E : run [RequestO2 F; IrrepO2 0 1 k] cs_init = MkCS [CO2 (MkO2 F (add_key zpair_eqb (o2_build F []) (1, k)) [] [])] None (Some 0%nat)).
  { unfold run. cbn [fold_left cstep]. unfold request_o2. cbn [cs_init cs_o2 cs_objs cs_so2]. unfold o2_new, assert_.
    destruct (Z.leb_spec 0 F); [|lia]. cbn [fst length app]. unfold obj_o2_irrep. cbn [nth_error cs_objs]. rewrite Hir. reflexivity. }
  rewrite E. assert (I : In (1, k) (add_key zpair_eqb (o2_build F []) (1, k))) by (apply add_key_has, zpair_eqb_spec).
  split; [eexists; split; [reflexivity|]; exact I|].
  unfold obj_o2_restrict, same_group. cbn [cs_objs nth_error cgroup_eqb oo_max]. rewrite Z.eqb_refl. unfold obj_o2_subgroup. cbn [nth_error cs_objs].
  change (o2_subgroup (None, -1)) with (Ok (SubSO2 (fun e => (0, e)) (fun e => if Z.eqb (fst e) 0 then Some (snd e) else None))).
  cbn [oo_subs kget oo_max]. unfold so2_new, assert_. destruct (Z.leb_spec 0 F); [|lia]. unfold put, new_obj.
  cbn [snd nth_error cs_objs oo_irreps rmap fst length app set_nth]. rewrite (proj2 (existsb_zp (1, k) _) I), Hir. cbn [rbind].
  change (o2_restrict_irrep ir (None, -1)) with (Ok (mid, IrSO2 [ir_freq ir])). cbn [rbind rmap snd find_irreps nth_error cs_objs forallb so_irreps].
  rewrite Ef. destruct (existsb (Z.eqb k) (so2_build F [])) eqn:X; [|reflexivity]. exfalso. apply existsb_z, fold_add_in in X.
  destruct X as [[]|[X|X]]; [lia|apply in_zrange in X; lia].
Qed.
Print Assumptions C51_restrict_high_refuted.

(** Growing SO(2) makes the induction of its irreps to O(2) fail, which succeeds before. *)
Theorem C51_induce_grown_refuted : forall F F' k, 0 <= k <= F -> F < F' ->
  let s := run [RequestSO2 F; RequestO2 F] cs_init in
  snd (obj_o2_induce 1 (None, -1) 0 k s) = Ok tt /\
  snd (obj_o2_induce 1 (None, -1) 0 k (cstep s (RequestSO2 F'))) = Err "AssertionError".
Proof.
  intros F F' k Hk HF. cbv zeta.
  assert (E : run [RequestSO2 F; RequestO2 F] cs_init =
    MkCS [CSO2 (MkSO2 F (so2_build F [])); CO2 (MkO2 F (o2_build F []) [] [])] (Some 0%nat) (Some 1%nat)).
  { unfold run. cbn [fold_left cstep]. unfold request_so2. cbn [cs_init cs_o2 cs_objs cs_so2]. unfold so2_new, assert_.
    destruct (Z.leb_spec 0 F); [|lia]. cbn [fst length app]. unfold request_o2. cbn [cs_o2 cs_objs cs_so2]. unfold o2_new, assert_.
    destruct (Z.leb_spec 0 F); [|lia]. reflexivity. }
  rewrite E. assert (I : existsb (Z.eqb k) (so2_build F []) = true) by (apply existsb_z, so2_build_has; lia). split.
  - unfold obj_o2_induce. cbn [nth_error cs_objs so_irreps oo_induced existsb]. rewrite I. cbn [negb].
    rewrite (proj2 (oid_eqb_spec (None, -1) (None, -1)) eq_refl). unfold obj_o2_subgroup. cbn [nth_error cs_objs].
    change (o2_subgroup (None, -1)) with (Ok (SubSO2 (fun e => (0, e)) (fun e => if Z.eqb (fst e) 0 then Some (snd e) else None))).
    cbn [oo_subs kget oo_max]. unfold so2_new, assert_. destruct (Z.leb_spec 0 F); [|lia]. unfold put at 1, new_obj.
    cbn [length app set_nth cs_objs oo_irreps oo_induced cs_so2 cs_o2]. unfold same_group. cbn [nth_error cs_objs cgroup_eqb so_max]. rewrite Z.eqb_refl.
    set (st := fold_left _ _ _).
    assert (Est : exists irr, st = MkCS [CSO2 (MkSO2 F (so2_build F [])); CO2 (MkO2 F irr [((None, -1), SRobj 2)] []); CSO2 (MkSO2 F (so2_build F []))] (Some 0%nat) (Some 1%nat)
      /\ incl (o2_build F []) irr).
    { unfold st. destruct (Z.ltb_spec 0 k); cbn [fold_left fst snd].
      - destruct (valid_irrep (1, k)) as (ir & Hir & _); [right; cbn; lia|]. cbn [fst snd] in Hir. unfold obj_o2_irrep. cbn [nth_error cs_objs]. rewrite Hir.
        eexists. split; [reflexivity|]. intros x Hx. apply add_key_incl, Hx.
      - unfold obj_o2_irrep at 2. cbn [nth_error cs_objs]. change (o2_irrep 0 0) with (Ok (MkIrrep (G := Z * R) 1 1 0 0 (fun _ => mid) ["pointwise"; "norm"; "gated"; "gate"]%string)).
        cbv iota beta. unfold put at 1. cbn [fst cs_objs set_nth]. unfold obj_o2_irrep. cbn [nth_error cs_objs].
        change (o2_irrep 1 0) with (Ok (MkIrrep (G := Z * R) 1 1 1 0 (fun e => mat1 (flip_sign (fst e))) ["norm"; "gated"]%string)).
        eexists. split; [reflexivity|]. intros x Hx. apply add_key_incl, add_key_incl, Hx. }
    destruct Est as (irr & -> & Inc).
    set (l := if 0 <? k then [(1, k)] else [(0, 0); (1, 0)]).
    assert (Hl : forall jk, In jk l -> valid jk /\ snd jk = k).
    { unfold l. destruct (Z.ltb_spec 0 k); cbn; intros jk Hjk.
      - destruct Hjk as [<-|[]]. split; [right; cbn; lia|reflexivity].
      - assert (k = 0) by lia. subst k. destruct Hjk as [<-|[<-|[]]]; (split; [|reflexivity]); [left; auto|right; cbn; lia]. }
    clearbody l.
    assert (R : exists out, snd (obj_o2_restrict 1 (None, -1) 1 l
        (MkCS [CSO2 (MkSO2 F (so2_build F [])); CO2 (MkO2 F irr [((None, -1), SRobj 2)] []); CSO2 (MkSO2 F (so2_build F []))] (Some 0%nat) (Some 1%nat))) = Ok out).
    { unfold obj_o2_restrict, same_group. cbn [nth_error cs_objs cgroup_eqb oo_max]. rewrite Z.eqb_refl. unfold obj_o2_subgroup. cbn [nth_error cs_objs].
      change (o2_subgroup (None, -1)) with (Ok (SubSO2 (fun e => (0, e)) (fun e => if Z.eqb (fst e) 0 then Some (snd e) else None))).
      cbn [oo_subs kget]. rewrite (proj2 (oid_eqb_spec (None, -1) (None, -1)) eq_refl). cbn [snd nth_error cs_objs oo_irreps].
      destruct (rmap_total (fun jk => if existsb (zpair_eqb jk) irr
               then rbind (o2_irrep (fst jk) (snd jk)) (fun ir => o2_restrict_irrep ir (None, -1)) else Err "KeyError") l) as (bs & R & Q).
      - intros [j k'] Hjk. destruct (Hl _ Hjk) as [V Ek]. cbn [snd] in Ek. subst k'.
        rewrite (proj2 (existsb_zp (j, k) irr)).
        + destruct (valid_irrep _ V) as (ir & Hir & _). rewrite Hir. cbn. eauto.
        + apply Inc, o2_build_has. destruct V as [V|[V1 V2]]; cbn in *; auto; lia.
      - rewrite R. cbn [rbind]. destruct (rmap_total (fun p : mat * o2_sub_irreps => find_irreps
          (MkCS [CSO2 (MkSO2 F (so2_build F [])); CO2 (MkO2 F irr [((None, -1), SRobj 2)] []); CSO2 (MkSO2 F (so2_build F []))] (Some 0%nat) (Some 1%nat))
          (SRobj 2) (snd p)) bs) as (us & R2 & _); [|rewrite R2; cbn; eauto].
        intros b Hb. destruct (Q b Hb) as (jk & Hjk & Hb'). cbv beta in Hb'. destruct (existsb (zpair_eqb jk) irr); [|discriminate].
        destruct (Hl _ Hjk) as [V Ek]. destruct (valid_irrep _ V) as (ir & Hir & Ef & _). rewrite Hir in Hb'. cbn [rbind] in Hb'.
        change (o2_restrict_irrep ir (None, -1)) with (Ok (mid, IrSO2 [ir_freq ir])) in Hb'. injection Hb' as <-.
        cbn [snd find_irreps nth_error cs_objs so_irreps forallb]. rewrite Ef, Ek, I. cbn. eauto. }
    destruct R as [out R]. rewrite R. reflexivity.
  - cbn [cstep]. unfold request_so2. cbn [cs_so2 cs_objs nth_error so_max]. destruct (Z.ltb_spec F F'); [|lia]. unfold put.
    cbn [fst cs_objs set_nth so_irreps cs_so2 cs_o2]. unfold obj_o2_induce. cbn [nth_error cs_objs so_irreps oo_induced existsb].
    rewrite (proj2 (existsb_z k (so2_build F' (so2_build F [])))) by (apply so2_build_has; lia). cbn [negb].
    rewrite (proj2 (oid_eqb_spec (None, -1) (None, -1)) eq_refl). unfold obj_o2_subgroup. cbn [nth_error cs_objs].
    change (o2_subgroup (None, -1)) with (Ok (SubSO2 (fun e => (0, e)) (fun e => if Z.eqb (fst e) 0 then Some (snd e) else None))).
    cbn [oo_subs kget oo_max]. unfold so2_new, assert_. destruct (Z.leb_spec 0 F); [|lia]. unfold put at 1, new_obj.
    cbn [length app set_nth cs_objs oo_irreps oo_induced cs_so2 cs_o2]. unfold same_group. cbn [nth_error cs_objs cgroup_eqb so_max].
    destruct (Z.eqb_spec F' F); [lia|]. reflexivity.
Qed.
Print Assumptions C51_induce_grown_refuted.

(** * The hypotheses are met *)
(** after so2_group(2), o2_group(3), a subgroup, a restriction and further requests: irreps of frequency up to 3 restrict to D_4 and to
    the O(2) about the axis 1, which was not asked for *)
Definition hist : list cop :=
  [RequestSO2 2; RequestO2 3; SubgroupO2 1 (None, -1); RequestO2 5; IrrepO2 1 1 7; RestrictO2 1 (None, 4) 1 [(1, 7); (0, 0)]; InduceO2 1 (None, -1) 0 1].
Example C51_ex : let s := run hist cs_init in
  is_o2 s 1 /\ is_so2 s 0 /\ has_o2_irrep s 1 (1, 7) /\ has_so2_irrep s 0 2 /\ finite_id (None, 4) /\
  o2_frequency s 1 5 /\ never_requested s 1 (Some 1%R, -1) /\ continuous_id (Some 1%R, -1) /\
  exists s1 out, obj_o2_restrict 1 (None, -1) 1 [(1, 3); (1, 0)] s = (s1, Ok out).
Proof.
  cbv zeta. assert (X : exists s1 out, obj_o2_restrict 1 (None, -1) 1 [(1, 3); (1, 0)] (run hist cs_init) = (s1, Ok out)) by (do 2 eexists; vm_compute; reflexivity).
  set (s := run hist cs_init). assert (E : exists irr subs, s = MkCS [CSO2 (MkSO2 2 [0; 1; 2]); CO2 (MkO2 5 irr subs []);
     CSO2 (MkSO2 3 [0; 1; 2; 3])] (Some 0%nat) (Some 1%nat) /\ In (1, 7) irr /\ In (1, 3) irr /\ map fst subs = [(None, -1); (None, 4)]).
  { do 2 eexists. split; [vm_compute; reflexivity|]. cbn. intuition. }
  destruct E as (irr & subs & E & I & I3 & Es). fold s in X. rewrite E in X |- *.
  split; [eexists; reflexivity|]. split; [eexists; reflexivity|]. split; [eexists; split; [reflexivity|exact I]|].
  split; [eexists; split; [reflexivity|cbn; auto]|]. split; [split; [cbn; lia|cbn; auto]|]. split; [eexists; split; reflexivity|].
  split; [|split; [reflexivity|]].
  - intros o r Ho Hin. injection Ho as <-. cbn [oo_subs] in Hin. apply (in_map fst) in Hin. rewrite Es in Hin. cbn in Hin.
    destruct Hin as [Hin|[Hin|[]]]; discriminate Hin.
  - exact X.
Qed.
