(** For C65: the buffers of the batch normalisations after a batch and after the transformed batch. *)
From Coq Require Import Reals ZArith String List Bool Lia Lra FunctionalExtensionality.
From Verif Require Import Base LinAlg Spec Spec_Fields Model_Groups Model_Rep Proofs_Rep Proofs_Restrict Model_FieldType Proofs_FieldType Model_GSpace Spec_GSpace Proofs_GSpace Model_Tensor Model_Utils Model_Modules Model_Conv Spec_Conv
  Proofs_Conv Proofs_Conv2 Proofs_Conv3 Proofs_Conv4 Proofs_Conv5 Proofs_Conv6 Proofs_Tensor Model_Fieldwise Spec_Fieldwise Spec_Fieldwise2 Proofs_Utils Proofs_Modules Proofs_Fieldwise Proofs_Fieldwise2 Proofs_Fieldwise3 Proofs_Fieldwise5 Proofs_Fieldwise8 Model_BatchNorm Spec_BatchNorm Proofs_BatchNorm Proofs_BatchNorm2 Proofs_BatchNorm3
  Proofs_BatchNorm4 Proofs_BatchNorm5 Proofs_BatchNorm7 Proofs_BatchNorm8 Proofs_BatchNorm9 Model_Support Spec_Support Model_Net Spec_Net Proofs_Net Proofs_Net2 Proofs_Net3 Proofs_Net5.
Import ListNotations.
Open Scope R_scope.

(** * groups that a loop does not visit keep their buffers *)
Section Frame.
Context {K S A : Type} (keqb : K -> K -> bool) (key : K -> string) (idx : list (string * chan_set)).
Hypothesis EP : forall a b, reflect (a = b) (keqb a b).
Lemma stat_loop_frame (upd : K -> S -> list A -> result S) x : forall order st st' k, stat_loop keqb key idx upd x order st = Ok st' -> ~ In k order -> st' k = st k.
Proof.
  induction order as [|a l IH]; cbn [stat_loop]; intros st st' k E N; [injection E as <-; reflexivity|].
  apply rbind_ok in E as (ci & _ & E). apply rbind_ok in E as (fm & _ & E). apply rbind_ok in E as (s & _ & E). rewrite (IH _ _ k E); [|intros C; apply N; right; exact C].
  apply set_at_other; auto. intros ->. apply N. left. reflexivity.
Qed.
Lemma state_loop_frame (step : K -> S -> list A -> result (S * list A)) x : forall order st out r k, state_loop keqb key idx step x order st out = Ok r -> ~ In k order -> fst r k = st k.
Proof.
  induction order as [|a l IH]; cbn [state_loop]; intros st out r k E N; [injection E as <-; reflexivity|].
  apply rbind_ok in E as (ci & _ & E). apply rbind_ok in E as (fm & _ & E). apply rbind_ok in E as (sv & _ & E). apply rbind_ok in E as (o & _ & E).
  rewrite (IH _ _ _ k E); [|intros C; apply N; right; exact C]. apply set_at_other; auto. intros ->. apply N. left. reflexivity.
Qed.
End Frame.

Lemma run_snoc {M T W} (fwd : bool -> nat -> M -> T -> result (T * M)) (other : W -> M -> M) : forall h m ys m1 tr n x y m2,
  run fwd other m h = Ok (ys, m1) -> fwd tr n m1 x = Ok (y, m2) -> exists zs, run fwd other m (h ++ [Batch tr n x])%list = Ok (zs, m2).
Proof.
  induction h as [|e h IH]; intros m ys m1 tr n x y m2 R F; cbn [run app] in *.
  - injection R as _ <-. rewrite F. eexists. reflexivity.
  - destruct e as [tr' n' x'|w].
    + destruct (fwd tr' n' m x') as [[y' m']|]; [|discriminate]. destruct (run fwd other m' h) as [[ys' m'']|] eqn:E; [|discriminate]. injection R as _ ->.
      destruct (IH _ _ _ _ _ _ _ _ E F) as [zs Z]. rewrite Z. eexists. reflexivity.
    + apply (IH _ _ _ _ _ _ _ _ R F).
Qed.

(** * the state after a batch is determined by the buffers of the groups that exist *)
Section Same.
Context {GS G : Type} (gs_eqb : GS -> GS -> bool) (rp_eqb : rep G -> rep G -> bool).
Notation gtensor := (gtensor GS (rep G) chan).
Lemma nbn_state_eq {K} (keqb : K -> K -> bool) key ksize ksub (EP : forall a b, reflect (a = b) (keqb a b)) tr n (m : nbn (K := K)) (x x' : gtensor) y y' m1 m1' :
  nbn_forward gs_eqb rp_eqb keqb key ksize ksub tr n m x = Ok (y, m1) -> nbn_forward gs_eqb rp_eqb keqb key ksize ksub tr n m x' = Ok (y', m1') ->
  (forall k, In k (nb_keys m) -> nb_var m1' k = nb_var m1 k) -> m1' = m1.
Proof.
  intros F F' V. unfold nbn_forward in F, F'. apply assert_ok in F as [_ F]. apply assert_ok in F' as [_ F']. cbv zeta in F, F'.
  apply rbind_ok in F as (v & V1 & F). apply rbind_ok in F as (d & _ & F). apply rbind_ok in F as (z & _ & F). injection F as <- <-.
  apply rbind_ok in F' as (v' & V1' & F'). apply rbind_ok in F' as (d' & _ & F'). apply rbind_ok in F' as (z' & _ & F'). injection F' as <- <-. cbn [nb_var nb_keys] in V.
  f_equal. apply functional_extensionality. intros k. destruct (in_dec (fun a b => reflect_dec _ _ (EP a b)) k (nb_keys m)) as [I|N]; [apply V; exact I|].
  destruct tr; [|injection V1 as <-; injection V1' as <-; reflexivity].
  rewrite (stat_loop_frame keqb key _ EP _ _ _ _ _ k V1), (stat_loop_frame keqb key _ EP _ _ _ _ _ k V1'); [reflexivity| |]; intros C; apply N; unfold nb_order in C; exact (proj1 (first_seen_in keqb EP k _) C).
Qed.
Lemma inner_state_eq tr n junk junk' (m : ibn) (x x' : gtensor) y y' m1 m1' :
  inner_forward gs_eqb rp_eqb tr n junk m x = Ok (y, m1) -> inner_forward gs_eqb rp_eqb tr n junk' m x' = Ok (y', m1') ->
  (forall s, In s (ib_sizes m) -> ib_bn m1' s = ib_bn m1 s) -> m1' = m1.
Proof.
  intros F F' V. unfold inner_forward in F, F'. apply assert_ok in F as [_ F]. apply assert_ok in F' as [_ F'].
  apply rbind_ok in F as (so & L & F). apply rbind_ok in F as (z & _ & F). injection F as <- <-.
  apply rbind_ok in F' as (so' & L' & F'). apply rbind_ok in F' as (z' & _ & F'). injection F' as <- <-. cbn [ib_bn] in V.
  f_equal. apply functional_extensionality. intros s. destruct (in_dec Nat.eq_dec s (ib_sizes m)) as [I|N]; [apply V; exact I|].
  rewrite (state_loop_frame Nat.eqb py_str _ Nat.eqb_spec _ _ _ _ _ _ s L), (state_loop_frame Nat.eqb py_str _ Nat.eqb_spec _ _ _ _ _ _ s L'); [reflexivity| |];
    intros C; apply N; exact (proj1 (first_seen_in Nat.eqb Nat.eqb_spec s _) C).
Qed.
Lemma gnorm_state_eq cob_id tr n junk junk' (m : gbn) (x x' : gtensor) y y' m1 m1' : uniq_ok (gb_in m) (gb_uniq m) ->
  gnorm_forward gs_eqb rp_eqb cob_id tr n junk m x = Ok (y, m1) -> gnorm_forward gs_eqb rp_eqb cob_id tr n junk' m x' = Ok (y', m1') ->
  (forall r, In r (ft_reps (gb_in m)) -> gb_stats m1' (rp_name r) = gb_stats m1 (rp_name r)) -> m1' = m1.
Proof.
  intros U F F' V. unfold gnorm_forward in F, F'. apply assert_ok in F as [_ F]. apply assert_ok in F' as [_ F']. cbv zeta in F, F'.
  apply rbind_ok in F as (so & L & F). apply rbind_ok in F as (z & _ & F). injection F as <- <-.
  apply rbind_ok in F' as (so' & L' & F'). apply rbind_ok in F' as (z' & _ & F'). injection F' as <- <-. cbn [gb_stats] in V.
  f_equal. apply functional_extensionality. intros s. destruct (in_dec string_dec s (map rp_name (gb_uniq m))) as [I|N].
  - apply in_map_iff in I as (r & <- & Hr). apply V. apply U. exact Hr.
  - rewrite (state_loop_frame String.eqb (fun l => l) _ String.eqb_spec _ _ _ _ _ _ s L N), (state_loop_frame String.eqb (fun l => l) _ String.eqb_spec _ _ _ _ _ _ s L' N). reflexivity.
Qed.
End Same.

(** * modules in the states that they can reach *)
Section Live.
Context {G : Type} (sp : space G) (isrep : rep G -> Prop) (PS : planar_space G sp isrep) (e : gelt) (g : G).
Hypothesis He : fg_is_element (sp_group (sp_obj sp)) e = true.
Hypothesis Hg : sp_prj sp e = Some g.
Notation good := (fun t : ctype G => forall r, In r (ft_reps t) -> isrep r /\ (0 < rp_size r)%nat /\ compatible (rp_nonlin r) (rp_size r) (rp_mat r g)).
Lemma norm_bn_live t m : norm_bn_reached t m -> good t -> nb_in m = t /\ nb_wf Nat.eqb py_str (fun s => s) (fun s => s) m /\ each g orthogonal t.
Proof.
  intros (eps & mo & affine & m0 & h & ys & MK & E0 & MO & H & R) OK.
  destruct (norm_bn_wf t eps mo affine m0 MK (good_size isrep g t OK) E0 MO) as (WF & I1 & I2 & _).
  pose proof MK as A. unfold norm_bn_make in A. apply assert_ok in A as [A _].
  destruct (nbn_life space_eqb rep_eqb Nat.eqb py_str (fun s => s) (fun s => s) Nat.eqb_spec py_str_inj m0 h WF) as (zs & mm & RR & W & K & _); [rewrite I1, I2; exact H|]. rewrite R in RR. injection RR as _ <-.
  split; [congruence|]. split; [exact W|]. intros r Hr. apply (orths isrep g t OK A r Hr).
Qed.
Lemma induced_bn_live t m : induced_bn_reached t m -> good t -> nb_in m = t /\ nb_wf pair_eqb pair_str fst snd m.
Proof.
  intros (eps & mo & affine & m0 & ids & h & ys & MK & ID & E0 & MO & H & R) OK.
  destruct (induced_bn_wf t eps mo affine m0 MK (good_size isrep g t OK) E0 MO) as (WF & I1 & I2 & _). rewrite ID in I2. injection I2 as I2.
  destruct (nbn_life space_eqb rep_eqb pair_eqb pair_str (fun i => fst i) (fun i => snd i) pair_eqbP pair_str_inj m0 h WF) as (zs & mm & RR & W & K & _); [rewrite I1, <- I2; exact H|].
  change (run (nbn_forward space_eqb rep_eqb pair_eqb pair_str fst snd) (nb_apply pair_eqb) m0 h = Ok (zs, mm)) in RR. rewrite R in RR. injection RR as _ <-.
  split; [congruence|exact W].
Qed.
Lemma inner_bn_live t m : inner_bn_reached t m -> good t -> ib_in m = t /\ ib_wf m /\ each g is_perm t.
Proof.
  intros (eps & mo & affine & track & m0 & jk & h & ys & MK & E0 & MO & H & R) OK.
  destruct (inner_wf t eps mo affine track m0 MK (good_size isrep g t OK) E0 MO) as (WF & I1 & _ & _ & _ & I5 & _).
  pose proof MK as A. unfold inner_make in A. apply assert_ok in A as [A _].
  destruct (inner_life space_eqb rep_eqb jk m0 h WF) as (zs & mm & RR & W & K & _).
  { apply Forall_forall. intros ev He'. rewrite Forall_forall in H. specialize (H ev He'). destruct ev as [tr' n' x'|w]; cbn [allowed] in *; unfold ib_sizes; rewrite I1; [|exact H]. destruct H as [TX N0]. split; [exact TX|].
    intros C s Hs. unfold ib_sizes in Hs. rewrite I1 in Hs. rewrite I5 in C. apply in_map_iff in Hs as (r & <- & Hr). apply N0; auto. }
  rewrite R in RR. injection RR as _ <-. split; [congruence|]. split; [exact W|]. intros r Hr. apply (perms isrep g t OK A r Hr).
Qed.
Lemma gnorm_bn_live cob_id t m : gnorm_bn_reached cob_id t m -> (forall r, In r (ft_reps t) -> cob_id r = true -> meq (rp_size r) (rp_size r) (rp_cob r) mid) -> good t ->
  gb_in m = t /\ gb_wf cob_id m /\ (forall r ir, In r (ft_reps t) -> In ir (rp_irreps r) -> ir_trivial ir = true -> ir_mat ir g 0%nat 0%nat = 1).
Proof.
  intros (uniq & eps & mo & affine & m0 & jk & h & ys & MK & U & E0 & MO & H & R) CI OK.
  destruct (space_ok _ _ _ PS) as [code [el [inv SF]]]. destruct (sf_elt _ _ _ _ _ SF e He) as (g' & E1 & _ & E2). rewrite Hg in E2. injection E2 as <-.
  assert (IT : forall r ir, In r (ft_reps t) -> In ir (rp_irreps r) -> ir_trivial ir = true -> ir_size ir = 1%nat /\ ir_mat ir g 0%nat 0%nat = 1).
  { intros r ir Hr Hi T. destruct (sf_triv _ _ _ _ _ SF r ir (proj1 (OK r Hr)) Hi T) as [T1 T2]. auto. }
  assert (RO : forall r, In r (ft_reps t) -> irs_ok (rp_irreps r) /\ cob_ok cob_id r).
  { intros r Hr. split; [|split; [apply (sf_acc _ _ _ _ _ SF); apply (OK r Hr)|auto]]. intros ir Hi. split; [apply (sf_pos _ _ _ _ _ SF r); auto; apply (OK r Hr)|]. intros T. apply (IT r ir Hr Hi T). }
  destruct (gnorm_wf cob_id t uniq eps mo affine m0 MK (good_size isrep g t OK) U E0 MO RO) as (WF & I1 & _).
  destruct (gnorm_life space_eqb rep_eqb cob_id jk m0 h WF) as (zs & mm & RR & W & K & _); [rewrite I1; exact H|].
  rewrite R in RR. injection RR as _ <-. split; [congruence|]. split; [exact W|]. intros r ir Hr Hi T. apply (IT r ir Hr Hi T).
Qed.

(** ** a batch leaves a state that can be reached *)
Notation gtensor := (gtensor (space G) (rep G) (nat -> R)).
Notation is_typed := (typed space_eqb rep_eqb).
Lemma norm_bn_goes t m tr n (x : gtensor) y m1 : norm_bn_reached t m -> is_typed t x -> (tr = true -> (0 < n)%nat) ->
  nbn_forward space_eqb rep_eqb Nat.eqb (fun s => py_str s) (fun s => s) (fun s => s) tr n m x = Ok (y, m1) -> norm_bn_reached t m1.
Proof.
  intros (eps & mo & affine & m0 & h & ys & MK & E0 & MO & H & R) TX N F. destruct (run_snoc (nbn_forward space_eqb rep_eqb Nat.eqb py_str (fun s => s) (fun s => s)) (nb_apply Nat.eqb) h m0 ys m tr n x y m1 R F) as [zs Z].
  exists eps, mo, affine, m0, (h ++ [Batch tr n x])%list, zs. split; [exact MK|]. split; [exact E0|]. split; [exact MO|]. split; [|exact Z]. apply Forall_app. split; [exact H|]. constructor; [|constructor]. split; auto.
Qed.
Lemma induced_bn_goes t m tr n (x : gtensor) y m1 : induced_bn_reached t m -> is_typed t x -> (tr = true -> (0 < n)%nat) ->
  nbn_forward space_eqb rep_eqb pair_eqb pair_str fst snd tr n m x = Ok (y, m1) -> induced_bn_reached t m1.
Proof.
  intros (eps & mo & affine & m0 & ids & h & ys & MK & ID & E0 & MO & H & R) TX N F. destruct (run_snoc (nbn_forward space_eqb rep_eqb pair_eqb pair_str fst snd) (nb_apply pair_eqb) h m0 ys m tr n x y m1 R F) as [zs Z].
  exists eps, mo, affine, m0, ids, (h ++ [Batch tr n x])%list, zs. split; [exact MK|]. split; [exact ID|]. split; [exact E0|]. split; [exact MO|]. split; [|exact Z]. apply Forall_app. split; [exact H|]. constructor; [|constructor]. split; auto.
Qed.
Lemma inner_bn_goes t m tr n junk (x : gtensor) y m1 : inner_bn_reached t m -> good t -> is_typed t x -> ((tr || negb (ib_track m))%bool = true -> forall r, In r (ft_reps t) -> (1 < rp_size r * n)%nat) ->
  inner_forward space_eqb rep_eqb tr n junk m x = Ok (y, m1) -> inner_bn_reached t m1.
Proof.
  intros RE OK TX N F. destruct (inner_bn_live t m RE OK) as (EI & W & _). destruct RE as (eps & mo & affine & track & m0 & jk & h & ys & MK & E0 & MO & H & R).
  assert (ET : ib_track m = track).
  { destruct (inner_wf t eps mo affine track m0 MK (good_size isrep g t OK) E0 MO) as (WF & I1 & _ & _ & _ & I5 & _).
    destruct (inner_life space_eqb rep_eqb jk m0 h WF) as (zs & mm & RR & _ & _ & _ & _ & K).
    { apply Forall_forall. intros ev He'. rewrite Forall_forall in H. specialize (H ev He'). destruct ev as [tr' n' x'|w]; cbn [allowed] in *; unfold ib_sizes; rewrite I1; [|exact H]. destruct H as [TX' N0]. split; [exact TX'|].
      intros C s Hs. unfold ib_sizes in Hs. rewrite I1 in Hs. rewrite I5 in C. apply in_map_iff in Hs as (r & <- & Hr). apply N0; auto. }
    rewrite R in RR. injection RR as _ <-. congruence. }
  assert (IE : inner_enough tr n m) by (intros C s Hs; unfold ib_sizes in Hs; apply in_map_iff in Hs as (r & <- & Hr); rewrite EI in Hr; apply N; auto).
  assert (TX' : is_typed (ib_in m) x) by (rewrite EI; exact TX).
  destruct (inner_value space_eqb rep_eqb tr n junk m x W TX' IE) as (y1 & m2 & F1 & _ & _ & _ & _ & C7 & _). rewrite F in F1. injection F1 as <- <-.
  destruct (inner_value space_eqb rep_eqb tr n jk m x W TX' IE) as (y2 & m2 & F2 & _ & _ & _ & _ & C7' & _).
  assert (E : m2 = m1) by (apply (inner_state_eq space_eqb rep_eqb tr n junk jk m x x y y2 m1 m2 F F2); intros s Hs; rewrite C7, C7' by exact Hs; reflexivity). subst m2.
  destruct (run_snoc (fun training n => inner_forward space_eqb rep_eqb training n jk) ib_apply h m0 ys m tr n x y2 m1 R F2) as [zs Z].
  exists eps, mo, affine, track, m0, jk, (h ++ [Batch tr n x])%list, zs. split; [exact MK|]. split; [exact E0|]. split; [exact MO|]. split; [|exact Z]. apply Forall_app. split; [exact H|]. constructor; [|constructor]. split; [exact TX|]. rewrite <- ET. exact N.
Qed.
Lemma gnorm_bn_goes cob_id t m tr n junk (x : gtensor) y m1 : gnorm_bn_reached cob_id t m -> (forall r, In r (ft_reps t) -> cob_id r = true -> meq (rp_size r) (rp_size r) (rp_cob r) mid) -> good t -> is_typed t x -> (tr = true -> (0 < n)%nat) ->
  gnorm_forward space_eqb rep_eqb cob_id tr n junk m x = Ok (y, m1) -> gnorm_bn_reached cob_id t m1.
Proof.
  intros RE CI OK TX N F. destruct (gnorm_bn_live cob_id t m RE CI OK) as (EI & W & _). destruct RE as (uniq & eps & mo & affine & m0 & jk & h & ys & MK & U & E0 & MO & H & R).
  assert (TX' : is_typed (gb_in m) x) by (rewrite EI; exact TX).
  destruct (gnorm_value space_eqb rep_eqb cob_id tr n junk m x W TX' N) as (y1 & m2 & F1 & _ & _ & _ & _ & C7 & _). rewrite F in F1. injection F1 as <- <-.
  destruct (gnorm_value space_eqb rep_eqb cob_id tr n jk m x W TX' N) as (y2 & m2 & F2 & _ & _ & _ & _ & C7' & _).
  assert (E : m2 = m1) by (apply (gnorm_state_eq space_eqb rep_eqb cob_id tr n junk jk m x x y y2 m1 m2 (proj1 (proj2 W)) F F2); intros s Hs; rewrite C7, C7' by exact Hs; reflexivity). subst m2.
  destruct (run_snoc (fun training n => gnorm_forward space_eqb rep_eqb cob_id training n jk) gb_apply h m0 ys m tr n x y2 m1 R F2) as [zs Z].
  exists uniq, eps, mo, affine, m0, jk, (h ++ [Batch tr n x])%list, zs. split; [exact MK|]. split; [exact U|]. split; [exact E0|]. split; [exact MO|]. split; [|exact Z]. apply Forall_app. split; [exact H|]. constructor; [|constructor]. split; auto.
Qed.
End Live.
