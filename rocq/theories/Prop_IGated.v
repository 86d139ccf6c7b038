(** C41, C42 for InducedGatedNonLinearity1. *)
From Coq Require Import Reals ZArith String List Bool Lia Lra.
From Verif Require Import Base LinAlg Spec Spec_Fields Model_Groups Model_Rep Model_Regular Model_FieldType Model_Tensor Model_Utils Model_Modules Model_Fieldwise Model_IGated
  Spec_Fieldwise Spec_Fieldwise2 Spec_IGated Proofs_Groups Proofs_Regular Proofs_Induced Proofs_Regular2 Prop_Regular Proofs_FieldType Proofs_Tensor Proofs_Fieldwise Proofs_Fieldwise2
  Proofs_Fieldwise3 Proofs_Fieldwise4 Proofs_Fieldwise7 Proofs_Fieldwise8 Prop_Fieldwise Prop_Fieldwise3 Proofs_IGated Proofs_IGated2 Proofs_IGated3.
Import ListNotations.
Open Scope R_scope.

(** the labels of the fields: as given, or the first half gates and the second half gated *)
Definition labels_of (gates : option (list string)) (n : nat) (gs : list string) : Prop :=
  match gates with Some l => gs = l | None => gs = repeat GATES (n / 2) ++ repeat GATED (n / 2) end.

Section IG.
Context {GS G X : Type} (fits : GS -> rep G -> bool) (gs_eqb : GS -> GS -> bool) (rp_eqb : rep G -> rep G -> bool).
Notation ftype := (ftype GS (rep G)).
Notation gtensor := (gtensor GS (rep G) (X -> R)).

Lemma labels_ok (t : ftype) gates drop bias m gs : igated1_make fits t gates drop bias = Ok m -> labels_of gates (length (ft_reps t)) gs ->
  gate_labels gates (length (ft_reps t)) = Ok gs.
Proof.
  intros MK GL. unfold igated1_make in MK. apply rbind_ok in MK as (gs' & E & _).
  destruct gates as [l|]; cbn [gate_labels labels_of] in *; rewrite E; apply assert_ok in E as [_ E]; injection E as <-; subst gs; reflexivity.
Qed.

(** Each gated field is cut into sub-fields of the size that its representation declares; the q-th sub-field is multiplied by the
    sigmoid of the q-th channel of its gate minus the bias of that gate.  Gate number j serves the j-th gated field in the order of
    the pairs (size, sub-field size). *)
Theorem C41_induced_gated1 : forall (t : ftype) gates drop bias m gs b junk (x : gtensor),
  igated1_make fits t gates drop bias = Ok m -> labels_of gates (length (ft_reps t)) gs ->
  names_identify (ft_reps t) -> size_pos t -> length b = length (ig_bias m) -> typed gs_eqb rp_eqb t x ->
  exists y ids, igated1_forward gs_eqb rp_eqb junk (set_ibias m b) x = Ok y /\ gt_type y = ig_out m /\
    rmap (field_id "induced_gated") (map snd (filter (fun p => isgated (fst p)) (combine gs (ft_reps t)))) = Ok ids /\
    length (gt_data y) = nsum (map rp_size (ft_reps (ig_out m))) /\
    (* the output type: the gated fields only, or all fields *)
    (if drop then ft_reps (ig_out m) = map snd (filter (fun p => isgated (fst p)) (combine gs (ft_reps t))) else ig_out m = t) /\
    (* gated fields *)
    (forall f g v, nth_error gs f = Some g -> g <> GATES -> nth_error (fields (ft_reps t) (gt_data x)) f = Some v ->
       exists v', nth_error (fields (ft_reps (ig_out m)) (gt_data y)) (if drop then before isgated gs f else f) = Some v' /\
         let j := place pair_ltb pair_eqb ids (before isgated gs f) in
         let s := snd (nth (before isgated gs f) ids (0, 0)%nat) in
         (j < length (gate_fields gs (fields (ft_reps t) (gt_data x))))%nat /\
         same_chans v' (induced_gate_act s (map (fun c => gate c (nth j b 0)) (nth j (gate_fields gs (fields (ft_reps t) (gt_data x))) [])) v)) /\
    (* gates, if they are kept *)
    (forall f v, drop = false -> nth_error gs f = Some GATES -> nth_error (fields (ft_reps t) (gt_data x)) f = Some v ->
       nth_error (fields (ft_reps t) (gt_data y)) f = Some (map (fun c => gate c (nth (before isgate gs f) b 0)) v)).
Proof.
  intros t gates drop bias m gs b junk x MK GL NI SP LB TX. pose proof (labels_ok _ _ _ _ _ _ MK GL) as GL'. pose proof (gate_labels_len _ _ _ GL') as LG.
  destruct (igated1_fieldwise fits gs_eqb rp_eqb t gates drop bias m gs b junk x MK GL' NI SP LB TX) as (y & F & T & L & O & W1 & W2).
  destruct (make_facts fits t gates drop bias m gs MK GL' NI) as (HG & _ & _ & _ & _ & _ & _ & _ & _ & _ & _ & _ & GD).
  set (gd := filter (fun p => isgated (fst p)) (combine gs (ft_reps t))) in *.
  exists y, (map (fun p => idr (snd p)) gd). split; [exact F|]. split; [exact T|]. split.
  { rewrite <- (map_map snd idr). assert (A : forall r, In r (map snd gd) -> field_id "induced_gated" r = Ok (idr r)).
    { intros r H. apply in_map_iff in H as ((g, r') & E0 & H); cbn [snd] in E0; subst r. apply filter_In in H as [H Hg]. cbn [fst snd] in *. assert (Hi := in_combine_l _ _ _ _ H). destruct (HG g Hi) as [E|E]; rewrite E in *; [discriminate Hg|]. apply (GD r' H). }
    clear -A. induction (map snd gd) as [|r l IH]; [reflexivity|]. cbn [rmap map]. rewrite (A r) by (cbn; auto). cbn [rbind]. rewrite IH; [reflexivity|]. intros r' H. apply A. cbn; auto. }
  split; [exact L|]. split; [exact O|]. split; [|exact W2].
  intros f g v Hf Hg Hv. pose proof (fields_len _ _ _ _ Hv) as Hl. destruct (nth_error (ft_reps t) f) as [r|] eqn:Hr; [|apply nth_error_None in Hr; lia].
  destruct (W1 f g r v Hf Hg Hr Hv) as (v' & H1 & H2 & H3). exists v'. split; [exact H1|]. split; [exact H2|].
  replace (nth (before isgated gs f) (map (fun p => idr (snd p)) gd) (0, 0)%nat) with (idr r); [exact H3|].
  symmetry. change (idr r) with ((fun p => idr (snd p)) (g, r)). apply nth_error_nth. rewrite nth_error_map.
  assert (E : forall f gs rs, nth_error gs f = Some g -> nth_error rs f = Some r -> nth_error (filter (fun p => isgated (fst p)) (combine gs rs)) (before isgated gs f) = Some (g, r)).
  { clear -Hg. assert (I : isgated g = true) by (unfold isgated; destruct (String.eqb_spec g GATES); auto; congruence).
    induction f as [|f IH]; intros [|g' gs] [|r' rs] A B; try discriminate; cbn in A, B.
    - injection A as ->. injection B as ->. cbn. rewrite I. reflexivity.
    - specialize (IH gs rs A B). unfold before in *. cbn [firstn filter combine fst]. destruct (isgated g'); cbn; exact IH. }
  unfold gd. rewrite (E f gs (ft_reps t) Hf Hr). reflexivity.
Qed.

(** Equivariance under an element that permutes the channels of every gate by sg and the sub-fields of every gated field by the
    same sg. *)
Theorem C42_induced_gated1 : forall (t : ftype) gates drop bias m gs b g pi junk junk' (x x' : gtensor) Q sg,
  labels_of gates (length (ft_reps t)) gs -> bij Q sg ->
  (forall r, In (GATES, r) (combine gs (ft_reps t)) -> rp_size r = Q /\ permutes_by Q sg (rp_mat r g)) ->
  (forall r n s, In (GATED, r) (combine gs (ft_reps t)) -> field_id "induced_gated" r = Ok (n, s) -> permutes_blocks_by Q s sg (rp_mat r g)) ->
  igated1_make fits t gates drop bias = Ok m -> names_identify (ft_reps t) -> ft_reps (ig_out m) <> [] -> size_pos t -> length b = length (ig_bias m) ->
  typed gs_eqb rp_eqb t x -> typed gs_eqb rp_eqb t x' -> acts (ft_reps t) g pi (gt_data x) (gt_data x') ->
  exists y y', igated1_forward gs_eqb rp_eqb junk (set_ibias m b) x = Ok y /\ igated1_forward gs_eqb rp_eqb junk' (set_ibias m b) x' = Ok y' /\
    gt_type y = ig_out m /\ gt_type y' = ig_out m /\ acts (ft_reps (ig_out m)) g pi (gt_data y) (gt_data y').
Proof. intros t gates drop bias m gs b g pi junk junk' x x' Q sg GL BJ H1 H2 MK. eapply igated1_equiv; eauto using labels_ok. Qed.
End IG.
Print Assumptions C41_induced_gated1.
Print Assumptions C42_induced_gated1.

(** The representations induced from one subgroup meet the hypotheses: every element moves the cosets by one permutation, which is
    that of the channels of the quotient representation and that of the sub-fields of every induced representation. *)
Theorem C42_induced_one_subgroup : forall (G H : Type) (grp : fgroup G) (subs : list H) parent child opH invH eH g,
  fgroup_ok grp -> subgroup_ok grp subs parent child opH invH eH -> In g (fg_elements grp) ->
  let Q := length (representatives grp subs parent) in
  exists sg, bij Q sg /\ permutes_by Q sg (ind_mat grp subs parent child 1 (fun _ => mid) g) /\
    forall s rho, permutes_blocks_by Q s sg (ind_mat grp subs parent child s rho g).
Proof.
  intros G H grp subs parent child opH invH eH g OK SOK Hg Q. destruct (induced_one_perm grp OK subs parent child opH invH eH SOK g Hg) as (sg & B & P). exists sg. split; [exact B|]. split.
  - apply (P 1%nat (fun _ => mid)). reflexivity.
  - intros s rho. apply P.
Qed.
Print Assumptions C42_induced_one_subgroup.

(** ** Concrete cases: quotient representations of D_N by subgroups that are cyclic (the rotations by multiples of N/M, or one
    reflection), with the matrices computed by the library's inducing construction and the non-linearities of group.py:439-468.
    The decomposition into irreps plays no role here and is left out: the matrices stand for one block. *)
Definition quot_rep (name : string) (N : Z) (id : option Z * Z) : rep (Z * Z) :=
  match dih_subgroup N id with
  | Ok (SubC M parent child) =>
    let Q := length (representatives (dih_fg N) (cyc_elements M) parent) in
    MkRep name [MkIrrep Q Q 0 0 (ind_mat (dih_fg N) (cyc_elements M) parent child 1 (fun _ => mid)) []] mid mid
      ["pointwise"; "concatenated"; "gated"; "induced_gated_1"; "norm"; "induced_norm_1"; "induced_gate"]%string
  | _ => MkRep "" [] mid mid [] end.
(** the gates: D_2 / rotations; the gated field: D_2 / {1, reflection} *)
Definition q_rot : rep (Z * Z) := quot_rep "quotient[(None, 2)]" 2 (None, 2%Z).
Definition q_ref : rep (Z * Z) := quot_rep "quotient[(0, 1)]" 2 (Some 0%Z, 1%Z).
Lemma quot_mat_at r ir : rp_irreps r = [ir] -> rp_cob r = mid -> rp_inv r = mid -> forall g : Z * Z, meq (ir_size ir) (ir_size ir) (rp_mat r g) (ir_mat ir g).
Proof.
  intros E1 E2 E3 g. destruct r as [n irs c i nl]. cbn in E1, E2, E3. subst. exact (irrep_rep_mat n ir g).
Qed.
Lemma q_rot_mat i j : (i < 2)%nat -> (j < 2)%nat -> rp_mat q_rot (0, 1)%Z i j = if (i =? j)%nat then 1 else 0.
Proof.
  intros Hi Hj. rewrite (quot_mat_at q_rot _ eq_refl eq_refl eq_refl (0, 1)%Z i j) by (vm_compute; lia).
  destruct i as [|[|i]]; try lia; destruct j as [|[|j]]; try lia; cbv -[Rplus Rmult IZR Rinv]; reflexivity.
Qed.
Lemma q_ref_mat i j : (i < 2)%nat -> (j < 2)%nat -> rp_mat q_ref (0, 1)%Z i j = if (i =? j)%nat then 0 else 1.
Proof.
  intros Hi Hj. rewrite (quot_mat_at q_ref _ eq_refl eq_refl eq_refl (0, 1)%Z i j) by (vm_compute; lia).
  destruct i as [|[|i]]; try lia; destruct j as [|[|j]]; try lia; cbv -[Rplus Rmult IZR Rinv]; reflexivity.
Qed.
Definition one : unit -> R := fun _ => 1.
Definition zero : unit -> R := fun _ => 0.
(** Gates and gated fields of one subgroup: accepted, and the hypotheses of C42_induced_gated1 hold for the rotation by pi, which
    exchanges the two cosets. *)
Example C42_induced_gated1_ex : exists m, let t := MkFT tt [q_ref; q_ref; q_ref; q_ref] in
  igated1_make any t None true (fun _ => 0) = Ok m /\ ft_reps (ig_out m) = [q_ref; q_ref] /\ names_identify (ft_reps t) /\ size_pos t /\ length (ig_bias m) = 2%nat /\
  exists sg, bij 2 sg /\ (forall r, In r (ft_reps t) -> rp_size r = 2%nat /\ permutes_by 2 sg (rp_mat r (0, 1)%Z)) /\
    (forall r n s, In r (ft_reps t) -> field_id "induced_gated" r = Ok (n, s) -> s = 1%nat /\ permutes_blocks_by 2 s sg (rp_mat r (0, 1)%Z)) /\ sg 0%nat = 1%nat.
Proof.
  eexists. split; [reflexivity|]. split; [reflexivity|].
  assert (IN : forall r, In r [q_ref; q_ref; q_ref; q_ref] -> r = q_ref) by (intros r H; cbn in H; intuition).
  split. { intros r r' H H' _. apply IN in H, H'. subst. auto. }
  split. { intros r H. apply IN in H. subst r. vm_compute. lia. }
  split; [reflexivity|]. exists (fun i => 1 - i)%nat.
  assert (P : permutes_by 2 (fun i => 1 - i)%nat (rp_mat q_ref (0, 1)%Z)).
  { intros i j Hi Hj. rewrite q_ref_mat by auto. destruct i as [|[|i]]; try lia; destruct j as [|[|j]]; try lia; reflexivity. }
  split. { split; intros; lia. }
  split. { intros r H. apply IN in H. subst r. split; [reflexivity|exact P]. }
  split; [|reflexivity]. intros r n s H E. apply IN in H. subst r. vm_compute in E. injection E as <- <-. split; [reflexivity|].
  exists (fun _ => mid). intros q q' i j Hq Hq' Hi Hj. assert (i = 0%nat) by lia. assert (j = 0%nat) by lia. subst i j. rewrite !Nat.mul_1_r, !Nat.add_0_r. rewrite P by auto. reflexivity.
Qed.

(** The constructor compares only the sizes.  A gate that is a field over D_2 / rotations and a gated field over D_2 / {1, reflection}
    have equally many cosets; the constructor accepts them, but the rotation by pi exchanges the sub-fields of the second and fixes
    the channels of the first, and the module is not equivariant. *)
Theorem C42_induced_gated1_subgroups_refuted : exists m (x x' y y' : gtensor unit (rep (Z * Z)) (unit -> R)), let t := MkFT tt [q_rot; q_ref] in
  dih_el 2 (0, 1)%Z /\ igated1_make any t None true (fun _ => 0) = Ok m /\ names_identify (ft_reps t) /\ size_pos t /\
  typed ueqb req t x /\ typed ueqb req t x' /\ acts (ft_reps t) (0, 1)%Z (fun p => p) (gt_data x) (gt_data x') /\
  igated1_forward ueqb req (fun _ => zero) m x = Ok y /\ igated1_forward ueqb req (fun _ => zero) m x' = Ok y' /\
  ft_reps (gt_type y) = [q_ref] /\ ~ acts (ft_reps (gt_type y)) (0, 1)%Z (fun p => p) (gt_data y) (gt_data y').
Proof.
  set (t := MkFT tt [q_rot; q_ref]). destruct (igated1_make any t None true (fun _ => 0)) as [m|] eqn:MK; [|vm_compute in MK; discriminate MK].
  assert (NI : names_identify (ft_reps t)).
  { intros r r' H H' E. cbn [t ft_reps In] in H, H'. destruct H as [<-|[<-|[]]], H' as [<-|[<-|[]]]; auto; vm_compute in E; discriminate E. }
  assert (SP : size_pos t). { intros r H. cbn [t ft_reps In] in H. destruct H as [<-|[<-|[]]]; vm_compute; lia. }
  assert (S1 : rp_size q_rot = 2%nat) by reflexivity. assert (S2 : rp_size q_ref = 2%nat) by reflexivity.
  set (x := MkGT [one; zero; one; zero] t : gtensor unit (rep (Z * Z)) (unit -> R)). set (x' := MkGT [one; zero; zero; one] t : gtensor unit (rep (Z * Z)) (unit -> R)).
  assert (TX : typed ueqb req t x) by (split; vm_compute; reflexivity). assert (TX' : typed ueqb req t x') by (split; vm_compute; reflexivity).
  assert (BM : ig_bias m = [0]) by (vm_compute in MK; injection MK as <-; reflexivity).
  assert (EM : m = set_ibias m [0]) by (rewrite <- BM; destruct m; reflexivity).
  assert (LB : length [0] = length (ig_bias m)) by (rewrite BM; reflexivity).
  assert (LA : labels_of None (length (ft_reps t)) [GATES; GATED]) by reflexivity.
  destruct (C41_induced_gated1 any ueqb req t None true (fun _ => 0) m [GATES; GATED] [0] (fun _ => zero) x MK LA NI SP LB TX) as (y & ids & F & T & ID & L & O & W & _).
  destruct (C41_induced_gated1 any ueqb req t None true (fun _ => 0) m [GATES; GATED] [0] (fun _ => zero) x' MK LA NI SP LB TX') as (y' & ids' & F' & T' & ID' & L' & _ & W' & _).
  assert (IDS : ids = [(2, 1)%nat]). { vm_compute in ID. congruence. } assert (IDS' : ids' = [(2, 1)%nat]). { vm_compute in ID'. congruence. } subst ids ids'.
  assert (OR : ft_reps (ig_out m) = [q_ref]) by exact O. rewrite OR in *.
  destruct (W 1%nat GATED [one; zero] eq_refl ltac:(discriminate) eq_refl) as (v & Hv & _ & V). destruct (W' 1%nat GATED [zero; one] eq_refl ltac:(discriminate) eq_refl) as (v' & Hv' & _ & V').
  exists m, x, x', y, y'. cbv zeta. split. { unfold dih_el. cbn. lia. }
  split; [exact MK|]. split; [exact NI|]. split; [exact SP|]. split; [exact TX|]. split; [exact TX'|]. split.
  { apply moved_acts; [discriminate|reflexivity|reflexivity|]. intros f r b b' Hr Hb Hb'. destruct f as [|[|f]]; [| |destruct f; discriminate Hr].
    - injection Hr as <-. cbn [x x' t gt_data ft_reps fields map cut] in Hb, Hb'. rewrite S1 in Hb, Hb'. cbn in Hb, Hb'. injection Hb as <-. injection Hb' as <-. rewrite S1.
      split; [reflexivity|]. split; [reflexivity|]. intros p a Ha. cbn [rsum]. rewrite !q_rot_mat by lia. destruct a as [|[|a]]; [| |lia]; cbn; unfold one, zero; ring.
    - injection Hr as <-. cbn [x x' t gt_data ft_reps fields map cut] in Hb, Hb'. rewrite S1, S2 in Hb, Hb'. cbn in Hb, Hb'. injection Hb as <-. injection Hb' as <-. rewrite S2.
      split; [reflexivity|]. split; [reflexivity|]. intros p a Ha. cbn [rsum]. rewrite !q_ref_mat by lia. destruct a as [|[|a]]; [| |lia]; cbn; unfold one, zero; ring. }
  split; [rewrite EM; exact F|]. split; [rewrite EM; exact F'|]. split; [rewrite T; exact OR|]. rewrite T, OR. intros A.
  pose proof (acts_moved [q_ref] (0, 1)%Z (fun p : unit => p) (gt_data y) (gt_data y') L A 0%nat q_ref v v' eq_refl Hv Hv') as (_ & _ & MV).
  rewrite S2 in MV. specialize (MV tt 1%nat ltac:(lia)). cbn [rsum] in MV. rewrite !q_ref_mat in MV by lia.
  cbv zeta in V, V'. destruct V as [VL V]. destruct V' as [VL' V']. rewrite V' in MV by (rewrite VL'; vm_compute; lia). rewrite !V in MV by (rewrite VL; vm_compute; lia).
  cbv -[Rplus Rmult Ropp Rminus Rinv IZR exp] in MV. 
  assert (P := exp_pos (-1)). assert (E : exp (-1) < exp 0) by (apply exp_increasing; lra). rewrite exp_0 in E.
  replace (- (0 - 0)) with 0 in MV by ring. replace (- (1 - 0)) with (-1) in MV by ring. rewrite exp_0 in MV.
  assert (MV2 : / (1 + 1) = / (1 + exp (-1))) by lra. apply (f_equal Rinv) in MV2. rewrite !Rinv_inv in MV2. lra.
Qed.
Print Assumptions C42_induced_gated1_subgroups_refuted.
