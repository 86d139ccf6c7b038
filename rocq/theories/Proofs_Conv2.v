(** The sampled blocks of a filter: symmetry on the pixel grid, distinct ids. *)
From Coq Require Import Reals ZArith String List Bool Lia Lra FinFun.
From Verif Require Import Base Spec Model_Groups Model_Rep Proofs_Rep Model_FieldType Proofs_FieldType2 Proofs_Tensor Model_GSpace Spec_GSpace Proofs_GSpace
  Model_Kernels Spec_Kernels Proofs_Kernels5 Proofs_Kernels6 Model_Utils Model_Expansion Proofs_Expansion2 Model_Diffops2 Proofs_Diffops2 Model_Conv Proofs_Conv.
Import ListNotations.
Open Scope R_scope.

(** ** the sampling grid *)
Definition scale_pt (c : R) (p : point) : point := (c * fst p, c * snd p).
Lemma grid_centre k dil y x : (x < k)%nat -> grid_point k dil (y * k + x) = scale_pt (INR dil) (centre k k y x).
Proof.
  intros H. unfold grid_point, centre, scale_pt. cbn [fst snd]. rewrite Nat.div_add_l by lia. rewrite (Nat.div_small x k H), Nat.add_0_r.
  rewrite Nat.add_comm, Nat.mod_add by lia. rewrite (Nat.mod_small x k H). rewrite !mult_INR. f_equal; field.
Qed.
Lemma plane_scale s g c p : constructed s -> fg_is_element (sp_group s) g = true -> plane_action s g (scale_pt c p) = scale_pt c (plane_action s g p).
Proof.
  intros Hc He. rewrite !plane_action_form by auto. unfold scale_pt, rotate_pt. destruct (gflip s g); cbn [fst snd]; f_equal; ring.
Qed.

(** ** invariance of a function on the k x k grid under one element: F(q') = A F(q) B when q' is where q goes *)
Definition steer (s : gspace) (e : gelt) (no ni k : nat) (A B : mat) (F : nat -> mat) : Prop :=
  forall i j i0 j0, (i < k)%nat -> (j < k)%nat -> (i0 < k)%nat -> (j0 < k)%nat ->
    centre k k i j = plane_action s e (centre k k i0 j0) ->
    meq no ni (F (i * k + j)%nat) (mmul ni (mmul no A (F (i0 * k + j0)%nat)) B).

Lemma steer_zero s e no ni k A B : steer s e no ni k A B (fun _ => mzero).
Proof.
  intros i j i0 j0 _ _ _ _ _ r c _ _. unfold mmul, mzero. symmetry. apply rsum_0. intros. rewrite rsum_0; [ring|]. intros; ring.
Qed.
Lemma steer_scal s e no ni k A B F c : steer s e no ni k A B F -> steer s e no ni k A B (fun x r y => F x r y * c).
Proof.
  intros H i j i0 j0 Hi Hj Hi0 Hj0 E r y Hr Hy. rewrite (H i j i0 j0 Hi Hj Hi0 Hj0 E r y Hr Hy). unfold mmul.
  rewrite <- rsum_scal_r. apply rsum_ext. intros u Hu. rewrite <- !rsum_scal_r. apply rsum_ext. intros v Hv. ring.
Qed.
Lemma steer_sum s e no ni k A B d (F : nat -> nat -> mat) : (forall t, (t < d)%nat -> steer s e no ni k A B (F t)) ->
  steer s e no ni k A B (fun x r y => rsum d (fun t => F t x r y)).
Proof.
  induction d as [|d IH]; intros H.
  - intros i j i0 j0 Hi Hj Hi0 Hj0 E r y Hr Hy. cbn. symmetry. unfold mmul. apply rsum_0. intros. rewrite rsum_0; [ring|]. intros; ring.
  - intros i j i0 j0 Hi Hj Hi0 Hj0 E r y Hr Hy. cbn [rsum].
    assert (H1 := IH (fun t Ht => H t (Nat.lt_lt_succ_r _ _ Ht)) i j i0 j0 Hi Hj Hi0 Hj0 E r y Hr Hy). cbn beta in H1. rewrite H1.
    rewrite (H d ltac:(lia) i j i0 j0 Hi Hj Hi0 Hj0 E r y Hr Hy). unfold mmul. rewrite <- rsum_plus. apply rsum_ext. intros u Hu.
    rewrite <- Rmult_plus_distr_r, <- rsum_plus. f_equal. apply rsum_ext. intros v Hv. ring.
Qed.
Lemma steer_ext s e no ni k A B F F' : steer s e no ni k A B F -> (forall x, meq no ni (F x) (F' x)) -> steer s e no ni k A B F'.
Proof.
  intros H X i j i0 j0 Hi Hj Hi0 Hj0 E r y Hr Hy. rewrite <- (X _ r y Hr Hy). rewrite (H i j i0 j0 Hi Hj Hi0 Hj0 E r y Hr Hy).
  apply mmul_compat with (r := no) (c := ni); auto; [|reflexivity]. apply mmul_compat; [reflexivity|apply X].
Qed.
Lemma coords_nth k dil s d : (s < k * k)%nat -> nth s (grid_coords k dil) d = grid_point k dil s.
Proof.
  intros H. unfold grid_coords. rewrite (nth_indep _ d (grid_point k dil 0)) by (rewrite map_length, seq_length; auto). rewrite map_nth, seq_nth by auto. reflexivity.
Qed.
Lemma steer_sample s e no ni k dil A B (K : point -> mat) : constructed s -> fg_is_element (sp_group s) e = true ->
  (forall p, meq no ni (K (plane_action s e p)) (mmul ni (mmul no A (K p)) B)) -> steer s e no ni k A B (fun x => K (nth x (grid_coords k dil) (0, 0))).
Proof.
  intros Hc He H i j i0 j0 Hi Hj Hi0 Hj0 E. rewrite !coords_nth by nia. rewrite !grid_centre by auto. rewrite E, <- plane_scale by auto. apply H.
Qed.

(** ** facts about a space used below *)
Record space_facts {G} (sp : space G) (isrep : rep G -> Prop) (code : G -> gelt) (el : G -> Prop) (inv : G -> G) : Prop := {
  sf_constructed : constructed (sp_obj sp);
  sf_elt : forall e, fg_is_element (sp_group (sp_obj sp)) e = true -> exists g, el g /\ code g = e /\ sp_prj sp e = Some g;
  sf_build : forall rin rout rings sigma F T b, isrep rin -> isrep rout -> sp_build sp rin rout rings sigma F T = Ok b ->
    (exists mk, r2_make mk rin rout rings sigma = Ok b) /\
    forall idx, (idx < r2_dim b)%nat -> planar_constraint (sp_obj sp) code el inv (rp_size rout) (rp_size rin) (rp_mat rout) (rp_mat rin) (r2_sample b idx);
  sf_dbuild : forall rin rout P F T b, isrep rin -> isrep rout -> sp_dbuild sp rin rout P F T = Ok b ->
    (exists mk, tb_make mk rin rout P = Ok b) /\
    forall d, In d (tb_coefficients b) -> even_len d /\ planar_constraint (sp_obj sp) code el inv (rp_size rout) (rp_size rin) (rp_mat rout) (rp_mat rin) (symbol d);
  sf_inv : forall r g, isrep r -> el g -> meq (rp_size r) (rp_size r) (mmul (rp_size r) (rp_mat r (inv g)) (rp_mat r g)) mid;
  sf_acc : forall r, isrep r -> rep_accepted r;
  sf_pos : forall r i, isrep r -> In i (rp_irreps r) -> (0 < ir_size i)%nat;
  sf_triv : forall r i, isrep r -> In i (rp_irreps r) -> irrep_trivial i = true -> ir_size i = 1%nat /\ forall g, el g -> ir_mat i g 0%nat 0%nat = 1 }.

(** ** lists *)
Lemma nodup_map_filter {A B} (f : A -> B) p l : NoDup (map f l) -> NoDup (map f (filter p l)).
Proof.
  induction l as [|a l IH]; cbn; auto. intros H. inversion H as [|? ? H1 H2]; subst. destruct (p a); auto. cbn. constructor; auto.
  intros I. apply H1. apply in_map_iff in I as [x [E I]]. apply filter_In in I as [I _]. apply in_map_iff. eauto.
Qed.
Lemma length_concat_const {A B} (f : A -> list B) n l : (forall x, In x l -> length (f x) = n) -> length (concat (map f l)) = (length l * n)%nat.
Proof.
  induction l as [|a l IH]; intros H; cbn; auto. rewrite app_length, (H a (or_introl eq_refl)), IH; auto. intros; apply H; right; auto.
Qed.

(** ** one block *)
Section Block.
Context {G : Type}.
Variables (mk : irrep G -> irrep G -> result kbasis) (rin rout : rep G) (rings sigma : list R) (b : r2basis G).
Hypothesis Hb : r2_make mk rin rout rings sigma = Ok b.

Lemma radial_spec : map fst (r2_radial b) = rings /\ length (r2_radial b) = length rings.
Proof.
  destruct (r2_make_inv _ _ _ _ _ _ Hb) as [_ E]. unfold gauss_make, assert_ in E. destruct (Nat.eqb_spec (length rings) (length sigma)) as [L|]; [|discriminate].
  destruct (forallb _ rings); [|discriminate]. destruct (forallb _ sigma); [|discriminate]. assert (r2_radial b = combine rings sigma) as ->.
  { destruct rings; [discriminate|]. injection E as <-. reflexivity. }
  split; [|rewrite combine_length; lia]. apply map_fst_combine. auto.
Qed.
Lemma attrs_length : length (r2_attrs b) = r2_dim b.
Proof.
  destruct (r2_make_inv _ _ _ _ _ _ Hb) as [Hs _]. unfold r2_attrs. rewrite (length_concat_const _ (sk_dim (r2_angular b))).
  - rewrite seq_length. reflexivity.
  - intros. rewrite map_length. apply (sk_iter_len mk rin rout _ Hs).
Qed.
Lemma attrs_nodup : NoDup rings -> NoDup (map ka_id (r2_attrs b)).
Proof.
  intros ND. destruct (r2_make_inv _ _ _ _ _ _ Hb) as [Hs _]. destruct radial_spec as [E1 E2].
  assert (NI : NoDup (map akey (sk_iter (r2_angular b)))).
  { apply iter_nodup. rewrite (proj1 (Proofs_Kernels6.blocks_facts mk rin rout _ Hs)). apply nodup_list_prod; apply seq_NoDup. }
  assert (S : forall i1 a, exists f, ka_id (r2_attr b i1 a) = (fst (fst (fst a)), snd (fst (fst a)), fst (nth i1 (r2_radial b) (0, 1)), f, snd (fst a))).
  { intros i1 [[[ii oo] r] i2]. unfold r2_attr. destruct (sk_attr_freq _ _) as [[mu rows] cols]. eexists. reflexivity. }
  unfold r2_attrs. rewrite concat_map, map_map.
  apply nodup_concat_map; [apply seq_NoDup| |].
  - intros i1 _. rewrite map_map. clear E1 E2. induction (sk_iter (r2_angular b)) as [|a l IH]; cbn; [constructor|]. cbn in NI. inversion NI as [|? ? N1 N2]; subst.
    constructor; auto. intros I. apply N1. apply in_map_iff in I as [a' [E I]]. apply in_map_iff. exists a'. split; auto.
    destruct (S i1 a) as [f Ef], (S i1 a') as [f' Ef']. rewrite Ef, Ef' in E. destruct a as [[[x y] z] u], a' as [[[x' y'] z'] u']. cbn in E. unfold akey. cbn. congruence.
  - intros i1 i2 z H1 H2 I1 I2. rewrite map_map in I1, I2. apply in_map_iff in I1 as [a1 [<- _]]. apply in_map_iff in I2 as [a2 [E _]].
    destruct (S i1 a1) as [f Ef], (S i2 a2) as [f' Ef']. rewrite Ef, Ef' in E. injection E as _ _ E _ _.
    apply in_seq in H1, H2. rewrite <- E1 in ND.
    apply (proj1 (NoDup_nth (map fst (r2_radial b)) (fst (0, 1))) ND); rewrite ?map_length; try lia. rewrite !map_nth. auto.
Qed.

Lemma elements_in k dil a e : In (a, e) (r2_elements b k dil) -> exists idx, (idx < r2_dim b)%nat /\ nth_error (r2_attrs b) idx = Some a /\ e = fun s => r2_sample b idx (nth s (grid_coords k dil) (0, 0)).
Proof.
  unfold r2_elements. intros I. apply in_map_iff in I as [[idx a'] [E I]]. cbn in E. injection E as -> <-. apply enumerate_nth in I.
  exists idx. split; [|auto]. rewrite <- attrs_length. apply nth_error_Some. congruence.
Qed.
Lemma elements_attrs k dil : map fst (r2_elements b k dil) = r2_attrs b.
Proof. unfold r2_elements. rewrite map_map. cbn. apply enumerate_snd. Qed.
End Block.

(** every element kept by [single_block] is a multiple of a kept element of the basis *)
Lemma single_block_spec {At} no ni S (shape0 : At -> nat) keep basis sb : single_block no ni S shape0 keep basis = Ok sb ->
  sb_rows sb = no /\ sb_cols sb = ni /\ (0 < length (sb_els sb))%nat /\
  (forall p, In p (sb_els sb) -> keep (fst p) = true /\ exists e c, In (fst p, e) basis /\ snd p = fun s o i => e s o i * c) /\
  (forall {Id} (f : At -> Id), NoDup (map f (map fst basis)) -> NoDup (map (fun e => f (fst e)) (sb_els sb))).
Proof.
  unfold single_block. set (kept := filter (fun p => keep (fst p)) basis). destruct kept as [|k0 kept'] eqn:EK; [discriminate|]. rewrite <- EK. clear EK k0 kept'.
  set (N := map _ kept). set (big := filter _ N). destruct big as [|p0 big'] eqn:EB; [discriminate|]. rewrite <- EB.
  assert (LB : (0 < length big)%nat) by (rewrite EB; cbn; lia). clear EB p0 big'. intros E. injection E as <-. cbn [sb_rows sb_cols sb_els].
  split; [reflexivity|]. split; [reflexivity|]. split; [exact LB|]. split.
  - intros p I. apply filter_In in I as [I _]. apply in_map_iff in I as [[a e] [<- I]]. apply filter_In in I as [I K]. cbn [fst snd] in *. split; auto.
    exists e. unfold normalize. eexists. split; [exact I|]. unfold Rdiv. reflexivity.
  - intros Id f ND. rewrite <- (map_map fst f). unfold big. rewrite map_map.
    change (NoDup (map (fun e => f (fst e)) (filter (fun p => Rltb (1 / 100) (sq_norm no ni S (snd p))) N))). apply nodup_map_filter. unfold N. rewrite map_map. cbn [fst].
    unfold kept. apply nodup_map_filter. rewrite map_map in ND. exact ND.
Qed.

Section Pair.
Context {G : Type} (sp : space G) (isrep : rep G -> Prop) (code : G -> gelt) (el : G -> Prop) (inv : G -> G).
Hypothesis SF : space_facts sp isrep code el inv.
Variables (k dil : nat) (keep : kattr -> bool) (rings sigma : list R) (F T : option Z).
Hypothesis Hrings : NoDup rings.
Notation build := (fun rin rout => sp_build sp rin rout rings sigma F T).

Lemma pair_block_spec rin rout sb : isrep rin -> isrep rout -> pair_block build k dil keep rin rout = Ok sb ->
  sb_rows sb = rp_size rout /\ sb_cols sb = rp_size rin /\ (0 < length (sb_els sb))%nat /\ NoDup (map (fun e => ka_id (fst e)) (sb_els sb)) /\
  forall t g, el g -> fg_is_element (sp_group (sp_obj sp)) (code g) = true ->
    steer (sp_obj sp) (code g) (rp_size rout) (rp_size rin) k (rp_mat rout g) (rp_mat rin (inv g)) (sb_el sb t).
Proof.
  intros Hi Ho H. unfold pair_block in H. destruct (sp_build sp rin rout rings sigma F T) as [b|] eqn:Eb; [|discriminate]. cbn [rbind] in H.
  destruct (sf_build _ _ _ _ _ SF _ _ _ _ _ _ _ Hi Ho Eb) as [[mk Hmk] HP].
  destruct (single_block_spec _ _ _ _ _ _ _ H) as [H1 [H2 [H3 [H4 H5]]]]. split; [auto|]. split; [auto|]. split; [auto|]. split.
  - apply H5. rewrite elements_attrs. apply (attrs_nodup mk rin rout rings sigma b Hmk Hrings).
  - intros t g Hg He. unfold sb_el. destruct (nth_error (sb_els sb) t) as [p|] eqn:Et; [|apply steer_zero].
    destruct (H4 p (nth_error_In _ _ Et)) as [_ [e [c [I ->]]]]. apply steer_scal.
    destruct (elements_in mk rin rout rings sigma b Hmk k dil _ _ I) as [idx [L [_ ->]]].
    apply steer_sample; [apply (sf_constructed _ _ _ _ _ SF)|auto|]. intros p0. apply (HP idx L g p0 Hg).
Qed.
End Pair.
