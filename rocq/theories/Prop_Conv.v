(** Theorems C28-C33 (and the part of C48) about the basis expansion and R2Conv. *)
From Coq Require Import Reals ZArith String List Bool Lia Lra.
From Verif Require Import Base Spec Model_Groups Model_Rep Proofs_Rep Proofs_Restrict Model_FieldType Proofs_FieldType Model_Tensor Proofs_Tensor Model_GSpace Spec_GSpace Proofs_GSpace
  Model_Kernels Spec_Kernels Proofs_Kernels5 Model_Utils Proofs_Utils Model_Expansion Proofs_Expansion Proofs_Expansion2 Spec_Expansion Proofs_Expansion3
  Model_Conv Spec_Conv Proofs_Conv Proofs_Conv2 Proofs_Conv3 Proofs_Conv4 Proofs_Conv5 Proofs_Conv6 Proofs_Conv7 Proofs_Conv8.
Import ListNotations.
Open Scope R_scope.

(** ** C28: the weights of an expanded basis *)
(** for the generic expansion: whenever the fields with the same name are equal, the sizes are positive and the ids of the
    elements of each basis are distinct *)
Theorem C28_weight_layout : forall (Rp At Id : Type) (rname : Rp -> string) (rsize rirr : Rp -> nat) (rp_eqb : Rp -> Rp -> bool)
    (at_id : At -> Id) (at_in at_out : At -> nat) (id_eqb : Id -> Id -> bool) ins outs npoints gen b,
  (forall a c, reflect (a = c) (id_eqb a c)) -> (forall r, rp_eqb r r = true) -> (forall a c, rp_eqb a c = true -> rname a = rname c) ->
  be_make rname rsize rp_eqb at_id ins outs npoints gen = Ok b ->
  (forall x y, In x ins -> In y ins -> rname x = rname y -> x = y) -> (forall x y, In x outs -> In y outs -> rname x = rname y -> x = y) ->
  (forall r, In r ins -> (0 < rsize r)%nat) -> (forall r, In r outs -> (0 < rsize r)%nat) ->
  (forall i o sb, In i ins -> In o outs -> gen i o = Ok sb ->
     sb_rows sb = rsize o /\ sb_cols sb = rsize i /\ (0 < length (sb_els sb))%nat /\ NoDup (map (fun e => at_id (fst e)) (sb_els sb))) ->
  weight_layout rname rsize rirr at_id at_in at_out id_eqb ins outs gen b.
Proof. intros. eapply layout; eauto. Qed.
Print Assumptions C28_weight_layout.

(** the sampled basis of a pair of representations that R2Conv uses, with the parameters computed by the constructor *)
Definition conv_gen {G} (sp : space G) (k dil : nat) (mo : option Z) (params : (kattr -> bool) * list R * list R * Z) : rep G -> rep G -> result (sblock kattr) :=
  let '(keep, rgs, sig, maxf) := params in pair_block (fun rin rout => sp_build sp rin rout rgs sig (Some maxf) mo) k dil keep.

(** what is required of the arguments of R2Conv in the theorems below: both types are over the same planar space, their
    fields are representations of its group of positive size, equally named ones are equal, and the rings are distinct (the
    default ones are, if the dilation is positive) *)
Record conv_args {G} (sp : space G) (isrep : rep G -> Prop) (tin tout : ctype G) (dil : nat) (rings : option (list R)) : Prop := {
  ca_space : planar_space G sp isrep;
  ca_in : ft_gs tin = sp; ca_out : ft_gs tout = sp;
  ca_in_reps : Forall isrep (ft_reps tin); ca_out_reps : Forall isrep (ft_reps tout);
  ca_in_names : names_distinct (ft_reps tin); ca_out_names : names_distinct (ft_reps tout);
  ca_in_size : forall r, In r (ft_reps tin) -> (0 < rp_size r)%nat; ca_out_size : forall r, In r (ft_reps tout) -> (0 < rp_size r)%nat;
  ca_rings : match rings with Some l => NoDup l | None => (0 < dil)%nat end }.

Lemma ca_nodup {G} sp isrep (tin tout : ctype G) k dil rings fco sigma bf keep rgs sig maxf : conv_args sp isrep tin tout dil rings ->
  compute_basis_params k fco rings sigma dil bf = Ok (keep, rgs, sig, maxf) -> NoDup rgs.
Proof.
  intros H E. rewrite (rings_of _ _ _ _ _ _ _ _ _ _ E). assert (X := ca_rings _ _ _ _ _ _ H). destruct rings; auto. apply default_rings_nodup; auto.
Qed.
Lemma pad_irrelevant {G} (tin tout : ctype G) k padding stride dil mode groups bias sigma fco rings mo bf m :
  r2conv_make tin tout k padding stride dil mode groups bias sigma fco rings mo bf = Ok m ->
  exists m', r2conv_make tin tout k (PadInt 0) stride dil mode groups bias sigma fco rings mo bf = Ok m' /\ cv_exp m' = cv_exp m /\ cv_bias m' = cv_bias m.
Proof.
  unfold r2conv_make. intros H. apply assert_ok in H as [H1 H]. rewrite H1. cbn [assert_ rbind parse_padding]. apply rbind_ok in H as [pd [_ H]].
  apply rbind_ok in H as [md [-> H]]. apply rbind_ok in H as [ir [-> H]]. cbv zeta in H. apply rbind_ok in H as [[[[keep rgs] sig] maxf] [Hc H]]. rewrite Hc. cbn [rbind].
  apply rbind_ok in H as [e [-> H]]. cbn [rbind]. destruct (be_dimension kid_eqb e =? 0)%nat; [discriminate|]. injection H as <-. eexists. split; [reflexivity|]. split; reflexivity.
Qed.

(** the fields of one input group: with groups = 1 (or 0) all the fields, else the first length / groups ones *)
Definition one_group {G} (tin : ctype G) (groups : nat) : list (rep G) :=
  if (1 <? groups)%nat then firstn (length (ft_reps tin) / groups) (ft_reps tin) else ft_reps tin.

Theorem C28_R2Conv : forall G (sp : space G) isrep tin tout k padding stride dil mode groups bias sigma fco rings mo bf m,
  conv_args sp isrep tin tout dil rings -> (0 < groups)%nat ->
  r2conv_make tin tout k padding stride dil mode groups bias sigma fco rings mo bf = Ok m ->
  exists params, compute_basis_params k fco rings sigma dil bf = Ok params /\ (0 < be_dimension kid_eqb (cv_exp m))%nat /\
    weight_layout rp_name rp_size (fun r => length (rp_irreps r)) ka_id ka_in ka_out kid_eqb (one_group tin groups) (ft_reps tout)
      (conv_gen sp k dil mo params) (cv_exp m).
Proof.
  intros G sp isrep tin tout k padding stride dil mode groups bias sigma fco rings mo bf m0 CA Hg H0.
  destruct (pad_irrelevant _ _ _ _ _ _ _ _ _ _ _ _ _ _ _ H0) as [m [H [<- _]]]. assert (Hp : parse_padding (PadInt 0) = Ok (0, 0)%nat) by reflexivity.
  destruct (make_made _ _ _ _ _ _ _ _ _ _ _ _ _ _ _ _ H Hp) as (in_reps & keep & rgs & sig & maxf & E & MD & _).
  exists (keep, rgs, sig, maxf). split; [exact E|]. split; [exact (md_dim MD)|].
  destruct (space_ok _ _ _ (ca_space _ _ _ _ _ _ CA)) as [code [el [inv SF]]].
  assert (NR := ca_nodup _ _ _ _ _ _ _ _ _ _ _ _ _ _ CA E).
  destruct CA as [_ C1 C2 C3 C4 C5 C6 C7 C8 _].
  assert (EI : in_reps = one_group tin groups).
  { assert (X := md_groups MD). unfold group_in, one_group in *. destruct (1 <? groups)%nat.
    - cbv zeta in X. repeat (apply assert_ok in X as [_ X]). injection X as <-. reflexivity.
    - injection X as <-. reflexivity. }
  assert (SUB : forall r, In r in_reps -> In r (ft_reps tin)) by (intros r; apply (in_reps_sub _ _ C5 C6 _ _ _ _ _ _ _ _ MD Hg)).
  rewrite <- EI. rewrite <- C1.
  eapply (layout rp_name rp_size _ rep_eqb ka_id ka_in ka_out kid_eqb).
  - apply kid_eqb_spec.
  - apply rep_eqb_refl.
  - apply rep_eqb_name.
  - exact (md_exp MD).
  - intros x y Hx Hy. apply C5; auto.
  - intros x y Hx Hy. apply C6; auto.
  - intros r Hr. apply C7; auto.
  - exact C8.
  - intros i o sb Hi Ho Eg. assert (GG := pair_block_good _ _ _ _ _ SF k dil keep rgs sig (Some maxf) mo NR). rewrite <- C1 in GG.
    apply (gen_spec _ _ _ _ _ _ _ C3 C4 C5 C6 _ _ _ _ _ _ _ _ _ MD GG Hg i o sb Hi Ho Eg).
Qed.
Print Assumptions C28_R2Conv.

(** with repeated rings the ids of elements collide, dimension() is too small and every forward call fails: with two
    elements of the same id *)
Theorem C28_repeated_ids_refuted : exists (gen : unit -> unit -> result (sblock unit)) b,
  be_make (fun _ => "r"%string) (fun _ => 1%nat) (fun _ _ => true) (fun _ : unit => tt) [tt] [tt] 1 gen = Ok b /\
  be_dimension (fun _ _ => true) b = 1%nat /\
  forall w, exists x, be_forward (fun _ => "r"%string) (fun _ => 1%nat) (fun _ _ => true) b w = Err x.
Proof.
  exists (fun _ _ => Ok (MkSB 1 1 [(tt, fun _ => mid); (tt, fun _ _ _ => 2)])). eexists. split; [reflexivity|]. split; [reflexivity|].
  intros w. destruct w as [|a [|b w]]; eexists; reflexivity.
Qed.
Print Assumptions C28_repeated_ids_refuted.

Example C28_ex : exists m, conv_args (space_CN 4) (cyc_rep 4) c4_type c4_type 1 (Some [0; 1]) /\
  r2conv_make c4_type c4_type 3 (PadInt 1) 1 1 "zeros" 1 true (SigList [1 / 2; 1 / 2]) (FcoFun (fun _ => 2)) (Some [0; 1]) None None = Ok m.
Proof.
  destruct (c4_conv 1) as [m [keep [M _]]]. exists m. split; [|exact M]. constructor; cbn.
  - apply PS_CN; lia.
  - reflexivity.
  - reflexivity.
  - constructor; [apply c4_rep_is|constructor].
  - constructor; [apply c4_rep_is|constructor].
  - intros a b [<-|[]] [<-|[]] _. reflexivity.
  - intros a b [<-|[]] [<-|[]] _. reflexivity.
  - intros r [<-|[]]. cbn. lia.
  - intros r [<-|[]]. cbn. lia.
  - constructor; [intros [E|[]]; lra|]. constructor; [intros []|constructor].
Qed.

(** ** C29: equivariance of R2Conv *)
(** For every element e of the group that maps the pixel grid to itself, every weights, every image.  [st] is any state in
    which the module uses the filter of its current weights (C32).  The input must be tiled exactly by the stride (always
    so for stride 1). *)
Theorem C29_R2Conv_equivariant : forall G (sp : space G) isrep tin tout k padding p stride dil mode groups bias sigma fco rings mo bf m
    (interp : forall A : Type, R -> R -> arr A -> arr A) B (st : cstate) (e : gelt) (x y : arr (B -> vec)) t,
  conv_args sp isrep tin tout dil rings ->
  r2conv_make tin tout k padding stride dil mode groups bias sigma fco rings mo bf = Ok m -> parse_padding padding = Ok (p, p) ->
  used_params m st = expand_parameters m (cs_w st) (cs_b st) ->
  fg_is_element (sp_group (sp_obj sp)) e = true -> grid_exact (sp_obj sp) e ->
  conv_forward m st tin x = Ok (y, t) ->
  ((a_h x + 2 * p - (dil * (k - 1) + 1)) mod stride = 0)%nat -> ((a_w x + 2 * p - (dil * (k - 1) + 1)) mod stride = 0)%nat ->
  exists x' y' y'', field_transform interp tin x e = Ok x' /\ conv_forward m st tin x' = Ok (y', t) /\ field_transform interp tout y e = Ok y'' /\
    same_field (ct_size tout) y' y''.
Proof.
  intros G sp isrep tin tout k padding p stride dil mode groups bias sigma fco rings mo bf m interp B st e x y t CA H Hp Hu He Hx Hf D1 D2.
  destruct (make_made _ _ _ _ _ _ _ _ _ _ _ _ _ _ _ _ H Hp) as (in_reps & keep & rgs & sig & maxf & E & MD & _).
  destruct (space_ok _ _ _ (ca_space _ _ _ _ _ _ CA)) as [code [el [inv SF]]].
  assert (NR := ca_nodup _ _ _ _ _ _ _ _ _ _ _ _ _ _ CA E).
  destruct CA as [_ C1 C2 C3 C4 C5 C6 C7 C8 _].
  apply (grid_exact_iff _ _ (sf_constructed _ _ _ _ _ SF) He) in Hx as [kk Hk].
  unfold conv_forward in Hf. apply assert_ok in Hf as [Ht Hf]. apply rbind_ok in Hf as [fb [Hfb Hf]]. apply rbind_ok in Hf as [y0 [Hy Hf]]. injection Hf as -> <-.
  assert (Hexp : expand_parameters m (cs_w st) (cs_b st) = Ok fb) by congruence.
  assert (Hw : length (cs_w st) = be_dimension kid_eqb (cv_exp m)).
  { unfold expand_parameters in Hexp. apply rbind_ok in Hexp as [f [Hexp _]]. unfold be_forward in Hexp. apply assert_ok in Hexp as [Hexp _]. apply Nat.eqb_eq; auto. }
  assert (GG := pair_block_good _ _ _ _ _ SF k dil keep rgs sig (Some maxf) mo NR). rewrite C1 in MD.
  destruct (run_equivariant sp isrep code el inv SF interp tin tout C1 C2 C3 C4 C5 C6 k p stride dil groups _ m in_reps (fun _ => True) MD GG C7 C8
              (cs_w st) (cs_b st) fb e kk x y Hw Hexp He I Hk Hy D1 D2) as (x' & y' & y'' & R1 & R2 & R3 & R4).
  exists x', y', y''. split; [exact R1|]. split; [|split; [exact R3|exact R4]].
  unfold conv_forward. rewrite Ht. cbn [assert_]. rewrite Hfb. cbn [rbind]. rewrite R2. cbn [rbind]. reflexivity.
Qed.
Print Assumptions C29_R2Conv_equivariant.

(** in training mode, stride 1: no condition on the sizes *)
Corollary C29_stride_1 : forall G (sp : space G) isrep tin tout k padding p dil mode groups bias sigma fco rings mo bf m
    (interp : forall A : Type, R -> R -> arr A -> arr A) B (st : cstate) (e : gelt) (x y : arr (B -> vec)) t,
  conv_args sp isrep tin tout dil rings ->
  r2conv_make tin tout k padding 1 dil mode groups bias sigma fco rings mo bf = Ok m -> parse_padding padding = Ok (p, p) ->
  cs_training st = true ->
  fg_is_element (sp_group (sp_obj sp)) e = true -> grid_exact (sp_obj sp) e ->
  conv_forward m st tin x = Ok (y, t) ->
  exists x' y' y'', field_transform interp tin x e = Ok x' /\ conv_forward m st tin x' = Ok (y', t) /\ field_transform interp tout y e = Ok y'' /\
    same_field (ct_size tout) y' y''.
Proof.
  intros G sp isrep tin tout k padding p dil mode groups bias sigma fco rings mo bf m interp B st e x y t CA H Hp Ht He Hx Hf.
  apply (C29_R2Conv_equivariant G sp isrep tin tout k padding p 1 dil mode groups bias sigma fco rings mo bf m interp B st e x y t CA H Hp); auto using Nat.mod_1_r.
  unfold used_params. now rewrite Ht.
Qed.
Print Assumptions C29_stride_1.

(** all the hypotheses are met: a quarter turn of a 3x4 image *)
Example C29_ex : exists m st x y, conv_args (space_CN 4) (cyc_rep 4) c4_type c4_type 1 (Some [0; 1]) /\
  r2conv_make c4_type c4_type 3 (PadInt 1) 1 1 "zeros" 1 true (SigList [1 / 2; 1 / 2]) (FcoFun (fun _ => 2)) (Some [0; 1]) None None = Ok m /\
  cs_training st = true /\ fg_is_element (GC 4) (EI 1) = true /\ grid_exact (SpRot (GC 4)) (EI 1) /\
  a_h x = 3%nat /\ a_w x = 4%nat /\ conv_forward (B := unit) m st c4_type x = Ok (y, c4_type) /\ a_h y = 3%nat /\ a_w y = 4%nat.
Proof.
  destruct C28_ex as [m [CA M]]. exists m.
  destruct (C28_R2Conv _ _ _ _ _ _ _ _ _ _ _ _ _ _ _ _ _ _ CA (Nat.lt_0_succ 0) M) as [params [_ [D L]]]. destruct L as [first [_ [_ [_ [_ L]]]]].
  set (w := repeat 1 (be_dimension kid_eqb (cv_exp m))). destruct (L D w) as [f [Hf _]]; [apply repeat_length|].
  set (x := MkArr 3 4 (fun i j (_ : unit) c => INR (i + j + c))).
  assert (R : exists y, conv_forward m (MkCS true w [2] None None) c4_type x = Ok (y, c4_type) /\ a_h y = 3%nat /\ a_w y = 4%nat).
  { destruct (make_made _ _ _ _ 1 _ _ _ _ _ _ _ _ _ _ _ M eq_refl) as (ir & keep & rgs & sig & maxf & _ & MD & EM).
    unfold conv_forward, used_params. cbn [cs_training cs_w cs_b]. unfold expand_parameters. rewrite Hf. cbn [rbind]. unfold run_conv.
    rewrite (md_pad MD), (md_in MD), (md_out MD), (md_k MD),
      (md_stride MD), (md_dil MD), (md_grp MD).
    cbn in EM. injection EM as <-.
    assert (TE : ft_eqb space_eqb rep_eqb c4_type c4_type = true). { unfold ft_eqb. cbn. rewrite rep_eqb_refl. reflexivity. }
    rewrite TE. cbn [assert_]. eexists. split; [reflexivity|]. split; reflexivity. }
  destruct R as [y [R1 [R2 R3]]]. exists (MkCS true w [2] None None), x, y.
  split; [exact CA|]. split; [exact M|]. split; [reflexivity|]. split; [reflexivity|]. split; [|auto].
  left. cbn. replace (2 * PI * 1 / 4) with (PI / 2) by field. rewrite cos_PI2. ring.
Qed.
