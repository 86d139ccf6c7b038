(** Specification for C56: the networks whose equivariance is claimed. *)
From Coq Require Import Reals ZArith String List Bool.
From Verif Require Import Base Spec_Fields Model_Groups Model_Rep Model_FieldType Model_Utils Model_Modules Model_GSpace Spec_GSpace Model_Conv Spec_Conv Model_Diffops Model_Diffops2 Spec_Diffops Model_ConvT Model_Fieldwise
  Spec_Fieldwise Spec_Fieldwise2 Model_BatchNorm Spec_BatchNorm Proofs_BatchNorm4 Proofs_BatchNorm5 Proofs_BatchNorm8 Model_Pool Spec_Pool Model_Upsample Model_NormMax Spec_NormMax Model_Mask
  Model_Disentangle Model_Dropout Model_Support Spec_Support Model_Expansion Prop_Conv Model_R2Diffop Prop_R2Diffop Model_Net.
Import ListNotations.
Open Scope R_scope.

(** the numbers of the images of a batch *)
Definition numbered {B} (bt : batch B) : Prop :=
  (forall b, (bt_num bt b < bt_n bt)%nat /\ bt_at bt (bt_num bt b) = b) /\ forall k, (k < bt_n bt)%nat -> bt_num bt (bt_at bt k) = k.

Section Net.
Context {G B : Type} (sp : space G) (isrep : rep G -> Prop) (e : gelt) (g : G) (argmax : list R -> nat) (cob_id : rep G -> bool) (bt : batch B).

(** a type over the space with representations of its group, each compatible with the non-linearities it declares (as all the
    representations that can be built are: C53) *)
Definition ok_type (t : ctype G) : Prop :=
  ft_gs t = sp /\ ft_reps t <> [] /\
  forall r, In r (ft_reps t) -> isrep r /\ (0 < rp_size r)%nat /\ compatible (rp_nonlin r) (rp_size r) (rp_mat r g).
(** all representations of t have, for the element g, a matrix with the property *)
Definition each (P : nat -> mat -> Prop) (t : ctype G) : Prop := forall r, In r (ft_reps t) -> P (rp_size r) (rp_mat r g).
(** the sub-fields of an induced representation are permuted *)
Definition permutes_subfields (t : ctype G) : Prop :=
  forall r n s, In r (ft_reps t) -> field_id "induced_norm" r = Ok (n, s) -> is_block_perm (n / s) s (rp_mat r g).
(** the same argument for rows and columns *)
Definition equal (p : nat * nat) : Prop := fst p = snd p.
Definition is_square (l : list (nat * nat)) : Prop := Forall equal l \/ keeps_axes (sp_obj sp) e.
(** the list of the different representations of a type *)
Definition lists_reps (uniq : list (rep G)) (t : ctype G) : Prop := (forall r, In r uniq <-> In r (ft_reps t)) /\ NoDup (map rp_name uniq).

(** the states that a batch normalisation can reach: from its constructor, by batches and changes of its parameters *)
Notation gtensor := (gtensor (space G) (rep G) (nat -> R)).
Notation is_typed := (typed space_eqb rep_eqb).
Definition norm_bn_reached (t : ctype G) (m : nbn (K := nat)) : Prop := exists eps mo affine m0 h ys,
  norm_bn_make t eps mo affine = Ok m0 /\ 0 < eps /\ momentum_ok mo /\
  Forall (allowed (fun training n (x : gtensor) => is_typed t x /\ (training = true -> (0 < n)%nat)) (nb_event_ok Nat.eqb (map rp_size (ft_reps t)))) h /\
  run (nbn_forward space_eqb rep_eqb Nat.eqb py_str (fun s => s) (fun s => s)) (nb_apply Nat.eqb) m0 h = Ok (ys, m).
Definition induced_bn_reached (t : ctype G) (m : nbn (K := nat * nat)) : Prop := exists eps mo affine m0 ids h ys,
  induced_bn_make t eps mo affine = Ok m0 /\ rmap (field_id "induced_norm") (ft_reps t) = Ok ids /\ 0 < eps /\ momentum_ok mo /\
  Forall (allowed (fun training n (x : gtensor) => is_typed t x /\ (training = true -> (0 < n)%nat)) (nb_event_ok pair_eqb ids)) h /\
  run (nbn_forward space_eqb rep_eqb pair_eqb pair_str fst snd) (nb_apply pair_eqb) m0 h = Ok (ys, m).
Definition inner_bn_reached (t : ctype G) (m : ibn) : Prop := exists eps mo affine track m0 junk h ys,
  inner_make t eps mo affine track = Ok m0 /\ 0 < eps /\ momentum_ok mo /\
  Forall (allowed (fun training n (x : gtensor) => is_typed t x /\ ((training || negb track)%bool = true -> forall r, In r (ft_reps t) -> (1 < rp_size r * n)%nat))
            (ib_event_ok (map rp_size (ft_reps t)))) h /\
  run (fun training n => inner_forward space_eqb rep_eqb training n junk) ib_apply m0 h = Ok (ys, m).
Definition gnorm_bn_reached (t : ctype G) (m : gbn) : Prop := exists uniq eps mo affine m0 junk h ys,
  gnorm_make t uniq eps mo affine = Ok m0 /\ lists_reps uniq t /\ 0 < eps /\ momentum_ok mo /\
  Forall (allowed (fun training n (x : gtensor) => is_typed t x /\ (training = true -> (0 < n)%nat)) (gb_event_ok t)) h /\
  run (fun training n => gnorm_forward space_eqb rep_eqb cob_id training n junk) gb_apply m0 h = Ok (ys, m).

(** The layers: what their constructors return, with any parameters, for the arguments for which they are equivariant.  [fits]: the
    test that a representation is one of the group of a space (FieldType). *)
Variable fits : space G -> rep G -> bool.
Inductive made : layer G -> Prop :=
| made_conv tin tout k padding p stride dil mode groups bias sigma fco rings mo bf m st :
    conv_args sp isrep tin tout dil rings -> r2conv_make tin tout k padding stride dil mode groups bias sigma fco rings mo bf = Ok m -> parse_padding padding = Ok (p, p) ->
    used_params m st = expand_parameters m (cs_w st) (cs_b st) -> made (LConv m st)
| made_diffop tin tout ks mo acc padding p stride dil mode groups bias bf moff mpow smo aoff m st :
    conv_args sp isrep tin tout dil None -> r2diffop_make tin tout ks mo acc padding stride dil mode groups bias bf moff mpow smo aoff = Ok m -> parse_padding padding = Ok (p, p) ->
    used_params m st = expand_parameters m (cs_w st) (cs_b st) ->
    (rotates (sp_obj sp) e \/ (aoff = None /\ (smo <> None \/ exists f, bf = Some f /\ forall a, f a = true -> Nat.even (ta_order a) = true))) -> made (LConv m st)
| made_transposed tin tout k p stride dil groups bias sigma fco rings mo bf m st :
    conv_args sp isrep tin tout 1 rings -> tconv_make tin tout k p 0 stride dil groups bias sigma fco rings mo bf = Ok m -> (0 < be_dimension kid_eqb (tc_exp m))%nat ->
    used_params_t m st = expand_parameters_t m (cs_w st) (cs_b st) -> made (LConvT m st)
| made_maxpool t k s p d ceil m : maxpool_make t k s p d ceil = Ok m -> is_square [mp_k m; mp_s m; mp_p m; mp_d m] -> made (LMaxPool m)
| made_maxpool_antialiased t k s p d ceil sigma m : amaxpool_make t k s p d ceil sigma = Ok m -> is_square [mp_k (am_base m); mp_s (am_base m); mp_p (am_base m)] -> made (LMaxPoolA m)
| made_avgpool t k s p ceil m : avgpool_make t k s p ceil = Ok m -> is_square [ap_k m; ap_s m; ap_p m] -> made (LAvgPool m)
| made_avgpool_antialiased t sigma s p m : aavgpool_make t sigma s p = Ok m -> is_square [aa_s m; aa_p m] -> made (LAvgPoolA m)
| made_adaptive mx t o m : adpool_make mx t o = Ok m -> is_square [ad_o m] -> made (LAdaptive m)
| made_norm_max t k s p d ceil m : nmaxpool_make t k s p d ceil = Ok m -> each orthogonal t -> is_square [np_k m; np_s m; np_p m; np_d m] -> made (LNormMax m)
| made_upsampling t scale size mode align m : upsampling_make t scale size mode align = Ok m -> is_square (match up_size m with Some o => [o] | None => [] end) -> made (LUpsampling m)
| made_mask t s margin : made (LMask t s margin)
| made_pointwise t fn m : pointwise_make t fn = Ok m -> made (LPointwise m)
| made_relu t m : relu_make t = Ok m -> made (LPointwise m)
| made_elu t alpha m : elu_make t alpha = Ok m -> made (LPointwise m)
| made_norm t fn bias m lb : norm_make t fn bias = Ok m -> same_shape (nn_logb m) lb -> made (LNorm (set_logb m lb))
| made_induced_norm t fn bias m lb : inorm_make t fn bias = Ok m -> same_shape (in_logb m) lb -> permutes_subfields t -> made (LInducedNorm (set_ilogb m lb))
| made_gated t gates drop bias m b : gated1_make fits is_trivial t gates drop bias = Ok m -> length b = length (g1_bias m) -> made (LGated (set_bias1 m b))
| made_concatenated elements build t fn m :
    (forall name s M nl r, build name s M nl = Ok r -> rp_size r = s /\ forall g, In g elements -> meq s s (rp_mat r g) (M g)) -> In g elements ->
    conc_make fits elements build t fn = Ok m -> made (LConcatenated m)
| made_vectorfield order r1 k t m : vfield_make fits order (Some r1) t = Ok m -> rp_size r1 = 2%nat -> (k < order)%nat ->
    each (fun _ => is_shift order k) t -> is_rotation (INR k * (2 * PI / INR order)) (rp_mat r1 g) -> made (LVectorField m)
| made_group_pool triv t m : gpool_make fits triv t = Ok m -> is_trivial (triv sp) = true -> made (LGroupPool m)
| made_norm_pool triv t m : npool_make fits triv t = Ok m -> is_trivial (triv sp) = true -> each orthogonal t -> made (LNormPool m)
| made_induced_pool triv t m : ipool_make fits triv t = Ok m -> is_trivial (triv sp) = true -> permutes_subfields t -> made (LInducedPool m)
| made_norm_bn training m : norm_bn_reached (nb_in m) m -> made (LNormBatchNorm training m)
| made_induced_bn training m : induced_bn_reached (nb_in m) m -> each orthogonal (nb_in m) -> made (LInducedBatchNorm training m)
| made_inner_bn training m : inner_bn_reached (ib_in m) m -> made (LInnerBatchNorm training m)
| made_gnorm_bn training m : gnorm_bn_reached (gb_in m) m -> (forall r, In r (ft_reps (gb_in m)) -> cob_id r = true -> meq (rp_size r) (rp_size r) (rp_cob r) mid) ->
    (forall r ir, In r (ft_reps (gb_in m)) -> In ir (rp_irreps r) -> orthogonal (ir_size ir) (ir_mat ir g)) -> made (LGNormBatchNorm training m)
| made_disentangle t uniq m : dismod_make t uniq = Ok m -> lists_reps uniq t -> made (LDisentangle m)
| made_field_dropout t p inplace m : fdrop_make t p inplace = Ok m -> made (LFieldDropout m)
| made_pointwise_dropout t p m : pdrop_make t p = Ok m -> made (LPointwiseDropout m).

Definition good_layer (l : layer G) : Prop := made l /\ ok_type (layer_in l) /\ ok_type (layer_out l).

(** The inputs for which a layer is equivariant: the windows and strides of convolutions and pooling layers cover the padded image
    exactly; upsampling keeps the alignment of the grids; there are no ties where a winner is chosen; a batch to be normalised has
    enough entries. *)
Definition covers (x : arr (B -> vec)) (k s p d : nat * nat) : Prop :=
  tiled (fst p) (fst k) (fst d) (fst s) (a_h x) /\ tiled (snd p) (snd k) (snd d) (snd s) (a_w x).
Definition strides (x : arr (B -> vec)) (k stride dil p : nat) : Prop :=
  ((a_h x + 2 * p - (dil * (k - 1) + 1)) mod stride = 0)%nat /\ ((a_w x + 2 * p - (dil * (k - 1) + 1)) mod stride = 0)%nat.
Definition entries (x : arr (B -> vec)) : nat := (bt_n bt * (a_h x * a_w x))%nat.
Definition suits (l : layer G) (x y : arr (B -> vec)) : Prop :=
  match l with
  | LConv m _ => strides x (cv_k m) (cv_stride m) (cv_dil m) (fst (cv_pad m))
  | LMaxPool m => covers x (mp_k m) (mp_s m) (mp_p m) (mp_d m)
  | LMaxPoolA m => (exists q, a_h x + 4 * fst (mp_p (am_base m)) = q * fst (mp_s (am_base m)) + fst (mp_k (am_base m)))%nat /\
                   (exists q, a_w x + 4 * snd (mp_p (am_base m)) = q * snd (mp_s (am_base m)) + snd (mp_k (am_base m)))%nat
  | LAvgPool m => covers x (ap_k m) (ap_s m) (ap_p m) (1, 1)%nat
  | LAvgPoolA m => (exists q, a_h x + 2 * fst (aa_p m) = q * fst (aa_s m) + aa_fs m)%nat /\ (exists q, a_w x + 2 * snd (aa_p m) = q * snd (aa_s m) + aa_fs m)%nat
  | LNormMax m => covers x (np_k m) (np_s m) (np_p m) (np_d m) /\ single_winner (ft_reps (np_in m)) (np_k m) (np_s m) (np_p m) (np_d m) x (a_h y) (a_w y)
  | LUpsampling m => (up_mode m = "nearest"%string -> (exists q, a_h y = q * a_h x)%nat /\ (exists q, a_w y = q * a_w x)%nat) /\
                     (up_align m = Some true -> (a_h x = 1 \/ 1 < a_h y)%nat /\ (a_w x = 1 \/ 1 < a_w y)%nat)
  | LVectorField m => forall f i j b, (f < length (ft_reps (vf_in m)))%nat -> (i < a_h x)%nat -> (j < a_w x)%nat ->
      let v := fun a => a_px x i j b (f * vf_n m + a)%nat in
      (forall a a', (a < vf_n m)%nat -> (a' < vf_n m)%nat -> (forall c, (c < vf_n m)%nat -> v c <= v a) -> (forall c, (c < vf_n m)%nat -> v c <= v a') -> a = a') \/
      (forall a, (a < vf_n m)%nat -> v a <= 0)
  | LNormBatchNorm training _ | LGNormBatchNorm training _ => training = true -> (0 < entries x)%nat
  | LInducedBatchNorm training _ => training = true -> (0 < entries x)%nat
  | LInnerBatchNorm training m => (training || negb (ib_track m))%bool = true -> forall r, In r (ft_reps (ib_in m)) -> (1 < rp_size r * entries x)%nat
  | _ => True
  end.
(** along the way of x through the layers *)
Section Way.
Variables (junk : nat -> B * (nat * nat) -> R) (junkn : nat -> nat -> R).
Fixpoint suits_all (ls : list (layer G)) (x : arr (B -> vec) * ctype G) : Prop :=
  match ls with
  | [] => True
  | l :: ls' => forall y, layer_forward argmax junk junkn cob_id bt l x = Ok y -> suits l (fst x) (fst y) /\ suits_all ls' y
  end.
End Way.
End Net.
