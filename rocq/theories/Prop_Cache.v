(** Theorems C34: the caches of bases, filters and stencils. *)
From Coq Require Import Reals ZArith String List Bool Arith Lia Lra.
From Verif Require Import Base Model_Groups Model_Rep Proofs_Rep Proofs_Restrict Model_FieldType Proofs_FieldType Model_Tensor Model_GSpace Model_Kernels Spec_Kernels Model_Diffops Model_Diffops2 Proofs_Diffops2 Model_Utils Model_Expansion Proofs_Expansion Model_Conv Spec_Conv Proofs_Conv2 Proofs_Conv3 Proofs_Conv5 Proofs_Conv7 Proofs_Conv8 Proofs_Conv9 Model_R2Diffop Proofs_Stencil Proofs_R2Diffop Prop_Conv Prop_R2Diffop
  Model_Cache Spec_Cache Proofs_Cache.
Import ListNotations.
Open Scope R_scope.

(** ** C34: the layers of a program *)
(** Every layer that a program constructs (R2Conv or R2Diffop, with whatever arguments, on whatever gspace objects, successful or
    not, with or without [recompute]) is the layer constructed from its arguments alone, provided that the layers do not disturb one
    another ([undisturbed], Spec_Cache.v).  Missing from the full claim: the programs with representations of one group that share a
    name, D_N or O(2) with different mirror axes, and R2Diffop layers with different maximum_power, smoothing or angle_offset; for
    these the claim is false, see below. *)
Theorem C34_layers_partial : forall G (prog : list (nat * layer G)), undisturbed prog ->
  snd (construct_all prog fresh_process) = map (fun q => fresh (snd q)) prog.
Proof. intros G prog U. apply (construct_sound prog U prog fresh_process); [apply incl_refl|apply sound_fresh]. Qed.

(** the same, for one request after any history *)
Theorem C34_after_history_partial : forall G (history : list (nat * layer G)) o l, undisturbed (history ++ [(o, l)]) ->
  snd (construct o l (fst (construct_all history fresh_process))) = fresh l.
Proof.
  intros G history o l U. apply (construct_step _ U).
  - apply in_or_app. right. left. reflexivity.
  - apply (construct_sound _ U); [|apply sound_fresh]. intros q I. apply in_or_app. auto.
Qed.

(** ** C34: the stencils *)
(** [discretize_homogeneous_polynomial] returns the same stencil (or raises the same exception) whatever was asked or loaded from a
    file before. *)
Lemma dmethod_eq a b : dmethod_eqb a b = true -> a = b.
Proof. destruct a, b; cbn; try discriminate; auto. intros H. apply Reqb_eq in H. congruence. Qed.
Lemma dkey_eq a b : dkey_eqb a b = true -> a = b.
Proof.
  destruct a as [[p c] m], b as [[p' c'] m']. unfold dkey_eqb. cbn. intros H. apply andb_true_iff in H as [H H3]. apply andb_true_iff in H as [H1 H2].
  apply (list_eqb_eq _ Rpair_eq) in H1. apply (list_eqb_eq _ Reqb_eq) in H2. apply dmethod_eq in H3. congruence.
Qed.
Definition asked_calls (calls : list dcall) : list (result (list R)) :=
  flat_map (fun c => match c with DiscCall m p co => [discretize m p co] | DiscLoad _ => [] end) calls.
Theorem C34_discretize : forall calls, discretize_all calls [] = asked_calls calls.
Proof.
  assert (H : forall calls t, (forall k v, In (k, v) t -> discretize (snd k) (fst (fst k)) (snd (fst k)) = Ok v) -> discretize_all calls t = asked_calls calls).
  { induction calls as [|[m p co|file] calls IH]; intros t St; cbn [discretize_all asked_calls flat_map]; auto.
    assert (Hc : exists t', discretize_cached m p co t = (t', discretize m p co) /\ (forall k v, In (k, v) t' -> discretize (snd k) (fst (fst k)) (snd (fst k)) = Ok v)).
    { unfold discretize_cached, memo. destruct (kget dkey_eqb t (p, co, m)) as [v|] eqn:E.
      - exists t. split; auto. apply kget_in in E as [k' [I Q]]. apply dkey_eq in Q. subst k'. specialize (St _ _ I). cbn in St. rewrite St. reflexivity.
      - destruct (forallb _ _); [eauto|]. destruct (discretize m p co) as [v|x] eqn:Ed; eexists; (split; [reflexivity|]); auto.
        intros k v' I. apply in_app_or in I as [I|[I|[]]]; auto. injection I as <- <-. exact Ed. }
    destruct Hc as [t' [-> St']]. cbn [app]. rewrite (IH t' St'). reflexivity. }
  intros calls. apply H. intros ? ? [].
Qed.

(** ** C34 refuted: R2Diffop *)
Lemma construct_single {G} o (l : layer G) pl ri ro p : layer_plan l = Ok pl -> pl_ins pl = [ri] -> pl_outs pl = [ro] ->
  construct o l p =
  let '(p', r) := cached_block (o, pl_key pl, (rp_name ri, rp_name ro)) (sp_obj (ft_gs (layer_in l))) (pl_k pl) (pl_dil pl) (pl_build pl ri ro) (pl_filter pl) (layer_recompute l) p in
  (p', finish pl (match r with Ok sb => Ok [((rp_name ri, rp_name ro), sb)] | Err x => if String.eqb x "EmptyBasisException" then Ok [] else Err x end)).
Proof.
  intros H Hi Ho. unfold construct. rewrite H. cbv zeta. unfold build_blocks_s. rewrite Hi, Ho. cbn [set_of filter list_prod map app fold_left fst snd].
  destruct (cached_block _ _ _ _ _ _ _ _) as [p' [sb|x]]; unfold finish; rewrite Hi, Ho; reflexivity.
Qed.
Lemma fresh_single {G} isrep (l : layer G) pl ri ro : planar_space G (layer_space l) isrep -> layer_plan l = Ok pl -> pl_ins pl = [ri] -> pl_outs pl = [ro] ->
  fresh l = finish pl (match fresh_gen pl ri ro with Ok sb => Ok [((rp_name ri, rp_name ro), sb)] | Err x => if String.eqb x "EmptyBasisException" then Ok [] else Err x end).
Proof.
  intros P H Hi Ho. rewrite (fresh_plan l isrep P), H. cbn [rbind]. unfold build_blocks. rewrite Hi, Ho. cbn [set_of filter list_prod map app fold_left rbind fst snd].
  destruct (fresh_gen pl ri ro); reflexivity.
Qed.
(** two layers on the same object with the same key, which do not use the stored filters: the second one uses the basis of the first *)
Lemma second_layer {G} isrep o (l l' : layer G) pl pl' ri ro b : planar_space G (layer_space l) isrep ->
  layer_plan l = Ok pl -> layer_plan l' = Ok pl' -> pl_ins pl = [ri] -> pl_outs pl = [ro] -> pl_ins pl' = [ri] -> pl_outs pl' = [ro] ->
  pl_key pl' = pl_key pl -> layer_recompute l = true -> layer_recompute l' = true -> pl_build pl ri ro = Ok b ->
  snd (construct_all [(o, l); (o, l')] fresh_process) =
  [fresh l; finish pl' (match make_block (pl_k pl') (pl_dil pl') b (pl_filter pl') with Ok sb => Ok [((rp_name ri, rp_name ro), sb)] | Err x => if String.eqb x "EmptyBasisException" then Ok [] else Err x end)].
Proof.
  intros P H H' Hi Ho Hi' Ho' Hk R R' Hb. cbn [construct_all]. rewrite (construct_single o l pl ri ro fresh_process H Hi Ho). rewrite (fresh_single isrep l pl ri ro P H Hi Ho).
  unfold cached_block, recall, memo, block_basisexpansion, fresh_gen. cbn [kget pc_memory fresh_process]. rewrite R, Hb. cbn [rbind].
  rewrite (construct_single o l' pl' ri ro _ H' Hi' Ho').
  unfold cached_block, recall, memo, block_basisexpansion. cbn [kget pc_memory fresh_process app]. rewrite Hk. unfold ident_eqb. cbn [fst snd]. rewrite Nat.eqb_refl, mkey_same.
  unfold key_eqb. cbn [fst snd]. rewrite !String.eqb_refl. cbn [andb]. rewrite R'. cbn [snd]. reflexivity.
Qed.

(** Two layers on one gspace object: the first with maximum_power = 0, the second with the operators of order 2 (the Laplacian).
    Alone, the second is constructed; after the first, it raises ValueError. *)
Definition lap_layer (recompute : bool) : layer Z :=
  LDiffop c4_ttype c4_ttype (Some 3%Z) (Some 2%Z) None (PadInt 0) 1 1 "zeros" 1 false (order_is 2) None None None None recompute.
Definition id_layer (recompute : bool) : layer Z :=
  LDiffop c4_ttype c4_ttype (Some 3%Z) (Some 2%Z) None (PadInt 0) 1 1 "zeros" 1 false None None (Some 0%Z) None None recompute.
Lemma c4_space : planar_space Z (space_CN 4) (cyc_rep 4).
Proof. apply PS_CN. lia. Qed.
Theorem C34_diffop_power_refuted : exists m1 m2 : r2conv Z,
  fresh (id_layer true) = Ok m1 /\ fresh (lap_layer true) = Ok m2 /\
  snd (construct_all [(0%nat, id_layer true); (0%nat, lap_layer true)] fresh_process) = [Ok m1; Err "ValueError"].
Proof.
  destruct C37_ex_laplacian as (m2 & _ & _ & _ & _ & M2 & _).
  assert (Bt : exists t d0, sp_dbuild (space_CN 4) c4_triv c4_triv 0 (Some 2%Z) None = Ok t /\ tb_iter t = [MkTA (0,0)%nat 0 0 0 0 0 0 0] /\
    ka_rows (dop_attr t (MkTA (0,0)%nat 0 0 0 0 0 0 0)) = 1%nat /\ tb_coefficients t = [d0] /\ dp_coef d0 0%nat 0%nat = [1]).
  { eexists. eexists. split.
    { cbn [sp_dbuild space_CN]. unfold check_limits. cbn [opt_nonneg assert_ Z.leb Z.compare]. unfold diffops_CN_act_R2, tb_make, sk_make. rewrite !is_eye_mid. reflexivity. }
    split; [cbv; reflexivity|]. split; [cbv; reflexivity|]. split.
    { unfold tb_coefficients, sd_coefficients. cbn. reflexivity. }
    cbn. repeat f_equal; ring. }
  destruct Bt as (t & d0 & Ht & Hi & Ha & Hc & Hd).
  destruct (discretize_ok 3 1 [1]) as [v Ev]. 1: lia. all: try discriminate. all: try (cbn; lia).
  assert (V : nth 4 v 0 = 1).
  { apply discretize_value in Ev; [|lia|discriminate]. destruct Ev as [_ V]. assert (V4 := V 1%nat 1%nat ltac:(lia) ltac:(lia)). cbn [Nat.mul Nat.add] in V4. rewrite V4.
    unfold stencil. cbn [length Nat.sub rsum nth INR]. unfold fd_weights, symmetric_points. cbn. field. }
  destruct (one_operator (space_CN 4) c4_triv (Some 3%Z) (Some 2%Z) None 3 2 (PadInt 0) (0, 0)%nat 1 None (Some 0%Z) None None _ _ _ _ t (MkTA (0,0)%nat 0 0 0 0 0 0 0) d0 v
    eq_refl eq_refl eq_refl eq_refl eq_refl Ht) as [m1 [c [M1 _]]].
  - rewrite Hi, Hc. reflexivity.
  - exact Ha.
  - rewrite Hd. exact Ev.
  - exists 4%nat. split; [cbn; lia|]. rewrite V. lra.
  - exists m1, m2. split; [exact M1|]. split; [exact M2|].
    rewrite (second_layer (cyc_rep 4) 0 (id_layer true) (lap_layer true) _ _ c4_triv c4_triv (MbDif t (MkDisc DFd None)) c4_space eq_refl eq_refl eq_refl eq_refl eq_refl eq_refl eq_refl eq_refl eq_refl).
    + change (fresh (id_layer true)) with (r2diffop_make c4_ttype c4_ttype (Some 3%Z) (Some 2%Z) None (PadInt 0) 1 1 "zeros" 1 false None None (Some 0%Z) None None).
      unfold c4_ttype at 1 2. rewrite M1. do 2 f_equal. cbn [make_block pl_filter pl_k pl_dil]. unfold Model_R2Diffop.sample_masked. rewrite Hi, Hc. reflexivity.
    + change (rbind (sp_dbuild (space_CN 4) c4_triv c4_triv 0 (Some 2%Z) None) (fun b => Ok (MbDif b (MkDisc DFd None))) = Ok (MbDif t (MkDisc DFd None))). rewrite Ht. reflexivity.
Qed.

(** Two layers on one gspace object that only differ by [smoothing]: the second one gets the stencils of the first one. *)
Definition dx_layer (smoothing : option R) (recompute : bool) : layer Z :=
  LDiffop flip_type flip_type (Some 3%Z) (Some 1%Z) None (PadInt 0) 1 1 "zeros" 1 false (order_is 1) None None smoothing None recompute.
Theorem C34_diffop_smoothing_refuted : exists (m1 m2 : r2conv Z) (x : arr (unit -> vec)) y1 y2,
  fresh (dx_layer None true) = Ok m1 /\ fresh (dx_layer (Some 1) true) = Ok m2 /\
  snd (construct_all [(0%nat, dx_layer None true); (0%nat, dx_layer (Some 1) true)] fresh_process) = [Ok m1; Ok m1] /\
  let st := MkCS true [1] [] None None in
  conv_forward m1 st flip_type x = Ok (y1, flip_type) /\ conv_forward m2 st flip_type x = Ok (y2, flip_type) /\
  a_px y1 0 0 tt 0%nat = 0 /\ a_px y2 0 0 tt 0%nat <> 0.
Proof.
  destruct (discretize_ok 3 1 [1; 0]) as [v Ev]. 1: lia. all: try discriminate. all: try (cbn; lia).
  destruct (flip_layer None v Ev) as [m1 [c1 [M1 [Hc1 F1]]]].
  { exists 1%nat. split; [lia|]. rewrite (proj1 (ddx_value v Ev)). lra. }
  assert (V5 : nth 5 v 0 = 0).
  { apply discretize_value in Ev; [|lia|discriminate]. destruct Ev as [_ V]. assert (V5 := V 1%nat 2%nat ltac:(lia) ltac:(lia)). cbn [Nat.mul Nat.add] in V5. rewrite V5.
    unfold stencil. cbn [length Nat.sub rsum nth INR]. unfold fd_weights, symmetric_points. cbn. field. }
  assert (E : exists v, discretize (DGauss 1) (grid_coords 3 1) [1; 0] = Ok v).
  { cbn [discretize]. unfold gaussian_derivative. destruct (filter _ _); [eauto|]. destruct (Req_EM_T 1 0); [lra|eauto]. }
  destruct E as [v' Ev'].
  assert (V : nth 5 v' 0 = - 2 * exp (-1)).
  { destruct (discretize_poly (DGauss 1) 3 1 [1; 0] v') as [_ V]; [lia|discriminate|exact Ev'|]. rewrite V by lia.
    replace (grid_point 3 1 5) with ((1, 0) : R * R) by (unfold grid_point; cbn; f_equal; lra).
    unfold poly_w. cbn [weight frame length Nat.sub rsum nth fst snd]. unfold gauss1. cbn [gauss2 fst snd INR].
    replace (- (1 / 1 ^ 2 * 1) ^ 2) with (-1) by field. replace (- (1 / 1 ^ 2 * 0) ^ 2) with 0 by field. rewrite exp_0. field. }
  assert (B : 1 / 3 <= exp (-1)).
  { replace (exp (-1)) with (/ exp 1) by (rewrite <- exp_Ropp; f_equal; lra). assert (X := exp_le_3). assert (Y := exp_pos 1). unfold Rdiv. rewrite Rmult_1_l. apply Rinv_le_contravar; lra. }
  destruct (flip_layer (Some 1) v' Ev') as [m2 [c2 [M2 [Hc2 F2]]]].
  { exists 5%nat. split; [lia|]. rewrite V. nra. }
  set (x := MkArr 3 3 (fun i j (_ : unit) (_ : nat) => if (i =? 1)%nat && (j =? 2)%nat then 1 else 0)).
  destruct (F1 x eq_refl eq_refl) as [y1 [Y1 [_ [_ Y4]]]]. destruct (F2 x eq_refl eq_refl) as [y2 [U1 [_ [_ U4]]]].
  exists m1, m2, x, y1, y2. split; [exact M1|]. split; [exact M2|]. split.
  { destruct flip_basis as (t & d0 & d1 & Ht & _).
    rewrite (second_layer (cyc_rep 2) 0 (dx_layer None true) (dx_layer (Some 1) true) _ _ c2_rep c2_rep (MbDif t (MkDisc DFd None)) (PS_flip 0) eq_refl eq_refl eq_refl eq_refl eq_refl eq_refl eq_refl eq_refl eq_refl).
    - change (fresh (dx_layer None true)) with (r2diffop_make flip_type flip_type (Some 3%Z) (Some 1%Z) None (PadInt 0) 1 1 "zeros" 1 false (order_is 1) None None None None). rewrite M1. do 2 f_equal.
      assert (Fr := fresh_single (cyc_rep 2) (dx_layer None true) _ c2_rep c2_rep (PS_flip 0) eq_refl eq_refl eq_refl).
      change (fresh (dx_layer None true)) with (r2diffop_make flip_type flip_type (Some 3%Z) (Some 1%Z) None (PadInt 0) 1 1 "zeros" 1 false (order_is 1) None None None None) in Fr. rewrite M1 in Fr. rewrite Fr.
      unfold fresh_gen. cbn [pl_build pl_k pl_dil pl_filter].
      match goal with |- context [rbind ?u _] => replace u with (Ok (MbDif t (MkDisc DFd None))) end; [reflexivity|].
      symmetry. change (rbind (sp_dbuild (space_flip 0) c2_rep c2_rep 0 (Some 1%Z) None) (fun b => Ok (MbDif b (MkDisc DFd None))) = Ok (MbDif t (MkDisc DFd None))). rewrite Ht. reflexivity.
    - change (rbind (sp_dbuild (space_flip 0) c2_rep c2_rep 0 (Some 1%Z) None) (fun b => Ok (MbDif b (MkDisc DFd None))) = Ok (MbDif t (MkDisc DFd None))). rewrite Ht. reflexivity. }
  split; [exact Y1|]. split; [exact U1|]. split.
  - rewrite Y4. cbn [rsum x a_px Nat.eqb andb Nat.mul Nat.add]. rewrite V5. unfold Rdiv. ring.
  - rewrite U4. cbn [rsum x a_px Nat.eqb andb Nat.mul Nat.add]. rewrite V. intros Z.
    assert (X : 0 + (0 + nth 0 v' 0 * 0 + nth 1 v' 0 * 0 + nth 2 v' 0 * 0) + (0 + nth 3 v' 0 * 0 + nth 4 v' 0 * 0 + -2 * exp (-1) * 1) + (0 + nth 6 v' 0 * 0 + nth 7 v' 0 * 0 + nth 8 v' 0 * 0) = 0).
    { apply (Rmult_eq_reg_r (/ c2)); [|apply Rinv_neq_0_compat; exact Hc2]. rewrite Rmult_0_l. exact Z. }
    lra.
Qed.
Print Assumptions C34_diffop_smoothing_refuted.

(** ** C34 refuted: the stored filters of two mirror axes *)
(** D_2 acting with the mirror axis [ax]; from the trivial representation to the representation where the reflections are -1 *)
Definition d2_irrep (j : Z) : irrep (Z * Z) := match dih_irrep 2 j 0 with Ok i => i | Err _ => MkIrrep 0 0 0 0 (fun _ => mid) [] end.
Definition d2_a : rep (Z * Z) := MkRep "a" [d2_irrep 0] mid mid [].
Definition d2_b : rep (Z * Z) := MkRep "b" [d2_irrep 1] mid mid [].
Definition d2_layer (ax : R) : layer (Z * Z) :=
  LConv (MkFT (space_DN 2 ax) [d2_a]) (MkFT (space_DN 2 ax) [d2_b]) 3 (PadInt 0) 1 1 "zeros" 1 false (SigList [1]) (FcoFun (fun _ => 2)) (Some [1]) None None false.
Definition d2_basis (ax : R) : r2basis (Z * Z) := MkR2 [(1, 1)] (MkSK d2_a d2_b None None [[Some (MkKB (Some ax) 1 1 [MkKel 1 2 0 1])]]).
Definition d2_attr : kattr := MkKA 1 1 0 0 0 2 1 1 0 0 0.
Lemma d2_build ax : sp_build (space_DN 2 ax) d2_a d2_b [1] [1] (Some 2%Z) None = Ok (d2_basis ax).
Proof.
  assert (G : gauss_make [1] [1] = Ok [(1, 1)]).
  { unfold gauss_make, assert_. cbn [length Nat.eqb forallb]. unfold Rleb, Rltb. destruct (Rle_dec 0 1); [|lra]. destruct (Rlt_dec 0 1); [|lra]. reflexivity. }
  cbn [sp_build space_DN]. rewrite (sigma_gauss _ _ _ _ G). unfold check_limits. cbn [opt_nonneg assert_ Z.leb Z.compare]. unfold kernels_DN_act_R2, r2_make. rewrite G.
  unfold sk_make. rewrite !is_eye_mid. reflexivity.
Qed.
Lemma d2_attrs ax : r2_attrs (d2_basis ax) = [d2_attr].
Proof. reflexivity. Qed.
Lemma d2_sample ax p r a : radius_of p = r -> angle_of p = Some a ->
  r2_sample (d2_basis ax) 0 p O O = exp (- (1 / 2) * ((1 - r) * (1 - r))) * cos (2 * (a - ax) + PI / 2).
Proof.
  intros Hr Ha. unfold r2_sample, polar_sample. rewrite Hr, Ha. cbn. unfold gauss_sample, kb_sample, kb_sample_el, place, ke_gamma. cbn. f_equal; [f_equal; field|]. f_equal. ring.
Qed.
Lemma d2_right : radius_of (1, 0) = 1 /\ angle_of (1, 0) = Some 0.
Proof.
  assert (E : radius_of (1, 0) = 1) by (unfold radius_of; cbn; replace (1 * 1 + 0 * 0) with 1 by ring; apply sqrt_1). split; [exact E|].
  unfold angle_of. rewrite E. destruct (Rlt_dec 1 _); [lra|]. unfold arctan2. cbn. destruct (Rlt_dec 0 1); [|lra]. f_equal. replace (0 / 1) with 0 by field. apply atan_0.
Qed.
Lemma d2_corner : radius_of (1, 1) = sqrt 2 /\ angle_of (1, 1) = Some (PI / 4).
Proof.
  assert (E : radius_of (1, 1) = sqrt 2) by (unfold radius_of; cbn; f_equal; ring). split; [exact E|].
  unfold angle_of. rewrite E. assert (X : 1 <= sqrt 2) by (rewrite <- sqrt_1 at 1; apply sqrt_le_1_alt; lra). destruct (Rlt_dec (sqrt 2) _); [lra|].
  unfold arctan2. cbn. destruct (Rlt_dec 0 1); [|lra]. f_equal. replace (1 / 1) with 1 by field. apply atan_1.
Qed.
(** the layer with the axis [ax], from the block of filters *)
Lemma d2_finish ax : exists pl keep, layer_plan (d2_layer ax) = Ok pl /\ pl_ins pl = [d2_a] /\ pl_outs pl = [d2_b] /\ pl_k pl = 3%nat /\ pl_dil pl = 1%nat /\
  pl_filter pl = FK keep /\ keep d2_attr = true /\ pl_key pl = MKer [1] [1] (Some 2%Z) None /\ pl_build pl d2_a d2_b = Ok (MbKer (d2_basis ax)) /\
  forall e, exists m, finish pl (Ok [(("a"%string, "b"%string), MkSB 1 1 [(d2_attr, e)])]) = Ok m /\
    exists f, expand_parameters m [1] [] = Ok (f, None) /\ forall s, f O O s = e s O O.
Proof.
  destruct (params_ex 3 1 [1] [1] 2) as [keep [E K]]; [lia|lia|discriminate|reflexivity| |].
  { intros r [<-|[]]. split; [lra|]. exists 5%nat. split; [lia|]. unfold radius_of, grid_point. cbn. rewrite <- sqrt_1 at 1. apply sqrt_le_1_alt. lra. }
  eexists. exists keep. split. { cbn [layer_plan d2_layer]. cbn [ft_gs ft_reps]. unfold space_eqb. cbn [sp_obj space_DN sp_eqb fg_eqb Z.eqb Pos.eqb assert_]. unfold parse_padding, parse_mode. cbn [String.eqb Ascii.eqb Bool.eqb rbind]. cbn [group_in Nat.ltb Nat.leb rbind ft_reps]. rewrite E. cbn [rbind]. reflexivity. }
  cbn [pl_ins pl_outs pl_k pl_dil pl_filter pl_key pl_build].
  split; [reflexivity|]. split; [reflexivity|]. split; [reflexivity|]. split; [reflexivity|]. split; [reflexivity|]. split; [apply K; cbn; lia|]. split; [reflexivity|].
  split; [rewrite d2_build; reflexivity|]. intros e. eexists. split; [reflexivity|].
  unfold expand_parameters. cbn. eexists. split; [reflexivity|]. intros s. unfold merged, sb_el. cbn. ring.
Qed.
Lemma d2_block ax keep s0 : keep d2_attr = true -> (s0 < 9)%nat ->
  1 / 10 <= r2_sample (d2_basis ax) 0 (grid_point 3 1 s0) O O * r2_sample (d2_basis ax) 0 (grid_point 3 1 s0) O O ->
  exists c, c <> 0 /\ make_block 3 1 (MbKer (d2_basis ax)) (FK keep) =
    Ok (MkSB 1 1 [(d2_attr, fun s o i => r2_sample (d2_basis ax) 0 (nth s (grid_coords 3 1) (0, 0)) o i / c)]).
Proof.
  intros K Hs Hn. set (e := fun s => r2_sample (d2_basis ax) 0 (nth s (grid_coords 3 1) (0, 0))).
  destruct (single_one 1 1 (3 * 3) ka_rows d2_attr e eq_refl) as [c [Hc SB]].
  { eapply Rle_trans; [|apply (sq_norm_ge 1 1 (3 * 3) e s0 0 0); lia]. unfold e. rewrite coords_nth by (cbn; lia). exact Hn. }
  exists c. split; [exact Hc|]. cbn [make_block]. change (r2_elements (d2_basis ax) 3 1) with [(d2_attr, e)].
  rewrite (single_block_keep _ _ _ _ keep (fun _ => true)); [exact SB|]. intros p [<-|[]]. exact K.
Qed.
Lemma mb_match_axes ax ax' : mb_match (SpFlipRot (GD 2) ax) (SpFlipRot (GD 2) ax') (MbKer (d2_basis ax)) (MbKer (d2_basis ax')) = true.
Proof.
  unfold mb_match. cbn [group_same sp_group fg_eqb Z.eqb Pos.eqb class_of bclass_eqb andb flips_class]. cbn [d2_basis r2_radial r2_angular list_eqb].
  rewrite Rpair_same. cbn [andb]. unfold sk_match. cbn [sk_in sk_out]. rewrite !rep_eqb_refl. cbn. reflexivity.
Qed.
(** Two R2Conv layers with the same arguments, on two gspaces FlipRot2dOnR2 with N = 2 and the mirror axes 0 and pi/4.  The second
    layer gets the filters of the first one: they vanish at the point (1, 0) of the grid, where its own filter does not. *)
Theorem C34_axis_refuted : exists (m1 m2 m : r2conv (Z * Z)) f f2,
  fresh (d2_layer 0) = Ok m1 /\ fresh (d2_layer (PI / 4)) = Ok m2 /\
  snd (construct_all [(0%nat, d2_layer 0); (1%nat, d2_layer (PI / 4))] fresh_process) = [Ok m1; Ok m] /\
  expand_parameters m [1] [] = Ok (f, None) /\ expand_parameters m2 [1] [] = Ok (f2, None) /\ f O O 5%nat = 0 /\ f2 O O 5%nat <> 0.
Proof.
  destruct (d2_finish 0) as (pl1 & k1 & P1 & I1 & O1 & K1 & D1 & F1 & T1 & Y1 & B1 & Fin1).
  destruct (d2_finish (PI / 4)) as (pl2 & k2 & P2 & I2 & O2 & K2 & D2 & F2 & T2 & Y2 & B2 & Fin2).
  assert (GP : grid_point 3 1 5 = (1, 0)) by (unfold grid_point; cbn; f_equal; lra).
  assert (GC : grid_point 3 1 2 = (1, 1)) by (unfold grid_point; cbn; f_equal; lra).
  destruct d2_right as [R1 A1]. destruct d2_corner as [R2 A2].
  assert (V1 : r2_sample (d2_basis 0) 0 (grid_point 3 1 5) O O = 0).
  { rewrite GP, (d2_sample _ _ _ _ R1 A1). replace (2 * (0 - 0) + PI / 2) with (PI / 2) by ring. rewrite cos_PI2. ring. }
  assert (V2 : r2_sample (d2_basis (PI / 4)) 0 (grid_point 3 1 5) O O = 1).
  { rewrite GP, (d2_sample _ _ _ _ R1 A1). replace (2 * (0 - PI / 4) + PI / 2) with 0 by field. rewrite cos_0. replace (- (1 / 2) * ((1 - 1) * (1 - 1))) with 0 by ring. rewrite exp_0. ring. }
  destruct (d2_block 0 k1 2 T1) as [c1 [C1 S1]]; [lia| |].
  { rewrite GC, (d2_sample _ _ _ _ R2 A2). replace (2 * (PI / 4 - 0) + PI / 2) with PI by field. rewrite cos_PI.
    set (q := - (1 / 2) * ((1 - sqrt 2) * (1 - sqrt 2))). assert (Hq := exp_ineq1_le q).
    assert (Sq : 1 <= sqrt 2 <= 3 / 2). { split; [rewrite <- sqrt_1 at 1; apply sqrt_le_1_alt; lra|]. rewrite <- (sqrt_square (3 / 2)) by lra. apply sqrt_le_1_alt. lra. }
    assert (Q : - (1 / 8) <= q) by (unfold q; nra). nra. }
  destruct (d2_block (PI / 4) k2 5 T2) as [c2 [C2 S2]]; [lia|rewrite V2; lra|].
  assert (PS1 : planar_space (Z * Z) (layer_space (d2_layer 0)) (dih_rep 2)) by (apply PS_DN; lia).
  assert (PS2 : planar_space (Z * Z) (layer_space (d2_layer (PI / 4))) (dih_rep 2)) by (apply PS_DN; lia).
  set (e1 := fun s o i => r2_sample (d2_basis 0) 0 (nth s (grid_coords 3 1) (0, 0)) o i / c1) in *.
  set (e2 := fun s o i => r2_sample (d2_basis (PI / 4)) 0 (nth s (grid_coords 3 1) (0, 0)) o i / c2) in *.
  destruct (Fin1 e1) as [m1 [M1 _]]. destruct (Fin2 e2) as [m2 [M2 [f2 [X2 Z2]]]]. destruct (Fin2 e1) as [m [M [f [X Z]]]].
  exists m1, m2, m, f, f2.
  assert (Fr1 : fresh (d2_layer 0) = Ok m1). { rewrite (fresh_single _ _ pl1 d2_a d2_b PS1 P1 I1 O1). unfold fresh_gen. rewrite B1. cbn [rbind]. rewrite K1, D1, F1, S1. exact M1. }
  assert (Fr2 : fresh (d2_layer (PI / 4)) = Ok m2). { rewrite (fresh_single _ _ pl2 d2_a d2_b PS2 P2 I2 O2). unfold fresh_gen. rewrite B2. cbn [rbind]. rewrite K2, D2, F2, S2. exact M2. }
  split; [exact Fr1|]. split; [exact Fr2|]. split.
  { cbn [construct_all]. rewrite (construct_single 0 _ pl1 d2_a d2_b _ P1 I1 O1).
    unfold cached_block, recall, block_basisexpansion, memo. change (layer_recompute (d2_layer 0)) with false. cbn [kget pc_memory pc_filters fresh_process app]. rewrite B1, K1, D1, F1, S1. cbn [pc_memory pc_filters kget app].
    rewrite (construct_single 1 _ pl2 d2_a d2_b _ P2 I2 O2). unfold cached_block, recall, block_basisexpansion, memo. change (layer_recompute (d2_layer (PI / 4))) with false. cbn [kget pc_memory pc_filters fresh_process app].
    rewrite Y1, Y2, B2, K2, D2, F2. unfold ident_eqb. cbn [fst snd Nat.eqb andb kget pc_filters pc_memory app].
    match goal with |- context [fkey_match ?u ?v] => assert (FM : fkey_match u v = true) end.
    { unfold fkey_match. cbn [fk_id fk_space fk_basis fk_mask fk_points layer_in d2_layer ft_gs sp_obj space_DN mask_of]. rewrite mb_match_axes, !d2_attrs. cbn [map]. rewrite T1, T2. cbn [list_eqb Bool.eqb]. rewrite (list_eqb_same _ Rpair_same). rewrite orb_true_r. reflexivity. }
    rewrite FM. cbn [snd]. change (rp_name d2_a) with "a"%string. change (rp_name d2_b) with "b"%string. exact (f_equal2 (fun u v => [u; v]) M1 M). }
  split; [exact X|]. split; [exact X2|]. rewrite Z, Z2. unfold e1, e2. rewrite coords_nth by (cbn; lia). rewrite V1, V2. split.
  - unfold Rdiv. ring.
  - unfold Rdiv. rewrite Rmult_1_l. apply Rinv_neq_0_compat. exact C2.
Qed.
Print Assumptions C34_axis_refuted.

(** ** hypotheses met *)
(** three layers: an R2Conv on C_4 twice (the second call finds everything in the caches), and an R2Diffop on the same object *)
Definition c4_layer (p : nat) : layer Z :=
  LConv c4_type c4_type 3 (PadInt p) 1 1 "zeros" 1 true (SigList [1 / 2; 1 / 2]) (FcoFun (fun _ => 2)) (Some [0; 1]) None None false.
Example C34_ex : exists m0 m1 m2, let prog := [(0%nat, c4_layer 0); (0%nat, lap_layer false); (0%nat, c4_layer 1)] in
  undisturbed prog /\ snd (construct_all prog fresh_process) = [Ok m0; Ok m1; Ok m2].
Proof.
  destruct (c4_conv 0) as [m0 [_ [M0 _]]]. destruct (c4_conv 1) as [m2 [_ [M2 _]]]. destruct C37_ex_laplacian as (m1 & _ & _ & _ & _ & M1 & _).
  exists m0, m1, m2. cbv zeta. assert (U : undisturbed [(0%nat, c4_layer 0); (0%nat, lap_layer false); (0%nat, c4_layer 1)]).
  { assert (L : forall o l, In (o, l) [(0%nat, c4_layer 0); (0%nat, lap_layer false); (0%nat, c4_layer 1)] ->
      layer_space l = space_CN 4 /\ (forall r, In r (layer_reps l) -> r = c4_rep \/ r = c4_triv) /\ (layer_disc l = None \/ layer_disc l = Some (None, None)) /\ (layer_power l = None \/ layer_power l = Some None)).
    { intros o l [E|[E|[E|[]]]]; injection E as <- <-; cbn; (split; [reflexivity|]); (split; [|auto]); intros r I; cbn in I; intuition. }
    constructor.
    - intros o l I. exists (cyc_rep 4). destruct (L o l I) as [-> _]. apply c4_space.
    - intros o l l' I I'. destruct (L o l I) as [-> _]. destruct (L o l' I') as [-> _]. reflexivity.
    - intros o l o' l' r r' I I' _ Ir Ir' E. destruct (L o l I) as [_ [H _]]. destruct (L o' l' I') as [_ [H' _]].
      destruct (H r Ir) as [-> | ->], (H' r' Ir') as [-> | ->]; auto; discriminate E.
    - intros o l o' l' g g' a a' I I' E. destruct (L o l I) as [Q _]. rewrite Q in E. discriminate E.
    - intros o l o' l' d d' I I' E E'. destruct (L o l I) as [_ [_ [[Q|Q] _]]]; rewrite Q in E; [discriminate|]. destruct (L o' l' I') as [_ [_ [[Q'|Q'] _]]]; rewrite Q' in E'; congruence.
    - intros o l l' d d' I I' E E'. destruct (L o l I) as [_ [_ [_ [Q|Q]]]]; rewrite Q in E; [discriminate|]. destruct (L o l' I') as [_ [_ [_ [Q'|Q']]]]; rewrite Q' in E'; congruence. }
  split; [exact U|]. rewrite (C34_layers_partial Z _ U). cbn [map snd].
  change (fresh (c4_layer 0)) with (r2conv_make c4_type c4_type 3 (PadInt 0) 1 1 "zeros" 1 true (SigList [1 / 2; 1 / 2]) (FcoFun (fun _ => 2)) (Some [0; 1]) None None).
  change (fresh (c4_layer 1)) with (r2conv_make c4_type c4_type 3 (PadInt 1) 1 1 "zeros" 1 true (SigList [1 / 2; 1 / 2]) (FcoFun (fun _ => 2)) (Some [0; 1]) None None).
  change (fresh (lap_layer false)) with (r2diffop_make c4_ttype c4_ttype (Some 3%Z) (Some 2%Z) None (PadInt 0) 1 1 "zeros" 1 false (order_is 2) None None None None).
  rewrite M0, M1, M2. reflexivity.
Qed.
(** a history of stencils: the same one is asked twice, a file is loaded, the second answer comes from the table *)
Example C34_discretize_ex : exists v, discretize_all [DiscCall DFd (grid_coords 3 1) [1; 0; 1]; DiscLoad []; DiscCall DFd (grid_coords 3 1) [1; 0; 1]] [] = [Ok v; Ok v] /\ nth 4 v 0 = -4.
Proof.
  destruct (discretize_ok 3 1 [1; 0; 1]) as [v Ev]. 1: lia. all: try discriminate. all: try (cbn; lia).
  exists v. rewrite C34_discretize. cbn [asked_calls flat_map app discretize]. split; [rewrite Ev; reflexivity|].
  apply discretize_value in Ev; [|lia|discriminate]. destruct Ev as [_ V]. assert (V4 := V 1%nat 1%nat ltac:(lia) ltac:(lia)). cbn [Nat.mul Nat.add] in V4. rewrite V4.
  unfold stencil. cbn [length Nat.sub rsum nth INR]. unfold fd_weights, symmetric_points. cbn. field.
Qed.
Print Assumptions C34_layers_partial.
Print Assumptions C34_after_history_partial.
Print Assumptions C34_discretize.
Print Assumptions C34_diffop_power_refuted.
