(** The sampled differential operators of R2Diffop satisfy the constraint on the grid. *)
From Coq Require Import Reals ZArith String List Bool Arith Lia Lra.
From Verif Require Import Base Spec Model_Groups Model_Rep Proofs_Rep Model_FieldType Proofs_FieldType2 Model_GSpace Spec_GSpace Proofs_GSpace Model_Kernels Spec_Kernels Proofs_Kernels5 Proofs_Kernels6
  Model_Diffops Model_Diffops2 Spec_Diffops Proofs_Diffops Proofs_Fd Proofs_Diffops2 Prop_Diffops2 Model_Utils Model_Expansion Model_Conv Proofs_Conv Proofs_Conv2 Proofs_Conv5 Model_R2Diffop Proofs_Stencil.
Import ListNotations.
Open Scope R_scope.

(** ** weights along an axis *)
Definition fd_at (k dil n : nat) (x : R) : R :=
  rsum k (fun i => if Req_EM_T (nth i (symmetric_points k (INR dil)) 0) x then nth i (fd_weights n (symmetric_points k (INR dil))) 0 else 0).
Lemma fd_at_nth k dil n a : (0 < dil)%nat -> (a < k)%nat ->
  fd_at k dil n (nth a (symmetric_points k (INR dil)) 0) = nth a (fd_weights n (symmetric_points k (INR dil))) 0.
Proof.
  intros Hd Ha. unfold fd_at. rewrite (rsum_single k a) by (auto; intros i Hi Hne; destruct (Req_EM_T _ _) as [E|]; auto; exfalso; apply Hne;
    apply (proj1 (NoDup_nth (symmetric_points k (INR dil)) 0) (sym_nodup k (INR dil) (not_0_INR dil ltac:(lia)))); rewrite ?sym_length; auto).
  destruct (Req_EM_T _ _); [reflexivity|congruence].
Qed.
Lemma fd_odd_even k dil : (0 < dil)%nat -> odd_even (fd_at k dil).
Proof.
  intros Hd n x. unfold fd_at. rewrite rsum_rev, <- rsum_scal. apply rsum_ext. intros i Hi. rewrite sym_neg by auto.
  rewrite fd_mirror by (auto; apply not_0_INR; lia).
  destruct (Req_EM_T (- nth i (symmetric_points k (INR dil)) 0) (- x)) as [E|E]; destruct (Req_EM_T (nth i (symmetric_points k (INR dil)) 0) x) as [E'|E']; try ring; exfalso; lra.
Qed.
Lemma gauss2_parity eps n x : fst (gauss2 eps n (- x)) = (-1) ^ n * fst (gauss2 eps n x) /\ snd (gauss2 eps n (- x)) = - (-1) ^ n * snd (gauss2 eps n x).
Proof.
  induction n as [|n [IH1 IH2]].
  - cbn [gauss2 fst snd pow]. split; [|ring]. replace (eps * - x * (eps * - x * 1)) with (eps * x * (eps * x * 1)) by ring. ring.
  - cbn [gauss2]. destruct (gauss2 eps n (- x)) as [g h], (gauss2 eps n x) as [g' h']. cbn [fst snd] in *. subst g h. cbn [pow]. split; ring.
Qed.
Lemma gauss_odd_even eps : odd_even (gauss1 eps).
Proof. intros n x. apply gauss2_parity. Qed.

(** the weights of a method, and the frame in which the code evaluates them *)
Definition weight (m : dmethod) (k dil : nat) : nat -> R -> R := match m with DFd => fd_at k dil | DGauss s => gauss1 (1 / s ^ 2) end.
Definition frame (m : dmethod) (p : point) : point := match m with DFd => (- snd p, fst p) | DGauss _ => p end.
Lemma weight_odd_even m k dil : (0 < dil)%nat -> odd_even (weight m k dil).
Proof. intros Hd. destruct m; [apply fd_odd_even; auto|apply gauss_odd_even]. Qed.

Lemma discretize_poly m k dil c v : (0 < dil)%nat -> c <> [] -> discretize m (grid_coords k dil) c = Ok v ->
  length v = (k * k)%nat /\ forall s, (s < k * k)%nat -> nth s v 0 = poly_w (weight m k dil) c (frame m (grid_point k dil s)).
Proof.
  intros Hd Hc. destruct m as [|sm]; cbn [discretize weight frame].
  - intros H. destruct (discretize_value k dil c v Hd Hc H) as [L V]. split; auto. intros s Hs. destruct (cell k s Hs) as [a [b [Ha [Hb ->]]]].
    rewrite V by auto. rewrite grid_value by auto. cbn [fst snd]. rewrite Ropp_involutive. unfold stencil, poly_w. cbn [fst snd].
    rewrite <- !sym_nth by auto. apply rsum_ext. intros j Hj. rewrite !fd_at_nth by auto. reflexivity.
  - unfold gaussian_derivative. set (n := (length c - 1)%nat). set (p := fun j => if Req_EM_T (nth j c 0) 0 then false else true).
    assert (Hn : length c = (n + 1)%nat) by (unfold n; destruct c; [congruence|cbn; lia]).
    assert (Hp : forall j, p j = false -> nth j c 0 = 0) by (intros j; unfold p; destruct (Req_EM_T (nth j c 0) 0); congruence).
    assert (ST : forall q, poly_w (gauss1 (1 / sm ^ 2)) c q = lsum (map (fun k => nth k c 0 * (gauss1 (1 / sm ^ 2) (n - k) (fst q) * gauss1 (1 / sm ^ 2) k (snd q))) (filter p (seq 0 (n + 1))))).
    { intros q. rewrite lsum_map_filter by (intros j Hj; rewrite (Hp j Hj); ring). rewrite lsum_rsum. unfold poly_w. rewrite Hn. replace (n + 1 - 1)%nat with n by lia. reflexivity. }
    destruct (filter p (seq 0 (n + 1))) as [|j0 l0] eqn:EF.
    + intros E. injection E as <-. rewrite repeat_length, grid_length. split; auto. intros s Hs. rewrite ST. cbn [map lsum fold_right]. apply nth_repeat.
    + rewrite <- EF in *. clear EF j0 l0. destruct (Req_EM_T sm 0); [discriminate|]. intros E. injection E as <-. rewrite map_length, grid_length. split; auto. intros s Hs.
      rewrite ST. set (f := fun q : R * R => lsum (map (fun k0 => nth k0 c 0 * (gauss1 (1 / sm ^ 2) (n - k0) (fst q) * gauss1 (1 / sm ^ 2) k0 (snd q))) (filter p (seq 0 (n + 1))))).
      rewrite (nth_indep _ 0 (f (0, 0))) by (rewrite map_length, grid_length; auto). rewrite (map_nth f). rewrite grid_nth by auto. reflexivity.
Qed.

(** ** the elements that map the grid to itself *)
Lemma plane_signed s e : constructed s -> fg_is_element (sp_group s) e = true -> grid_exact s e ->
  exists sw a d, unit_sign a /\ unit_sign d /\ (forall p, plane_action s e p = signed sw a d p) /\
    (if sw then d = (if gflip s e then 1 else -1) * a else d = (if gflip s e then -1 else 1) * a).
Proof.
  intros Hc He Hx. apply (grid_exact_iff s e Hc He) in Hx. destruct Hx as [k Hk].
  assert (Q := cos_sin_quarter k). rewrite <- Hk in Q.
  assert (C : exists (sw : bool) (a : R), unit_sign a /\ if sw then cos (gangle s e) = 0 /\ sin (gangle s e) = a else cos (gangle s e) = a /\ sin (gangle s e) = 0).
  { assert (M := Z.mod_pos_bound k 4 ltac:(lia)).
    assert (k mod 4 = 0 \/ k mod 4 = 1 \/ k mod 4 = 2 \/ k mod 4 = 3)%Z as [E|[E|[E|E]]] by lia; rewrite E in Q.
    - exists false, 1. split; [left; reflexivity|exact Q].
    - exists true, 1. split; [left; reflexivity|exact Q].
    - exists false, (-1). split; [right; reflexivity|exact Q].
    - exists true, (-1). split; [right; reflexivity|exact Q]. }
  destruct C as [sw [a [Ha C]]]. assert (Hna : unit_sign (- a)) by (destruct Ha as [->| ->]; [right|left]; lra).
  destruct (gflip s e) eqn:F; destruct sw; destruct C as [C S'].
  - exists true, a, a. split; auto. split; auto. split; [|ring]. intros p. rewrite plane_action_form, F by auto. unfold rotate_pt, signed. cbn [fst snd]. rewrite C, S'. unfold point. f_equal; ring.
  - exists false, a, (- a). split; auto. split; auto. split; [|ring]. intros p. rewrite plane_action_form, F by auto. unfold rotate_pt, signed. cbn [fst snd]. rewrite C, S'. unfold point. f_equal; ring.
  - exists true, (- a), a. split; auto. split; auto. split; [|ring]. intros p. rewrite plane_action_form, F by auto. unfold rotate_pt, signed. cbn [fst snd]. rewrite C, S'. unfold point. f_equal; ring.
  - exists false, a, a. split; auto. split; auto. split; [|ring]. intros p. rewrite plane_action_form, F by auto. unfold rotate_pt, signed. cbn [fst snd]. rewrite C, S'. unfold point. f_equal; ring.
Qed.

(** for which elements a discretised operator of a given order satisfies the constraint *)
Definition disc_ok (s : gspace) (ds : disc_args) (order : nat) (e : gelt) : Prop :=
  gflip s e = false \/ (ds_offset ds = None /\ (ds_method ds = DFd -> Nat.even order = true)).

Lemma frame_move m s e (sw : bool) (a d : R) (p : point) : (if sw then d = (if gflip s e then 1 else -1) * a else d = (if gflip s e then -1 else 1) * a) ->
  frame m (signed sw a d p) = match m with DFd => (if gflip s e then (- fst (signed sw a d (frame m p)), - snd (signed sw a d (frame m p))) else signed sw a d (frame m p)) | DGauss _ => signed sw a d (frame m p) end.
Proof.
  intros H. destruct m; [|reflexivity]. cbn [frame]. destruct sw; destruct (gflip s e); subst d; cbn [signed fst snd]; unfold point; f_equal; ring.
Qed.

Lemma offset_len o d : even_len d -> forall i j, length (offset_poly o (dp_coef d i j)) = S (dp_order d).
Proof. intros L i j. destruct o as [a|]; [|apply L]. cbn [offset_poly]. rewrite (proj1 (transform_ok (dp_coef d i j) _ (nonempty _ _ (L i j)))). apply L. Qed.
Lemma offset_value o c x y : c <> [] ->
  hom_value (offset_poly o c) x y = hom_value c (fst (rotate_pt (- match o with Some a => a | None => 0 end) (x, y))) (snd (rotate_pt (- match o with Some a => a | None => 0 end) (x, y))).
Proof.
  intros H. destruct o as [a|]; cbn [offset_poly].
  - rewrite rot_matrix_value by auto. unfold rotate_pt. cbn [fst snd]. rewrite cos_neg, sin_neg. f_equal; ring.
  - unfold rotate_pt. cbn [fst snd]. rewrite Ropp_0, cos_0, sin_0. f_equal; ring.
Qed.

Lemma poly_dop_steer s e ds no ni A B k dil d : constructed s -> fg_is_element (sp_group s) e = true -> grid_exact s e -> (0 < dil)%nat -> even_len d ->
  disc_ok s ds (dp_order d) e ->
  (forall p, meq no ni (symbol d (plane_action s e p)) (mmul ni (mmul no A (symbol d p)) B)) ->
  steer s e no ni k A B (fun x i j => poly_w (weight (ds_method ds) k dil) (offset_poly (ds_offset ds) (dp_coef d i j)) (frame (ds_method ds) (grid_point k dil x))).
Proof.
  intros Hc He Hx Hd L OK H. destruct (plane_signed s e Hc He Hx) as [sw [a [b [Ha [Hb [PS RL]]]]]].
  set (m := ds_method ds) in *. set (P := fun i j => offset_poly (ds_offset ds) (dp_coef d i j)).
  assert (LP : forall i j, length (P i j) = S (dp_order d)) by (apply offset_len; auto).
  assert (NE : forall i j, P i j <> []) by (intros i j; eapply nonempty, LP).
  assert (W := weight_odd_even m k dil Hd).
  (* the rotated operators satisfy the constraint *)
  assert (HP : forall q, meq no ni (fun i j => hom_value (P i j) (fst (signed sw a b q)) (snd (signed sw a b q)))
                       (mmul ni (mmul no A (fun i j => hom_value (P i j) (fst q) (snd q))) B)).
  { intros q. set (t := - match ds_offset ds with Some a => a | None => 0 end).
    assert (CM : rotate_pt t (signed sw a b q) = signed sw a b (rotate_pt t q)).
    { destruct OK as [R|[O _]].
      - rewrite R in RL. destruct sw; subst b; unfold rotate_pt; cbn [signed fst snd]; unfold point; f_equal; ring.
      - unfold t. rewrite O, Ropp_0. rewrite !rotate_0. reflexivity. }
    assert (V : forall q, meq no ni (fun i j => hom_value (P i j) (fst q) (snd q)) (symbol d (rotate_pt t q))).
    { intros [x y] i j _ _. unfold P, symbol. rewrite offset_value; [reflexivity|]. eapply nonempty, L. }
    intros i j Hi Hj. rewrite (V (signed sw a b q) i j Hi Hj). rewrite CM, <- PS. rewrite (H (rotate_pt t q) i j Hi Hj).
    apply mmul_compat with (r := no) (c := ni); auto; [|reflexivity]. apply mmul_compat; [reflexivity|]. intros u v Hu Hv. symmetry. apply (V q u v Hu Hv). }
  assert (ST := poly_steer (weight m k dil) sw a b no ni A B (dp_order d) P W Ha Hb LP HP).
  intros i j i0 j0 Hi Hj Hi0 Hj0 E. rewrite !grid_centre by auto. rewrite E, <- plane_scale, PS by auto. set (p := scale_pt (INR dil) (centre k k i0 j0)).
  assert (FM := frame_move m s e sw a b p RL).
  assert (EQ : forall u v, poly_w (weight m k dil) (P u v) (frame m (signed sw a b p)) = poly_w (weight m k dil) (P u v) (signed sw a b (frame m p))).
  { intros u v. rewrite FM. destruct m eqn:Em; [|reflexivity]. destruct (gflip s e) eqn:Fl; [|reflexivity]. rewrite poly_neg by auto. rewrite LP.
    destruct OK as [R|[_ Ev]]; [congruence|]. specialize (Ev Em). replace (S (dp_order d) - 1)%nat with (dp_order d) by lia.
    apply Nat.even_spec in Ev. destruct Ev as [h ->]. rewrite pow_1_even. ring. }
  intros u v Hu Hv. fold (P u v). rewrite EQ. apply (ST (frame m p) u v Hu Hv).
Qed.

(** ** the sampled array *)
Lemma rmap_nth {A B} (f : A -> result B) l l' i d0 d : rmap f l = Ok l' -> (i < length l)%nat -> f (nth i l d0) = Ok (nth i l' d).
Proof.
  revert l' i. induction l as [|x l IH]; intros l' i E Hi; [cbn in Hi; lia|]. cbn [rmap] in E. unfold rbind in E.
  destruct (f x) as [y|] eqn:Ex; [|discriminate]. destruct (rmap f l) as [m|] eqn:El; [|discriminate]. injection E as <-. destruct i as [|i]; [exact Ex|]. cbn [nth]. apply IH; auto. cbn in Hi. lia.
Qed.
Lemma rmap_in {A B} (f : A -> result B) l l' y : rmap f l = Ok l' -> In y l' -> exists x, In x l /\ f x = Ok y.
Proof.
  revert l'. induction l as [|x l IH]; intros l' E; [injection E as <-; intros []|]. cbn [rmap] in E. unfold rbind in E.
  destruct (f x) as [z|] eqn:Ex; [|discriminate]. destruct (rmap f l) as [m|] eqn:El; [|discriminate]. injection E as <-. intros [->|I].
  - exists x. split; [left; auto|auto].
  - destruct (IH m eq_refl I) as [x' [I' E']]. exists x'. split; [right; auto|auto].
Qed.
Lemma rmap_fst {A B C} (f : A -> result B) (g : A -> C) (h : B -> C) l l' : (forall x y, f x = Ok y -> h y = g x) -> rmap f l = Ok l' -> map h l' = map g l.
Proof.
  intros H. revert l'. induction l as [|x l IH]; intros l' E; [injection E as <-; reflexivity|]. cbn [rmap] in E. unfold rbind in E.
  destruct (f x) as [z|] eqn:Ex; [|discriminate]. destruct (rmap f l) as [m|] eqn:El; [|discriminate]. injection E as <-. cbn [map]. rewrite (H _ _ Ex), (IH m eq_refl). reflexivity.
Qed.
Lemma sample_dop_value ds rows cols k dil d f : (0 < dil)%nat -> even_len d -> sample_dop ds rows cols (grid_coords k dil) d = Ok f ->
  forall i j s, (i < rows)%nat -> (j < cols)%nat -> (s < k * k)%nat ->
    f s i j = poly_w (weight (ds_method ds) k dil) (offset_poly (ds_offset ds) (dp_coef d i j)) (frame (ds_method ds) (grid_point k dil s)).
Proof.
  intros Hd L. unfold sample_dop, rbind. destruct (rmap _ (seq 0 rows)) as [t|] eqn:Et; [|discriminate]. intros E. injection E as <-. intros i j s Hi Hj Hs.
  assert (E1 := rmap_nth _ _ _ i 0%nat [] Et ltac:(rewrite seq_length; auto)). rewrite seq_nth in E1 by auto. cbn beta in E1.
  assert (E2 := rmap_nth _ _ _ j 0%nat [] E1 ltac:(rewrite seq_length; auto)). rewrite seq_nth in E2 by auto. cbn [Nat.add] in E2.
  apply (discretize_poly (ds_method ds) k dil _ _ Hd) in E2; [|eapply nonempty; apply offset_len; auto]. apply E2; auto.
Qed.
Lemma sample_steer s e ds no ni A B k dil d f : constructed s -> fg_is_element (sp_group s) e = true -> grid_exact s e -> (0 < dil)%nat -> even_len d ->
  disc_ok s ds (dp_order d) e ->
  (forall p, meq no ni (symbol d (plane_action s e p)) (mmul ni (mmul no A (symbol d p)) B)) ->
  sample_dop ds no ni (grid_coords k dil) d = Ok f -> steer s e no ni k A B f.
Proof.
  intros Hc He Hx Hd L OK H Ef i j i0 j0 Hi Hj Hi0 Hj0 E u v Hu Hv.
  assert (N1 : (i * k + j < k * k)%nat) by nia. assert (N2 : (i0 * k + j0 < k * k)%nat) by nia.
  rewrite (sample_dop_value _ _ _ _ _ _ _ Hd L Ef) by auto.
  rewrite (poly_dop_steer s e ds no ni A B k dil d Hc He Hx Hd L OK H i j i0 j0 Hi Hj Hi0 Hj0 E u v Hu Hv).
  apply mmul_compat with (r := no) (c := ni); auto; [|reflexivity]. apply mmul_compat; [reflexivity|]. intros x y Hx' Hy'. symmetry. apply (sample_dop_value _ _ _ _ _ _ _ Hd L Ef); auto.
Qed.

(** ** the attributes *)
Lemma sd_iter_sk l : forall count, map fst (sd_iter_from l count) = sk_iter_from l count.
Proof.
  induction l as [|k l IH]; intros count; [reflexivity|]. cbn [sd_iter_from sk_iter_from]. destruct (bk_basis k); [|apply IH].
  rewrite map_app, map_map, IH. reflexivity.
Qed.
Section Attrs.
Context {G : Type} (mk : irrep G -> irrep G -> result kbasis) (rin rout : rep G) (P : Z) (t : tbasis G).
Hypothesis Ht : tb_make mk rin rout P = Ok t.

Lemma attr_id a a' : In a (tb_iter t) -> In a' (tb_iter t) -> ka_id (dop_attr t a) = ka_id (dop_attr t a') ->
  ta_irreps a = ta_irreps a' /\ ta_inner a = ta_inner a' /\ ta_power a = ta_power a'.
Proof.
  assert (OR : forall l ps idx a, In a (tb_iter_from l ps idx) -> ta_order a = (Z.abs_nat (ta_freq a) + 2 * ta_power a)%nat).
  { clear. induction l as [|x l IH]; intros ps idx a I; [destruct I|]. cbn [tb_iter_from] in I. apply in_app_or in I. destruct I as [I|I]; [|eapply IH; eauto].
    apply in_map_iff in I. destruct I as [q [<- _]]. unfold t_attr. destruct x as [[[[ii oo] r] z] e]. reflexivity. }
  intros I I'. assert (O1 := OR _ _ _ _ I). assert (O2 := OR _ _ _ _ I'). unfold dop_attr.
  destruct (ta_irreps a) as [ii oo] eqn:Ea. destruct (ta_irreps a') as [ii' oo'] eqn:Ea'.
  destruct (sk_attr_freq _ _) as [[m1 r1] c1]. destruct (sk_attr_freq _ _) as [[m2 r2] c2]. unfold ka_id. cbn [ka_in ka_out ka_radius ka_freq ka_inner].
  intros E. injection E as E1 E2 E3 E4 E5. apply INR_eq in E3. rewrite O1, O2, E4 in E3. subst. split; auto. split; auto. lia.
Qed.
Lemma ids_nodup : NoDup (map (fun a => ka_id (dop_attr t a)) (tb_iter t)).
Proof.
  destruct (tb_make_inv _ _ _ _ _ Ht) as [Hs _]. set (n := (tb_power t + 1)%nat). assert (Hn : (0 < n)%nat) by (unfold n; lia).
  set (L := sd_iter_from (sk_blocks (tb_1 t)) 0).
  assert (ND : NoDup (map akey (map fst L))).
  { unfold L. rewrite sd_iter_sk. apply iter_nodup. rewrite (proj1 (Proofs_Kernels6.blocks_facts mk rin rout _ Hs)). apply nodup_list_prod; apply seq_NoDup. }
  assert (LEN : length (tb_iter t) = (length L * n)%nat) by (unfold tb_iter; rewrite tb_iter_len; reflexivity).
  apply NoDup_nth_error. intros i j Hi E. rewrite map_length in Hi.
  assert (Hj : (j < length (tb_iter t))%nat).
  { assert (X := proj2 (nth_error_Some (map (fun a => ka_id (dop_attr t a)) (tb_iter t)) i) ltac:(rewrite map_length; auto)). rewrite E in X.
    apply nth_error_Some in X. rewrite map_length in X. auto. }
  rewrite !nth_error_map in E. destruct (nth_error (tb_iter t) i) as [a|] eqn:Ea; [|apply nth_error_None in Ea; lia].
  destruct (nth_error (tb_iter t) j) as [a'|] eqn:Ea'; [|apply nth_error_None in Ea'; lia]. cbn [option_map] in E. assert (E9 : ka_id (dop_attr t a) = ka_id (dop_attr t a')) by congruence. clear E. rename E9 into E.
  apply attr_id in E; [|eapply nth_error_In; eauto|eapply nth_error_In; eauto]. destruct E as [E1 [E2 E3]].
  unfold tb_iter in Ea, Ea'. fold n L in Ea, Ea'. rewrite tb_iter_nth in Ea, Ea' by (auto; rewrite LEN in *; auto).
  destruct (nth_error L (i / n)) as [x|] eqn:Ex; [|discriminate]. destruct (nth_error L (j / n)) as [x'|] eqn:Ex'; [|discriminate].
  cbn [option_map] in Ea, Ea'. injection Ea as <-. injection Ea' as <-. destruct x as [[[[ii oo] r] z] e]. destruct x' as [[[[ii' oo'] r'] z'] e'].
  cbn [t_attr ta_irreps ta_inner ta_power fst snd] in E1, E2, E3. injection E1 as <- <-. subst r'.
  assert (Q : (i / n = j / n)%nat).
  { apply (proj1 (NoDup_nth_error (map akey (map fst L))) ND).
    - rewrite !map_length. apply nth_error_Some. congruence.
    - rewrite !nth_error_map, Ex, Ex'. reflexivity. }
  rewrite (Nat.div_mod i n), (Nat.div_mod j n) by lia. rewrite Q, E3. reflexivity.
Qed.
Lemma pair_in a d : In (a, d) (combine (tb_iter t) (tb_coefficients t)) -> In d (tb_coefficients t) /\ ta_order a = dp_order d.
Proof.
  intros I. split; [eapply in_combine_r; eauto|]. apply In_nth_error in I. destruct I as [i Hi].
  destruct (C27_tensor_basis G mk rin rout P t Ht) as [_ [L [H _]]]. cbv zeta in H.
  assert (E : nth_error (tb_iter t) i = Some a /\ nth_error (tb_coefficients t) i = Some d).
  { clear -Hi. revert Hi. generalize (tb_coefficients t). generalize (tb_iter t). intros l. revert i. induction l as [|x l IH]; intros i m E; [destruct i; discriminate|].
    destruct m as [|y m]; [destruct i; discriminate|]. destruct i as [|i]; [cbn in E; injection E as -> ->; auto|]. apply (IH i m E). }
  destruct E as [E1 E2].
  assert (Li : (i < tb_dim t)%nat) by (apply nth_error_Some; congruence).
  destruct (H i Li) as (ii & oo & r & i0 & o & b & d' & _ & _ & _ & _ & _ & E3 & E4 & O & _). rewrite E1 in E3. injection E3 as ->. rewrite E2 in E4. injection E4 as ->. reflexivity.
Qed.
End Attrs.

Definition orders_ok (s : gspace) (ds : disc_args) (keep : tattr -> bool) (e : gelt) : Prop :=
  grid_exact s e /\ forall a, keep a = true -> disc_ok s ds (ta_order a) e.

Lemma dop_block_good {G} (sp : space G) isrep code el inv : space_facts sp isrep code el inv -> forall k dil keep ds power F T, (0 < dil)%nat ->
  gen_good sp isrep code el inv (orders_ok (sp_obj sp) ds keep) k (dop_block (fun rin rout => sp_dbuild sp rin rout power F T) ds k dil keep).
Proof.
  intros SF k dil keep ds power F T Hd rin rout sb Hi Ho H. unfold dop_block in H.
  destruct (sp_dbuild sp rin rout power F T) as [t|] eqn:Eb; [|discriminate]. cbn [rbind] in H.
  destruct (sf_dbuild _ _ _ _ _ SF _ _ _ _ _ _ Hi Ho Eb) as [[mk Hmk] HP].
  destruct (sample_masked _ _ _ _ _ _) as [l|] eqn:El; [|discriminate]. cbn [rbind] in H. unfold sample_masked in El.
  destruct (single_block_spec _ _ _ _ _ _ _ H) as [H1 [H2 [H3 [H4 H5]]]]. split; [auto|]. split; [auto|]. split; [auto|]. split.
  - apply H5. rewrite !map_map. cbn [fst].
    assert (E1 : map (fun p : tattr * (nat -> mat) => ka_id (dop_attr t (fst p))) l = map (fun p : tattr * dop => ka_id (dop_attr t (fst p))) (filter (fun p => keep (fst p)) (combine (tb_iter t) (tb_coefficients t)))).
    { revert El. apply rmap_fst. intros [a d] [a' f] E. unfold rbind in E. cbn [fst snd] in E. destruct (sample_dop _ _ _ _ _); [|discriminate]. injection E as -> _. reflexivity. }
    rewrite E1. apply nodup_map_filter. rewrite <- (map_map fst (fun a => ka_id (dop_attr t a))).
    rewrite map_fst_combine; [apply (ids_nodup mk rin rout power t Hmk)|].
    destruct (C27_tensor_basis G mk rin rout power t Hmk) as [_ [L _]]. exact L.
  - intros x g Hg He [GE OK]. unfold sb_el. destruct (nth_error (sb_els sb) x) as [p|] eqn:Et; [|apply steer_zero].
    destruct (H4 p (nth_error_In _ _ Et)) as [_ [e [c [I ->]]]]. apply steer_scal.
    apply in_map_iff in I. destruct I as [[a f] [E I]]. cbn [fst snd] in E. injection E as _ ->.
    destruct (rmap_in _ _ _ _ El I) as [[a' d] [I' E]]. unfold rbind in E. cbn [fst snd] in E. destruct (sample_dop _ _ _ _ _) as [f'|] eqn:Ef; [|discriminate]. injection E as -> ->.
    apply filter_In in I'. destruct I' as [I' K]. cbn [fst] in K. destruct (pair_in mk rin rout power t Hmk a d I') as [Id O].
    destruct (HP d Id) as [L PC]. apply (sample_steer _ _ ds _ _ _ _ k dil d); auto.
    + apply (sf_constructed _ _ _ _ _ SF).
    + rewrite <- O. apply OK; auto.
Qed.
