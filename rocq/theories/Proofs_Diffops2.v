(** The symbols of the differential operators are, on the unit circle, the kernels of the corresponding bases up to a sign. *)
From Coq Require Import Reals ZArith String List Bool Arith Lia Lra FunctionalExtensionality.
From Verif Require Import Base Spec Model_Groups Proofs_Groups Model_Rep Proofs_Irreps Proofs_Rep Proofs_Restrict Model_GSpace Spec_GSpace Proofs_GSpace
  Model_Kernels Spec_Kernels Proofs_Kernels Proofs_Kernels2 Proofs_Kernels3 Proofs_Kernels5 Proofs_Kernels6 Proofs_Kernels7 Model_Diffops Model_Diffops2 Spec_Diffops Proofs_Diffops.
Import ListNotations.
Open Scope R_scope.

(** ** the enumerations are those of the kernels *)
Lemma d_flips_eq : d_flips = flips_basis. Proof. reflexivity. Qed.
Lemma d_rotN_eq : d_rotN = rotN_basis. Proof. reflexivity. Qed.
Lemma d_fliprotN_eq : d_fliprotN = fliprotN_basis. Proof. reflexivity. Qed.
Lemma d_fliprot_eq : d_fliprot = fliprot_basis. Proof. reflexivity. Qed.
Lemma d_rot_eq : d_rot = rot_basis.
Proof.
  apply functional_extensionality. intros i. apply functional_extensionality. intros o. unfold d_rot, rot_basis.
  destruct (ir_size i) as [|[|[|]]]; try reflexivity. destruct (ir_size o) as [|[|[|]]]; try reflexivity.
  destruct (Z.eqb_spec (ir_freq i) 0) as [->|]; [|reflexivity]. destruct (Z.eqb_spec (ir_freq o) 0) as [->|]; [|reflexivity]. reflexivity.
Qed.

(** ** elements between irreps *)
Lemma rot_matrix_value c a x y : c <> [] -> hom_value (transform_polynomial c (rot_matrix a)) x y = hom_value c (cos a * x + sin a * y) (- sin a * x + cos a * y).
Proof. intros H. rewrite (proj2 (transform_ok c (rot_matrix a) H)). reflexivity. Qed.
Lemma turn_length ax c : c <> [] -> length (turn_poly ax c) = length c.
Proof. intros H. destruct ax as [a|]; [|reflexivity]. cbn [turn_poly]. destruct (Req_EM_T a 0); [reflexivity|]. apply (transform_ok c _ H). Qed.
Lemma turn_value ax c a : c <> [] ->
  hom_value (turn_poly ax c) (cos a) (sin a) = hom_value c (cos (match ax with None => a | Some v => a - v end)) (sin (match ax with None => a | Some v => a - v end)).
Proof.
  intros H. destruct ax as [v|]; [|reflexivity]. cbn [turn_poly]. destruct (Req_EM_T v 0) as [->|].
  - rewrite Rminus_0_r. reflexivity.
  - rewrite rot_matrix_value by auto. rewrite cos_minus, sin_minus. f_equal; ring.
Qed.
Lemma cheby_inv_length u mu g : length (cheby_inv u mu g) = S (Z.abs_nat mu).
Proof. unfold cheby_inv. rewrite poly_scale_length. apply cheby_length. Qed.
Lemma irrep_poly_length rows cols e i j : length (irrep_poly rows cols e i j) = S (Z.abs_nat (ke_mu e)).
Proof.
  unfold irrep_poly. destruct rows as [|[|[|rows]]]; destruct cols as [|[|[|cols]]]; try destruct i; try destruct j;
  rewrite ?poly_scale_length, ?cheby_inv_length; auto using cheby_length.
Qed.
Lemma nonempty {A} (l : list A) n : length l = S n -> l <> [].
Proof. destruct l; [discriminate|]. intros _ H. discriminate. Qed.
Lemma irrep_dop_length b e i j : length (dp_coef (irrep_dop b e) i j) = S (dp_order (irrep_dop b e)).
Proof. cbn [irrep_dop dp_coef dp_order]. rewrite turn_length; [apply irrep_poly_length|]. eapply nonempty, irrep_poly_length. Qed.

Lemma unit_t mu x : hom_value (cheby_poly mu false) (cos x) (sin x) = cos (IZR mu * x).
Proof. rewrite <- (Rmult_1_l (cos x)), <- (Rmult_1_l (sin x)), cheby_t_value, pow1. ring. Qed.
Lemma unit_u mu x : hom_value (cheby_poly mu true) (cos x) (sin x) = sin (IZR mu * x).
Proof. rewrite <- (Rmult_1_l (cos x)), <- (Rmult_1_l (sin x)), cheby_u_value, pow1. ring. Qed.
Lemma cos_quarter x : cos (x + PI / 2) = - sin x.
Proof. rewrite cos_plus, cos_PI2, sin_PI2. ring. Qed.
Lemma sin_quarter x : sin (x + PI / 2) = cos x.
Proof. rewrite sin_plus, cos_PI2, sin_PI2. ring. Qed.

Lemma irrep_value b e : ke_gq e = 0%Z \/ ke_gq e = 1%Z ->
  exists eps, eps * eps = 1 /\ forall a i j, hom_value (dp_coef (irrep_dop b e) i j) (cos a) (sin a) = eps * kb_sample_el b e (Some a) i j.
Proof.
  intros G. exists (if ((kb_rows b =? 2)%nat || (kb_cols b =? 2)%nat)%bool then (if ((kb_rows b =? 1)%nat || (kb_rows b =? 2)%nat)%bool && ((kb_cols b =? 1)%nat || (kb_cols b =? 2)%nat)%bool then 1 else IZR (sgn (ke_gq e))) else IZR (sgn (ke_gq e))).
  split.
  { destruct G as [-> | ->]; unfold sgn; cbn [Z.eqb]; destruct (kb_rows b =? 2)%nat, (kb_cols b =? 2)%nat, (kb_rows b =? 1)%nat, (kb_cols b =? 1)%nat; cbn; ring. }
  intros a i j. cbn [irrep_dop dp_coef]. rewrite turn_value by (eapply nonempty, irrep_poly_length). unfold kb_sample_el. cbn [andb].
  set (x := match kb_axis b with None => a | Some v => a - v end). unfold ke_gamma, irrep_poly, cheby_inv, truthy, psichi, mat2.
  destruct G as [G|G]; rewrite G; cbn [Z.eqb negb sgn andb orb]; unfold sgn; cbn [Z.eqb];
  rewrite ?Rmult_0_l, ?Rplus_0_r, ?Rmult_1_l, ?cos_quarter, ?sin_quarter;
  destruct (kb_rows b) as [|[|[|rows]]]; destruct (kb_cols b) as [|[|[|cols]]]; cbn [Nat.eqb orb andb];
  try destruct i; try destruct j; rewrite ?poly_scale_value, ?unit_t, ?unit_u; ring.
Qed.

(** ** homogeneity *)
Lemma hom_scale c n t x y : length c = S n -> hom_value c (t * x) (t * y) = t ^ n * hom_value c x y.
Proof.
  revert n. induction c as [|a c IH]; intros n H; [discriminate|]. cbn [hom_value]. injection H as H. rewrite H.
  destruct n as [|n]; [destruct c; [|discriminate]; cbn; ring|]. rewrite (IH n H), Rpow_mult_distr. cbn [pow]. ring.
Qed.

(** ** blocks *)
Definition gq_ok (b : kbasis) : Prop := forall e, In e (kb_els b) -> ke_gq e = 0%Z \/ ke_gq e = 1%Z.

Lemma place_dop_value k d r c x y : hom_value (dp_coef (place_dop k d) r c) x y = place k (fun i j => hom_value (dp_coef d i j) x y) r c.
Proof. cbn [place_dop dp_coef]. unfold place. destruct (_ && _)%bool; [reflexivity|apply repeat0_value]. Qed.
Lemma place_dop_length k d : (forall i j, length (dp_coef d i j) = S (dp_order d)) ->
  forall i j, length (dp_coef (place_dop k d) i j) = S (dp_order (place_dop k d)).
Proof. intros H i j. cbn [place_dop dp_coef dp_order]. destruct (_ && _)%bool; [apply H|rewrite repeat_length; lia]. Qed.

Lemma dwalk l : forall count idx, (count <= idx < count + total l)%nat ->
  exists k b r, In k l /\ bk_basis k = Some b /\ (r < kb_dim b)%nat /\
    nth_error (direct_sum l) (idx - count) = Some (place_dop k (irrep_dop b (nth r (kb_els b) kel0))) /\
    sd_find l count idx = Some ((bk_ii k, bk_oo k, r, idx), nth r (kb_els b) kel0) /\
    nth_error (sd_iter_from l count) (idx - count) = Some ((bk_ii k, bk_oo k, r, idx), nth r (kb_els b) kel0) /\
    forall a, sk_write l count idx a = place k (kb_sample b r a).
Proof.
  induction l as [|k l IH]; intros count idx H; unfold total in *; cbn [map nsum fold_right] in H; [lia|].
  change (fold_right Nat.add O (map (fun k => odim (bk_basis k)) l)) with (total l) in H. fold (total l) in *.
  cbn [sd_find sd_iter_from sk_write]. change (direct_sum (k :: l)) with
    ((match bk_basis k with None => [] | Some b => map (fun e => place_dop k (irrep_dop b e)) (kb_els b) end) ++ direct_sum l).
  destruct (bk_basis k) as [b|] eqn:E; cbn [odim] in H.
  - destruct (Nat.ltb_spec (idx - count) (kb_dim b)) as [H1|H1].
    + exists k, b, (idx - count)%nat. split; [left; auto|]. split; auto. split; auto.
      destruct (Nat.leb_spec count idx) as [H2|]; [|lia]. destruct (Nat.ltb_spec idx (count + kb_dim b)) as [H3|]; [|lia]. cbn [andb].
      split; [|split; [|split]]; auto.
      * rewrite nth_error_app1 by (rewrite map_length; auto). rewrite nth_error_map.
        rewrite (nth_error_nth' _ kel0) by auto. reflexivity.
      * rewrite nth_error_app1 by (rewrite map_length, seq_length; auto).
        rewrite nth_error_map. rewrite (nth_error_nth' _ O) by (rewrite seq_length; auto). rewrite seq_nth by auto. cbn [option_map].
        rewrite Nat.add_0_l. do 3 f_equal; lia.
    + destruct (IH (count + kb_dim b)%nat idx ltac:(lia)) as [k' [b' [r [I [Eb [Hr [Hd [Hf [Hn Hw]]]]]]]]].
      exists k', b', r. split; [right; auto|]. split; auto. split; auto. rewrite andb_false_r.
      destruct (Nat.ltb_spec idx (count + kb_dim b)) as [H3|]; [lia|]. rewrite andb_false_r.
      replace (idx - (count + kb_dim b))%nat with (idx - count - kb_dim b)%nat in Hd, Hn by lia.
      split; [|split; [|split]]; auto.
      * rewrite nth_error_app2 by (rewrite map_length; auto). rewrite map_length. auto.
      * rewrite nth_error_app2 by (rewrite map_length, seq_length; lia). rewrite map_length, seq_length. auto.
  - destruct (IH count idx ltac:(lia)) as [k' [b' [r [I [Eb [Hr [Hd [Hf [Hn Hw]]]]]]]]].
    exists k', b', r. split; [right; auto|auto 10].
Qed.
Lemma direct_sum_length l : length (direct_sum l) = total l.
Proof.
  induction l as [|k l IH]; [reflexivity|]. unfold direct_sum in *. cbn [flat_map]. rewrite app_length, IH. unfold total. cbn [map nsum fold_right].
  destruct (bk_basis k); cbn [odim]; [rewrite map_length|]; reflexivity.
Qed.
Lemma sd_iter_length l count : length (sd_iter_from l count) = total l.
Proof.
  revert count. induction l as [|k l IH]; intros count; [reflexivity|]. cbn [sd_iter_from]. unfold total in *. cbn [map nsum fold_right].
  destruct (bk_basis k); cbn [odim]; [rewrite app_length, map_length, seq_length, IH|rewrite IH]; reflexivity.
Qed.

(** ** change of basis *)
Definition even_len (d : dop) : Prop := forall i j, length (dp_coef d i j) = S (dp_order d).
Lemma combine_value n m (w : nat -> R) (cs : nat -> list R) x y : (forall o, length (cs o) = S n) ->
  hom_value (map (fun b => rsum m (fun o => w o * nth b (cs o) 0)) (seq 0 (n + 1))) x y = rsum m (fun o => w o * hom_value (cs o) x y).
Proof.
  intros H. rewrite hom_map.
  rewrite (rsum_ext m _ (fun o => rsum (n + 1) (fun k => w o * (nth k (cs o) 0 * (x ^ (n - k) * y ^ k))))).
  - rewrite rsum_swap. apply rsum_ext. intros k Hk. rewrite <- rsum_scal_r. apply rsum_ext. intros o Ho. ring.
  - intros o Ho. rewrite hom_sum, H, rsum_scal. f_equal. replace (n + 1)%nat with (S n) by lia. apply rsum_ext. intros k Hk.
    replace (S n - 1 - k)%nat with (n - k)%nat by lia. reflexivity.
Qed.
Lemma left_dop_value no B d r c x y : even_len d ->
  hom_value (dp_coef (left_dop no B d) r c) x y = mmul no B (fun i j => hom_value (dp_coef d i j) x y) r c.
Proof. intros H. cbn [left_dop dp_coef]. unfold mmul. rewrite (combine_value _ no (fun o => B r o) (fun o => dp_coef d o c)); auto. Qed.
Lemma right_dop_value ni A d r c x y : even_len d ->
  hom_value (dp_coef (right_dop ni A d) r c) x y = mmul ni (fun i j => hom_value (dp_coef d i j) x y) A r c.
Proof.
  intros H. cbn [right_dop dp_coef]. unfold mmul.
  rewrite (map_ext _ (fun b => rsum ni (fun i => A i c * nth b (dp_coef d r i) 0))) by (intros b; apply rsum_ext; intros; ring).
  rewrite (combine_value _ ni (fun o => A o c) (fun o => dp_coef d r o)) by auto. apply rsum_ext. intros. ring.
Qed.
Lemma left_dop_len no B d : even_len (left_dop no B d).
Proof. intros i j. cbn [left_dop dp_coef dp_order]. rewrite map_length, seq_length. lia. Qed.
Lemma right_dop_len ni A d : even_len (right_dop ni A d).
Proof. intros i j. cbn [right_dop dp_coef dp_order]. rewrite map_length, seq_length. lia. Qed.
Lemma change_dop_len {G} (s : skbasis G) d : even_len d -> even_len (change_dop s d) /\ dp_order (change_dop s d) = dp_order d.
Proof.
  intros H. unfold change_dop. destruct (sk_Ainv s), (sk_B s); auto using left_dop_len, right_dop_len.
Qed.

Section Bases.
Context {G : Type}.
Variables (mk : irrep G -> irrep G -> result kbasis) (rin rout : rep G) (sk : skbasis G).
Hypothesis Hsk : sk_make mk rin rout = Ok sk.
Hypothesis Hgq : forall i o b, In i (rp_irreps rin) -> In o (rp_irreps rout) -> mk i o = Ok b -> gq_ok b.

Lemma block_gq k b : In k (sk_blocks sk) -> bk_basis k = Some b -> gq_ok b.
Proof.
  intros I E. destruct (sk_make_inv _ _ _ _ Hsk) as [E1 [E2 [_ [_ [Hb _]]]]]. unfold sk_blocks in I. rewrite E1, E2 in I.
  destruct (sk_rows_in mk _ _ _ _ [] Hb I) as [l1 [i [l2 [m1 [o [m2 [L1 [L2 B]]]]]]]].
  apply (Hgq i o); [rewrite L1; apply in_elt|rewrite L2; apply in_elt|].
  destruct B as [_ [_ [_ [_ [_ [_ H]]]]]]. revert H. rewrite E. unfold try_basis. destruct (mk i o) as [b'|x]; [intros Q; congruence|]. destruct (String.eqb _ _); discriminate.
Qed.

Lemma sd_length : length (sd_coefficients sk) = sk_dim sk.
Proof. unfold sd_coefficients. rewrite map_length, direct_sum_length. apply (blocks_facts mk rin rout sk Hsk). Qed.

Definition on_circle (d : dop) (a : R) : mat := fun i j => hom_value (dp_coef d i j) (cos a) (sin a).
(** an element of the basis of differential operators and the kernel with the same index *)
Lemma sd_value idx : (idx < sk_dim sk)%nat ->
  exists d eps, nth_error (sd_coefficients sk) idx = Some d /\ even_len d /\ eps * eps = 1 /\
    (forall a r c, on_circle d a r c = eps * sk_sample sk idx (Some a) r c) /\
    exists ii oo r e, sd_find (sk_blocks sk) 0 idx = Some ((ii, oo, r, idx), e) /\ dp_order d = Z.abs_nat (ke_mu e) /\
      nth_error (sd_iter_from (sk_blocks sk) 0) idx = Some ((ii, oo, r, idx), e).
Proof.
  intros H. destruct (blocks_facts mk rin rout sk Hsk) as [_ [T _]].
  destruct (dwalk (sk_blocks sk) 0 idx ltac:(lia)) as [k [b [r [I [Eb [Hr [Hd [Hf [Hn Hw]]]]]]]]]. rewrite Nat.sub_0_r in Hd, Hn.
  set (e := nth r (kb_els b) kel0) in *.
  assert (Ge : ke_gq e = 0%Z \/ ke_gq e = 1%Z) by (apply (block_gq k b I Eb); apply nth_In; auto).
  destruct (irrep_value b e Ge) as [eps [Heps V]].
  set (d0 := place_dop k (irrep_dop b e)) in *.
  assert (L0 : even_len d0) by (intros i j; apply place_dop_length; apply irrep_dop_length).
  assert (V0 : forall a i j, on_circle d0 a i j = eps * sk_write (sk_blocks sk) 0 idx (Some a) i j).
  { intros a i j. rewrite Hw. unfold on_circle, d0. rewrite place_dop_value. unfold place, kb_sample. fold e. destruct (_ && _)%bool; [apply V|ring]. }
  destruct (change_dop_len sk d0 L0) as [L1 O1].
  exists (change_dop sk d0), eps. split; [unfold sd_coefficients; rewrite nth_error_map, Hd; reflexivity|]. split; auto. split; auto. split.
  - intros a i j. unfold on_circle, change_dop, sk_sample. set (M := sk_write (sk_blocks sk) 0 idx (Some a)) in *.
    assert (ML : forall no B i j, mmul no B (fun i j => hom_value (dp_coef d0 i j) (cos a) (sin a)) i j = eps * mmul no B M i j).
    { intros no B i' j'. unfold mmul. rewrite <- rsum_scal. apply rsum_ext. intros q Hq.
      change (hom_value (dp_coef d0 q j') (cos a) (sin a)) with (on_circle d0 a q j'). rewrite V0. fold M. ring. }
    destruct (sk_Ainv sk) as [A|], (sk_B sk) as [B|].
    + rewrite right_dop_value by apply left_dop_len. unfold mmul at 1 2. rewrite <- rsum_scal. apply rsum_ext. intros q Hq.
      rewrite left_dop_value by auto. rewrite ML. ring.
    + rewrite right_dop_value by auto. unfold mmul. rewrite <- rsum_scal. apply rsum_ext. intros q Hq.
      change (hom_value (dp_coef d0 i q) (cos a) (sin a)) with (on_circle d0 a i q). rewrite V0. fold M. ring.
    + rewrite left_dop_value by auto. apply ML.
    + apply V0.
  - exists (bk_ii k), (bk_oo k), r, e. split; auto.
Qed.
End Bases.

(** ** products with powers of the Laplacian *)
Lemma flat_map_nth {A B} (f : A -> nat -> B) n (l : list A) idx : (0 < n)%nat -> (idx < length l * n)%nat ->
  nth_error (flat_map (fun a => map (f a) (seq 0 n)) l) idx = option_map (fun a => f a (idx mod n)%nat) (nth_error l (idx / n)).
Proof.
  intros Hn. revert idx. induction l as [|a l IH]; intros idx H; [cbn in H; lia|]. cbn [flat_map length] in *.
  destruct (Nat.lt_ge_cases idx n) as [L|L].
  - rewrite nth_error_app1 by (rewrite map_length, seq_length; auto). rewrite nth_error_map, (nth_error_nth' _ O) by (rewrite seq_length; auto).
    rewrite seq_nth by auto. rewrite Nat.div_small, Nat.mod_small by auto. reflexivity.
  - rewrite nth_error_app2 by (rewrite map_length, seq_length; auto). rewrite map_length, seq_length.
    assert (E : idx = (idx - n + 1 * n)%nat) by lia. rewrite IH by lia.
    replace (idx / n)%nat with (S ((idx - n) / n)) by (rewrite E at 2; rewrite Nat.div_add by lia; lia).
    replace (idx mod n)%nat with ((idx - n) mod n)%nat by (rewrite E at 2; rewrite Nat.mod_add by lia; reflexivity). reflexivity.
Qed.
Lemma flat_map_len {A B} (f : A -> nat -> B) n (l : list A) : length (flat_map (fun a => map (f a) (seq 0 n)) l) = (length l * n)%nat.
Proof. induction l as [|a l IH]; [reflexivity|]. cbn [flat_map length]. rewrite app_length, map_length, seq_length, IH. lia. Qed.

Lemma mul_lap_len a k : even_len a -> even_len (mul_dop a (lap_dop k)).
Proof. intros H i j. cbn [mul_dop lap_dop dp_coef dp_order]. rewrite multiply_length, H, laplacian_length. lia. Qed.
Lemma mul_lap_value a k : even_len a -> forall i j x y,
  hom_value (dp_coef (mul_dop a (lap_dop k)) i j) x y = hom_value (dp_coef a i j) x y * (x * x + y * y) ^ k.
Proof.
  intros H i j x y. cbn [mul_dop lap_dop dp_coef]. rewrite multiply_value, laplacian_value; auto; [eapply nonempty, H|].
  apply nonempty with (n := (2 * k)%nat). rewrite laplacian_length. lia.
Qed.

(** ** the equivariance constraint from the one of the kernels *)
Lemma unit_angle v : radius_of v = 1 -> angle_of v = Some (arctan2 (snd v) (fst v)) /\ v = (cos (arctan2 (snd v) (fst v)), sin (arctan2 (snd v) (fst v))).
Proof.
  intros H. split.
  - unfold angle_of. rewrite H. destruct (Rlt_dec 1 (1 / 1000000000)); [lra|reflexivity].
  - assert (P := arctan2_polar v ltac:(lra)). rewrite H, !Rmult_1_l in P. exact P.
Qed.
Lemma point_polar p : exists t v, radius_of v = 1 /\ p = (t * fst v, t * snd v).
Proof.
  destruct (Req_EM_T (radius_of p) 0) as [H|H].
  - exists 0, (1, 0). split; [unfold radius_of; cbn [fst snd]; replace (1 * 1 + 0 * 0) with 1 by ring; apply sqrt_1|].
    destruct p as [x y]. unfold radius_of in H. cbn [fst snd] in *. apply sqrt_eq_0 in H; [|nra].
    assert (x = 0) by nra. assert (y = 0) by nra. subst. f_equal; ring.
  - assert (0 < radius_of p). { assert (0 <= radius_of p) by apply sqrt_pos. lra. }
    exists (radius_of p), (cos (arctan2 (snd p) (fst p)), sin (arctan2 (snd p) (fst p))). split; [|apply arctan2_polar; auto].
    unfold radius_of at 1. cbn [fst snd]. set (a := arctan2 (snd p) (fst p)). rewrite <- sqrt_1. f_equal.
    assert (Q := sin2_cos2 a). unfold Rsqr in Q. lra.
Qed.

Section Constraint.
Context {G : Type}.
Variables (s : gspace) (code : G -> gelt) (el : G -> Prop) (inv : G -> G).
Variables (mk : irrep G -> irrep G -> result kbasis) (rin rout : rep G) (t : tbasis G).
Hypothesis Hsk : sk_make mk rin rout = Ok (tb_1 t).
Hypothesis Hgq : forall i o b, In i (rp_irreps rin) -> In o (rp_irreps rout) -> mk i o = Ok b -> gq_ok b.

Definition symbol (d : dop) (p : point) : mat := fun i j => hom_value (dp_coef d i j) (fst p) (snd p).

Lemma tb_dim_eq : tb_dim t = (sk_dim (tb_1 t) * (tb_power t + 1))%nat.
Proof. unfold tb_dim, tb_coefficients. rewrite flat_map_len, (sd_length mk rin rout); auto. Qed.
(** element [idx] is element idx / (max_power + 1) of the steerable basis times a power of the Laplacian *)
Lemma tb_element idx : (idx < tb_dim t)%nat ->
  let q := (idx / (tb_power t + 1))%nat in let k := (idx mod (tb_power t + 1))%nat in
  (q < sk_dim (tb_1 t))%nat /\ exists d eps, nth_error (sd_coefficients (tb_1 t)) q = Some d /\ even_len d /\ eps * eps = 1 /\
    nth_error (tb_coefficients t) idx = Some (mul_dop d (lap_dop k)) /\
    (forall a r c, on_circle d a r c = eps * sk_sample (tb_1 t) q (Some a) r c) /\
    exists a e, sd_find (sk_blocks (tb_1 t)) 0 q = Some (a, e) /\ snd a = q /\ dp_order d = Z.abs_nat (ke_mu e) /\
      nth_error (sd_iter_from (sk_blocks (tb_1 t)) 0) q = Some (a, e).
Proof.
  intros H q k. rewrite tb_dim_eq in H. assert (Hq : (q < sk_dim (tb_1 t))%nat) by (apply Nat.div_lt_upper_bound; lia).
  split; auto. destruct (sd_value mk rin rout (tb_1 t) Hsk Hgq q Hq) as [d [eps [N [L [E [V [ii [oo [r [e [F [O I]]]]]]]]]]]].
  exists d, eps. split; auto. split; auto. split; auto. split.
  - unfold tb_coefficients. rewrite (flat_map_nth (fun a k => mul_dop a (lap_dop k))); [|lia|rewrite (sd_length mk rin rout); auto].
    fold q. rewrite N. reflexivity.
  - split; auto. exists (ii, oo, r, q), e. auto.
Qed.

Lemma tb_constraint idx d : lin_iso s code el -> planar_all s code el inv rin rout (tb_1 t) ->
  (idx < tb_dim t)%nat -> nth_error (tb_coefficients t) idx = Some d ->
  even_len d /\
  planar_constraint s code el inv (rp_size rout) (rp_size rin) (rp_mat rout) (rp_mat rin) (symbol d).
Proof.
  intros [L1 L2] P H Hd. destruct (tb_element idx H) as [Hq [d0 [eps [_ [Ld [_ [N [V _]]]]]]]].
  rewrite N in Hd. injection Hd as <-. set (q := (idx / (tb_power t + 1))%nat) in *. set (k := (idx mod (tb_power t + 1))%nat) in *.
  assert (Lm := mul_lap_len d0 k Ld). split; auto.
  assert (U : forall v, radius_of v = 1 -> forall i j, symbol (mul_dop d0 (lap_dop k)) v i j = eps * sk_sample (tb_1 t) q (angle_of v) i j).
  { intros v Hv i j. destruct (unit_angle v Hv) as [Ea Ev]. rewrite Ea. rewrite <- V. unfold symbol, on_circle. rewrite mul_lap_value by auto.
    rewrite Ev at 1 2 3 4 5 6. cbn [fst snd]. set (a := arctan2 (snd v) (fst v)).
    replace (cos a * cos a + sin a * sin a) with 1; [rewrite pow1; ring|]. assert (Q := sin2_cos2 a). unfold Rsqr in Q. lra. }
  intros g p Hg i j Hi Hj. destruct (point_polar p) as [tt [v [Hv ->]]]. rewrite L1 by auto. cbn [fst snd].
  set (w := plane_action s (code g) v). assert (Hw : radius_of w = 1) by (unfold w; rewrite L2; auto).
  assert (S1 : forall u i j, symbol (mul_dop d0 (lap_dop k)) (tt * fst u, tt * snd u) i j =
                             tt ^ dp_order (mul_dop d0 (lap_dop k)) * symbol (mul_dop d0 (lap_dop k)) u i j).
  { intros u i' j'. unfold symbol. cbn [fst snd]. apply hom_scale. apply Lm. }
  rewrite S1, U by auto.
  assert (C := P (fun _ _ => 1) (sk_dim (tb_1 t)) q g v Hg i j Hi Hj). fold w in C. unfold polar_sample in C at 1. rewrite Nat.mod_small in C by auto. rewrite Rmult_1_l in C.
  rewrite C. set (tn := tt ^ _). rewrite <- !Rmult_assoc. unfold mmul. rewrite <- rsum_scal. apply rsum_ext. intros b Hb. rewrite <- Rmult_assoc. f_equal.
  rewrite <- rsum_scal. apply rsum_ext. intros a Ha. rewrite S1, U by auto. fold tn. unfold polar_sample. rewrite Nat.mod_small by auto. ring.
Qed.
End Constraint.

(** ** the signs *)
Definition bit (z : Z) : Prop := z = 0%Z \/ z = 1%Z.
Definition gqs (els : list kel) : Prop := forall e, In e els -> bit (ke_gq e).
Lemma gqs_of g s l : bit g -> gqs (els_of g s l).
Proof. intros H e I. apply in_map_iff in I. destruct I as [p [<- _]]. exact H. Qed.
Lemma gqs_keep g l : bit g -> gqs (els_keep g l).
Proof. intros H e I. apply in_map_iff in I. destruct I as [p [<- _]]. exact H. Qed.
Lemma gqs_app l l' : gqs l -> gqs l' -> gqs (l ++ l').
Proof. intros H H' e I. apply in_app_or in I. destruct I; auto. Qed.
Lemma gqs_make ax r c els b : kb_make ax r c els = Ok b -> gqs els -> gq_ok b.
Proof. unfold kb_make. destruct els; [discriminate|]. intros E H. injection E as <-. exact H. Qed.
Lemma bit0 : bit 0. Proof. left. reflexivity. Qed.
Lemma bit1 : bit 1. Proof. right. reflexivity. Qed.
Lemma bit_mod z : bit (z mod 2).
Proof. unfold bit. assert (H := Z.mod_pos_bound z 2 ltac:(lia)). lia. Qed.
#[local] Hint Resolve bit0 bit1 bit_mod gqs_of gqs_keep gqs_app : gq.

Lemma gq_flips axis F T n m i o b : cyc_irrep 2 n = Ok i -> cyc_irrep 2 m = Ok o -> flips_basis axis F T i o = Ok b -> gq_ok b.
Proof.
  intros Hi Ho Hb. assert (HB : bounds_ok F T = true) by (unfold flips_basis, assert_ in Hb; destruct (bounds_ok F T); [auto|discriminate]).
  destruct (flips_inv axis F T n m i o Hi Ho HB) as [ts [_ [_ E]]]. rewrite E in Hb. eapply gqs_make; eauto with gq.
Qed.
Lemma gq_rotN N F T n m i o b : (0 < N)%Z -> cyc_irrep N n = Ok i -> cyc_irrep N m = Ok o -> rotN_basis N F T i o = Ok b -> gq_ok b.
Proof.
  intros HN Hi Ho Hb. assert (HB : bounds_ok F T = true) by (unfold rotN_basis, assert_ in Hb; destruct (bounds_ok F T); [auto|discriminate]).
  destruct (rotN_inv N F T n m i o HN Hi Ho HB) as [els [E C]]. rewrite E in Hb. eapply gqs_make; eauto.
  destruct C as [[_ [_ [t0 [t1 [_ [_ [_ [_ ->]]]]]]]]|[[_ [t0 [_ [_ ->]]]]|[_ [_ [t0 [_ [_ ->]]]]]]]; auto 8 with gq.
Qed.
Lemma dih_bit N j k ir : (0 < N)%Z -> dih_irrep N j k = Ok ir -> bit j.
Proof.
  intros HN H. destruct (dih_irrep_inv N j k ir HN H) as [_ [_ [_ C]]]. unfold bit.
  destruct C as [C|[C|[C|[C|C]]]]; destruct C as [? C]; intuition.
Qed.
Lemma o2_bit j k ir : o2_irrep j k = Ok ir -> bit j.
Proof. intros H. destruct (o2_irrep_inv j k ir H) as [_ [_ [_ C]]]. unfold bit. intuition. Qed.
Lemma gq_fliprotN N axis F T ji n jo m i o b : (0 < N)%Z -> dih_irrep N ji n = Ok i -> dih_irrep N jo m = Ok o ->
  fliprotN_basis N axis F T i o = Ok b -> gq_ok b.
Proof.
  intros HN Hi Ho Hb. assert (HB : bounds_ok F T = true) by (unfold fliprotN_basis, assert_ in Hb; destruct (bounds_ok F T); [auto|discriminate]).
  assert (Bi := dih_bit _ _ _ _ HN Hi). assert (Bo := dih_bit _ _ _ _ HN Ho).
  destruct (fliprotN_inv N axis F T ji n jo m i o HN Hi Ho HB) as [els [E C]]. rewrite E in Hb. eapply gqs_make; eauto.
  destruct C as [[_ [_ [t0 [t1 [_ [_ [_ [_ ->]]]]]]]]|[[_ [t0 [_ [_ ->]]]]|[_ [_ [t0 [_ [_ ->]]]]]]]; auto 8 with gq.
  apply gqs_of. destruct (_ =? _)%nat; auto.
Qed.
Lemma gqs_list l : Forall (fun e => bit (ke_gq e)) l -> gqs l.
Proof. intros H e I. rewrite Forall_forall in H. auto. Qed.
Lemma gq_rot n m i o b : so2_irrep n = Ok i -> so2_irrep m = Ok o -> rot_basis i o = Ok b -> gq_ok b.
Proof.
  intros Hi Ho Hb. destruct (rot_inv n m i o Hi Ho) as [els [E C]]. rewrite E in Hb. eapply gqs_make; eauto. apply gqs_list.
  destruct C as [[_ [_ ->]]|[[_ ->]|[_ [_ [_ [_ ->]]]]]]; repeat apply Forall_cons; try apply Forall_nil; cbn [ke_gq]; auto with gq.
Qed.
Lemma gq_fliprot axis ji n jo m i o b : o2_irrep ji n = Ok i -> o2_irrep jo m = Ok o -> fliprot_basis axis i o = Ok b -> gq_ok b.
Proof.
  intros Hi Ho Hb. assert (Bi := o2_bit _ _ _ Hi). assert (Bo := o2_bit _ _ _ Ho).
  destruct (fliprot_inv axis ji n jo m i o Hi Ho) as [els [E C]]. rewrite E in Hb. eapply gqs_make; eauto.
  destruct C as [[_ [_ ->]]|[[_ ->]|[_ [_ [_ [_ ->]]]]]]; auto with gq; apply gqs_list; repeat apply Forall_cons; try apply Forall_nil; cbn [ke_gq]; auto with gq.
  destruct (_ =? _)%nat; auto.
Qed.

(** ** the factories *)
Lemma tb_make_inv {G} mk (rin rout : rep G) P t : tb_make mk rin rout P = Ok t ->
  sk_make mk rin rout = Ok (tb_1 t) /\ (0 <= P)%Z /\ Z.of_nat (tb_power t) = P.
Proof.
  unfold tb_make. destruct (sk_make mk rin rout) as [s|]; [|discriminate]. cbn [rbind]. unfold assert_.
  destruct (Z.leb_spec 0 P); [|discriminate]. intros E. injection E as <-. cbn [tb_1 tb_power]. split; auto. split; auto. apply Z2Nat.id. lia.
Qed.

(** ** indices *)
Lemma combine_self {A} (l : list A) : combine l l = map (fun a => (a, a)) l.
Proof. induction l; cbn; f_equal; auto. Qed.
Lemma tb_iter_nth n l base i : (0 < n)%nat -> (i < length l * n)%nat ->
  nth_error (tb_iter_from l (seq 0 n) base) i = option_map (fun a => t_attr a (snd (fst a)) (i mod n) (base + i)) (nth_error l (i / n)).
Proof.
  intros Hn. revert base i. induction l as [|a l IH]; intros base i H; [cbn in H; lia|]. cbn [tb_iter_from length] in *.
  rewrite seq_length, combine_self, map_map. cbn [fst snd].
  destruct (Nat.lt_ge_cases i n) as [L|L].
  - rewrite nth_error_app1 by (rewrite map_length, seq_length; auto). rewrite nth_error_map, (nth_error_nth' _ O) by (rewrite seq_length; auto).
    rewrite seq_nth by auto. rewrite Nat.div_small, Nat.mod_small by auto. reflexivity.
  - rewrite nth_error_app2 by (rewrite map_length, seq_length; auto). rewrite map_length, seq_length.
    assert (E : i = (i - n + 1 * n)%nat) by lia. rewrite IH by lia.
    replace (i / n)%nat with (S ((i - n) / n)) by (rewrite E at 2; rewrite Nat.div_add by lia; lia).
    replace (i mod n)%nat with ((i - n) mod n)%nat by (rewrite E at 2; rewrite Nat.mod_add by lia; reflexivity).
    cbn [nth_error]. replace (base + n + (i - n))%nat with (base + i)%nat by lia. reflexivity.
Qed.
Lemma tb_iter_len n l base : length (tb_iter_from l (seq 0 n) base) = (length l * n)%nat.
Proof.
  revert base. induction l as [|a l IH]; intros base; [reflexivity|]. cbn [tb_iter_from length].
  rewrite app_length, map_length, combine_length, !seq_length, IH. lia.
Qed.

Section Elements.
Context {G : Type}.
Variables (mk : irrep G -> irrep G -> result kbasis) (rin rout : rep G) (sk : skbasis G).
Hypothesis Hsk : sk_make mk rin rout = Ok sk.

Lemma change_value d x y : even_len d ->
  meq (rp_size rout) (rp_size rin) (fun i j => hom_value (dp_coef (change_dop sk d) i j) x y)
    (mmul (rp_size rin) (mmul (rp_size rout) (rp_cob rout) (fun i j => hom_value (dp_coef d i j) x y)) (rp_inv rin)).
Proof.
  intros L. destruct (sk_make_inv mk rin rout sk Hsk) as [E1 [E2 [E3 [E4 _]]]]. unfold change_dop. rewrite E1, E2, E3, E4.
  set (M := fun i j => hom_value (dp_coef d i j) x y). set (ni := rp_size rin). set (no := rp_size rout).
  destruct (is_eye ni (rp_inv rin)) eqn:I1; destruct (is_eye no (rp_cob rout)) eqn:I2;
  try apply is_eye_meq in I1; try apply is_eye_meq in I2.
  - fold M. symmetry. transitivity (mmul ni (mmul no mid M) mid).
    + apply mmul_compat; [apply mmul_compat; [auto|reflexivity]|auto].
    + etransitivity; [apply mmul_id_r|apply mmul_id_l].
  - transitivity (mmul no (rp_cob rout) M); [intros i j _ _; apply left_dop_value; auto|].
    symmetry. transitivity (mmul ni (mmul no (rp_cob rout) M) mid); [apply mmul_compat; [reflexivity|auto]|apply mmul_id_r].
  - transitivity (mmul ni M (rp_inv rin)); [intros i j _ _; apply right_dop_value; auto|].
    symmetry. apply mmul_compat; [|reflexivity]. transitivity (mmul no mid M); [apply mmul_compat; [auto|reflexivity]|apply mmul_id_l].
  - intros i j _ _. rewrite right_dop_value by apply left_dop_len. unfold mmul at 1 2. apply rsum_ext. intros q Hq. rewrite left_dop_value by auto. reflexivity.
Qed.

Lemma sd_element idx : (idx < sk_dim sk)%nat ->
  exists ii oo r i o b d,
    nth_error (rp_irreps rin) ii = Some i /\ nth_error (rp_irreps rout) oo = Some o /\ mk i o = Ok b /\ (r < kb_dim b)%nat /\
    let e := nth r (kb_els b) kel0 in
    sd_find (sk_blocks sk) 0 idx = Some ((ii, oo, r, idx), e) /\
    nth_error (sd_iter_from (sk_blocks sk) 0) idx = Some ((ii, oo, r, idx), e) /\
    nth_error (sd_coefficients sk) idx = Some d /\ even_len d /\ dp_order d = Z.abs_nat (ke_mu e) /\
    forall x y, meq (rp_size rout) (rp_size rin) (fun p q => hom_value (dp_coef d p q) x y)
      (mmul (rp_size rin) (mmul (rp_size rout) (rp_cob rout)
         (embed (isizes (firstn oo (rp_irreps rout))) (isizes (firstn ii (rp_irreps rin))) (ir_size o) (ir_size i)
            (fun p q => hom_value (dp_coef (irrep_dop b e) p q) x y)))
         (rp_inv rin)).
Proof.
  intros H. destruct (blocks_facts mk rin rout sk Hsk) as [_ [ET HB]].
  destruct (dwalk (sk_blocks sk) 0 idx ltac:(lia)) as [k [b [r [I [Eb [Hr [Hd [Hf [Hn Hw]]]]]]]]]. rewrite Nat.sub_0_r in Hd, Hn.
  destruct (HB k I) as [l1 [i [l2 [m1 [o [m2 [Li [Lo B]]]]]]]]. destruct B as (B0 & B0' & B1 & B2 & B3 & B4 & B5).
  assert (Mb : mk i o = Ok b).
  { unfold try_basis in B5. rewrite Eb in B5. destruct (mk i o) as [b'|x]; [congruence|]. destruct (String.eqb x _); discriminate. }
  assert (F : forall (l1 : list (irrep G)) i l2, firstn (length l1) (l1 ++ i :: l2) = l1).
  { clear. intros l1 i l2. rewrite firstn_app, firstn_all, Nat.sub_diag. cbn. apply app_nil_r. }
  assert (NE : forall (l1 : list (irrep G)) i l2, nth_error (l1 ++ i :: l2) (length l1) = Some i).
  { clear. intros. rewrite nth_error_app2, Nat.sub_diag; auto. }
  set (e := nth r (kb_els b) kel0) in *. set (d0 := place_dop k (irrep_dop b e)) in *.
  assert (L0 : even_len d0) by (intros p q; apply place_dop_length; apply irrep_dop_length).
  destruct (change_dop_len sk d0 L0) as [L1 O1].
  exists (bk_ii k), (bk_oo k), r, i, o, b, (change_dop sk d0). rewrite B0, B0'.
  split; [rewrite Li; apply NE|]. split; [rewrite Lo; apply NE|]. split; auto. split; auto. cbv zeta. fold e.
  split; [rewrite Hf, B0, B0'; auto|]. split; [rewrite Hn, B0, B0'; auto|].
  split; [unfold sd_coefficients; rewrite nth_error_map, Hd; reflexivity|]. split; auto. split; auto.
  intros x y. etransitivity; [apply change_value; auto|].
  apply mmul_compat; [|reflexivity]. apply mmul_compat; [reflexivity|].
  intros p q _ _. unfold d0. rewrite place_dop_value, place_embed, B1, B2, B3, B4, Li, Lo, !F. reflexivity.
Qed.
End Elements.

(** ** comparisons *)
Lemma allclose_const (g : Z) l1 l2 m1 m2 : allclose_col m1 m2 = Ok true -> length l1 = length m1 -> length l2 = length m2 ->
  (forall x, In x l1 -> x = g) -> (forall x, In x l2 -> x = g) -> allclose_col l1 l2 = Ok true.
Proof.
  intros H E1 E2 C1 C2. unfold allclose_col. destruct (Nat.eqb_spec (length l1) (length l2)) as [E|E].
  - f_equal. apply forallb_forall. intros [x y] I. cbn. apply Z.eqb_eq. rewrite (C1 x), (C2 y); [auto|eapply in_combine_r; eauto|eapply in_combine_l; eauto].
  - assert (N : length m1 <> length m2) by congruence. destruct (proj2 (allclose_true _ _ H) N) as [[x [-> _]]|[x [-> _]]]; cbn [length] in *.
    + destruct l1 as [|a [|? ?]]; try discriminate. f_equal. apply forallb_forall. intros y I. apply Z.eqb_eq. rewrite (C1 a), (C2 y); cbn; auto.
    + destruct l2 as [|b [|? ?]]; try discriminate.
      assert (F : forallb (fun x => Z.eqb x b) l1 = true).
      { apply forallb_forall. intros y I. apply Z.eqb_eq. rewrite (C1 y), (C2 b); cbn; auto. }
      destruct l1 as [|a [|? ?]]; cbn [forallb] in *; try reflexivity.
      * rewrite andb_true_r in *. congruence.
      * f_equal. exact F.
Qed.
(** all the elements have the sign of the first *)
Definition same_gq (b : kbasis) : Prop := exists g, kb_els b <> [] /\ forall e, In e (kb_els b) -> ke_gq e = g.
Lemma d_eqb_kb w c sc b1 b2 : (sc = true -> same_gq b1 /\ same_gq b2) -> d_eqb w c sc b1 b2 = Ok true -> w = false /\ kb_eqb c b1 b2 = Ok true.
Proof.
  intros HC. unfold d_eqb, kb_eqb. destruct w; [discriminate|].
  match goal with |- (if ?b then _ else _) = _ -> _ => destruct b end; [discriminate|].
  intros H. split; auto. apply and_then_true in H. destruct H as [H1 H]. apply and_then_true in H. destruct H as [H2 H]. rewrite H1, H2. cbn [and_then rbind].
  injection H as H. destruct sc.
  - destruct (HC eq_refl) as [[g1 [N1 C1]] [g2 [N2 C2]]]. apply Z.eqb_eq in H.
    assert (g1 = g2).
    { rewrite <- (C1 (hd kel0 (kb_els b1))), <- (C2 (hd kel0 (kb_els b2))); auto; [destruct (kb_els b2)|destruct (kb_els b1)]; try congruence; left; auto. }
    subst g2. apply (allclose_const g1 _ _ _ _ H2); rewrite ?map_length; auto; intros x I; apply in_map_iff in I; destruct I as [e [<- I]]; auto.
  - destruct (list_eq_dec Z.eq_dec (map ke_gq (kb_els b1)) (map ke_gq (kb_els b2))) as [E|]; [|discriminate]. rewrite E. apply allclose_refl.
Qed.
Lemma d_eqb_refl c sc b : d_eqb false c sc b b = Ok true.
Proof.
  unfold d_eqb. rewrite !allclose_refl. cbn [and_then rbind].
  assert (E : (if sc then (ke_gq (hd kel0 (kb_els b)) =? ke_gq (hd kel0 (kb_els b)))%Z
               else if list_eq_dec Z.eq_dec (map ke_gq (kb_els b)) (map ke_gq (kb_els b)) then true else false) = true).
  { destruct sc; [apply Z.eqb_refl|]. destruct (list_eq_dec _ _ _); congruence. }
  rewrite E. destruct (kb_axis b) as [x|]; [destruct (Req_EM_T x x); [|congruence]|]; rewrite andb_false_r; reflexivity.
Qed.
(** bases with the same entries have the same operators *)
Lemma fine_dops c ax r cc b1 b2 : kb_fine ax r cc b1 -> kb_fine ax r cc b2 -> kb_eqb c b1 b2 = Ok true ->
  map (irrep_dop b1) (kb_els b1) = map (irrep_dop b2) (kb_els b2).
Proof.
  intros (A1 & R1 & C1 & P1 & N1) (A2 & R2 & C2 & P2 & N2) H.
  assert (K := kb_eqb_keys c b1 b2 N1 N2 P1 P2 H). clear - A1 R1 C1 A2 R2 C2 K.
  revert K. generalize (kb_els b2) as l2. generalize (kb_els b1) as l1. intros l1. induction l1 as [|e1 l1 IH]; intros [|e2 l2] K; try discriminate; auto.
  cbn [map] in *. injection K as E1 E2 E3 K. f_equal; [|auto]. unfold irrep_dop, irrep_poly. rewrite A1, A2, R1, R2, C1, C2, E1, E2, E3. reflexivity.
Qed.
Lemma make_same_gq ax r c g els b : kb_make ax r c els = Ok b -> (forall e, In e els -> ke_gq e = g) -> same_gq b.
Proof. unfold kb_make. destruct els as [|e els]; [discriminate|]. intros E H. injection E as <-. exists g. split; [discriminate|exact H]. Qed.
Lemma keep_gq g l e : In e (els_keep g l) -> ke_gq e = g.
Proof. intros I. apply in_map_iff in I. destruct I as [p [<- _]]. reflexivity. Qed.
Lemma flips_same_gq axis F T n m i o b : cyc_irrep 2 n = Ok i -> cyc_irrep 2 m = Ok o -> flips_basis axis F T i o = Ok b -> same_gq b.
Proof.
  intros Hi Ho Hb. assert (HB : bounds_ok F T = true) by (unfold flips_basis, assert_ in Hb; destruct (bounds_ok F T); [auto|discriminate]).
  destruct (flips_inv axis F T n m i o Hi Ho HB) as [ts [_ [_ E]]]. rewrite E in Hb. eapply make_same_gq; eauto. apply keep_gq.
Qed.
