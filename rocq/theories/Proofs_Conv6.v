(** Equivariance of the convolution of an R2Conv. *)
From Coq Require Import Reals ZArith String List Bool Lia Lra FunctionalExtensionality.
From Verif Require Import Base Spec Model_Groups Model_Rep Proofs_Rep Model_FieldType Proofs_FieldType Model_Tensor Proofs_Tensor Model_GSpace Spec_GSpace Proofs_GSpace
  Model_Kernels Spec_Kernels Proofs_Kernels5 Model_Utils Proofs_Utils Model_Expansion Proofs_Expansion Proofs_Expansion2 Model_Conv Spec_Conv Proofs_Conv Proofs_Conv2 Proofs_Conv4 Proofs_Conv5.
Import ListNotations.
Open Scope R_scope.

(** ** arrays that agree on the first n channels *)
Definition cut {B} (n : nat) (v : B -> vec) : B -> vec := fun b c => if (c <? n)%nat then v b c else 0.
Lemma same_field_cut {B} n (x y : arr (B -> vec)) : same_field n x y <-> arr_eq (amap (cut n) x) (amap (cut n) y).
Proof.
  split; intros (H1 & H2 & H3); (split; [exact H1|]); (split; [exact H2|]).
  - cbn. intros i j Hi Hj. extensionality b. extensionality c. unfold cut. destruct (Nat.ltb_spec c n); auto.
  - intros i j b c Hi Hj Hc. specialize (H3 i j Hi Hj). cbn in H3. apply (f_equal (fun v => v b c)) in H3. unfold cut in H3. destruct (Nat.ltb_spec c n); [auto|lia].
Qed.
Lemma same_field_refl {B} n (x : arr (B -> vec)) : same_field n x x.
Proof. split; [auto|]. split; auto. Qed.
Lemma same_field_sym {B} n (x y : arr (B -> vec)) : same_field n x y -> same_field n y x.
Proof. intros (H1 & H2 & H3). split; [auto|]. split; [auto|]. intros. symmetry. apply H3; congruence || auto. Qed.
Lemma same_field_trans {B} n (x y z : arr (B -> vec)) : same_field n x y -> same_field n y z -> same_field n x z.
Proof. intros (H1 & H2 & H3) (K1 & K2 & K3). split; [congruence|]. split; [congruence|]. intros. rewrite H3 by auto. apply K3; congruence || auto. Qed.
Lemma arr_same {B} n (x y : arr (B -> vec)) : arr_eq x y -> same_field n x y.
Proof. intros (H1 & H2 & H3). split; [auto|]. split; [auto|]. intros. rewrite H3; auto. Qed.
Lemma same_field_turn {B} n f k (x y : arr (B -> vec)) : same_field n x y -> same_field n (turn f k x) (turn f k y).
Proof. rewrite !same_field_cut. intros H. rewrite <- !turn_amap. apply turn_eq. auto. Qed.
Lemma same_field_lin {B} n m M M' (x y : arr (B -> vec)) : meq m n M M' -> same_field n x y ->
  same_field m (amap (fun v b => mvec n M (v b)) x) (amap (fun v b => mvec n M' (v b)) y).
Proof.
  intros HM (H1 & H2 & H3). split; [exact H1|]. split; [exact H2|]. cbn. intros i j b c Hi Hj Hc.
  refine (mvec_compat m n _ _ _ _ HM _ c Hc). intros d Hd. apply H3; auto.
Qed.
Lemma pads_same {B} n md ph pw (x y : arr (B -> vec)) : pad_legal md (a_h x) ph = true -> pad_legal md (a_w x) pw = true -> same_field n x y ->
  same_field n (pads md ph pw x) (pads md ph pw y).
Proof.
  intros L1 L2 (H1 & H2 & H3). split; [cbn; congruence|]. split; [cbn; congruence|]. cbn. intros i j b c Hi Hj Hc.
  rewrite <- H1, <- H2. destruct (pad_index md (a_h x) ph i) eqn:E1; auto. destruct (pad_index md (a_w x) pw j) eqn:E2; auto.
  apply H3; auto; [apply (pad_index_lt _ _ _ _ _ L1 Hi E1)|apply (pad_index_lt _ _ _ _ _ L2 Hj E2)].
Qed.
Lemma pads_lin {B} n M md ph pw (x : arr (B -> vec)) :
  arr_eq (pads md ph pw (amap (fun v b => mvec n M (v b)) x)) (amap (fun v b => mvec n M (v b)) (pads md ph pw x)).
Proof.
  split; [reflexivity|]. split; [reflexivity|]. cbn. intros i j _ _. extensionality b. extensionality c.
  assert (Z : 0 = mvec n M (fun _ => 0) c) by (unfold mvec; rewrite rsum_0; auto; intros; ring).
  destruct (pad_index md (a_h x) ph i); [|exact Z]. destruct (pad_index md (a_w x) pw j); [reflexivity|exact Z].
Qed.
Lemma cvo_same {B} n q s d F (x y : arr (B -> vec)) : fits1 s d (a_h F) (a_h x) -> fits1 s d (a_w F) (a_w x) -> same_field n x y ->
  same_field q (cvo n s d F x) (cvo n s d F y).
Proof.
  intros F1 F2 (H1 & H2 & H3). split; [cbn; congruence|]. split; [cbn; congruence|]. cbn [cvo a_h a_w a_px]. intros i j b o Hi Hj _.
  apply rsum_ext. intros ky Hky. apply rsum_ext. intros kx Hkx. apply rsum_ext. intros c Hc. f_equal.
  apply H3; auto; eapply cv_idx; eauto.
Qed.
Lemma conv_valid_ok {B} cin cout k f bias stride dil groups (x x' y : arr (B -> vec)) : conv_valid cin cout k f bias stride dil groups x = Ok y ->
  ((a_h x' = a_h x /\ a_w x' = a_w x) \/ (a_h x' = a_w x /\ a_w x' = a_h x)) -> exists y', conv_valid cin cout k f bias stride dil groups x' = Ok y'.
Proof.
  unfold conv_valid. destruct (_ && _)%bool eqn:E; [|discriminate]. intros _ H.
  assert (E' : ((0 <? stride) && (0 <? k) && (0 <? dil) && (0 <? groups) && (cin mod groups =? 0) && (cout mod groups =? 0) &&
      (dil * (k - 1) + 1 <=? a_h x') && (dil * (k - 1) + 1 <=? a_w x'))%nat%bool = true).
  { rewrite !andb_true_iff in *. destruct H as [[-> ->]|[-> ->]]; tauto. }
  rewrite E'. eauto.
Qed.

Lemma fits_turn {A} f k' s d k (X : arr A) : fits1 s d k (a_h X) -> fits1 s d k (a_w X) -> fits1 s d k (a_h (turn f k' X)) /\ fits1 s d k (a_w (turn f k' X)).
Proof. intros H1 H2. destruct (turn_dims f k' X) as [[-> ->]|[-> ->]]; auto. Qed.

Lemma list_prod_nil {A B} (l : list A) : list_prod l (@nil B) = [].
Proof. induction l; cbn; auto. Qed.
Lemma dim_nonempty {Rp At Id} (rname : Rp -> string) rsize rp_eqb (at_id : At -> Id) id_eqb ins outs S gen b : be_make rname rsize rp_eqb at_id ins outs S gen = Ok b ->
  (0 < be_dimension id_eqb b)%nat -> ins <> [] /\ outs <> [].
Proof.
  intros H D. unfold be_make in H. split; intros ->; unfold build_blocks in H; cbn [set_of] in H; rewrite ?list_prod_nil in H; cbn in H; injection H as <-; cbn in D; lia.
Qed.

Section Equiv.
Context {G : Type} (sp : space G) (isrep : rep G -> Prop) (code : G -> gelt) (el : G -> Prop) (inv : G -> G).
Hypothesis SF : space_facts sp isrep code el inv.
Variable interp : forall A : Type, R -> R -> arr A -> arr A.
Context {B : Type}.

(** how a field is transformed by an exact element *)
Lemma transform_exact (t : ctype G) e g kk (x : arr (B -> vec)) : ft_gs t = sp -> ft_reps t <> [] -> fg_is_element (sp_group (sp_obj sp)) e = true ->
  sp_prj sp e = Some g -> gangle (sp_obj sp) e = IZR kk * (PI / 2) ->
  exists x', field_transform interp t x e = Ok x' /\
    same_field (ct_size t) x' (amap (fun v b => mvec (ct_size t) (trep (ft_reps t) g) (v b)) (turn (gflip (sp_obj sp) e) kk x)).
Proof.
  intros Hs Hne He Hg Ha. unfold field_transform. unfold type_representation. destruct (directsum (ft_reps t) (Some "FiberRepresentation"%string)) as [rho|] eqn:E.
  2:{ unfold directsum in E. destruct (ft_reps t); [congruence|discriminate]. }
  cbn [rbind]. rewrite Hs. unfold featurefield_action. rewrite fg_eqb_refl. cbn [assert_]. rewrite Hg.
  change (MkArr (a_h x) (a_w x) (fun i j b => mvec (rp_size rho) (rp_mat rho g) (a_px x i j b))) with (amap (fun v (b : B) => mvec (rp_size rho) (rp_mat rho g) (v b)) x).
  rewrite (action_exact interp (sp_obj sp) _ e kk (sf_constructed _ _ _ _ _ SF) He Ha). eexists. split; [reflexivity|].
  change (rot90 _ kk) with (turn (gflip (sp_obj sp) e) kk (amap (fun v (b : B) => mvec (rp_size rho) (rp_mat rho g) (v b)) x)). rewrite turn_amap.
  assert (S := ds_size _ _ _ E). unfold ct_size. rewrite S. apply same_field_lin; [|apply same_field_refl]. apply (directsum_mat _ _ _ g E).
Qed.

Variables (tin tout : ctype G).
Hypothesis Hsin : ft_gs tin = sp.
Hypothesis Hsout : ft_gs tout = sp.
Hypothesis Hin : Forall isrep (ft_reps tin).
Hypothesis Hout : Forall isrep (ft_reps tout).
Hypothesis Nin : names_distinct (ft_reps tin).
Hypothesis Nout : names_distinct (ft_reps tout).
Variables (k p stride dil groups : nat) (gen : rep G -> rep G -> result (sblock kattr)) (m : r2conv G) (in_reps : list (rep G)) (ok : gelt -> Prop).
Hypothesis MD : made tin tout k p stride dil groups gen m in_reps.
Hypothesis GEN : gen_good sp isrep code el inv ok k gen.
Hypothesis Pin : forall r, In r (ft_reps tin) -> (0 < rp_size r)%nat.
Hypothesis Pout : forall r, In r (ft_reps tout) -> (0 < rp_size r)%nat.

Lemma trep_inv (L : list (rep G)) g : Forall isrep L -> el g -> meq (csum L) (csum L) (mmul (csum L) (trep L (inv g)) (trep L g)) mid.
Proof.
  intros HL Hg. set (l1 := map (fun s => (rp_size s, rp_mat s (inv g))) L). set (l2 := map (fun s => (rp_size s, rp_mat s g)) L).
  assert (E1 : map fst l1 = map rp_size L) by (unfold l1; rewrite map_map; reflexivity).
  assert (E2 : map fst l2 = map rp_size L) by (unfold l2; rewrite map_map; reflexivity).
  assert (X := bdiag_mul l1 l2 (eq_trans E1 (eq_sym E2))).
  set (l3 := map (fun p => (fst (fst p), mmul (fst (fst p)) (snd (fst p)) (snd (snd p)))) (combine l1 l2)) in *.
  assert (Y : Forall (fun p => meq (fst p) (fst p) (snd p) mid) l3 /\ bsize l3 = bsize l1).
  { unfold l3, l1, l2, bsize. clear -HL Hg SF. induction HL as [|r L Hr HL [IH1 IH2]]; cbn; [split; [constructor|reflexivity]|].
    split; [constructor; [|exact IH1]|f_equal; exact IH2]. cbn. apply (sf_inv _ _ _ _ _ SF); auto. }
  destruct Y as [Y1 Y2]. assert (Z := bdiag_mid _ Y1). rewrite Y2 in Z. unfold csum, trep. fold l1 l2.
  assert (E3 : nsum (map rp_size L) = bsize l1) by (unfold bsize; rewrite E1; reflexivity). rewrite E3.
  intros i j Hi Hj. rewrite (X i j Hi Hj). apply Z; auto.
Qed.

Lemma types_nonempty : (0 < groups)%nat -> ft_reps tin <> [] /\ ft_reps tout <> [].
Proof.
  intros Hgr. destruct (dim_nonempty _ _ _ _ kid_eqb _ _ _ _ _ (md_exp MD) (md_dim MD)) as [H1 H2].
  split; [|exact H2]. destruct in_reps as [|r l] eqn:E; [congruence|]. intros E2.
  assert (X : In r (ft_reps tin)) by (apply (in_reps_sub _ _ Nin Nout _ _ _ _ _ _ _ _ MD Hgr); left; auto). rewrite E2 in X. exact X.
Qed.

Theorem run_equivariant w bs fb e kk (x y : arr (B -> vec)) : length w = be_dimension kid_eqb (cv_exp m) -> expand_parameters m w bs = Ok fb ->
  fg_is_element (sp_group (sp_obj sp)) e = true -> ok e -> gangle (sp_obj sp) e = IZR kk * (PI / 2) ->
  run_conv m fb x = Ok y -> divides1 stride dil k (a_h x + 2 * p) -> divides1 stride dil k (a_w x + 2 * p) ->
  exists x' y' y'', field_transform interp tin x e = Ok x' /\ run_conv m fb x' = Ok y' /\ field_transform interp tout y e = Ok y'' /\
    same_field (ct_size tout) y' y''.
Proof.
  intros Hw Hfb He Hok Ha Hy D1 D2.
  assert (Hgr : (0 < groups)%nat).
  { clear -Hy MD. unfold run_conv in Hy. apply rbind_ok in Hy as [z [_ Hy]]. rewrite (md_grp MD) in Hy.
    unfold conv_valid in Hy. destruct (_ && _)%bool eqn:E; [|discriminate]. rewrite !andb_true_iff in E. destruct groups; [|lia]. cbn in E. intuition discriminate. }
  destruct (types_nonempty Hgr) as [Ne1 Ne2].
  destruct (sf_elt _ _ _ _ _ SF e He) as [g [Hg [Hc Hp]]].
  destruct (transform_exact tin e g kk x Hsin Ne1 He Hp Ha) as [x' [Hx' Sx]].
  destruct (transform_exact tout e g kk y Hsout Ne2 He Hp Ha) as [y'' [Hy'' Sy]].
  set (fl := gflip (sp_obj sp) e) in *. exists x'.
  unfold run_conv in *. rewrite (md_pad MD), (md_in MD), (md_out MD), (md_k MD),
    (md_stride MD), (md_dil MD), (md_grp MD) in *. cbn [fst snd] in *.
  rewrite pad2d_eq in Hy. destruct (pad_legal (cv_mode m) (a_h x) p && pad_legal (cv_mode m) (a_w x) p)%bool eqn:L; [|discriminate]. cbn [rbind] in Hy.
  apply andb_true_iff in L as [L1 L2].
  destruct Sx as (Sx1 & Sx2 & Sx3). assert (Sx : same_field (ct_size tin) x' (amap (fun v b => mvec (ct_size tin) (trep (ft_reps tin) g) (v b)) (turn fl kk x))) by (split; auto).
  cbn [amap a_h a_w] in Sx1, Sx2.
  assert (TD := turn_dims fl kk x).
  assert (L' : pad_legal (cv_mode m) (a_h x') p = true /\ pad_legal (cv_mode m) (a_w x') p = true).
  { rewrite Sx1, Sx2. destruct TD as [[-> ->]|[-> ->]]; auto. }
  rewrite pad2d_eq. destruct L' as [L1' L2']. rewrite L1', L2'. cbn [andb rbind].
  destruct (conv_valid_ok _ _ _ _ _ _ _ _ _ (pads (cv_mode m) p p x') _ Hy) as [y' Hy'].
  { cbn [pads a_h a_w]. rewrite Sx1, Sx2. destruct TD as [[-> ->]|[-> ->]]; auto. }
  exists y', y''. split; [exact Hx'|]. split; [exact Hy'|]. split; [exact Hy''|].
  assert (SZ := sizes _ _ Nin Nout _ _ _ _ _ _ _ _ MD Hgr). destruct SZ as [SZ1 SZ2].
  change (csum (ft_reps tin)) with (ct_size tin) in SZ1. change (csum (ft_reps tout)) with (ct_size tout) in SZ2.
  destruct (conv_valid_spec _ _ _ _ _ _ _ _ _ _ _ _ Hy SZ1 SZ2) as (F1 & F2 & _ & Y1 & Y2 & Y3).
  destruct (conv_valid_spec _ _ _ _ _ _ _ _ _ _ _ _ Hy' SZ1 SZ2) as (F1' & F2' & _ & Y1' & Y2' & Y3').
  set (F := MkArr k k (fun i j => fullf (cgs tin groups) (ogs tout groups) (fst fb) (i * k + j))) in *.
  set (n := ct_size tin) in *. set (q := ct_size tout) in *. set (M := trep (ft_reps tout) g) in *. set (N := trep (ft_reps tin) g) in *.
  (* the filter and the bias *)
  unfold expand_parameters in Hfb.
  destruct (exp_forward _ _ _ _ _ _ _ Hin Hout Nin Nout _ _ _ _ _ _ _ _ _ MD GEN Hgr Pin Pout w Hw) as [f [Hf Hst]].
  rewrite Hf in Hfb. cbn [rbind] in Hfb. injection Hfb as <-. cbn [fst snd] in *.
  assert (He' : fg_is_element (sp_group (sp_obj sp)) (code g) = true) by (rewrite Hc; auto).
  assert (Hok' : ok (code g)) by (rewrite Hc; auto).
  assert (FS := full_steer sp code el inv _ _ Nin Nout _ _ _ _ _ _ _ _ MD Hgr f g Hg He' (fun o i ro ri A1 A2 => Hst g o i ro ri Hg He' Hok' A1 A2)).
  rewrite Hc in FS. change (csum (ft_reps tin)) with n in FS. change (csum (ft_reps tout)) with q in FS. fold M in FS.
  set (bv := match match cv_bias m with Some cols => Some (expand_bias cols bs) | None => None end with Some v => v | None => fun _ : nat => 0 end).
  assert (BF : veq q (mvec q M bv) bv).
  { assert (Zb : veq q (mvec q M (fun _ => 0)) (fun _ => 0)) by (intros c Hcc; unfold mvec; rewrite rsum_0; auto; intros; ring).
    unfold bv. destruct (md_bias MD) as [E|E]; rewrite E; [exact Zb|].
    apply (bias_fixed _ _ _ _ _ SF _ Hout groups Hgr); auto. }
  assert (BV : forall o, match match cv_bias m with Some cols => Some (expand_bias cols bs) | None => None end with Some v => v o | None => 0 end = bv o).
  { intros o. unfold bv. destruct (match cv_bias m with Some cols => Some (expand_bias cols bs) | None => None end); reflexivity. }
  (* equivariance of the convolution proper *)
  assert (HF : forall i j, (i < a_h F)%nat -> (j < a_w F)%nat -> meq q n (a_px F i j) (mmul n (mmul q M (a_px (turn fl kk F) i j)) (trep (ft_reps tin) (inv g)))).
  { intros i j Hi Hj.
    assert (GE : grid_exact (sp_obj sp) e) by (apply (grid_exact_iff _ _ (sf_constructed _ _ _ _ _ SF) He); eauto).
    destruct (action_moves interp (sp_obj sp) F e (sf_constructed _ _ _ _ _ SF) He GE) as [t [Ht [_ Mv]]].
    rewrite (action_exact interp (sp_obj sp) F e kk (sf_constructed _ _ _ _ _ SF) He Ha) in Ht. injection Ht as <-.
    change (rot90 (if gflip (sp_obj sp) e then flip_rows F else F) kk) with (turn fl kk F) in Mv.
    assert (DF : a_h (turn fl kk F) = k /\ a_w (turn fl kk F) = k) by (destruct (turn_dims fl kk F) as [[-> ->]|[-> ->]]; auto). destruct DF as [DF1 DF2].
    cbn [F a_h a_w] in Hi, Hj. destruct (Mv i j) as (i0 & j0 & Hi0 & Hj0 & Hcc & ->); [rewrite DF1; auto|rewrite DF2; auto|].
    rewrite DF1, DF2 in Hcc. cbn [F a_h a_w] in Hi0, Hj0, Hcc. exact (FS i j i0 j0 Hi Hj Hi0 Hj0 Hcc). }
  assert (EQ := cvo_equivariant (B := B) n q M N (trep (ft_reps tin) (inv g)) fl kk (trep_inv (ft_reps tin) g Hin Hg) F eq_refl HF stride dil (pads (cv_mode m) p p x) F1 F2 D1 D2).
  (* assemble *)
  set (P := pads (cv_mode m) p p x) in *.
  assert (S1 : same_field n (pads (cv_mode m) p p x') (amap (fun v b => mvec n N (v b)) (turn fl kk P))).
  { eapply same_field_trans; [apply (pads_same n _ _ _ _ _ L1' L2' Sx)|].
    apply arr_same. eapply arr_eq_trans; [apply (pads_lin n N)|]. apply amap_eq. apply pads_turn; auto. }
  assert (S2 : same_field q (cvo n stride dil F (pads (cv_mode m) p p x')) (amap (fun v b => mvec q M (v b)) (turn fl kk (cvo n stride dil F P)))).
  { eapply same_field_trans; [apply (cvo_same n q stride dil F _ _ F1' F2' S1)|exact EQ]. }
  set (C := cvo n stride dil F P) in *.
  assert (SY : same_field q y (amap (fun v b c => bv c + v b c) C)).
  { split; [exact Y1|]. split; [exact Y2|]. intros i j b c Hi Hj Hcc. cbn [amap a_px]. rewrite (Y3 i j b c Hcc), BV. reflexivity. }
  assert (S3 : same_field q y'' (amap (fun v b => mvec q M (v b)) (amap (fun v b c => bv c + v b c) (turn fl kk C)))).
  { eapply same_field_trans; [exact Sy|]. apply same_field_lin; [intros ? ? _ _; reflexivity|]. rewrite <- turn_amap. apply same_field_turn. exact SY. }
  destruct S2 as (U1 & U2 & U3). destruct S3 as (V1 & V2 & V3). cbn [amap a_h a_w] in U1, U2, V1, V2.
  split; [exact (eq_trans Y1' (eq_trans U1 (eq_sym V1)))|]. split; [exact (eq_trans Y2' (eq_trans U2 (eq_sym V2)))|]. intros i j b c Hi Hj Hcc.
  rewrite Y1' in Hi. rewrite Y2' in Hj.
  rewrite (Y3' i j b c Hcc), BV. rewrite (U3 i j b c Hi Hj Hcc). assert (Hi2 : (i < a_h y'')%nat) by (refine (eq_ind _ (fun z => (i < z)%nat) Hi _ (eq_trans U1 (eq_sym V1)))). assert (Hj2 : (j < a_w y'')%nat) by (refine (eq_ind _ (fun z => (j < z)%nat) Hj _ (eq_trans U2 (eq_sym V2)))). rewrite (V3 i j b c Hi2 Hj2 Hcc). cbn [amap a_px].
  transitivity (mvec q M bv c + mvec q M (a_px (turn fl kk C) i j b) c); [rewrite (BF c Hcc); reflexivity|].
  unfold mvec. rewrite <- rsum_plus. apply rsum_ext. intros. symmetry. apply Rmult_plus_distr_l.
Qed.
End Equiv.
