(** Proofs about the caches: bases that compare equal have the same attributes and samples; the tables only contain what the
    layers would compute themselves. *)
From Coq Require Import Reals ZArith String List Bool Arith Lia FunctionalExtensionality.
From Verif Require Import Base Model_Groups Model_Rep Proofs_Rep Model_FieldType Proofs_FieldType Model_Tensor Model_GSpace Model_Kernels Model_Diffops Model_Diffops2 Proofs_Diffops2 Model_Utils Model_Expansion Proofs_Expansion Model_Conv Spec_Conv Proofs_Conv2 Proofs_Conv3 Proofs_Conv5 Model_R2Diffop Model_Cache Spec_Cache.
Import ListNotations.
Open Scope R_scope.

(** ** comparisons that are equality *)
Lemma list_eqb_eq {A} (e : A -> A -> bool) (He : forall a b, e a b = true -> a = b) l : forall l', list_eqb e l l' = true -> l = l'.
Proof.
  induction l as [|a l IH]; intros [|b l'] H; cbn in H; try discriminate; auto. apply andb_true_iff in H as [H1 H2].
  f_equal; auto.
Qed.
Lemma list_eqb_same {A} (e : A -> A -> bool) (He : forall a, e a a = true) l : list_eqb e l l = true.
Proof. induction l; cbn; auto. rewrite He, IHl. reflexivity. Qed.
Lemma Reqb_eq a b : Reqb a b = true -> a = b.
Proof. destruct (Reqb_spec a b); [auto|discriminate]. Qed.
Lemma Reqb_same a : Reqb a a = true.
Proof. destruct (Reqb_spec a a); congruence. Qed.
Lemma Rpair_eq a b : Rpair_eqb a b = true -> a = b.
Proof. destruct a, b. unfold Rpair_eqb. cbn. intros H. apply andb_true_iff in H as [H1 H2]. apply Reqb_eq in H1, H2. congruence. Qed.
Lemma Rpair_same a : Rpair_eqb a a = true.
Proof. unfold Rpair_eqb. rewrite !Reqb_same. reflexivity. Qed.
Lemma optz_eq a b : optz_eqb a b = true -> a = b.
Proof. destruct a, b; cbn; try discriminate; auto. intros H. apply Z.eqb_eq in H. congruence. Qed.
Lemma optz_same a : optz_eqb a a = true.
Proof. destruct a; cbn; auto. apply Z.eqb_refl. Qed.
Lemma mkey_eq a b : mkey_eqb a b = true -> a = b.
Proof.
  destruct a as [s r F T|F T], b as [s' r' F' T'|F' T']; cbn; try discriminate; intros H.
  - apply andb_true_iff in H as [H H4]. apply andb_true_iff in H as [H H3]. apply andb_true_iff in H as [H1 H2].
    apply list_eqb_eq in H1, H2; try apply Reqb_eq. apply optz_eq in H3, H4. congruence.
  - apply andb_true_iff in H as [H3 H4]. apply optz_eq in H3, H4. congruence.
Qed.
Lemma mkey_same a : mkey_eqb a a = true.
Proof. destruct a; cbn; rewrite !optz_same, ?(list_eqb_same _ Reqb_same); reflexivity. Qed.
Lemma key_eq a b : key_eqb a b = true -> a = b.
Proof. destruct a, b. unfold key_eqb. cbn. intros H. apply andb_true_iff in H as [H1 H2]. apply String.eqb_eq in H1, H2. congruence. Qed.
Lemma ident_eq a b : ident_eqb a b = true -> a = b.
Proof.
  destruct a as [[o k] n], b as [[o' k'] n']. unfold ident_eqb. cbn. intros H. apply andb_true_iff in H as [H H3]. apply andb_true_iff in H as [H1 H2].
  apply Nat.eqb_eq in H1. apply mkey_eq in H2. apply key_eq in H3. congruence.
Qed.
Lemma kget_in {K V} (e : K -> K -> bool) (t : list (K * V)) k v : kget e t k = Some v -> exists k', In (k', v) t /\ e k' k = true.
Proof.
  induction t as [|[k' v'] t IH]; cbn; [discriminate|]. destruct (e k' k) eqn:E.
  - intros H. injection H as <-. exists k'. auto.
  - intros H. destruct (IH H) as [k'' [I Q]]. exists k''. auto.
Qed.

(** ** bases without the offsets that are never read *)
Definition knorm (e : kel) : kel := MkKel (ke_gq e) (ke_mu e) (ke_s e) 0.
Definition kbnorm (b : kbasis) : kbasis := MkKB (kb_axis b) (kb_rows b) (kb_cols b) (map knorm (kb_els b)).
Definition blknorm (k : skblock) : skblock := MkBlk (bk_ii k) (bk_oo k) (bk_inpos k) (bk_outpos k) (bk_insize k) (bk_outsize k) (option_map kbnorm (bk_basis k)).
Definition sknorm {G} (s : skbasis G) : skbasis G := MkSK (sk_in s) (sk_out s) (sk_Ainv s) (sk_B s) (map (map (option_map kbnorm)) (sk_bases s)).

Lemma kbnorm_dim b : kb_dim (kbnorm b) = kb_dim b.
Proof. unfold kb_dim. cbn. apply map_length. Qed.
Lemma knorm_nth l r : knorm (nth r l kel0) = nth r (map knorm l) kel0.
Proof. change kel0 with (knorm kel0) at 2. rewrite map_nth. reflexivity. Qed.
Lemma kbnorm_sample b r a : kb_sample (kbnorm b) r a = kb_sample b r a.
Proof. unfold kb_sample. cbn [kbnorm kb_els]. rewrite <- knorm_nth. reflexivity. Qed.

Section Norm.
Context {G : Type}.
Lemma rows_norm ii inpos isz osz : forall oo outpos bs, sk_row ii inpos isz oo outpos osz (map (option_map kbnorm) bs) = map blknorm (sk_row ii inpos isz oo outpos osz bs).
Proof. induction osz as [|o osz IH]; intros oo outpos [|b bs]; cbn; auto. rewrite IH. reflexivity. Qed.
Lemma blocks_norm (s : skbasis G) : sk_blocks (sknorm s) = map blknorm (sk_blocks s).
Proof.
  unfold sk_blocks. cbn [sknorm sk_in sk_out sk_bases]. generalize 0%nat at 1 3 as ii. generalize 0%nat as pos. generalize (map ir_size (rp_irreps (sk_in s))) as isz.
  generalize (sk_bases s) as bss. intros bss isz. revert bss. induction isz as [|i isz IH]; intros [|bs bss] pos ii; cbn; auto. rewrite rows_norm, IH, map_app. reflexivity.
Qed.
Lemma norm_dim (s : skbasis G) : sk_dim (sknorm s) = sk_dim s.
Proof.
  unfold sk_dim. cbn [sknorm sk_bases]. rewrite <- concat_map, map_map. apply f_equal. apply map_ext. intros [b|]; cbn; auto. apply kbnorm_dim.
Qed.
Lemma norm_write a l : forall c idx, sk_write (map blknorm l) c idx a = sk_write l c idx a.
Proof.
  induction l as [|k l IH]; intros c idx; cbn; auto. destruct (bk_basis k) as [b|]; cbn [option_map]; auto.
  rewrite kbnorm_dim. destruct (_ && _)%bool; auto. rewrite kbnorm_sample. reflexivity.
Qed.
Lemma norm_sample (s : skbasis G) idx a : sk_sample (sknorm s) idx a = sk_sample s idx a.
Proof. unfold sk_sample. rewrite blocks_norm, norm_write. reflexivity. Qed.
Lemma norm_iter (s : skbasis G) : sk_iter (sknorm s) = sk_iter s.
Proof.
  unfold sk_iter. rewrite blocks_norm. generalize 0%nat. induction (sk_blocks s) as [|k l IH]; intros n; cbn; auto.
  destruct (bk_basis k) as [b|]; cbn [option_map]; auto. rewrite kbnorm_dim, IH. reflexivity.
Qed.
Lemma norm_freq (s : skbasis G) a : sk_attr_freq (sknorm s) a = sk_attr_freq s a.
Proof.
  unfold sk_attr_freq. destruct a as [[[ii oo] r] i]. cbn [sknorm sk_bases]. rewrite nth_error_map. destruct (nth_error (sk_bases s) ii) as [row|]; cbn; auto.
  rewrite nth_error_map. destruct (nth_error row oo) as [[kb|]|]; cbn; auto. change (MkKel 0 0 0 0) with kel0. rewrite <- knorm_nth. reflexivity.
Qed.

(** r2basis *)
Definition r2norm (b : r2basis G) : r2basis G := MkR2 (r2_radial b) (sknorm (r2_angular b)).
Lemma r2norm_attrs b : r2_attrs (r2norm b) = r2_attrs b.
Proof.
  unfold r2_attrs. cbn [r2norm r2_angular r2_radial]. rewrite norm_iter. f_equal. apply map_ext. intros i1. apply map_ext. intros [[[ii oo] r] i2].
  unfold r2_attr. cbn [r2norm r2_angular r2_radial]. rewrite norm_freq, norm_dim. reflexivity.
Qed.
Lemma r2norm_sample b idx p : r2_sample (r2norm b) idx p = r2_sample b idx p.
Proof.
  unfold r2_sample, polar_sample. cbn [r2norm r2_angular r2_radial]. rewrite norm_dim, norm_sample. reflexivity.
Qed.
Lemma r2norm_elements b k dil : r2_elements (r2norm b) k dil = r2_elements b k dil.
Proof.
  unfold r2_elements. rewrite r2norm_attrs. apply map_ext. intros [i a]. cbn. f_equal. apply functional_extensionality. intros s. apply r2norm_sample.
Qed.

(** tbasis *)
Definition tbnorm (t : tbasis G) : tbasis G := MkTB (sknorm (tb_1 t)) (tb_power t).
Lemma sd_norm (s : skbasis G) : sd_coefficients (sknorm s) = sd_coefficients s.
Proof.
  unfold sd_coefficients. assert (E : direct_sum (sk_blocks (sknorm s)) = direct_sum (sk_blocks s)).
  { rewrite blocks_norm. unfold direct_sum. induction (sk_blocks s) as [|k l IH]; cbn; auto. rewrite IH. f_equal. destruct (bk_basis k) as [b|]; cbn; auto.
    rewrite map_map. reflexivity. }
  rewrite E. reflexivity.
Qed.
Lemma tb_iter_norm t : tb_iter (tbnorm t) = tb_iter t.
Proof.
  unfold tb_iter. cbn [tbnorm tb_1 tb_power]. rewrite blocks_norm.
  assert (E : forall l c, exists l1 l2, sd_iter_from (map blknorm l) c = l1 /\ sd_iter_from l c = l2 /\ l1 = map (fun p => (fst p, knorm (snd p))) l2).
  { induction l as [|k l IH]; intros c; cbn; [do 2 eexists; eauto|]. destruct (bk_basis k) as [b|]; cbn [option_map].
    - destruct (IH (c + kb_dim (kbnorm b))%nat) as [l1 [l2 [E1 [E2 E3]]]]. rewrite kbnorm_dim in *. do 2 eexists. split; [reflexivity|]. split; [reflexivity|].
      rewrite E1, E2, E3, map_app, map_map. apply (f_equal2 (@app _)); [|reflexivity]. apply map_ext. intros r. cbn [fst snd kbnorm kb_els]. rewrite knorm_nth. reflexivity.
    - apply IH. }
  assert (F : forall l ps n, tb_iter_from (map (fun p => (fst p, knorm (snd p))) l) ps n = tb_iter_from l ps n).
  { induction l as [|[[[[ii oo] r] x] e] l2 IH]; intros ps n; cbn; auto. rewrite IH. reflexivity. }
  destruct (E (sk_blocks (tb_1 t)) 0%nat) as [l1 [l2 [E1 [E2 E3]]]]. rewrite E1, E2, E3. apply F.
Qed.
Lemma tb_coef_norm t : tb_coefficients (tbnorm t) = tb_coefficients t.
Proof. unfold tb_coefficients. cbn [tbnorm tb_1 tb_power]. rewrite sd_norm. reflexivity. Qed.
Lemma dop_attr_norm t a : dop_attr (tbnorm t) a = dop_attr t a.
Proof. unfold dop_attr. cbn [tbnorm tb_1]. destruct (ta_irreps a). rewrite norm_freq. reflexivity. Qed.
End Norm.

(** ** bases determined by what is compared *)
Definition slot_ok {G} (ax : option R) (i o : irrep G) (ob : option kbasis) : Prop :=
  match ob with None => True | Some b => kb_axis b = ax /\ kb_rows b = ir_size o /\ kb_cols b = ir_size i end.
Record made {G} (ax : option R) (s : skbasis G) : Prop := {
  md_A : sk_Ainv s = if is_eye (rp_size (sk_in s)) (rp_inv (sk_in s)) then None else Some (rp_inv (sk_in s));
  md_B : sk_B s = if is_eye (rp_size (sk_out s)) (rp_cob (sk_out s)) then None else Some (rp_cob (sk_out s));
  md_bases : Forall2 (fun i row => Forall2 (slot_ok ax i) (rp_irreps (sk_out s)) row) (rp_irreps (sk_in s)) (sk_bases s) }.
Definition mk_ok {G} (ax : option R) (mk : irrep G -> irrep G -> result kbasis) : Prop :=
  forall i o b, mk i o = Ok b -> kb_axis b = ax /\ kb_rows b = ir_size o /\ kb_cols b = ir_size i.
Lemma kb_make_ok ax r c l b : kb_make ax r c l = Ok b -> kb_axis b = ax /\ kb_rows b = r /\ kb_cols b = c.
Proof. destruct l; cbn; [discriminate|]. intros H. injection H as <-. auto. Qed.
Ltac mk_tac := intros i o b H; unfold assert_ in H;
  repeat match type of H with
         | (if ?c then _ else _) = _ => destruct c; [|discriminate H]
         | rbind ?x _ = _ => let l := fresh "l" in let E := fresh "E" in destruct x as [l|] eqn:E; cbn [rbind] in H; [|discriminate H]
         end; apply kb_make_ok in H; exact H.
Lemma flips_mk ax F T : mk_ok (Some ax) (flips_basis ax F T). Proof. unfold flips_basis. mk_tac. Qed.
Lemma rotN_mk N F T : mk_ok None (rotN_basis N F T). Proof. unfold rotN_basis. mk_tac. Qed.
Lemma rot_mk : mk_ok None rot_basis. Proof. unfold rot_basis. mk_tac. Qed.
Lemma fliprotN_mk N ax F T : mk_ok (Some ax) (fliprotN_basis N ax F T). Proof. unfold fliprotN_basis. mk_tac. Qed.
Lemma fliprot_mk ax : mk_ok (Some ax) (fliprot_basis ax). Proof. unfold fliprot_basis. mk_tac. Qed.
Lemma dflips_mk ax F T : mk_ok (Some ax) (d_flips ax F T). Proof. unfold d_flips. mk_tac. Qed.
Lemma drotN_mk N F T : mk_ok None (d_rotN N F T). Proof. unfold d_rotN. mk_tac. Qed.
Lemma drot_mk : mk_ok None d_rot. Proof. unfold d_rot. mk_tac. Qed.
Lemma dfliprotN_mk N ax F T : mk_ok (Some ax) (d_fliprotN N ax F T). Proof. unfold d_fliprotN. mk_tac. Qed.
Lemma dfliprot_mk ax : mk_ok (Some ax) (d_fliprot ax). Proof. unfold d_fliprot. mk_tac. Qed.

Lemma Forall2_weaken {A B} (P Q : A -> B -> Prop) (H : forall a b, P a b -> Q a b) l l' : Forall2 P l l' -> Forall2 Q l l'.
Proof. induction 1; constructor; auto. Qed.
Lemma sk_make_made {G} ax (mk : irrep G -> irrep G -> result kbasis) rin rout s : mk_ok ax mk -> sk_make mk rin rout = Ok s ->
  made ax s /\ sk_in s = rin /\ sk_out s = rout.
Proof.
  intros M H. unfold sk_make in H. apply rbind_ok in H as [bs [E H]]. destruct (_ =? 0)%nat; [discriminate|]. injection H as <-.
  split; [|auto]. split; cbn; auto. apply rmap_all in E. revert E. apply Forall2_weaken. intros i row E. apply rmap_all in E. revert E.
  apply Forall2_weaken. intros o ob E. unfold try_basis in E. destruct (mk i o) as [b|x] eqn:Eb.
  - injection E as <-. cbn. eauto.
  - destruct (String.eqb x _); [|discriminate]. injection E as <-. exact I.
Qed.

(** the axis that the bases of a gspace use *)
Definition space_axis (s : gspace) : option R := match s with SpFlip _ a => Some a | SpFlipRot _ a => Some a | _ => None end.
Lemma r2_make_made {G} ax (mk : irrep G -> irrep G -> result kbasis) rin rout ra si b : mk_ok ax mk -> r2_make mk rin rout ra si = Ok b ->
  made ax (r2_angular b) /\ sk_in (r2_angular b) = rin /\ sk_out (r2_angular b) = rout.
Proof. intros M H. unfold r2_make in H. apply rbind_ok in H as [s [E H]]. apply rbind_ok in H as [r [E2 H]]. injection H as <-. cbn. eapply sk_make_made; eauto. Qed.
Lemma tb_make_made {G} ax (mk : irrep G -> irrep G -> result kbasis) rin rout P b : mk_ok ax mk -> tb_make mk rin rout P = Ok b ->
  made ax (tb_1 b) /\ sk_in (tb_1 b) = rin /\ sk_out (tb_1 b) = rout.
Proof. intros M H. unfold tb_make in H. apply rbind_ok in H as [s [E H]]. apply assert_ok in H as [_ H]. injection H as <-. cbn. eapply sk_make_made; eauto. Qed.
Lemma limits_ok {A} F T (r : result A) b : check_limits F T r = Ok b -> r = Ok b.
Proof. unfold check_limits. destruct F, T; auto; unfold assert_; intros H; repeat match type of H with (if ?c then _ else _) = _ => destruct c; try discriminate H end; auto. Qed.
Lemma build_made G (sp : space G) isrep : planar_space G sp isrep -> forall rin rout ra si F T b, sp_build sp rin rout ra si F T = Ok b ->
  made (space_axis (sp_obj sp)) (r2_angular b) /\ sk_in (r2_angular b) = rin /\ sk_out (r2_angular b) = rout.
Proof.
  intros [N|B|N ax|B ax|ax|]; intros; cbn in *; match goal with H : check_sigma _ _ _ = _ |- _ => unfold check_sigma in H; apply assert_ok in H as [_ H]; apply assert_ok in H as [_ H] end;
  try match goal with H : check_limits _ _ _ = _ |- _ => apply limits_ok in H end.
  - eapply r2_make_made; eauto using rotN_mk.
  - eapply r2_make_made; eauto using rot_mk.
  - eapply r2_make_made; eauto using fliprotN_mk.
  - eapply r2_make_made; eauto using fliprot_mk.
  - eapply r2_make_made; eauto using flips_mk.
  - eapply r2_make_made; eauto using rotN_mk.
Qed.
Lemma dbuild_made G (sp : space G) isrep : planar_space G sp isrep -> forall rin rout P F T b, sp_dbuild sp rin rout P F T = Ok b ->
  made (space_axis (sp_obj sp)) (tb_1 b) /\ sk_in (tb_1 b) = rin /\ sk_out (tb_1 b) = rout.
Proof.
  intros [N|B|N ax|B ax|ax|]; intros; cbn in *; try match goal with H : check_limits _ _ _ = _ |- _ => apply limits_ok in H end.
  - eapply tb_make_made; eauto using drotN_mk.
  - eapply tb_make_made; eauto using drot_mk.
  - eapply tb_make_made; eauto using dfliprotN_mk.
  - eapply tb_make_made; eauto using dfliprot_mk.
  - eapply tb_make_made; eauto using dflips_mk.
  - eapply tb_make_made; eauto using drotN_mk.
Qed.

(** two bases of one slot *)
Lemma forallb_combine_eq (l1 l2 : list Z) : length l1 = length l2 -> forallb (fun p => Z.eqb (fst p) (snd p)) (combine l1 l2) = true -> l1 = l2.
Proof.
  revert l2. induction l1 as [|a l1 IH]; intros [|b l2] L H; cbn in *; try discriminate; auto. apply andb_true_iff in H as [H1 H2].
  apply Z.eqb_eq in H1. f_equal; auto.
Qed.
Lemma kels_eq l l' : map ke_s l = map ke_s l' -> map ke_mu l = map ke_mu l' -> map ke_gq l = map ke_gq l' -> map knorm l = map knorm l'.
Proof.
  revert l'. induction l as [|[g m s t] l IH]; intros [|[g' m' s' t'] l']; cbn; try discriminate; auto. intros H1 H2 H3.
  injection H1 as -> H1. injection H2 as -> H2. injection H3 as -> H3. rewrite (IH l'); auto.
Qed.
Lemma zl_eq a b : zl_eqb a b = true -> a = b.
Proof. apply list_eqb_eq. intros x y H. apply Z.eqb_eq. exact H. Qed.
Lemma col_eq l1 l2 : length l1 = length l2 -> allclose_col l1 l2 = Ok true -> l1 = l2.
Proof. intros L H. unfold allclose_col in H. rewrite L, Nat.eqb_refl in H. apply forallb_combine_eq; auto. congruence. Qed.
Lemma and_then_true a b : and_then a b = Ok true -> a = Ok true /\ b = Ok true.
Proof. unfold and_then. destruct a as [[]|]; cbn; intros H; try discriminate; auto. Qed.
Definition cmp_ok (f : kbasis -> kbasis -> result bool) (ax ax' : option R) : Prop :=
  forall b b', kb_axis b = ax -> kb_axis b' = ax' -> kb_hashed b = kb_hashed b' -> f b b' = Ok true -> ax = ax' /\ map ke_s (kb_els b) = map ke_s (kb_els b').
Lemma els_len b b' : kb_hashed b = kb_hashed b' -> length (kb_els b) = length (kb_els b').
Proof. unfold kb_hashed. intros H. injection H as H _. apply (f_equal (@length Z)) in H. rewrite !map_length in H. exact H. Qed.
Definition axes_for (cmp : bool) (ax ax' : option R) : Prop := if cmp then exists u v, ax = Some u /\ ax' = Some v else ax = ax'.
Lemma kb_cmp cmp ax ax' : axes_for cmp ax ax' -> cmp_ok (kb_eqb cmp) ax ax'.
Proof.
  intros X b b' E E' Hh H. pose proof (els_len b b' Hh) as L. unfold kb_eqb in H. rewrite E, E' in H. destruct cmp; cbn in X.
  - destruct X as [u [v [-> ->]]]. destruct (Req_EM_T u v) as [->|n]; cbn in H; [|discriminate]. split; auto.
    apply and_then_true in H as [H _]. apply col_eq in H; auto. rewrite !map_length. exact L.
  - split; auto. cbn in H. apply and_then_true in H as [H _]. apply col_eq in H; auto. rewrite !map_length. exact L.
Qed.
Lemma d_cmp w cmp sc ax ax' : axes_for cmp ax ax' -> cmp_ok (d_eqb w cmp sc) ax ax'.
Proof.
  intros X b b' E E' Hh H. pose proof (els_len b b' Hh) as L. unfold d_eqb in H. destruct w; [discriminate|]. rewrite E, E' in H. destruct cmp; cbn in X.
  - destruct X as [u [v [-> ->]]]. destruct (Req_EM_T u v) as [->|n]; cbn in H; [|discriminate]. split; auto.
    apply and_then_true in H as [H _]. apply col_eq in H; auto. rewrite !map_length. exact L.
  - split; auto. cbn in H. apply and_then_true in H as [H _]. apply col_eq in H; auto. rewrite !map_length. exact L.
Qed.

(** two tables of bases *)
Definition flat_norm (l : list (option kbasis)) := map (option_map kbnorm) l.
Lemma slot_eq {G} f ax ax' (i o : irrep G) a b : cmp_ok f ax ax' -> slot_ok ax i o a -> slot_ok ax' i o b ->
  hashed_eqb (option_map kb_hashed a) (option_map kb_hashed b) = true -> obasis_eqb f a b = Ok true -> option_map kbnorm a = option_map kbnorm b.
Proof.
  intros C Ha Hb Hh He. destruct a as [a|], b as [b|]; cbn in *; try discriminate; auto. destruct Ha as [A1 [A2 A3]], Hb as [B1 [B2 B3]].
  apply andb_true_iff in Hh as [H1 H2]. apply zl_eq in H1, H2. assert (H : kb_hashed a = kb_hashed b) by (unfold kb_hashed; congruence).
  destruct (C a b A1 B1 H He) as [E1 E2]. unfold kbnorm. rewrite (kels_eq (kb_els a) (kb_els b)); auto. congruence.
Qed.
Lemma row_eq {G} f ax ax' (i : irrep G) (C : cmp_ok f ax ax') : forall os ra rb ta tb, Forall2 (slot_ok ax i) os ra -> Forall2 (slot_ok ax' i) os rb ->
  list_eqb hashed_eqb (map (option_map kb_hashed) (ra ++ ta)) (map (option_map kb_hashed) (rb ++ tb)) = true ->
  all_eqb (obasis_eqb f) (ra ++ ta) (rb ++ tb) = Ok true ->
  flat_norm ra = flat_norm rb /\ list_eqb hashed_eqb (map (option_map kb_hashed) ta) (map (option_map kb_hashed) tb) = true /\ all_eqb (obasis_eqb f) ta tb = Ok true.
Proof.
  induction os as [|o os IH]; intros ra rb ta tb Ha Hb Hh He; inversion Ha as [|? a ? ra' A1 A2]; subst; inversion Hb as [|? b ? rb' B1 B2]; subst.
  - auto.
  - cbn [app map list_eqb all_eqb] in Hh, He. apply andb_true_iff in Hh as [Hh1 Hh2]. apply and_then_true in He as [He1 He2].
    destruct (IH ra' rb' ta tb A2 B2 Hh2 He2) as [E [F1 F2]]. split; auto. cbn. rewrite (slot_eq f ax ax' i o a b); auto. unfold flat_norm in E. rewrite E. reflexivity.
Qed.
Lemma bases_eq {G} f ax ax' (os : list (irrep G)) (C : cmp_ok f ax ax') : forall is_ la lb,
  Forall2 (fun i row => Forall2 (slot_ok ax i) os row) is_ la -> Forall2 (fun i row => Forall2 (slot_ok ax' i) os row) is_ lb ->
  list_eqb hashed_eqb (map (option_map kb_hashed) (concat la)) (map (option_map kb_hashed) (concat lb)) = true ->
  all_eqb (obasis_eqb f) (concat la) (concat lb) = Ok true -> map flat_norm la = map flat_norm lb.
Proof.
  induction is_ as [|i is_ IH]; intros la lb Ha Hb Hh He; inversion Ha as [|? a ? la' A1 A2]; subst; inversion Hb as [|? b ? lb' B1 B2]; subst; auto.
  cbn [concat] in Hh, He. destruct (row_eq f ax ax' i C os a b (concat la') (concat lb') A1 B1 Hh He) as [E [F1 F2]].
  cbn. rewrite E, (IH la' lb'); auto.
Qed.
Lemma match_norm {G} f ax ax' (s s' : skbasis G) : cmp_ok f ax ax' -> made ax s -> made ax' s' -> sk_in s = sk_in s' -> sk_out s = sk_out s' ->
  sk_match f s s' = true -> sknorm s = sknorm s'.
Proof.
  intros C [A1 B1 M1] [A2 B2 M2] Ei Eo H. unfold sk_match in H. apply andb_true_iff in H as [H H4]. apply andb_true_iff in H as [H _]. apply andb_true_iff in H as [H _].
  unfold sknorm. rewrite A1, A2, B1, B2, Ei, Eo. f_equal. rewrite Ei, Eo in M1. eapply (bases_eq f ax ax' (rp_irreps (sk_out s')) C); eauto.
  unfold ok_true in H4. destruct (all_eqb _ _ _); [congruence|discriminate].
Qed.

(** ** sampled filters *)
Lemma map_same {A B} (f g : A -> B) l : map f l = map g l -> forall a, In a l -> f a = g a.
Proof. induction l as [|x l IH]; cbn; intros H a I; [destruct I|]. injection H as H1 H2. destruct I as [<-|I]; auto. Qed.
Lemma single_block_keep {At} no ni S sh (f g : At -> bool) l : (forall p, In p l -> f (fst p) = g (fst p)) -> single_block no ni S sh f l = single_block no ni S sh g l.
Proof. intros H. unfold single_block. rewrite (filter_ext_in (fun p => f (fst p)) (fun p => g (fst p)) l H). reflexivity. Qed.
Section Blocks.
Context {G : Type}.
Definition mbnorm (b : mbasis G) : mbasis G := match b with MbKer b => MbKer (r2norm b) | MbDif t ds => MbDif (tbnorm t) ds end.
Definition kind_ok (b : mbasis G) (f : bfilter) : Prop := match b, f with MbKer _, FK _ => True | MbDif _ _, FD _ => True | _, _ => False end.
Lemma mask_norm b f : mask_of (mbnorm b) f = mask_of b f.
Proof. destruct b, f; cbn [mask_of mbnorm]; auto. - rewrite r2norm_attrs. reflexivity. - rewrite tb_iter_norm. reflexivity. Qed.
Lemma block_norm k dil b f : make_block k dil (mbnorm b) f = make_block k dil b f.
Proof.
  destruct b as [b|t ds], f as [f|f]; cbn [mbnorm make_block]; auto.
  - rewrite r2norm_elements. reflexivity.
  - cbn [tbnorm tb_1 sknorm sk_in sk_out]. unfold Model_R2Diffop.sample_masked. rewrite tb_iter_norm, tb_coef_norm.
    f_equal. apply functional_extensionality. intros l. f_equal. apply map_ext. intros p. f_equal. apply (dop_attr_norm t).
Qed.
Lemma block_mask k dil k' dil' b f f' : kind_ok b f -> kind_ok b f' -> mask_of b f = mask_of b f' -> grid_coords k dil = grid_coords k' dil' ->
  make_block k dil b f = make_block k' dil' b f'.
Proof.
  intros K K' M Gc. assert (Ek : k = k').
  { apply (f_equal (@length _)) in Gc. unfold grid_coords in Gc. rewrite !map_length, !seq_length in Gc. nia. }
  subst k'. destruct b as [b|t ds], f as [f|f], f' as [f'|f']; cbn in K, K'; try contradiction; cbn [make_block mask_of] in *.
  - assert (E : r2_elements b k dil' = r2_elements b k dil) by (unfold r2_elements; rewrite Gc; reflexivity). rewrite E. apply single_block_keep. intros p I. apply (map_same f f' _ M).
    unfold r2_elements in I. apply in_map_iff in I as [[i a] [<- I]]. cbn. unfold enumerate in I. apply in_combine_r in I. exact I.
  - rewrite Gc. unfold Model_R2Diffop.sample_masked. rewrite (filter_ext_in (fun p => f (fst p)) (fun p => f' (fst p))); [reflexivity|].
    intros [a d] I. apply (map_same f f' _ M). apply in_combine_l in I. exact I.
Qed.
End Blocks.

(** ** plans *)
Section Plans.
Context {G : Type}.
Definition power_of (mp : option Z) (order : Z) : Z := match mp with Some p => Z.min p (order / 2) | None => (order / 2)%Z end.
Definition disc_of (d : option R * option R) : disc_args := MkDisc (match fst d with Some s => DGauss s | None => DFd end) (snd d).
Definition kernel_plan (l : layer G) (pl : plan (G:=G)) : Prop := exists keep rings sigma maxf mo,
  pl_filter pl = FK keep /\ pl_key pl = MKer sigma rings (Some maxf) mo /\
  pl_build pl = (fun i o => rbind (sp_build (layer_space l) i o rings sigma (Some maxf) mo) (fun b => Ok (MbKer b))).
Definition diffop_plan (l : layer G) (pl : plan (G:=G)) : Prop := exists keep order mo mp d,
  pl_filter pl = FD keep /\ pl_key pl = MDif (Some order) mo /\ layer_disc l = Some d /\ layer_power l = Some mp /\
  pl_build pl = (fun i o => rbind (sp_dbuild (layer_space l) i o (power_of mp order) (Some order) mo) (fun b => Ok (MbDif b (disc_of d)))).
Lemma group_in_incl (tin tout : ctype G) g l : group_in tin tout g = Ok l -> incl l (ft_reps tin).
Proof.
  unfold group_in. destruct (1 <? g)%nat; intros H.
  - repeat (apply assert_ok in H as [_ H]). injection H as <-. intros r I. rewrite <- (firstn_skipn (length (ft_reps tin) / g) (ft_reps tin)). apply in_or_app. auto.
  - injection H as <-. apply incl_refl.
Qed.
Lemma plan_inv (l : layer G) pl : layer_plan l = Ok pl ->
  incl (pl_ins pl) (layer_reps l) /\ incl (pl_outs pl) (layer_reps l) /\ (kernel_plan l pl \/ diffop_plan l pl).
Proof.
  intros H. destruct l as [tin tout k pad st dil pm g bias sg fco rings mo bf rec|tin tout ks mord acc pad st dil pm g bias bf mo mp sm an rec]; cbn [layer_plan] in H.
  - apply assert_ok in H as [_ H]. apply rbind_ok in H as [p [E1 H]]. apply rbind_ok in H as [m [E2 H]]. apply rbind_ok in H as [ir [E3 H]].
    apply rbind_ok in H as [[[[keep rg] sig] maxf] [E4 H]]. injection H as <-. cbn. apply group_in_incl in E3.
    split; [unfold layer_reps; cbn; apply incl_appl; exact E3|]. split; [unfold layer_reps; cbn; apply incl_appr, incl_refl|].
    left. exists keep, rg, sig, maxf, mo. auto.
  - apply assert_ok in H as [_ H]. apply rbind_ok in H as [[kz order] [E0 H]]. apply rbind_ok in H as [p [E1 H]]. apply rbind_ok in H as [m [E2 H]]. apply rbind_ok in H as [ir [E3 H]].
    apply rbind_ok in H as [[[[keep pw] maxf] ds] [E4 H]]. injection H as <-. cbn. apply group_in_incl in E3.
    split; [unfold layer_reps; cbn; apply incl_appl; exact E3|]. split; [unfold layer_reps; cbn; apply incl_appr, incl_refl|].
    right. unfold diffop_params in E4. apply assert_ok in E4 as [_ E4]. assert (Q : pw = power_of mp order /\ maxf = order /\ ds = disc_of (sm, an)) by (split; [|split]; injection E4; intros; subst; reflexivity).
    destruct Q as [-> [-> ->]]. exists keep, order, mo, mp, (sm, an). cbn. auto.
Qed.

(** the layer constructed from its plan *)
Definition finish (pl : plan (G:=G)) (r : result (list (key * sblock kattr))) : result (r2conv G) :=
  rbind r (fun blocks => rbind (be_of_blocks (pl_ins pl) (pl_outs pl) (pl_k pl * pl_k pl) blocks) (fun e =>
         if (be_dimension kid_eqb e =? 0)%nat then Err "ValueError" else Ok (pl_conv pl e))).
Definition fresh_gen (pl : plan (G:=G)) (i o : rep G) : result (sblock kattr) := rbind (pl_build pl i o) (fun b => make_block (pl_k pl) (pl_dil pl) b (pl_filter pl)).
Lemma be_make_split ins outs S gen : be_make rp_name rp_size rep_eqb ka_id ins outs S gen = rbind (build_blocks rp_name rep_eqb gen ins outs) (@be_of_blocks G ins outs S).
Proof. reflexivity. Qed.
Lemma fresh_plan (l : layer G) isrep : planar_space G (layer_space l) isrep ->
  fresh l = rbind (layer_plan l) (fun pl => finish pl (build_blocks rp_name rep_eqb (fresh_gen pl) (pl_ins pl) (pl_outs pl))).
Proof.
  intros P. destruct l as [tin tout k pad st dil pm g bias sg fco rings mo bf rec|tin tout ks mord acc pad st dil pm g bias bf mo mp sm an rec]; cbn [fresh layer_plan]; unfold layer_space in P; cbn [layer_in] in P.
  - unfold r2conv_make, assert_. destruct (space_eqb _ _); [|reflexivity]. destruct (parse_padding pad); [|reflexivity]. destruct (parse_mode pm); [|reflexivity].
    destruct (group_in tin tout g); [|reflexivity]. cbn [rbind]. destruct (compute_basis_params k fco rings sg dil bf) as [[[[keep rg] sig] maxf]|]; [|reflexivity]. cbn [rbind].
    rewrite be_make_split. unfold finish. cbn [pl_ins pl_outs pl_k pl_conv].
    assert (E : forall A (x : result A) B C (f : A -> result B) (h : B -> result C), rbind (rbind x f) h = rbind x (fun a => rbind (f a) h)) by (intros A [] ?; reflexivity).
    rewrite E. f_equal. f_equal. apply functional_extensionality. intros i. apply functional_extensionality. intros o. unfold pair_block, fresh_gen. cbn [pl_build pl_k pl_dil pl_filter].
    destruct (sp_build (ft_gs tin) i o rg sig (Some maxf) mo) as [b|] eqn:Eb; [|reflexivity]. cbn [rbind make_block]. destruct (build_made _ _ _ P _ _ _ _ _ _ _ Eb) as [_ [-> ->]]. reflexivity.
  - unfold r2diffop_make, assert_. destruct (space_eqb _ _); [|reflexivity]. destruct (diffop_sizes ks mord acc) as [[kz order]|]; [|reflexivity]. cbn [rbind]. destruct (parse_padding pad); [|reflexivity]. destruct (parse_mode pm); [|reflexivity].
    destruct (group_in tin tout g); [|reflexivity]. cbn [rbind]. destruct (diffop_params kz bf order mp sm an) as [[[[keep pw] maxf] ds]|]; [|reflexivity]. cbn [rbind].
    rewrite be_make_split. unfold finish. cbn [pl_ins pl_outs pl_k pl_conv].
    assert (E : forall A (x : result A) B C (f : A -> result B) (h : B -> result C), rbind (rbind x f) h = rbind x (fun a => rbind (f a) h)) by (intros A [] ?; reflexivity).
    rewrite E. f_equal. f_equal. apply functional_extensionality. intros i. apply functional_extensionality. intros o. unfold dop_block, fresh_gen. cbn [pl_build pl_k pl_dil pl_filter].
    destruct (sp_dbuild (ft_gs tin) i o pw (Some maxf) mo) as [b|] eqn:Eb; [|reflexivity]. cbn [rbind make_block]. destruct (dbuild_made _ _ _ P _ _ _ _ _ _ Eb) as [_ [-> ->]]. reflexivity.
Qed.
End Plans.

(** ** histories *)
Section History.
Context {G : Type}.
Variable prog : list (nat * layer G).
Hypothesis un : undisturbed prog.

Lemma group_same_refl g : one_group g g.
Proof. destruct g; cbn; auto. Qed.
Lemma group_same_one g g' : group_same g g' = true -> one_group g g'.
Proof. destruct g, g'; cbn; auto; intros H; try discriminate; apply Z.eqb_eq; exact H. Qed.
(** a pair of representations of a layer of the program *)
Record asked (o : nat) (l : layer G) (pl : plan (G:=G)) (i r : rep G) : Prop := {
  as_in : In (o, l) prog; as_plan : layer_plan l = Ok pl; as_i : In i (layer_reps l); as_o : In r (layer_reps l) }.
Definition id_of (o : nat) (pl : plan (G:=G)) (i r : rep G) : ident := (o, pl_key pl, (rp_name i, rp_name r)).

Lemma same_ident o l (pl : plan (G:=G)) i r o' l' (pl' : plan (G:=G)) i' r' : asked o l pl i r -> asked o' l' pl' i' r' -> id_of o pl i r = id_of o' pl' i' r' -> pl_build pl i r = pl_build pl' i' r'.
Proof.
  intros [A1 A2 A3 A4] [B1 B2 B3 B4] E. unfold id_of in E.
  assert (Q : o = o' /\ pl_key pl = pl_key pl' /\ rp_name i = rp_name i' /\ rp_name r = rp_name r') by (injection E; intros; subst; auto). destruct Q as [-> [Ek [Ei Er]]].
  pose proof (un_object prog un o' l l' A1 B1) as Es.
  assert (Gs : one_group (sp_group (sp_obj (layer_space l))) (sp_group (sp_obj (layer_space l')))) by (rewrite Es; apply group_same_refl).
  assert (Qi : i = i') by (eapply (un_names prog un o' l o' l' i i'); eauto). assert (Qr : r = r') by (eapply (un_names prog un o' l o' l' r r'); eauto). subst i' r'.
  destruct (plan_inv l pl A2) as [_ [_ P]]. destruct (plan_inv l' pl' B2) as [_ [_ P']].
  destruct P as [[keep [rg [sg [mf [mo [F1 [F2 F3]]]]]]]|[keep [od [mo [mp [d [F1 [F2 [F4 [F5 F3]]]]]]]]]];
  destruct P' as [[keep' [rg' [sg' [mf' [mo' [F1' [F2' F3']]]]]]]|[keep' [od' [mo' [mp' [d' [F1' [F2' [F4' [F5' F3']]]]]]]]]]; rewrite F2, F2' in Ek; try discriminate.
  - injection Ek as -> -> -> ->. rewrite F3, F3', Es. reflexivity.
  - injection Ek as -> ->. rewrite F3, F3', Es. rewrite (un_power prog un o' l l' mp mp' A1 B1 F5 F5'), (un_disc prog un o' l o' l' d d' A1 B1 F4 F4'). reflexivity.
Qed.

Lemma built_kind (l : layer G) (pl : plan (G:=G)) i r b : layer_plan l = Ok pl -> pl_build pl i r = Ok b -> kind_ok b (pl_filter pl).
Proof.
  intros A2 H. destruct (plan_inv l pl A2) as [_ [_ P]].
  destruct P as [[keep [rg [sg [mf [mo [F1 [F2 F3]]]]]]]|[keep [od [mo [mp [d [F1 [F2 [F4 [F5 F3]]]]]]]]]]; rewrite F3 in H; apply rbind_ok in H as [x [_ H]]; injection H as <-; rewrite F1; exact I.
Qed.

Lemma class_axes s s' ax ax' : bclass_eqb (class_of s) (class_of s') = true -> space_axis s = ax -> space_axis s' = ax' ->
  (forall g a g' a', s = SpFlipRot g a -> s' = SpFlipRot g' a' -> a = a') -> axes_for (flips_class (class_of s)) ax ax'.
Proof.
  intros C <- <- H. destruct s as [|? ?|[]|[] ?], s' as [|? ?|[]|[] ?]; cbn in *; try discriminate; auto; try (f_equal; eapply H; reflexivity). exists axis, axis0. auto.
Qed.

Lemma match_block o l (pl : plan (G:=G)) i r b o' l' (pl' : plan (G:=G)) i' r' b' :
  asked o l pl i r -> asked o' l' pl' i' r' -> pl_build pl i r = Ok b -> pl_build pl' i' r' = Ok b' ->
  fkey_match (MkFK (id_of o pl i r) (sp_obj (layer_space l)) b (mask_of b (pl_filter pl)) (grid_coords (pl_k pl) (pl_dil pl)))
             (MkFK (id_of o' pl' i' r') (sp_obj (layer_space l')) b' (mask_of b' (pl_filter pl')) (grid_coords (pl_k pl') (pl_dil pl'))) = true ->
  make_block (pl_k pl) (pl_dil pl) b (pl_filter pl) = make_block (pl_k pl') (pl_dil pl') b' (pl_filter pl').
Proof.
  intros A B Hb Hb' H. pose proof A as [A1 A2 A3 A4]. pose proof B as [B1 B2 B3 B4]. unfold fkey_match in H. cbn [fk_id fk_space fk_basis fk_mask fk_points] in H.
  apply andb_true_iff in H as [H Hg]. apply andb_true_iff in H as [H Hm]. apply (list_eqb_eq _ Rpair_eq) in Hg. apply list_eqb_eq in Hm; [|intros x y Q; apply eqb_prop; exact Q].
  pose proof (built_kind l pl i r b A2 Hb) as K. pose proof (built_kind l' pl' i' r' b' B2 Hb') as K'.
  assert (E : mbnorm b = mbnorm b' ).
  2:{ rewrite <- (block_norm _ _ b), <- (block_norm _ _ b'), E. rewrite <- (mask_norm b), <- (mask_norm b'), E in Hm. apply block_mask; auto.
      - rewrite <- E. destruct b, (pl_filter pl); exact K.
      - destruct b', (pl_filter pl'); exact K'. }
  apply orb_true_iff in H as [H|H].
  - apply ident_eq in H. rewrite (same_ident _ _ _ _ _ _ _ _ _ _ A B H), Hb' in Hb. injection Hb as ->. reflexivity.
  - unfold mb_match in H. apply andb_true_iff in H as [H Hk]. apply andb_true_iff in H as [Hgrp Hc]. apply group_same_one in Hgrp.
    destruct (un_space prog un o l A1) as [isr P]. destruct (un_space prog un o' l' B1) as [isr' P'].
    assert (Ax : axes_for (flips_class (class_of (sp_obj (layer_space l)))) (space_axis (sp_obj (layer_space l))) (space_axis (sp_obj (layer_space l')))).
    { apply (class_axes (sp_obj (layer_space l)) (sp_obj (layer_space l'))); auto. intros g a g' a' E1 E2. apply (un_axis prog un o l o' l' g g' a a' A1 B1 E1 E2).
      rewrite E1, E2 in Hgrp. exact Hgrp. }
    assert (Names : forall x y, In x (layer_reps l) -> In y (layer_reps l') -> rep_eqb x y = true -> x = y).
    { intros x y Ix Iy Hr. apply (un_names prog un o l o' l' x y A1 B1 Hgrp Ix Iy). unfold rep_eqb in Hr. do 3 (apply andb_true_iff in Hr as [Hr _]). apply String.eqb_eq. exact Hr. }
    destruct (plan_inv l pl A2) as [_ [_ Q]]. destruct (plan_inv l' pl' B2) as [_ [_ Q']].
    destruct Q as [[keep [rg [sg [mf [mo [F1 [F2 F3]]]]]]]|[keep [od [mo [mp [d [F1 [F2 [F4 [F5 F3]]]]]]]]]];
    destruct Q' as [[keep' [rg' [sg' [mf' [mo' [F1' [F2' F3']]]]]]]|[keep' [od' [mo' [mp' [d' [F1' [F2' [F4' [F5' F3']]]]]]]]]];
    rewrite F3 in Hb; rewrite F3' in Hb'; apply rbind_ok in Hb as [x [Hx Hb]]; apply rbind_ok in Hb' as [y [Hy Hb']]; injection Hb as <-; injection Hb' as <-; try discriminate.
    + apply andb_true_iff in Hk as [Hr Hs]. apply (list_eqb_eq _ Rpair_eq) in Hr.
      destruct (build_made _ _ _ P _ _ _ _ _ _ _ Hx) as [M [I1 I2]]. destruct (build_made _ _ _ P' _ _ _ _ _ _ _ Hy) as [M' [I1' I2']].
      cbn [mbnorm]. unfold r2norm. rewrite Hr. do 2 f_equal.
      assert (Hs2 := Hs). unfold sk_match in Hs2. apply andb_true_iff in Hs2 as [Hs2 _]. apply andb_true_iff in Hs2 as [Hs2 Ho]. apply andb_true_iff in Hs2 as [_ Hi].
      eapply match_norm; [|exact M|exact M'| | |exact Hs].
      * apply kb_cmp. exact Ax.
      * rewrite I1, I1' in *. apply Names; auto.
      * rewrite I2, I2' in *. apply Names; auto.
    + apply andb_true_iff in Hk as [Hr Hs]. apply Nat.eqb_eq in Hr.
      destruct (dbuild_made _ _ _ P _ _ _ _ _ _ Hx) as [M [I1 I2]]. destruct (dbuild_made _ _ _ P' _ _ _ _ _ _ Hy) as [M' [I1' I2']].
      cbn [mbnorm]. unfold tbnorm. rewrite Hr, (un_disc prog un o l o' l' d d' A1 B1 F4 F4'). do 2 f_equal.
      assert (Hs2 := Hs). unfold sk_match in Hs2. apply andb_true_iff in Hs2 as [Hs2 _]. apply andb_true_iff in Hs2 as [Hs2 Ho]. apply andb_true_iff in Hs2 as [_ Hi].
      eapply match_norm; [|exact M|exact M'| | |exact Hs].
      * apply d_cmp. exact Ax.
      * rewrite I1, I1' in *. apply Names; auto.
      * rewrite I2, I2' in *. apply Names; auto.
Qed.

Record sound (p : process G) : Prop := {
  so_mem : forall id b, In (id, b) (pc_memory p) -> exists o l pl i r, asked o l pl i r /\ id = id_of o pl i r /\ pl_build pl i r = Ok b;
  so_fil : forall fk sb, In (fk, sb) (pc_filters p) -> exists o l pl i r b, asked o l pl i r /\ pl_build pl i r = Ok b /\
    fk = MkFK (id_of o pl i r) (sp_obj (layer_space l)) b (mask_of b (pl_filter pl)) (grid_coords (pl_k pl) (pl_dil pl)) /\
    make_block (pl_k pl) (pl_dil pl) b (pl_filter pl) = Ok sb }.
Lemma sound_fresh : sound fresh_process.
Proof. split; intros ? ? []. Qed.

Lemma block_step o l (pl : plan (G:=G)) i r recompute p : asked o l pl i r -> sound p ->
  sound (fst (cached_block (id_of o pl i r) (sp_obj (layer_space l)) (pl_k pl) (pl_dil pl) (pl_build pl i r) (pl_filter pl) recompute p)) /\
  snd (cached_block (id_of o pl i r) (sp_obj (layer_space l)) (pl_k pl) (pl_dil pl) (pl_build pl i r) (pl_filter pl) recompute p) = fresh_gen pl i r.
Proof.
  intros A [Sm Sf].
  assert (Hrec : exists p1, recall (id_of o pl i r) (pl_build pl i r) p = (p1, pl_build pl i r) /\ sound p1).
  { unfold recall, memo. destruct (kget ident_eqb (pc_memory p) (id_of o pl i r)) as [b|] eqn:E.
    - apply kget_in in E as [id' [I Q]]. apply ident_eq in Q. subst id'. destruct (Sm _ _ I) as [o' [l' [pl' [i' [r' [A' [Ei Hb]]]]]]].
      rewrite (same_ident _ _ _ _ _ _ _ _ _ _ A A' Ei), Hb. eexists. split; [reflexivity|]. split; cbn; auto.
    - destruct (pl_build pl i r) as [b|x] eqn:Eb; (eexists; split; [reflexivity|]); split; cbn; auto.
      intros id b' I. apply in_app_or in I as [I|[I|[]]]; auto. injection I as <- <-. exists o, l, pl, i, r. auto. }
  destruct Hrec as [p1 [Hr [Sm1 Sf1]]]. unfold cached_block. rewrite Hr. unfold fresh_gen. destruct (pl_build pl i r) as [b|x] eqn:Eb; cbn [rbind]; [|split; [split|]; auto].
  unfold block_basisexpansion. destruct recompute; [split; [split|]; auto|].
  unfold memo. destruct (kget fkey_match (pc_filters p1) _) as [sb|] eqn:E.
  - cbn. split; [split; auto|]. apply kget_in in E as [fk [I Q]]. destruct (Sf1 _ _ I) as [o' [l' [pl' [i' [r' [b' [A' [Hb' [Efk Hsb]]]]]]]]]. subst fk.
    rewrite <- Hsb. eapply match_block; eauto.
  - destruct (make_block (pl_k pl) (pl_dil pl) b (pl_filter pl)) as [sb|x] eqn:Em; cbn; (split; [split; auto|auto]). cbn.
    intros fk sb' I. apply in_app_or in I as [I|[I|[]]]; auto. injection I as <- <-. exists o, l, pl, i, r, b. auto.
Qed.

Definition step_s (gen : process G -> rep G -> rep G -> process G * result (sblock kattr)) (acc : process G * result (list (key * sblock kattr))) (q : rep G * rep G) :=
  match acc with
  | (p, Ok d) =>
    match gen p (fst q) (snd q) with
    | (p', Ok sb) => (p', Ok (kset key_eqb d (rp_name (fst q), rp_name (snd q)) sb))
    | (p', Err x) => (p', if String.eqb x "EmptyBasisException" then Ok d else Err x)
    end
  | (p, Err x) => (p, Err x)
  end.
Definition step_f (gen : rep G -> rep G -> result (sblock kattr)) (acc : result (list (key * sblock kattr))) (q : rep G * rep G) :=
  rbind acc (fun d => match gen (fst q) (snd q) with
      | Ok sb => Ok (kset key_eqb d (rp_name (fst q), rp_name (snd q)) sb)
      | Err x => if String.eqb x "EmptyBasisException" then Ok d else Err x
      end).
Lemma fold_steps gs gf (I : rep G * rep G -> Prop) : (forall p q, I q -> sound p -> sound (fst (gs p (fst q) (snd q))) /\ snd (gs p (fst q) (snd q)) = gf (fst q) (snd q)) ->
  forall qs p d, (forall q, In q qs -> I q) -> sound p ->
  sound (fst (fold_left (step_s gs) qs (p, d))) /\ snd (fold_left (step_s gs) qs (p, d)) = fold_left (step_f gf) qs d.
Proof.
  intros Hg. induction qs as [|q qs IH]; intros p d HI S; cbn [fold_left]; [auto|].
  assert (E : exists p', step_s gs (p, d) q = (p', step_f gf d q) /\ sound p').
  { unfold step_s, step_f. destruct d as [d|x]; [|cbn; eauto]. cbn [rbind]. destruct (Hg p q (HI q (or_introl eq_refl)) S) as [S' E'].
    destruct (gs p (fst q) (snd q)) as [p' r]. cbn in S', E'. rewrite <- E'. exists p'. destruct r; auto. }
  destruct E as [p' [-> S']]. apply IH; auto. intros q' I'. apply HI. right. exact I'.
Qed.
Lemma construct_step o l p : In (o, l) prog -> sound p -> sound (fst (construct o l p)) /\ snd (construct o l p) = fresh l.
Proof.
  intros A1 S. destruct (un_space prog un o l A1) as [isr P]. rewrite (fresh_plan l isr P). unfold construct. destruct (layer_plan l) as [pl|x] eqn:A2; [|auto].
  cbn [rbind]. destruct (plan_inv l pl A2) as [Ii [Io _]].
  set (gs := fun p rin rout => cached_block (o, pl_key pl, (rp_name rin, rp_name rout)) (sp_obj (ft_gs (layer_in l))) (pl_k pl) (pl_dil pl) (pl_build pl rin rout) (pl_filter pl) (layer_recompute l) p).
  destruct (fold_steps gs (fresh_gen pl) (fun q => In (fst q) (layer_reps l) /\ In (snd q) (layer_reps l))
    (fun p q Iq Sp => block_step o l pl (fst q) (snd q) (layer_recompute l) p (Build_asked o l pl _ _ A1 A2 (proj1 Iq) (proj2 Iq)) Sp)
    (list_prod (set_of rep_eqb (pl_ins pl)) (set_of rep_eqb (pl_outs pl))) p (Ok [])) as [S' E'].
  - intros [i r] Iq. apply in_prod_iff in Iq as [I1 I2]. cbn. split; [apply Ii|apply Io]; eapply set_of_in; eauto.
  - exact S.
  - unfold build_blocks_s. fold (step_s gs). change (fold_left (step_f (fresh_gen pl)) (list_prod (set_of rep_eqb (pl_ins pl)) (set_of rep_eqb (pl_outs pl))) (Ok []))
      with (build_blocks rp_name rep_eqb (fresh_gen pl) (pl_ins pl) (pl_outs pl)) in E'.
    rewrite <- E'. unfold step_s in S' |- *. cbn beta in S' |- *. destruct (fold_left _ _ _) as [p' r]. cbn in S' |- *. auto.
Qed.
Lemma construct_sound : forall reqs p, incl reqs prog -> sound p -> sound (fst (construct_all reqs p)) /\ snd (construct_all reqs p) = map (fun q => fresh (snd q)) reqs.
Proof.
  induction reqs as [|[o l] reqs IH]; intros p Hi S; [auto|]. cbn [construct_all map snd]. destruct (construct_step o l p) as [S1 E1]; auto. { apply Hi. left. reflexivity. }
  destruct (construct o l p) as [p1 r]. cbn in S1, E1. destruct (IH p1) as [S2 E2]; auto. { intros x Hx. apply Hi. right. exact Hx. }
  destruct (construct_all reqs p1) as [p2 rs]. cbn in *. split; [exact S2|]. rewrite E1, E2. reflexivity.
Qed.
End History.
