(** C52 and C33 for NormMaxPool. *)
From Coq Require Import Reals ZArith String List Bool Lia Lra.
From Verif Require Import Base LinAlg Spec Model_Groups Model_Rep Proofs_Rep Model_FieldType Proofs_FieldType Model_GSpace Spec_GSpace Proofs_GSpace Model_Conv Spec_Conv Proofs_Conv
  Proofs_Conv2 Proofs_Conv3 Proofs_Conv4 Proofs_Conv5 Proofs_Conv6 Model_Fieldwise Spec_Fieldwise Spec_Fieldwise2 Model_Regular Proofs_Restrict Proofs_Regular2 Prop_Fieldwise3 Model_Pool Spec_Pool
  Proofs_Pool Proofs_Pool2 Prop_Pool Prop_Pool2 Prop_Upsample Model_NormMax Spec_NormMax Proofs_NormMax Proofs_NormMax2.
Import ListNotations.
Open Scope R_scope.

(** what the module computes: every field of the output is the field of the input at a pixel of the window where its norm is largest *)
Theorem C52_norm_max_value : forall GS G (gs_eqb : GS -> GS -> bool) (rp_eqb : rep G -> rep G -> bool) (t : ftype GS (rep G)) k1 k2 s1 s2 p1 p2 d1 d2 ceil m B argmax junk (x y : arr (B -> vec)) t',
  argmax_ok argmax -> ft_reps t <> [] -> size_pos t ->
  nmaxpool_make t (IPair k1 k2) (Some (IPair s1 s2)) (IPair p1 p2) (IPair d1 d2) ceil = Ok m ->
  nmaxpool_forward gs_eqb rp_eqb argmax junk m t x = Ok (y, t') ->
  t' = t /\ norm_pooled (ft_reps t) (k1, k2) (s1, s2) (p1, p2) (d1, d2) x y.
Proof.
  intros GS G gs_eqb rp_eqb t k1 k2 s1 s2 p1 p2 d1 d2 ceil m B argmax junk x y t' AM Hne SP M F.
  destruct (forward_inv gs_eqb rp_eqb argmax t _ _ _ _ _ m junk x y t' M Hne F) as (TE & -> & S & N1 & N2 & H1 & H2 & L). split; [reflexivity|].
  destruct (forward_ok gs_eqb rp_eqb argmax AM t _ _ _ _ _ m junk x (a_h y) (a_w y) M SP TE S H1 H2 L) as (y' & F' & _ & _ & P & _). rewrite F in F'. injection F' as <-.
  unfold nmaxpool_make in M. apply rbind_ok in M as (idx & _ & M). injection M as <-. exact P.
Qed.
Print Assumptions C52_norm_max_value.

(** equivariance, for orthogonal matrices, if no window holds two different fields with the same largest norm *)
Theorem C52_norm_max_partial : forall G (sp : space G) isrep (t : ctype G) k1 k2 s1 s2 p1 p2 d1 d2 ceil m (interp : forall A : Type, R -> R -> arr A -> arr A) B argmax junk
    (e : gelt) g (x y : arr (B -> vec)) t',
  planar_space G sp isrep -> ft_gs t = sp -> ft_reps t <> [] -> size_pos t -> argmax_ok argmax ->
  nmaxpool_make t (IPair k1 k2) (Some (IPair s1 s2)) (IPair p1 p2) (IPair d1 d2) ceil = Ok m ->
  fg_is_element (sp_group (sp_obj sp)) e = true -> sp_prj sp e = Some g -> grid_exact (sp_obj sp) e ->
  (forall r, In r (ft_reps t) -> orthogonal (rp_size r) (rp_mat r g)) ->
  (k1 = k2 /\ s1 = s2 /\ p1 = p2 /\ d1 = d2) \/ keeps_axes (sp_obj sp) e ->
  tiled p1 k1 d1 s1 (a_h x) -> tiled p2 k2 d2 s2 (a_w x) ->
  nmaxpool_forward space_eqb rep_eqb argmax junk m t x = Ok (y, t') ->
  single_winner (ft_reps t) (k1, k2) (s1, s2) (p1, p2) (d1, d2) x (a_h y) (a_w y) ->
  exists x' y' y'', field_transform interp t x e = Ok x' /\ nmaxpool_forward space_eqb rep_eqb argmax junk m t x' = Ok (y', t') /\ field_transform interp t' y e = Ok y'' /\
    same_field (ct_size t) y' y''.
Proof.
  intros G sp isrep t k1 k2 s1 s2 p1 p2 d1 d2 ceil m interp B argmax junk e g x y t' PS Ht Hne SP AM M He Hg Hx HO Q T1 T2 F SW.
  destruct (forward_inv space_eqb rep_eqb argmax t _ _ _ _ _ m junk x y t' M Hne F) as (TE & -> & S & N1 & N2 & H1 & H2 & L).
  destruct (C52_norm_max_value _ _ _ _ _ _ _ _ _ _ _ _ _ _ _ _ _ _ _ _ _ AM Hne SP M F) as [_ P].
  assert (EM : np_k m = (k1, k2) /\ np_s m = (s1, s2) /\ np_p m = (p1, p2) /\ np_d m = (d1, d2)).
  { unfold nmaxpool_make in M. apply rbind_ok in M as (idx & _ & M). injection M as <-. auto. }
  destruct EM as (EK & ES & EP & ED). rewrite EK, ES, EP, ED in *. cbn [fst snd] in *.
  set (reps := ft_reps t) in *. set (k := (k1, k2)) in *. set (s := (s1, s2)) in *. set (p := (p1, p2)) in *. set (d := (d1, d2)) in *.
  assert (LL := L). unfold nm_legal in LL. rewrite !andb_true_iff, !Nat.eqb_eq in LL. destruct LL as [[[[[L1 L2] _] _] L5] L6].
  destruct T1 as [q1 T1]. destruct T2 as [q2 T2].
  assert (TI : tiles k s p d x y).
  { exists q1, q2. cbn [fst snd k s p d]. split; [exact T1|]. split; [exact T2|]. unfold k, s, p, d in L1, L2, L5, L6. cbn [fst snd] in L1, L2, L5, L6.
    rewrite (pool_out_tiled _ _ _ _ _ _ L1 q1 T1), Nat2Z.id in L5. rewrite (pool_out_tiled _ _ _ _ _ _ L2 q2 T2), Nat2Z.id in L6. auto. }
  assert (U : unique reps k s p d x y).
  { intros i j b f r u v Hi Hj Hr W a Ha. destruct (P i j b f r Hi Hj Hr) as (u' & v' & W' & V'). rewrite V' by auto. apply (SW i j b f r u' v' u v); auto. }
  destruct (space_ok _ _ _ PS) as [code [el [inv SF]]]. destruct (exact_angle _ _ (sf_constructed _ _ _ _ _ SF) He Hx) as (kk & Hk & Ek).
  assert (Q' : square p k d s \/ Z.even kk = true).
  { destruct Q as [(-> & -> & -> & ->)|Q]; [left; repeat split; reflexivity|right; auto]. }
  destruct (transform_exact sp isrep code el inv SF interp t e g kk x Ht Hne He Hg Hk) as (x' & X1 & X2).
  destruct (transform_exact sp isrep code el inv SF interp t e g kk y Ht Hne He Hg Hk) as (y'' & Y1 & Y2).
  assert (U' : unique reps k s p d x' y'').
  { eapply unique_same; [apply same_field_sym; exact X2|apply same_field_sym; exact Y2|]. apply unique_lin; [exact HO|]. apply unique_turn; auto. }
  (* the size of the transformed image *)
  assert (DX : a_h x' = a_h (turn (gflip (sp_obj sp) e) kk x) /\ a_w x' = a_w (turn (gflip (sp_obj sp) e) kk x)) by (destruct X2 as (A & A' & _); auto).
  assert (DY : a_h y'' = a_h (turn (gflip (sp_obj sp) e) kk y) /\ a_w y'' = a_w (turn (gflip (sp_obj sp) e) kk y)) by (destruct Y2 as (A & A' & _); auto).
  assert (DD : (a_h x' = a_h x /\ a_w x' = a_w x /\ a_h y'' = a_h y /\ a_w y'' = a_w y) \/
               (square p k d s /\ a_h x' = a_w x /\ a_w x' = a_h x /\ a_h y'' = a_w y /\ a_w y'' = a_h y)).
  { destruct DX as [-> ->]. destruct DY as [-> ->]. unfold turn. rewrite !rot90_red.
    assert (E : forall j, (kk mod 4 = j -> Z.even kk = Z.even j)%Z).
    { intros j <-. rewrite (Z.div_mod kk 4) at 1 by lia. rewrite Z.even_add, Z.even_mul. cbn [Z.even orb]. destruct (Z.even (kk mod 4)); reflexivity. }
    destruct (mod4 kk) as [W|[W|[W|W]]]; rewrite W; [left|right|left|right]; try (destruct (gflip (sp_obj sp) e); cbn; auto; fail);
      (split; [destruct Q' as [Q'|Q']; [exact Q'|rewrite (E _ W) in Q'; discriminate]|destruct (gflip (sp_obj sp) e); cbn; auto]). }
  destruct (forward_ok space_eqb rep_eqb argmax AM t _ _ _ _ _ m junk x' (a_h y'') (a_w y'') M SP TE) as (y' & F' & D1 & D2 & P' & _); rewrite ?EK, ?ES, ?EP, ?ED; fold k s p d.
  - exact S.
  - destruct DD as [(-> & _ & -> & _)|((E1 & E2 & E3 & E4) & -> & _ & -> & _)]; [exact H1|]. rewrite E1, E2, E3, E4. exact H2.
  - destruct DD as [(_ & -> & _ & ->)|((E1 & E2 & E3 & E4) & _ & -> & _ & ->)]; [exact H2|]. rewrite <- E1, <- E2, <- E3, <- E4. exact H1.
  - destruct DD as [(-> & -> & -> & ->)|((E1 & E2 & E3 & E4) & -> & -> & -> & ->)]; [exact L|].
    unfold nm_legal in L |- *. rewrite E1, E2, E3, E4 in *. rewrite !andb_true_iff in *. tauto.
  - exists x', y', y''. split; [exact X1|]. split; [exact F'|]. split; [exact Y1|]. rewrite EK, ES, EP, ED in P'. fold k s p d in P'.
    apply (unique_pooled reps k s p d x'); auto.
Qed.
Print Assumptions C52_norm_max_partial.

(** a quarter turn of a 2 x 2 image with four different norms, one window, three fields *)
Definition ramp (i j : nat) (_ : unit) (c : nat) : R := INR (2 * i + j + 1).
Lemma ramp_norm n o i j b : norm2 n o (ramp i j b) = INR n * (INR (2 * i + j + 1) * INR (2 * i + j + 1)).
Proof. unfold norm2, ramp. induction n as [|n IH]; [cbn; ring|]. cbn [rsum]. rewrite IH, (S_INR n). ring. Qed.
Example C52_norm_max_ex : forall argmax junk, argmax_ok argmax -> exists m y (t := MkFT (space_CN 4) [c4 0; c4 1; c4 0]) (x := MkArr 2 2 ramp),
  planar_space Z (space_CN 4) (cyc_rep 4) /\ ft_reps t <> [] /\ size_pos t /\ fg_is_element (GC 4) (EI 1) = true /\ grid_exact (SpRot (GC 4)) (EI 1) /\
  nmaxpool_make t (IPair 2 2) (Some (IPair 2 2)) (IPair 0 0) (IPair 1 1) false = Ok m /\ (forall r, In r (ft_reps t) -> orthogonal (rp_size r) (rp_mat r 1%Z)) /\
  tiled 0 2 1 2 2 /\ nmaxpool_forward space_eqb rep_eqb argmax junk m t x = Ok (y, t) /\ single_winner (ft_reps t) (2, 2)%nat (2, 2)%nat (0, 0)%nat (1, 1)%nat x (a_h y) (a_w y) /\
  a_h y = 1%nat /\ forall c, (c < 4)%nat -> a_px y 0 0 tt c = 4.
Proof.
  intros argmax junk AM. set (t := MkFT (space_CN 4) [c4 0; c4 1; c4 0]). set (x := MkArr 2 2 ramp).
  assert (SP : size_pos t) by (intros r [<-|[<-|[<-|[]]]]; cbn; lia).
  assert (M : exists m, nmaxpool_make t (IPair 2 2) (Some (IPair 2 2)) (IPair 0 0) (IPair 1 1) false = Ok m) by (eexists; reflexivity). destruct M as [m M].
  assert (EM : np_k m = (2, 2)%nat /\ np_s m = (2, 2)%nat /\ np_p m = (0, 0)%nat /\ np_d m = (1, 1)%nat /\ np_ceil m = false).
  { unfold nmaxpool_make in M. apply rbind_ok in M as (idx & _ & M). injection M as <-. repeat split. }
  destruct EM as (EK & ES & EP & ED & EC).
  destruct (forward_ok space_eqb rep_eqb argmax AM t _ _ _ _ _ m junk x 1 1 M SP (type_refl_CN _ _)) as (y & F & D1 & D2 & P & _); rewrite ?EK, ?ES, ?EP, ?ED, ?EC; [cbn; lia|reflexivity|reflexivity|reflexivity|].
  rewrite EK, ES, EP, ED in P. exists m, y. cbv zeta. fold t x. split; [apply PS_CN; lia|]. split; [discriminate|]. split; [exact SP|]. split; [reflexivity|]. split; [apply exact_c4|]. split; [exact M|].
  split; [intros r [<-|[<-|[<-|[]]]]; (apply c4_orth; [lia|split; lia])|]. split; [exists 0%nat; reflexivity|]. split; [exact F|].
  assert (W : forall i j b f r u v, (i < 1)%nat -> (j < 1)%nat -> nth_error (ft_reps t) f = Some r -> wins (2, 2)%nat (2, 2)%nat (0, 0)%nat (1, 1)%nat x i j b (rp_size r) (start (ft_reps t) f) u v -> u = 1%nat /\ v = 1%nat).
  { intros i j b f r u v Hi Hj Hr [[[U1 _] [V1 _]] W]. cbn [x a_h a_w] in U1, V1. specialize (W 1%nat 1%nat). assert (I : in_win (2, 2)%nat (2, 2)%nat (0, 0)%nat (1, 1)%nat x i j 1 1).
    { split; (split; [cbn; lia|]); exists 1%nat; cbn; lia. } specialize (W I). cbn [x a_px] in W. rewrite !ramp_norm in W.
    assert (R : 1 <= INR (rp_size r)) by (apply (le_INR 1), SP; eapply nth_error_In; eauto).
    assert (B1 : INR (2 * u + v + 1) <= 4 /\ 0 <= INR (2 * u + v + 1)).
    { split; [replace 4 with (INR 4) by (cbn; ring); apply le_INR; lia|apply pos_INR]. }
    apply Rmult_le_reg_l in W; [|lra]. assert (4 <= INR (2 * u + v + 1)). { replace (INR (2 * 1 + 1 + 1)) with 4 in W by (cbn; ring). nra. }
    replace 4 with (INR 4) in H by (cbn; ring). apply INR_le in H. lia. }
  split; [|split; [exact D1|]].
  - rewrite D1, D2. intros i j b f r u v u' v' Hi Hj Hr W1 W2 a Ha. destruct (W i j b f r u v Hi Hj Hr W1) as [-> ->]. destruct (W i j b f r u' v' Hi Hj Hr W2) as [-> ->]. reflexivity.
  - intros c Hc. destruct (Proofs_Tensor.channel_in_field (ft_reps t) c Hc) as (f & r & a & Hr & Ha & ->).
    destruct (P 0%nat 0%nat tt f r ltac:(lia) ltac:(lia) Hr) as (u & v & W1 & V). destruct (W 0%nat 0%nat tt f r u v ltac:(lia) ltac:(lia) Hr W1) as [-> ->].
    change (Proofs_Tensor.field_offset (ft_reps t) f) with (start (ft_reps t) f). rewrite V by auto. cbn. ring.
Qed.

(** With ties the claim is false, whatever rule max_pool2d uses to choose among equal values: a 2 x 2 image with the values 1, -1, -1, 1
    and one window.  The quarter turn of the image is its negative, all norms stay 1. *)
Definition chess (i j : nat) (_ : unit) (c : nat) : R := if Nat.even (i + j) then 1 else -1.
Theorem C52_norm_max_ties_refuted : forall argmax junk, argmax_ok argmax -> exists (t : ctype Z) m x y,
  planar_space Z (ft_gs t) (cyc_rep 4) /\ ft_gs t = space_CN 4 /\ ft_reps t <> [] /\
  nmaxpool_make t (IPair 2 2) (Some (IPair 2 2)) (IPair 0 0) (IPair 1 1) false = Ok m /\ (forall r, In r (ft_reps t) -> orthogonal (rp_size r) (rp_mat r 1%Z)) /\
  tiled 0 2 1 2 (a_h x) /\ tiled 0 2 1 2 (a_w x) /\ nmaxpool_forward (B := unit) space_eqb rep_eqb argmax junk m t x = Ok (y, t) /\
  forall interp, exists x' y' y'', field_transform interp t x (EI 1) = Ok x' /\ nmaxpool_forward space_eqb rep_eqb argmax junk m t x' = Ok (y', t) /\ field_transform interp t y (EI 1) = Ok y'' /\
    ~ same_field (ct_size t) y' y''.
Proof.
  intros argmax junk AM. set (t := MkFT (space_CN 4) [c4 0]). set (x := MkArr 2 2 chess).
  assert (SP : size_pos t) by (intros r [<-|[]]; cbn; lia).
  assert (M : exists m, nmaxpool_make t (IPair 2 2) (Some (IPair 2 2)) (IPair 0 0) (IPair 1 1) false = Ok m) by (eexists; reflexivity). destruct M as [m M].
  assert (EM : np_k m = (2, 2)%nat /\ np_s m = (2, 2)%nat /\ np_p m = (0, 0)%nat /\ np_d m = (1, 1)%nat /\ np_ceil m = false).
  { unfold nmaxpool_make in M. apply rbind_ok in M as (idx & _ & M). injection M as <-. repeat split. }
  destruct EM as (EK & ES & EP & ED & EC).
  set (Q := [(0, 0); (0, 1); (1, 0); (1, 1)]%nat).
  (* any 2 x 2 image of values 1 and -1 *)
  assert (A : forall z : arr (unit -> vec), a_h z = 2%nat -> a_w z = 2%nat -> (forall u v, (u < 2)%nat -> (v < 2)%nat -> a_px z u v tt 0%nat * a_px z u v tt 0%nat = 1) ->
    exists y, nmaxpool_forward space_eqb rep_eqb argmax junk m t z = Ok (y, t) /\ a_h y = 1%nat /\ a_w y = 1%nat /\
      let w := nth (argmax [1; 1; 1; 1]) Q (0, 0)%nat in a_px y 0 0 tt 0%nat = a_px z (fst w) (snd w) tt 0%nat).
  { intros z Z1 Z2 ZV.
    destruct (forward_ok space_eqb rep_eqb argmax AM t _ _ _ _ _ m junk z 1 1 M SP (type_refl_CN _ _)) as (y & F & D1 & D2 & _ & P); rewrite ?EK, ?ES, ?EP, ?ED, ?EC, ?Z1, ?Z2; [cbn; lia|reflexivity|reflexivity|reflexivity|].
    exists y. split; [exact F|]. split; [exact D1|]. split; [exact D2|]. specialize (P 0%nat 0%nat tt 0%nat (c4 0) _ ltac:(lia) ltac:(lia) eq_refl eq_refl 0%nat ltac:(cbn; lia)). cbv zeta in P |- *.
    change (start (ft_reps t) 0 + 0)%nat with 0%nat in P. rewrite P. unfold winner. rewrite EK, ES, EP, ED, Z1, Z2. cbn [fst snd].
    change (list_prod (window 2 2 0 1 2 0) (window 2 2 0 1 2 0)) with Q. 
    assert (V : forall u v, (u < 2)%nat -> (v < 2)%nat -> vnorm (firstn (rp_size (c4 0)) (chans (ft_chans t) z)) (tt, (u, v)) = 1).
    { intros u v Hu Hv. change (firstn (rp_size (c4 0)) (chans (ft_chans t) z)) with [fun q : unit * (nat * nat) => a_px z (fst (snd q)) (snd (snd q)) (fst q) 0%nat].
      unfold vnorm. cbn [map fold_right fst snd]. rewrite ZV by auto. rewrite Rplus_0_r. apply sqrt_1. }
    unfold Q. cbn [map]. rewrite !V by lia. reflexivity. }
  assert (CV : forall u v, chess u v tt 0%nat * chess u v tt 0%nat = 1) by (intros u v; unfold chess; destruct (Nat.even _); ring).
  destruct (A x eq_refl eq_refl ltac:(intros; apply CV)) as (y & F & D1 & D2 & VY). exists t, m, x, y.
  split; [apply PS_CN; lia|]. split; [reflexivity|]. split; [discriminate|]. split; [exact M|]. split; [intros r [<-|[]]; (apply c4_orth; [lia|split; lia])|].
  split; [exists 0%nat; reflexivity|]. split; [exists 0%nat; reflexivity|]. split; [exact F|]. intros interp.
  destruct (turned interp x) as (x' & X1 & DX1 & DX2 & VX). fold t in X1. cbn [x a_h a_w a_px] in DX1, DX2, VX.
  destruct (turned interp y) as (y'' & Y1 & DY1 & DY2 & VY''). fold t in Y1. rewrite D1, D2 in *.
  destruct (A x' DX1 DX2) as (y' & F' & D1' & D2' & VY'). { intros u v Hu Hv. rewrite VX by auto. apply CV. }
  exists x', y', y''. split; [exact X1|]. split; [exact F'|]. split; [exact Y1|]. intros (_ & _ & E). specialize (E 0%nat 0%nat tt 0%nat ltac:(lia) ltac:(lia) ltac:(cbn; lia)).
  rewrite VY'' in E by lia. cbv zeta in VY, VY'. change (1 - 1 - 0)%nat with 0%nat in E. rewrite VY, VY' in E.
  assert (IQ : In (nth (argmax [1; 1; 1; 1]) Q (0, 0)%nat) Q).
  { apply nth_In. destruct (AM [1; 1; 1; 1]) as [B1 _]; [discriminate|]. exact B1. }
  destruct (nth (argmax [1; 1; 1; 1]) Q (0, 0)%nat) as [u v]. cbn [fst snd] in E. assert (HB : (u < 2 /\ v < 2)%nat) by (destruct IQ as [IQ|[IQ|[IQ|[IQ|[]]]]]; injection IQ as <- <-; lia).
  rewrite VX in E by lia. cbn [x a_px] in E. destruct IQ as [IQ|[IQ|[IQ|[IQ|[]]]]]; injection IQ as <- <-; unfold chess in E; cbn in E; lra.
Qed.
Print Assumptions C52_norm_max_ties_refuted.

(** ** C33: whenever forward succeeds, the announced shape is that of the result *)
Theorem C33_norm_max_shape : forall GS G (gs_eqb : GS -> GS -> bool) (rp_eqb : rep G -> rep G -> bool) (t : ftype GS (rep G)) k s p d ceil m B argmax junk (x y : arr (B -> vec)) t' batch,
  ft_reps t <> [] -> nmaxpool_make t k s p d ceil = Ok m -> nmaxpool_forward gs_eqb rp_eqb argmax junk m t x = Ok (y, t') ->
  nmaxpool_shape m (batch, Z.of_nat (ft_chans t), Z.of_nat (a_h x), Z.of_nat (a_w x)) = Ok (batch, Z.of_nat (ft_chans t'), Z.of_nat (a_h y), Z.of_nat (a_w y)).
Proof.
  intros GS G gs_eqb rp_eqb t k s p d ceil m B argmax junk x y t' batch Hne M F.
  destruct (forward_inv gs_eqb rp_eqb argmax t _ _ _ _ _ m junk x y t' M Hne F) as (TE & -> & [S1 S2] & N1 & N2 & H1 & H2 & L).
  assert (E : np_in m = t) by (unfold nmaxpool_make in M; apply rbind_ok in M as (idx & _ & M); injection M as <-; reflexivity).
  unfold nmaxpool_shape, pool_shape. rewrite E, Z.eqb_refl. cbn [assert_]. destruct (Nat.eqb_spec (fst (np_s m)) 0); [contradiction|]. destruct (Nat.eqb_spec (snd (np_s m)) 0); [contradiction|].
  cbn [orb]. rewrite H1, H2. reflexivity.
Qed.
Print Assumptions C33_norm_max_shape.

(** With ceil_mode the announced shape ignores the last, incomplete window, and forward raises: 2 x 2 windows on a 3 x 3 image, where
    max_pool2d with the same arguments succeeds. *)
Theorem C33_norm_max_ceil_refuted : exists (t : ctype Z) m, ft_reps t <> [] /\ nmaxpool_make t (IInt 2) None (IInt 0) (IInt 1) true = Ok m /\
  forall argmax junk (x : arr (unit -> vec)), a_h x = 3%nat -> a_w x = 3%nat ->
    nmaxpool_shape m (1, Z.of_nat (ft_chans t), 3, 3)%Z = Ok (1, Z.of_nat (ft_chans t), 1, 1)%Z /\
    (exists z, max_pool2d (2, 2)%nat (2, 2)%nat (0, 0)%nat (1, 1)%nat true x = Ok z /\ a_h z = 2%nat /\ a_w z = 2%nat) /\
    nmaxpool_forward space_eqb rep_eqb argmax junk m t x = Err "RuntimeError".
Proof.
  set (t := MkFT (space_CN 4) [c4 0]). exists t. eexists. split; [discriminate|]. split; [reflexivity|]. intros argmax junk x H1 H2. split; [reflexivity|]. split.
  - unfold max_pool2d. rewrite H1, H2. eexists. split; [reflexivity|]. split; reflexivity.
  - unfold nmaxpool_forward. cbn [np_in]. assert (TE : ft_eqb space_eqb rep_eqb t t = true) by apply type_refl_CN. rewrite TE. cbn [assert_]. rewrite H1, H2. reflexivity.
Qed.
Print Assumptions C33_norm_max_ceil_refuted.
