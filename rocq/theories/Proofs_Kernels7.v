(** Comparison of kernel bases (C21). *)
From Coq Require Import Reals ZArith String List Bool Lia Lra Sorted.
From Verif Require Import Base Spec Model_Groups Model_Rep Model_GSpace Spec_GSpace Model_Kernels Spec_Kernels
  Proofs_Groups Proofs_Irreps Proofs_Restrict Proofs_Kernels Proofs_Kernels2 Proofs_Kernels3 Proofs_Kernels5.
Import ListNotations.
Open Scope R_scope.

Lemma allclose_true l1 l2 : allclose_col l1 l2 = Ok true ->
  (length l1 = length l2 -> l1 = l2) /\
  (length l1 <> length l2 -> (exists x, l1 = [x] /\ Forall (eq x) l2) \/ (exists y, l2 = [y] /\ Forall (fun x => x = y) l1)).
Proof.
  unfold allclose_col. intros H. split.
  - intros E. rewrite E, Nat.eqb_refl in H. injection H as H. revert l2 E H.
    induction l1 as [|x l1 IH]; intros [|y l2] E H; try discriminate; auto. cbn in H. apply andb_true_iff in H. destruct H as [H1 H2].
    apply Z.eqb_eq in H1. f_equal; auto.
  - intros E. apply Nat.eqb_neq in E. rewrite E in H. destruct l1 as [|x [|x' l1]].
    + destruct l2 as [|y [|y' l2]]; try discriminate. right. exists y. auto.
    + left. exists x. split; auto. assert (H' : forallb (Z.eqb x) l2 = true) by (destruct l2; congruence). rewrite forallb_forall in H'. apply Forall_forall. intros y Hy. apply Z.eqb_eq. auto.
    + destruct l2 as [|y [|y' l2]]; try discriminate. right. exists y. split; auto. assert (H' : forallb (fun x => Z.eqb x y) (x :: x' :: l1) = true) by congruence. rewrite forallb_forall in H'.
      apply Forall_forall. intros z Hz. apply Z.eqb_eq. auto.
Qed.
Lemma allclose_refl l : allclose_col l l = Ok true.
Proof.
  unfold allclose_col. rewrite Nat.eqb_refl. f_equal. apply forallb_forall. intros [x y] I. cbn. apply Z.eqb_eq.
  induction l; cbn in I; [tauto|]. destruct I as [E|I]; [congruence|auto].
Qed.
Lemma and_then_true r1 r2 : and_then r1 r2 = Ok true -> r1 = Ok true /\ r2 = Ok true.
Proof. unfold and_then. destruct r1 as [[]|]; cbn [rbind]; intros; try discriminate; auto. Qed.
Lemma kb_eqb_refl c b : kb_eqb c b b = Ok true.
Proof.
  unfold kb_eqb. rewrite !allclose_refl. cbn [and_then rbind].
  destruct (kb_axis b) as [x|]; [destruct (Req_EM_T x x); [|congruence]|]; rewrite andb_false_r; reflexivity.
Qed.

Lemma map_inj3 (l1 l2 : list kel) : map ke_s l1 = map ke_s l2 -> map ke_mu l1 = map ke_mu l2 -> map ke_gq l1 = map ke_gq l2 ->
  map key l1 = map key l2.
Proof.
  revert l2. induction l1 as [|e l1 IH]; intros [|e' l2]; cbn; intros A B C; try discriminate; auto.
  injection A as A1 A2. injection B as B1 B2. injection C as C1 C2. unfold key. rewrite A1, B1, C1. f_equal. auto.
Qed.
Lemma nodup_const {A} (x : A) l : NoDup l -> Forall (eq x) l -> (length l <= 1)%nat.
Proof.
  intros H F. destruct l as [|a [|b l]]; cbn; try lia. inversion F as [|? ? E1 F1]; subst. inversion F1; subst. inversion H as [|? ? H1 _]; subst.
  exfalso. apply H1. left. auto.
Qed.
Lemma forall_map_eq {A B} (f : A -> B) x l : Forall (eq x) (map f l) -> forall e, In e l -> f e = x.
Proof. intros H e He. rewrite Forall_forall in H. symmetry. apply H. apply in_map. auto. Qed.

Lemma kb_eqb_keys c b1 b2 : NoDup (map key (kb_els b1)) -> NoDup (map key (kb_els b2)) -> kb_els b1 <> [] -> kb_els b2 <> [] ->
  kb_eqb c b1 b2 = Ok true -> map key (kb_els b1) = map key (kb_els b2).
Proof.
  intros N1 N2 P1 P2 H. unfold kb_eqb in H.
  match type of H with (if ?b then _ else _) = _ => destruct b end; [discriminate|].
  apply and_then_true in H. destruct H as [Hs H]. apply and_then_true in H. destruct H as [Hm Hg].
  apply allclose_true in Hs, Hm, Hg. rewrite !map_length in *.
  destruct (Nat.eq_dec (length (kb_els b1)) (length (kb_els b2))) as [E|E].
  - apply map_inj3; tauto.
  - exfalso. destruct Hs as [_ Hs], Hm as [_ Hm], Hg as [_ Hg]. specialize (Hs E). specialize (Hm E). specialize (Hg E).
    set (l1 := kb_els b1) in *. set (l2 := kb_els b2) in *.
    assert (L : (length l1 = 1%nat) \/ (length l2 = 1%nat)).
    { destruct Hs as [[x [Hx _]]|[x [Hx _]]]; [left|right]; apply (f_equal (@length Z)) in Hx; rewrite map_length in Hx; exact Hx. }
    assert (one : forall l l', length l = 1%nat -> l' <> [] -> length l <> length l' -> NoDup (map key l') ->
       (exists x, map ke_s l = [x] /\ Forall (eq x) (map ke_s l')) -> (exists x, map ke_mu l = [x] /\ Forall (eq x) (map ke_mu l')) ->
       (exists x, map ke_gq l = [x] /\ Forall (eq x) (map ke_gq l')) -> False).
    { clear. intros l l' L1 L' L2 ND [x [_ Fx]] [y [_ Fy]] [z [_ Fz]].
      assert (length (map (fun e : kel => key e) l') <= 1)%nat.
      { apply (nodup_const (x, y, z)); auto. apply Forall_forall. intros k I. apply in_map_iff in I. destruct I as [e [<- I]]. unfold key.
        rewrite (forall_map_eq ke_s x l' Fx e I), (forall_map_eq ke_mu y l' Fy e I), (forall_map_eq ke_gq z l' Fz e I). reflexivity. }
      rewrite map_length in H. destruct l' as [|? [|? ?]]; cbn in *; try congruence; lia. }
    assert (swap : forall (f : kel -> Z) l l', length l = 1%nat -> l' <> [] -> length l <> length l' ->
       (exists x, map f l = [x] /\ Forall (eq x) (map f l')) \/ (exists y, map f l' = [y] /\ Forall (fun x => x = y) (map f l)) ->
       exists x, map f l = [x] /\ Forall (eq x) (map f l')).
    { clear. intros f l l' L1 L' L2 [H|[y [Hy _]]]; auto. exfalso. apply (f_equal (@length Z)) in Hy. rewrite map_length in Hy. cbn in Hy. lia. }
    assert (swap' : forall (f : kel -> Z) l l', length l' = 1%nat -> l <> [] -> length l <> length l' ->
       (exists x, map f l = [x] /\ Forall (eq x) (map f l')) \/ (exists y, map f l' = [y] /\ Forall (fun x => x = y) (map f l)) ->
       exists x, map f l' = [x] /\ Forall (eq x) (map f l)).
    { clear. intros f l l' L1 L' L2 [[y [Hy _]]|[y [Hy Fy]]].
      - exfalso. apply (f_equal (@length Z)) in Hy. rewrite map_length in Hy. cbn in Hy. lia.
      - exists y. split; auto. eapply Forall_impl; [|exact Fy]. auto. }
    destruct L as [L|L].
    + apply (one l1 l2 L P2 E N2 (swap _ _ _ L P2 E Hs) (swap _ _ _ L P2 E Hm) (swap _ _ _ L P2 E Hg)).
    + apply (one l2 l1 L P1 ltac:(auto) N1 (swap' _ _ _ L P1 E Hs) (swap' _ _ _ L P1 E Hm) (swap' _ _ _ L P1 E Hg)).
Qed.

(** sampling depends on the keys, the axis and the shape only *)
Lemma sample_of_keys b1 b2 idx a : map key (kb_els b1) = map key (kb_els b2) -> kb_axis b1 = kb_axis b2 ->
  kb_rows b1 = kb_rows b2 -> kb_cols b1 = kb_cols b2 -> kb_sample b1 idx a = kb_sample b2 idx a.
Proof.
  intros K A R C. unfold kb_sample.
  assert (E : key (nth idx (kb_els b1) kel0) = key (nth idx (kb_els b2) kel0)).
  { rewrite <- !(map_nth key). rewrite K. reflexivity. }
  unfold kb_sample_el. rewrite A, R, C. destruct (nth idx (kb_els b1) kel0) as [g1 m1 s1 t1], (nth idx (kb_els b2) kel0) as [g2 m2 s2 t2].
  unfold key in E. cbn in E. injection E as -> -> ->. reflexivity.
Qed.

(** ** the generated bases have pairwise different keys *)
Definition kb_fine (ax : option R) (rows cols : nat) (b : kbasis) : Prop :=
  kb_axis b = ax /\ kb_rows b = rows /\ kb_cols b = cols /\ kb_els b <> [] /\ NoDup (map key (kb_els b)).
Lemma make_fine ax r c els : NoDup (map key els) -> empty_or (kb_make ax r c els) (kb_fine ax r c).
Proof. intros H. apply kb_make_spec. intros E. split; [reflexivity|]. split; [reflexivity|]. split; [reflexivity|]. split; auto. Qed.

Lemma flips_fine axis F T n m iin iout : cyc_irrep 2 n = Ok iin -> cyc_irrep 2 m = Ok iout -> bounds_ok F T = true ->
  empty_or (flips_basis axis F T iin iout) (kb_fine (Some axis) (ir_size iout) (ir_size iin)).
Proof.
  intros Hi Ho HB. destruct (flips_inv axis _ T n m iin iout Hi Ho HB) as [ts [I [S ->]]].
  destruct (cyc_irrep2 _ _ Hi) as [_ [_ Si]]. destruct (cyc_irrep2 _ _ Ho) as [_ [_ So]]. rewrite Si, So.
  apply make_fine. apply (nodup_els_keep _ 0 1 ts); auto; lia.
Qed.
Lemma rotN_fine N F T n m iin iout : (0 < N)%Z -> cyc_irrep N n = Ok iin -> cyc_irrep N m = Ok iout -> bounds_ok F T = true ->
  empty_or (rotN_basis N F T iin iout) (kb_fine None (ir_size iout) (ir_size iin)).
Proof.
  intros HN Hi Ho HB. destruct (rotN_inv N F T n m iin iout HN Hi Ho HB) as [els [-> C]].
  apply make_fine.
  destruct C as [[Si [So [t0 [t1 [S0 [S1 [I0 [I1 ->]]]]]]]]|[[SS [t0 [S0 [I0 ->]]]]|[Si [So [t0 [S0 [I0 ->]]]]]]].
  - rewrite !map_app. apply nodup_app; [apply nodup_els_of; auto| |].
    { apply nodup_app; [apply nodup_els_of; auto| |].
      { apply nodup_app; [apply nodup_els_of; auto|apply nodup_els_of; auto|].
        apply key_disj. intros e e' A B. apply in_sh_els in A, B. unfold key. destruct A as [-> ->], B as [-> ->]. intros X; inversion X. }
      rewrite <- map_app. apply key_disj. intros e e' A B. apply in_sh_els in A. apply in_app_or in B. unfold key. destruct A as [-> ->].
      destruct B as [B|B]; apply in_sh_els in B; destruct B as [-> ->]; intros X; inversion X. }
    rewrite <- !map_app. apply key_disj. intros e e' A B. apply in_sh_els in A. unfold key. destruct A as [-> ->].
    apply in_app_or in B. destruct B as [B|B]; [|apply in_app_or in B; destruct B as [B|B]]; apply in_sh_els in B; destruct B as [-> ->]; intros X; inversion X.
  - rewrite map_app. apply nodup_app; [apply nodup_els_of; auto|apply nodup_els_of; auto|].
    apply key_disj. intros e e' A B. apply in_sh_els in A, B. unfold key. destruct A as [-> ->], B as [-> ->]. intros X; inversion X.
  - rewrite map_app. apply nodup_app; [apply nodup_els_keep; auto|apply nodup_els_keep; auto|].
    apply key_disj. intros e e' A B. apply in_els_keep in A, B. destruct A as [t [_ [_ ->]]], B as [t' [_ [_ ->]]]. unfold key; cbn. congruence.
Qed.
Lemma fliprotN_fine N axis F T ji n jo m iin iout : (0 < N)%Z ->
  dih_irrep N ji n = Ok iin -> dih_irrep N jo m = Ok iout -> bounds_ok F T = true ->
  empty_or (fliprotN_basis N axis F T iin iout) (kb_fine (Some axis) (ir_size iout) (ir_size iin)).
Proof.
  intros HN Hi Ho HB. destruct (fliprotN_inv N axis F T ji n jo m iin iout HN Hi Ho HB) as [els [-> C]].
  apply make_fine.
  destruct C as [[Si [So [t0 [t1 [S0 [S1 [I0 [I1 ->]]]]]]]]|[[SS [t0 [S0 [I0 ->]]]]|[Si [So [t0 [S0 [I0 ->]]]]]]].
  - rewrite !map_app. apply nodup_app; [apply nodup_els_of; auto|apply nodup_els_of; auto|].
    apply key_disj. intros e e' A B. apply in_sh_els in A, B. unfold key. destruct A as [-> ->], B as [-> ->]. intros X; inversion X.
  - apply nodup_els_of; auto.
  - apply nodup_els_keep; auto.
Qed.

Lemma fine_eq c ax r cc b1 b2 : kb_fine ax r cc b1 -> kb_fine ax r cc b2 -> kb_eqb c b1 b2 = Ok true ->
  kb_dim b1 = kb_dim b2 /\ kb_hashed b1 = kb_hashed b2 /\ forall idx a, kb_sample b1 idx a = kb_sample b2 idx a.
Proof.
  intros (A1 & R1 & C1 & P1 & N1) (A2 & R2 & C2 & P2 & N2) H.
  assert (K := kb_eqb_keys c b1 b2 N1 N2 P1 P2 H). split; [|split].
  - unfold kb_dim. rewrite <- (map_length key (kb_els b1)), K, map_length. reflexivity.
  - unfold kb_hashed.
    replace (map ke_mu (kb_els b1)) with (map (fun k : Z*Z*Z => snd (fst k)) (map key (kb_els b1))) by (rewrite map_map; reflexivity).
    replace (map ke_gq (kb_els b1)) with (map (fun k : Z*Z*Z => snd k) (map key (kb_els b1))) by (rewrite map_map; reflexivity).
    rewrite K, !map_map. reflexivity.
  - intros idx a. apply sample_of_keys; congruence.
Qed.

(** ** SteerableKernelBasis *)
Definition okb_same (o1 o2 : option kbasis) : Prop :=
  match o1, o2 with
  | None, None => True
  | Some b1, Some b2 => kb_dim b1 = kb_dim b2 /\ forall idx a, kb_sample b1 idx a = kb_sample b2 idx a
  | _, _ => False
  end.
Lemma row_write_same ii ip is os bs1 bs2 l1 l2 : Forall2 okb_same bs1 bs2 ->
  (forall count idx a, sk_write l1 count idx a = sk_write l2 count idx a) ->
  forall oo op count idx a, sk_write (sk_row ii ip is oo op os bs1 ++ l1) count idx a = sk_write (sk_row ii ip is oo op os bs2 ++ l2) count idx a.
Proof.
  intros F H. revert os. induction F as [|b1 b2 bs1 bs2 Hb F IH]; intros [|o os] oo op count idx a; cbn [sk_row app]; auto.
  cbn [sk_write bk_basis]. destruct b1 as [b1|], b2 as [b2|]; cbn in Hb; try tauto; [|apply IH].
  destruct Hb as [D S]. rewrite D, S, IH. reflexivity.
Qed.
Lemma rows_write_same os bss1 bss2 : Forall2 (Forall2 okb_same) bss1 bss2 ->
  forall is ii ip count idx a, sk_write (sk_rows ii ip is os bss1) count idx a = sk_write (sk_rows ii ip is os bss2) count idx a.
Proof.
  induction 1 as [|b1 b2 bss1 bss2 Hb F IH]; intros [|i is] ii ip count idx a; cbn [sk_rows]; auto.
  apply row_write_same; auto.
Qed.

Lemma rmap_in {A B} (f : A -> result B) l l' : rmap f l = Ok l' -> Forall2 (fun a b => f a = Ok b) l l'.
Proof.
  revert l'. induction l as [|a l IH]; intros l' H; cbn in H; [injection H as <-; constructor|].
  destruct (f a) eqn:E; [|discriminate]. cbn [rbind] in H. destruct (rmap f l) as [l''|]; [|discriminate]. cbn [rbind] in H. injection H as <-.
  constructor; auto.
Qed.

Lemma sk_eqb_same {G} c (ax : option R) (mk1 mk2 : irrep G -> irrep G -> result kbasis) rin rout s1 s2 :
  (forall i o, In i (rp_irreps rin) -> In o (rp_irreps rout) ->
     empty_or (mk1 i o) (kb_fine ax (ir_size o) (ir_size i)) /\ empty_or (mk2 i o) (kb_fine ax (ir_size o) (ir_size i))) ->
  sk_make mk1 rin rout = Ok s1 -> sk_make mk2 rin rout = Ok s2 -> sk_eqb c s1 s2 = Ok true ->
  sk_dim s1 = sk_dim s2 /\ forall idx a, sk_sample s1 idx a = sk_sample s2 idx a.
Proof.
  intros HF H1 H2 HE.
  destruct (sk_make_inv mk1 rin rout s1 H1) as [E1 [E2 [E3 [E4 [ER1 _]]]]].
  destruct (sk_make_inv mk2 rin rout s2 H2) as [E1' [E2' [E3' [E4' [ER2 _]]]]].
  apply rmap_in in ER1, ER2.
  assert (SAME : Forall2 (Forall2 okb_same) (sk_bases s1) (sk_bases s2)).
  { unfold sk_eqb in HE. revert HE. generalize (sk_bases s1) (sk_bases s2) ER1 ER2. clear - HF.
    assert (HI : forall i, In i (rp_irreps rin) -> In i (rp_irreps rin)) by auto. revert HI.
    generalize (rp_irreps rin) at 1 3 4. intros li. induction li as [|i li IH]; intros HI l1 l2 R1 R2 HE; inversion R1; inversion R2; subst; [constructor|].
    rename y into bs1, y0 into bs2, l' into l1', l'0 into l2'. cbn [concat] in HE.
    assert (Hi : In i (rp_irreps rin)) by (apply HI; left; auto).
    apply rmap_in in H1, H6.
    assert (ROW : Forall2 okb_same bs1 bs2 /\ all_eqb (okb_eqb c) (concat l1') (concat l2') = Ok true).
    { clear - HF H1 H6 HE Hi. revert HE. assert (HO : forall o, In o (rp_irreps rout) -> In o (rp_irreps rout)) by auto. revert H1 H6 HO.
      generalize (rp_irreps rout) at 1 2 3. intros lo R1. revert bs2. induction R1 as [|o b1 lo bs1 Hb1 R1 IH]; intros bs2 R2 HO HE; inversion R2; subst.
      - split; [constructor|exact HE].
      - cbn [app all_eqb] in HE. apply and_then_true in HE. destruct HE as [He HE].
        destruct (IH _ H3 (fun o' I => HO o' (or_intror I)) HE) as [F1 F2]. split; auto. constructor; auto.
        destruct (HF i o Hi (HO o (or_introl eq_refl))) as [X1 X2].
        unfold try_basis in Hb1, H1. destruct b1 as [b1|], y as [b2|]; cbn in He |- *; try discriminate; auto.
        destruct (mk1 i o) as [c1|x1]; [|destruct (String.eqb x1 _); discriminate].
        destruct (mk2 i o) as [c2|x2]; [|destruct (String.eqb x2 _); discriminate].
        injection Hb1 as ->. injection H1 as ->. destruct (fine_eq c ax _ _ b1 b2 X1 X2 He) as [D [_ S]]. auto. }
    destruct ROW as [F1 F2]. constructor; auto. apply IH; auto. intros i' I. apply HI. right. auto. }
  split.
  - unfold sk_dim. f_equal. clear - SAME. induction SAME as [|x y l l' H S IH]; auto. cbn. rewrite !map_app, IH. f_equal.
    clear - H. induction H as [|a b l l' Hab H IH]; auto. cbn. rewrite IH. f_equal. destruct a, b; cbn in *; tauto.
  - intros idx a. unfold sk_sample. rewrite E1, E2, E3, E4, E1', E2', E3', E4'. unfold sk_blocks. rewrite E1, E2, E1', E2'.
    rewrite (rows_write_same _ _ _ SAME). reflexivity.
Qed.
