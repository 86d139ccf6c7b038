(** Operations on images that commute with flips, transposition and linear maps of the channels; pooling windows. *)
From Coq Require Import Reals ZArith String List Bool Lia Lra FunctionalExtensionality Permutation.
From Verif Require Import Base LinAlg Model_Groups Model_Rep Model_FieldType Model_GSpace Spec_GSpace Proofs_GSpace Model_Conv Proofs_Conv Proofs_Conv2 Proofs_Conv3 Proofs_Conv4 Proofs_Conv6
  Model_Fieldwise Proofs_FieldType Model_Pool.
Import ListNotations.
Open Scope R_scope.

Lemma same_rows {B} n (x y : arr (B -> vec)) : same_field n x y -> same_field n (flip_rows x) (flip_rows y).
Proof. intros (H1 & H2 & H3). split; [exact H1|]. split; [exact H2|]. cbn. intros i j b c Hi Hj Hc. rewrite <- H1. apply H3; auto; lia. Qed.
Lemma same_cols {B} n (x y : arr (B -> vec)) : same_field n x y -> same_field n (flip_cols x) (flip_cols y).
Proof. intros (H1 & H2 & H3). split; [exact H1|]. split; [exact H2|]. cbn. intros i j b c Hi Hj Hc. rewrite <- H2. apply H3; auto; lia. Qed.
Lemma same_tr {B} n (x y : arr (B -> vec)) : same_field n x y -> same_field n (transpose x) (transpose y).
Proof. intros (H1 & H2 & H3). split; [exact H2|]. split; [exact H1|]. cbn. intros i j b c Hi Hj Hc. apply H3; auto. Qed.

(** ** the interface *)
Section Op.
Context {B : Type}.
Implicit Types x y : arr (B -> vec).
Definition op_t : Type := arr (B -> vec) -> result (arr (B -> vec)).
Record grid_op (n : nat) (D : nat -> nat -> Prop) (Cls : mat -> Prop) (sq : Prop) (op : op_t) : Prop := {
  go_rows : forall x y, D (a_h x) (a_w x) -> op x = Ok y -> exists y', op (flip_rows x) = Ok y' /\ same_field n y' (flip_rows y);
  go_cols : forall x y, D (a_h x) (a_w x) -> op x = Ok y -> exists y', op (flip_cols x) = Ok y' /\ same_field n y' (flip_cols y);
  go_tr : forall x y, sq -> D (a_h x) (a_w x) -> op x = Ok y -> exists y', op (transpose x) = Ok y' /\ same_field n y' (transpose y);
  go_dtr : forall h w, sq -> D h w -> D w h;
  go_same : forall x x' y, same_field n x x' -> op x = Ok y -> exists y', op x' = Ok y' /\ same_field n y y';
  go_lin : forall A x y, Cls A -> op x = Ok y ->
    exists y', op (amap (fun v b => mvec n A (v b)) x) = Ok y' /\ same_field n y' (amap (fun v b => mvec n A (v b)) y) }.

Variables (n : nat) (D : nat -> nat -> Prop) (Cls : mat -> Prop) (sq : Prop) (op : op_t).
Hypothesis GO : grid_op n D Cls sq op.
Lemma go_rot k x y : sq \/ Z.even k = true -> D (a_h x) (a_w x) -> op x = Ok y -> exists y', op (rot90 x k) = Ok y' /\ same_field n y' (rot90 y k).
Proof.
  intros Q HD H. assert (E : forall j, (k mod 4 = j -> Z.even k = Z.even j)%Z).
  { intros j <-. rewrite (Z.div_mod k 4) at 1 by lia. rewrite Z.even_add, Z.even_mul. cbn [Z.even orb]. destruct (Z.even (k mod 4)); reflexivity. }
  rewrite (rot90_red x), (rot90_red y). destruct (mod4 k) as [W|[W|[W|W]]]; rewrite W.
  - exists y. split; [exact H|apply same_field_refl].
  - assert (S : sq) by (destruct Q as [Q|Q]; auto; rewrite (E _ W) in Q; discriminate).
    cbn. destruct (go_cols _ _ _ _ _ GO _ _ HD H) as (y1 & E1 & F1).
    destruct (go_tr _ _ _ _ _ GO (flip_cols x) y1 S HD E1) as (y2 & E2 & F2). exists y2. split; [exact E2|]. eapply same_field_trans; [exact F2|]. apply same_tr; auto.
  - cbn. destruct (go_rows _ _ _ _ _ GO _ _ HD H) as (y1 & E1 & F1).
    destruct (go_cols _ _ _ _ _ GO (flip_rows x) y1 HD E1) as (y2 & E2 & F2). exists y2. split; [exact E2|]. eapply same_field_trans; [exact F2|]. apply same_cols; auto.
  - assert (S : sq) by (destruct Q as [Q|Q]; auto; rewrite (E _ W) in Q; discriminate).
    cbn. destruct (go_tr _ _ _ _ _ GO _ _ S HD H) as (y1 & E1 & F1).
    destruct (go_cols _ _ _ _ _ GO (transpose x) y1 (go_dtr _ _ _ _ _ GO _ _ S HD) E1) as (y2 & E2 & F2).
    exists y2. split; [exact E2|]. eapply same_field_trans; [exact F2|]. apply same_cols; auto.
Qed.
Lemma go_turn f k x y : sq \/ Z.even k = true -> D (a_h x) (a_w x) -> op x = Ok y -> exists y', op (turn f k x) = Ok y' /\ same_field n y' (turn f k y).
Proof.
  intros Q HD H. unfold turn. destruct f; [|apply go_rot; auto]. destruct (go_rows _ _ _ _ _ GO _ _ HD H) as (y1 & E1 & F1).
  destruct (go_rot k (flip_rows x) y1 Q HD E1) as (y2 & E2 & F2). exists y2. split; [exact E2|]. eapply same_field_trans; [exact F2|].
  apply (same_field_turn n false k). exact F1.
Qed.
End Op.
Arguments op_t : clear implicits.

Section Equivariance.
Context {G : Type} (sp : space G) (isrep : rep G -> Prop) (code : G -> gelt) (el : G -> Prop) (inv : G -> G) (SF : space_facts sp isrep code el inv)
  (interp : forall A : Type, R -> R -> arr A -> arr A) {B : Type}.
Theorem op_equivariant (t : ctype G) D Cls sq (op : op_t B) e g kk x y : grid_op (ct_size t) D Cls sq op ->
  ft_gs t = sp -> ft_reps t <> [] -> fg_is_element (sp_group (sp_obj sp)) e = true -> sp_prj sp e = Some g -> gangle (sp_obj sp) e = IZR kk * (PI / 2) ->
  sq \/ Z.even kk = true -> D (a_h x) (a_w x) -> Cls (trep (ft_reps t) g) -> op x = Ok y ->
  exists x' y' y'', field_transform interp t x e = Ok x' /\ op x' = Ok y' /\ field_transform interp t y e = Ok y'' /\ same_field (ct_size t) y' y''.
Proof.
  intros GO Hs Hne He Hg Ha Q HD HC H.
  destruct (transform_exact sp isrep code el inv SF interp t e g kk x Hs Hne He Hg Ha) as (x' & X1 & X2).
  destruct (transform_exact sp isrep code el inv SF interp t e g kk y Hs Hne He Hg Ha) as (y'' & Y1 & Y2).
  destruct (go_turn _ _ _ _ _ GO (gflip (sp_obj sp) e) kk x y Q HD H) as (y1 & E1 & F1).
  destruct (go_lin _ _ _ _ _ GO _ _ _ HC E1) as (y2 & E2 & F2).
  destruct (go_same _ _ _ _ _ GO _ _ _ (same_field_sym _ _ _ X2) E2) as (y3 & E3 & F3).
  exists x', y3, y''. split; [exact X1|]. split; [exact E3|]. split; [exact Y1|].
  eapply same_field_trans; [apply same_field_sym; exact F3|]. eapply same_field_trans; [exact F2|].
  apply same_field_sym. eapply same_field_trans; [exact Y2|]. apply same_field_lin; [intros ? ? _ _; reflexivity|]. apply same_field_sym. exact F1.
Qed.
End Equivariance.

(** composition *)
Lemma grid_comp {B} n D1 D2 (D : nat -> nat -> Prop) Cls sq (o1 o2 : op_t B) : grid_op n D1 Cls sq o1 -> grid_op n D2 Cls sq o2 ->
  (forall h w, D h w -> D1 h w) -> (forall x y, D (a_h x) (a_w x) -> o1 x = Ok y -> D2 (a_h y) (a_w y)) -> (forall h w, sq -> D h w -> D w h) ->
  grid_op n D Cls sq (fun x => rbind (o1 x) o2).
Proof.
  intros G1 G2 H1 H2 H3. constructor; auto.
  - intros x y HD H. apply rbind_ok in H as (z & Ez & H). destruct (go_rows _ _ _ _ _ G1 x z (H1 _ _ HD) Ez) as (z' & E1 & F1).
    destruct (go_rows _ _ _ _ _ G2 z y (H2 _ _ HD Ez) H) as (y1 & E2 & F2). destruct (go_same _ _ _ _ _ G2 _ _ _ (same_field_sym _ _ _ F1) E2) as (y2 & E3 & F3).
    exists y2. rewrite E1. cbn. split; [exact E3|]. eapply same_field_trans; [apply same_field_sym, F3|exact F2].
  - intros x y HD H. apply rbind_ok in H as (z & Ez & H). destruct (go_cols _ _ _ _ _ G1 x z (H1 _ _ HD) Ez) as (z' & E1 & F1).
    destruct (go_cols _ _ _ _ _ G2 z y (H2 _ _ HD Ez) H) as (y1 & E2 & F2). destruct (go_same _ _ _ _ _ G2 _ _ _ (same_field_sym _ _ _ F1) E2) as (y2 & E3 & F3).
    exists y2. rewrite E1. cbn. split; [exact E3|]. eapply same_field_trans; [apply same_field_sym, F3|exact F2].
  - intros x y S HD H. apply rbind_ok in H as (z & Ez & H). destruct (go_tr _ _ _ _ _ G1 x z S (H1 _ _ HD) Ez) as (z' & E1 & F1).
    destruct (go_tr _ _ _ _ _ G2 z y S (H2 _ _ HD Ez) H) as (y1 & E2 & F2). destruct (go_same _ _ _ _ _ G2 _ _ _ (same_field_sym _ _ _ F1) E2) as (y2 & E3 & F3).
    exists y2. rewrite E1. cbn. split; [exact E3|]. eapply same_field_trans; [apply same_field_sym, F3|exact F2].
  - intros x x' y S H. apply rbind_ok in H as (z & Ez & H). destruct (go_same _ _ _ _ _ G1 _ _ _ S Ez) as (z' & E1 & F1).
    destruct (go_same _ _ _ _ _ G2 _ _ _ F1 H) as (y' & E2 & F2). exists y'. rewrite E1. auto.
  - intros A x y HC H. apply rbind_ok in H as (z & Ez & H). destruct (go_lin _ _ _ _ _ G1 A x z HC Ez) as (z' & E1 & F1).
    destruct (go_lin _ _ _ _ _ G2 A z y HC H) as (y1 & E2 & F2). destruct (go_same _ _ _ _ _ G2 _ _ _ (same_field_sym _ _ _ F1) E2) as (y2 & E3 & F3).
    exists y2. rewrite E1. cbn. split; [exact E3|]. eapply same_field_trans; [apply same_field_sym, F3|exact F2].
Qed.
Lemma grid_weaken {B} n D (Cls Cls' : mat -> Prop) sq (o : op_t B) : (forall A, Cls' A -> Cls A) -> grid_op n D Cls sq o -> grid_op n D Cls' sq o.
Proof. intros H [? ? ? ? ? ?]. constructor; auto. Qed.

(** ** reductions *)
Lemma max_list_spec l : l <> [] -> In (max_list l) l /\ forall a, In a l -> a <= max_list l.
Proof.
  destruct l as [|a l]; [congruence|]. intros _. cbn [max_list]. revert a. induction l as [|b l IH]; intros a; cbn [fold_left].
  - split; [now left|]. intros c [<-|[]]. lra.
  - destruct (IH (Rmax a b)) as [H1 H2]. split.
    + destruct H1 as [H1|H1]; [|right; right; exact H1]. rewrite <- H1. unfold Rmax. destruct (Rle_dec a b); [right; now left|now left].
    + intros c [<-|[<-|Hc]]; [| |apply H2; now right].
      * eapply Rle_trans; [apply (Rmax_l a b)|apply H2; now left].
      * eapply Rle_trans; [apply (Rmax_r a b)|apply H2; now left].
Qed.
Lemma max_list_perm l l' : Permutation l l' -> max_list l = max_list l'.
Proof.
  intros P. destruct l as [|a l]. { apply Permutation_nil in P as ->. reflexivity. }
  assert (N' : l' <> []) by (intros ->; apply Permutation_sym, Permutation_nil in P; discriminate).
  destruct (max_list_spec (a :: l)) as [I1 M1]; [congruence|]. destruct (max_list_spec l' N') as [I2 M2].
  apply Rle_antisym; [apply M2, (Permutation_in _ P); auto|apply M1, (Permutation_in _ (Permutation_sym P)); auto].
Qed.
Lemma sum_list_perm l l' : Permutation l l' -> sum_list l = sum_list l'.
Proof. unfold sum_list. induction 1; cbn [fold_right]; lra. Qed.
Lemma mean_list_perm l l' : Permutation l l' -> mean_list l = mean_list l'.
Proof. intros P. unfold mean_list. rewrite (sum_list_perm _ _ P), (Permutation_length P). reflexivity. Qed.

(** ** windows *)
Definition wpool {B} (ho wo : nat) (rows cols : nat -> list nat) (red : nat -> nat -> list R -> R) (x : arr (B -> vec)) : arr (B -> vec) :=
  MkArr ho wo (fun i j b c => red i j (at_window x (rows i) (cols j) b c)).
Definition in_axis (h o : nat) (w : nat -> list nat) : Prop := forall i r, (i < o)%nat -> In r (w i) -> (r < h)%nat.
Definition sym_axis (h o : nat) (w : nat -> list nat) : Prop := forall i, (i < o)%nat -> Permutation (w (o - 1 - i)%nat) (map (fun r => h - 1 - r)%nat (w i)).

Lemma list_prod_map {A A' C C'} (f : A -> A') (g : C -> C') l m : list_prod (map f l) (map g m) = map (fun q => (f (fst q), g (snd q))) (list_prod l m).
Proof.
  induction l as [|a l IH]; cbn; [reflexivity|]. rewrite map_app, IH, !map_map. reflexivity.
Qed.
Lemma list_prod_perm {A C} (l l' : list A) (m m' : list C) : Permutation l l' -> Permutation m m' -> Permutation (list_prod l m) (list_prod l' m').
Proof.
  intros P Q. transitivity (list_prod l' m).
  - clear Q. induction P; cbn; auto.
    + apply Permutation_app_head; auto.
    + rewrite !app_assoc. apply Permutation_app_tail, Permutation_app_comm.
    + etransitivity; eauto.
  - clear P. induction l' as [|a l' IH]; cbn; auto. apply Permutation_app; auto. apply Permutation_map; auto.
Qed.
Lemma list_prod_swap {A C} (l : list A) (m : list C) : Permutation (list_prod l m) (map (fun q => (snd q, fst q)) (list_prod m l)).
Proof.
  induction l as [|a l IH]; cbn [list_prod].
  - induction m; cbn; auto.
  - transitivity (map (fun y => (a, y)) m ++ map (fun q => (snd q, fst q)) (list_prod m l)); [apply Permutation_app_head; auto|].
    clear IH. induction m as [|c m IH]; cbn; auto. constructor.
    rewrite !map_app, !map_map. cbn [fst snd]. etransitivity; [|apply Permutation_app_head; exact IH]. rewrite !app_assoc. apply Permutation_app_tail, Permutation_app_comm.
Qed.
Lemma at_window_perm {B} (x : arr (B -> vec)) r r' c c' b ch : Permutation r r' -> Permutation c c' -> Permutation (at_window x r c b ch) (at_window x r' c' b ch).
Proof. intros. apply Permutation_map, list_prod_perm; auto. Qed.

Section W.
Context {B : Type} (x : arr (B -> vec)) (ho wo : nat) (rows cols : nat -> list nat) (red : nat -> nat -> list R -> R).
Lemma wpool_rows : sym_axis (a_h x) ho rows -> (forall i j l l', (i < ho)%nat -> (j < wo)%nat -> Permutation l l' -> red (ho - 1 - i)%nat j l = red i j l') ->
  arr_eq (wpool ho wo rows cols red (flip_rows x)) (flip_rows (wpool ho wo rows cols red x)).
Proof.
  intros S R. split; [reflexivity|]. split; [reflexivity|]. cbn [wpool flip_rows a_h a_w a_px]. intros i j Hi Hj. extensionality b. extensionality c. symmetry.
  apply R; auto. etransitivity; [apply at_window_perm; [apply S; auto|reflexivity]|].
  unfold at_window. rewrite <- (map_id (cols j)) at 1. rewrite list_prod_map, map_map. cbn [fst snd flip_rows a_px]. reflexivity.
Qed.
Lemma wpool_cols : sym_axis (a_w x) wo cols -> (forall i j l l', (i < ho)%nat -> (j < wo)%nat -> Permutation l l' -> red i (wo - 1 - j)%nat l = red i j l') ->
  arr_eq (wpool ho wo rows cols red (flip_cols x)) (flip_cols (wpool ho wo rows cols red x)).
Proof.
  intros S R. split; [reflexivity|]. split; [reflexivity|]. cbn [wpool flip_cols a_h a_w a_px]. intros i j Hi Hj. extensionality b. extensionality c. symmetry.
  apply R; auto. etransitivity; [apply at_window_perm; [reflexivity|apply S; auto]|].
  unfold at_window. rewrite <- (map_id (rows i)) at 1. rewrite list_prod_map, map_map. cbn [fst snd flip_cols a_px]. reflexivity.
Qed.
Lemma wpool_tr (red' : nat -> nat -> list R -> R) : (forall i j l l', (i < wo)%nat -> (j < ho)%nat -> Permutation l l' -> red' i j l = red j i l') ->
  arr_eq (wpool wo ho cols rows red' (transpose x)) (transpose (wpool ho wo rows cols red x)).
Proof.
  intros R. split; [reflexivity|]. split; [reflexivity|]. cbn [wpool transpose a_h a_w a_px]. intros i j Hi Hj. extensionality b. extensionality c.
  apply R; auto. unfold at_window. etransitivity; [apply Permutation_map, list_prod_swap|]. rewrite map_map. cbn [fst snd transpose a_px]. reflexivity.
Qed.
Lemma wpool_same n (x' : arr (B -> vec)) : in_axis (a_h x) ho rows -> in_axis (a_w x) wo cols -> same_field n x x' ->
  same_field n (wpool ho wo rows cols red x) (wpool ho wo rows cols red x').
Proof.
  intros I1 I2 (H1 & H2 & H3). split; [reflexivity|]. split; [reflexivity|]. cbn [wpool a_h a_w a_px]. intros i j b c Hi Hj Hc. apply f_equal.
  apply map_ext_in. intros [r q] Hq. cbn [fst snd]. apply in_prod_iff in Hq as [Q1 Q2]. apply H3; [exact (I1 i r Hi Q1)|exact (I2 j q Hj Q2)|exact Hc].
Qed.
End W.

(** selection of channels: the class of matrices that commute with a maximum *)
Definition selects (n : nat) (A : mat) : Prop := exists s, forall i, (i < n)%nat -> (s i < n)%nat /\ forall j, (j < n)%nat -> A i j = if (j =? s i)%nat then 1 else 0.
Lemma selects_mvec n A v : selects n A -> exists s, forall i, (i < n)%nat -> (s i < n)%nat /\ mvec n A v i = v (s i).
Proof.
  intros [s H]. exists s. intros i Hi. destruct (H i Hi) as [H1 H2]. split; [exact H1|]. unfold mvec. rewrite (rsum_single n (s i)); auto.
  - rewrite H2, Nat.eqb_refl by auto. ring.
  - intros j Hj Hn. rewrite H2 by auto. destruct (Nat.eqb_spec j (s i)); [congruence|ring].
Qed.
Lemma wpool_select {B} n A (x : arr (B -> vec)) ho wo rows cols red : selects n A ->
  same_field n (wpool ho wo rows cols red (amap (fun v b => mvec n A (v b)) x)) (amap (fun v b => mvec n A (v b)) (wpool ho wo rows cols red x)).
Proof.
  intros [s H]. assert (M : forall v i, (i < n)%nat -> mvec n A v i = v (s i)).
  { intros v i Hi. destruct (H i Hi) as [H1 H2]. unfold mvec. rewrite (rsum_single n (s i)); auto.
    - rewrite H2, Nat.eqb_refl by auto. ring.
    - intros j Hj Hn. rewrite H2 by auto. destruct (Nat.eqb_spec j (s i)); [congruence|ring]. }
  split; [reflexivity|]. split; [reflexivity|]. cbn [wpool amap a_h a_w a_px]. intros i j b c Hi Hj Hc. rewrite M by auto. apply f_equal.
  apply map_ext. intros q. cbn [amap a_px]. apply M; auto.
Qed.
Lemma sum_list_lin n A (l : list vec) c : sum_list (map (fun v : vec => mvec n A v c) l) = mvec n A (fun c' => sum_list (map (fun v : vec => v c') l)) c.
Proof.
  induction l as [|v l IH]; cbn [map sum_list fold_right]. { unfold mvec. rewrite rsum_0; auto. intros. ring. }
  unfold sum_list in IH. rewrite IH. unfold mvec. rewrite <- rsum_plus. apply rsum_ext. intros. ring.
Qed.
Lemma wpool_linear {B} n A (x : arr (B -> vec)) ho wo rows cols (red : nat -> nat -> list R -> R) (u : nat -> nat -> nat -> R) :
  (forall i j l, red i j l = sum_list l * u i j (length l)) ->
  same_field n (wpool ho wo rows cols red (amap (fun v b => mvec n A (v b)) x)) (amap (fun v b => mvec n A (v b)) (wpool ho wo rows cols red x)).
Proof.
  intros R. split; [reflexivity|]. split; [reflexivity|]. cbn [wpool amap a_h a_w a_px]. intros i j b c Hi Hj Hc. rewrite R.
  unfold at_window. cbn [a_px amap]. rewrite map_length.
  assert (E := sum_list_lin n A (map (fun q => a_px x (fst q) (snd q) b) (list_prod (rows i) (cols j))) c). rewrite map_map in E. rewrite E.
  unfold mvec. rewrite <- rsum_scal_r. apply rsum_ext. intros k Hk. rewrite R. rewrite map_map, map_length. ring.
Qed.
