(** Proofs about gspaces (C19-C21). *)
From Coq Require Import Reals ZArith String List Bool Lia Lra.
From Verif Require Import Base Spec Model_Groups Proofs_Groups Proofs_Cont Model_GSpace Spec_GSpace.
Import ListNotations.
Open Scope R_scope.

(** ** images *)
Lemma arr_eq_refl {A} (x : arr A) : arr_eq x x.
Proof. repeat split; auto. Qed.
Lemma arr_eq_sym {A} (x y : arr A) : arr_eq x y -> arr_eq y x.
Proof. intros (H1 & H2 & H3). split; [auto|]. split; [auto|]. intros. symmetry. apply H3; congruence. Qed.
Lemma arr_eq_trans {A} (x y z : arr A) : arr_eq x y -> arr_eq y z -> arr_eq x z.
Proof.
  intros (H1 & H2 & H3) (K1 & K2 & K3). split; [congruence|]. split; [congruence|]. intros.
  rewrite H3 by auto. apply K3; congruence.
Qed.

Lemma flip_rows_eq {A} (x y : arr A) : arr_eq x y -> arr_eq (flip_rows x) (flip_rows y).
Proof.
  destruct x as [h w f], y as [h' w' f']. intros (H1 & H2 & H3). cbn in *. subst.
  split; [auto|]. split; [auto|]. cbn. intros. apply H3; lia.
Qed.
Lemma flip_cols_eq {A} (x y : arr A) : arr_eq x y -> arr_eq (flip_cols x) (flip_cols y).
Proof.
  destruct x as [h w f], y as [h' w' f']. intros (H1 & H2 & H3). cbn in *. subst.
  split; [auto|]. split; [auto|]. cbn. intros. apply H3; lia.
Qed.
Lemma transpose_eq {A} (x y : arr A) : arr_eq x y -> arr_eq (transpose x) (transpose y).
Proof.
  destruct x as [h w f], y as [h' w' f']. intros (H1 & H2 & H3). cbn in *. subst.
  split; [auto|]. split; [auto|]. cbn. intros. apply H3; lia.
Qed.
Lemma rot90_eq {A} (x y : arr A) k : arr_eq x y -> arr_eq (rot90 x k) (rot90 y k).
Proof.
  intros H. unfold rot90. destruct (_ =? 0)%Z; auto. destruct (_ =? 2)%Z.
  { apply flip_cols_eq, flip_rows_eq, H. }
  destruct (_ =? 1)%Z; [apply transpose_eq, flip_cols_eq, H|apply flip_cols_eq, transpose_eq, H].
Qed.

Lemma mod4 k : ((k mod 4 = 0) \/ (k mod 4 = 1) \/ (k mod 4 = 2) \/ (k mod 4 = 3))%Z.
Proof. pose proof (Z.mod_pos_bound k 4). lia. Qed.

Ltac arr_solve := split; [reflexivity|split; [reflexivity|]]; cbn; intros; try reflexivity; f_equal; lia.

Lemma rot90_red {A} (x : arr A) k :
  rot90 x k = match (k mod 4)%Z with 0%Z => x | 1%Z => transpose (flip_cols x) | 2%Z => flip_cols (flip_rows x)
              | _ => flip_cols (transpose x) end.
Proof.
  unfold rot90. destruct (mod4 k) as [E|[E|[E|E]]]; rewrite E; reflexivity.
Qed.

Lemma rot90_rot90 {A} (x : arr A) a b : arr_eq (rot90 (rot90 x a) b) (rot90 x (a + b)).
Proof.
  rewrite !rot90_red. rewrite Z.add_mod by lia.
  destruct (mod4 a) as [E|[E|[E|E]]]; destruct (mod4 b) as [F|[F|[F|F]]]; rewrite E, F;
  match goal with |- context [((?u + ?v) mod 4)%Z] => let c := eval compute in ((u + v) mod 4)%Z in change ((u+v) mod 4)%Z with c end;
  cbv iota; arr_solve.
Qed.

Lemma opp_mod4 a : ((- a) mod 4 = (- (a mod 4)) mod 4)%Z.
Proof.
  rewrite (Z.div_mod a 4) at 1 by lia.
  replace (- (4 * (a / 4) + a mod 4))%Z with (- (a mod 4) + (- (a / 4)) * 4)%Z by ring.
  apply Z_mod_plus_full.
Qed.

Lemma flip_rot90 {A} (x : arr A) a : arr_eq (flip_rows (rot90 x a)) (rot90 (flip_rows x) (- a)).
Proof.
  rewrite !rot90_red, opp_mod4.
  destruct (mod4 a) as [E|[E|[E|E]]]; rewrite E;
  match goal with |- context [((- ?v) mod 4)%Z] => let c := eval compute in ((- v) mod 4)%Z in change ((- v) mod 4)%Z with c end;
  cbv iota; arr_solve.
Qed.

Lemma flip_flip {A} (x : arr A) : arr_eq (flip_rows (flip_rows x)) x.
Proof. arr_solve. Qed.

Lemma rot90_0 {A} (x : arr A) : rot90 x 0 = x.
Proof. reflexivity. Qed.
Lemma rot90_plus4 {A} (x : arr A) k m : rot90 x (k + m * 4) = rot90 x k.
Proof. rewrite !rot90_red, Z_mod_plus_full. reflexivity. Qed.

(** ** pixel geometry *)
Lemma moved_id {A} (x : arr A) T : (forall p, T p = p) -> moved_by T x x.
Proof. intros HT. split; intros i j Hi Hj; exists i, j; rewrite HT; auto. Qed.
Lemma moved_comp {A} T S U (x y z : arr A) : moved_by T x y -> moved_by S y z -> (forall p, U p = S (T p)) -> moved_by U x z.
Proof.
  intros [H1 H2] [K1 K2] HU. split.
  - intros i j Hi Hj. destruct (H1 i j Hi Hj) as (i1 & j1 & A1 & A2 & A3 & A4).
    destruct (K1 i1 j1 A1 A2) as (i2 & j2 & B1 & B2 & B3 & B4). exists i2, j2.
    rewrite HU, <- A3, <- A4. auto.
  - intros i j Hi Hj. destruct (K2 i j Hi Hj) as (i1 & j1 & A1 & A2 & A3 & A4).
    destruct (H2 i1 j1 A1 A2) as (i2 & j2 & B1 & B2 & B3 & B4). exists i2, j2.
    rewrite HU, <- B3, <- B4. auto.
Qed.
Lemma moved_ext {A} T U (x y : arr A) : moved_by T x y -> (forall p, U p = T p) -> moved_by U x y.
Proof. intros H E. eapply moved_comp; [exact H|apply moved_id; intros; reflexivity|intros; apply E]. Qed.

Lemma INR_flip n i : (i < n)%nat -> INR (n - 1 - i) = INR n - 1 - INR i.
Proof. intros H. rewrite !minus_INR by lia. simpl. lra. Qed.

Lemma moved_flip_rows {A} (x : arr A) : moved_by (fun p => (fst p, - snd p)) x (flip_rows x).
Proof.
  destruct x as [h w f]. split; cbn; intros i j Hi Hj.
  - exists (h - 1 - i)%nat, j. split; [lia|]. split; [auto|]. split.
    + unfold centre; cbn. rewrite INR_flip by auto. f_equal. lra.
    + f_equal. lia.
  - exists (h - 1 - i)%nat, j. split; [lia|]. split; [auto|]. split.
    + unfold centre; cbn. rewrite INR_flip by auto. f_equal. lra.
    + f_equal.
Qed.
Lemma moved_flip_cols {A} (x : arr A) : moved_by (fun p => (- fst p, snd p)) x (flip_cols x).
Proof.
  destruct x as [h w f]. split; cbn; intros i j Hi Hj.
  - exists i, (w - 1 - j)%nat. split; [lia|]. split; [lia|]. split.
    + unfold centre; cbn. rewrite INR_flip by auto. f_equal. lra.
    + f_equal. lia.
  - exists i, (w - 1 - j)%nat. split; [lia|]. split; [lia|]. split.
    + unfold centre; cbn. rewrite INR_flip by auto. f_equal. lra.
    + f_equal.
Qed.
Lemma moved_transpose {A} (x : arr A) : moved_by (fun p => (- snd p, - fst p)) x (transpose x).
Proof.
  destruct x as [h w f]. split; cbn; intros i j Hi Hj; exists j, i.
  - split; [lia|]. split; [lia|]. split; [unfold centre; cbn; f_equal; lra|auto].
  - split; [lia|]. split; [lia|]. split; [unfold centre; cbn; f_equal; lra|auto].
Qed.

Lemma cos_sin_quarter k :
  match (k mod 4)%Z with
  | 0%Z => cos (IZR k * (PI/2)) = 1 /\ sin (IZR k * (PI/2)) = 0
  | 1%Z => cos (IZR k * (PI/2)) = 0 /\ sin (IZR k * (PI/2)) = 1
  | 2%Z => cos (IZR k * (PI/2)) = -1 /\ sin (IZR k * (PI/2)) = 0
  | _ => cos (IZR k * (PI/2)) = 0 /\ sin (IZR k * (PI/2)) = -1
  end.
Proof.
  assert (E : IZR k * (PI/2) = IZR (k mod 4) * (PI/2) + 2 * IZR (k/4) * PI).
  { pose proof (Z.div_mod k 4 ltac:(lia)) as H. apply (f_equal IZR) in H.
    rewrite plus_IZR, mult_IZR in H. rewrite H. field. }
  rewrite E, cos_period_Z, sin_period_Z.
  destruct (mod4 k) as [F|[F|[F|F]]]; rewrite F.
  - rewrite !Rmult_0_l, cos_0, sin_0; auto.
  - rewrite !Rmult_1_l, cos_PI2, sin_PI2; auto.
  - replace (2 * (PI/2)) with PI by field. rewrite cos_PI, sin_PI; auto.
  - replace (3 * (PI/2)) with (3 * (PI/2)) by field. rewrite cos_3PI2, sin_3PI2; auto.
Qed.

Lemma moved_rot90 {A} (x : arr A) k : moved_by (rotate_pt (IZR k * (PI/2))) x (rot90 x k).
Proof.
  rewrite rot90_red. pose proof (cos_sin_quarter k) as H. unfold rotate_pt.
  destruct (mod4 k) as [F|[F|[F|F]]]; rewrite F in *; destruct H as [-> ->].
  - apply moved_id. intros [a b]; cbn; f_equal; lra.
  - eapply moved_comp; [apply moved_flip_cols|apply moved_transpose|]. intros [a b]; cbn; f_equal; lra.
  - eapply moved_comp; [apply moved_flip_rows|apply moved_flip_cols|]. intros [a b]; cbn; f_equal; lra.
  - eapply moved_comp; [apply moved_transpose|apply moved_flip_cols|]. intros [a b]; cbn; f_equal; lra.
Qed.

(** ** integers among reals *)
Lemma Int_part_IZR k : Int_part (IZR k) = k.
Proof.
  unfold Int_part. symmetry. assert (up (IZR k) = k + 1)%Z; [|lia].
  symmetry. apply tech_up; rewrite plus_IZR; lra.
Qed.
Lemma is_integer_iff x : is_integer x = true <-> exists k, x = IZR k.
Proof.
  unfold is_integer. destruct (Req_EM_T _ _) as [e|n]; split; intros H; auto.
  - exists (Int_part x). exact e.
  - discriminate.
  - destruct H as [k ->]. destruct n. rewrite Int_part_IZR. auto.
Qed.

(** ** every action is: flip the rows if the element reflects, then rotate by an angle *)
Definition gflip (s : gspace) (g : gelt) : bool :=
  match s, g with
  | SpFlip _ _, EI f => negb (Z.eqb f 0)
  | SpFlipRot _ _, EFI f _ => negb (Z.eqb f 0)
  | SpFlipRot _ _, EFR f _ => negb (Z.eqb f 0)
  | _, _ => false
  end.
Definition gangle (s : gspace) (g : gelt) : R :=
  match s, g with
  | SpFlip _ axis, EI f => if Z.eqb f 0 then 0 else 2 * axis
  | SpRot (GC N), EI k => 2 * PI * IZR k / IZR N
  | SpRot (GSO2 _), ER a => a
  | SpFlipRot (GD N) axis, EFI f k => 2 * PI * IZR k / IZR N + (if Z.eqb f 0 then 0 else 2 * axis)
  | SpFlipRot (GO2 _) axis, EFR f a => a + (if Z.eqb f 0 then 0 else 2 * axis)
  | _, _ => 0
  end.

Lemma dih_elZ N f k : dih_is_element N (f, k) = true -> (f = 0 \/ f = 1)%Z /\ (0 <= k < N)%Z.
Proof. unfold dih_is_element; cbn. rewrite !andb_true_iff, orb_true_iff. lia. Qed.

Ltac sp_cases s Hc :=
  destruct s as [gg|gg axis|gg|gg axis]; destruct gg as [N|N|F|F]; destruct Hc as [Hgo Hc]; cbn in Hgo; cbn in Hc; try discriminate Hc.

Lemma mirror_rotate a p : mirror_pt a p = rotate_pt (2 * a) (fst p, - snd p).
Proof.
  destruct p as [x y]. unfold mirror_pt, rotate_pt; cbn.
  rewrite cos_2a, sin_2a. pose proof (sc2 a) as H.
  pose proof (f_equal (Rmult x) H) as Hx. pose proof (f_equal (Rmult y) H) as Hy.
  f_equal; lra.
Qed.

Lemma rotate_rotate a b p : rotate_pt a (rotate_pt b p) = rotate_pt (a + b) p.
Proof. destruct p as [x y]. unfold rotate_pt; cbn. rewrite cos_plus, sin_plus. f_equal; ring. Qed.
Lemma rotate_0 p : rotate_pt 0 p = p.
Proof. destruct p. unfold rotate_pt; cbn. rewrite cos_0, sin_0. f_equal; ring. Qed.
Lemma rotate_cong a b p : cong2pi a b -> rotate_pt a p = rotate_pt b p.
Proof. intros [k ->]. unfold rotate_pt. rewrite cos_period_Z, sin_period_Z. auto. Qed.

Lemma plane_action_form s g p : constructed s -> fg_is_element (sp_group s) g = true ->
  plane_action s g p = rotate_pt (gangle s g) (if gflip s g then (fst p, - snd p) else p).
Proof.
  intros Hc Hel. sp_cases s Hc; destruct g; cbn in Hel; try discriminate Hel; cbn.
  - rewrite rotate_0; auto.
  - assert (N = 2)%Z as -> by (destruct (Z.eqb_spec N 2); [auto|discriminate]).
    assert (e = 0 \/ e = 1)%Z as [-> | ->] by (unfold cyc_is_element in Hel; lia); cbn.
    + rewrite rotate_0; auto.
    + apply mirror_rotate.
  - auto.
  - auto.
  - apply dih_elZ in Hel. destruct Hel as [[-> | ->] _]; cbn.
    + rewrite Rplus_0_r; auto.
    + rewrite mirror_rotate, rotate_rotate. auto.
  - unfold o2_is_element in Hel. cbn in Hel.
    assert (f = 0 \/ f = 1)%Z as [-> | ->] by lia; cbn.
    + rewrite Rplus_0_r; auto.
    + rewrite mirror_rotate, rotate_rotate. auto.
Qed.

Section Act.
Variable interp : forall A : Type, R -> R -> arr A -> arr A.
Notation act := (basespace_action interp).

Lemma rotate_array_0 {A} (x : arr A) : rotate_array interp x 0 = x.
Proof.
  unfold rotate_array. replace (2 * 0 / PI) with (IZR 0) by (field; apply PI_neq0).
  rewrite (proj2 (is_integer_iff _) (ex_intro _ 0%Z eq_refl)), Int_part_IZR. reflexivity.
Qed.
Lemma rotate_array_0' {A} (x : arr A) r : r = 0 -> rotate_array interp x r = x.
Proof. intros ->. apply rotate_array_0. Qed.
Lemma rotate_array_exact {A} (x : arr A) k : rotate_array interp x (IZR k * (PI/2)) = rot90 x k.
Proof.
  unfold rotate_array. replace (2 * (IZR k * (PI/2)) / PI) with (IZR k) by (field; apply PI_neq0).
  rewrite (proj2 (is_integer_iff _) (ex_intro _ k eq_refl)), Int_part_IZR. reflexivity.
Qed.
Lemma rotate_array_cong {A} (x : arr A) a b : cong2pi a b -> rotate_array interp x a = rotate_array interp x b.
Proof.
  intros [m ->]. unfold rotate_array.
  assert (E : 2 * (b + 2 * IZR m * PI) / PI = 2 * b / PI + IZR (m * 4)) by (rewrite mult_IZR; field; apply PI_neq0).
  rewrite E. rewrite cos_period_Z, sin_period_Z.
  destruct (is_integer (2 * b / PI)) eqn:Eb.
  - apply is_integer_iff in Eb. destruct Eb as [k Hk]. rewrite Hk, <- plus_IZR.
    rewrite (proj2 (is_integer_iff _) (ex_intro _ _ eq_refl)), !Int_part_IZR. apply rot90_plus4.
  - destruct (is_integer (2 * b / PI + IZR (m * 4))) eqn:Ec; [|auto].
    apply is_integer_iff in Ec. destruct Ec as [k Hk].
    assert (exists k', 2 * b / PI = IZR k') as H by (exists (k - m * 4)%Z; rewrite minus_IZR; lra).
    apply is_integer_iff in H. congruence.
Qed.

Lemma action_form {A} s (x : arr A) g : constructed s -> fg_is_element (sp_group s) g = true ->
  act s x g = Ok (rotate_array interp (if gflip s g then flip_rows x else x) (gangle s g)).
Proof.
  intros Hc Hel. unfold basespace_action. rewrite Hel. cbn [assert_].
  sp_cases s Hc; destruct g; cbn [fg_is_element sp_group] in Hel; try discriminate Hel;
    cbn [gflip gangle fg_order fg_rotation_order].
  - rewrite rotate_array_0; auto.
  - destruct (Z.eqb e 0); cbn [negb]; [rewrite rotate_array_0; auto|].
    destruct (Req_EM_T axis 0) as [->|]; [|auto]. rewrite rotate_array_0'; [auto|lra].
  - unfold rot2d_on_r2, fg_order in Hc. destruct (1 <? N)%Z eqn:E1.
    + do 2 f_equal. field. apply not_0_IZR. lia.
    + unfold cyc_is_element in Hel. destruct (Z.eqb_spec N (-1)); [lia|discriminate].
  - auto.
  - unfold fliprot2d_on_r2, fg_rotation_order in Hc. apply dih_elZ in Hel. destruct Hel as [_ Hk].
    destruct (1 <? N)%Z eqn:E1; [|destruct (Z.eqb_spec N (-1)); [lia|discriminate]].
    replace (1 <? 2 * N)%Z with true by lia.
    assert (IZR N <> 0) by (apply not_0_IZR; lia).
    assert (Er : IZR e * 2 * PI / IZR N = 2 * PI * IZR e / IZR N) by (field; auto).
    rewrite Er. destruct (Z.eqb f 0); cbn [negb].
    + rewrite Rplus_0_r. destruct (Req_EM_T _ 0) as [E|]; [|auto]. rewrite rotate_array_0'; auto.
    + destruct (Req_EM_T _ 0) as [E|]; [|auto]. rewrite rotate_array_0'; auto.
  - replace (1 <? -1)%Z with false by reflexivity.
    destruct (Z.eqb f 0); cbn [negb].
    + rewrite Rplus_0_r. destruct (Req_EM_T _ 0) as [E|]; [|auto]. rewrite rotate_array_0'; auto.
    + destruct (Req_EM_T _ 0) as [E|]; [|auto]. rewrite rotate_array_0'; auto.
Qed.

(** exactness = the total angle is a multiple of a quarter turn *)
Lemma grid_exact_iff s g : constructed s -> fg_is_element (sp_group s) g = true ->
  (grid_exact s g <-> exists k : Z, gangle s g = IZR k * (PI/2)).
Proof.
  intros Hc Hel. unfold grid_exact. rewrite plane_action_form by auto.
  match goal with |- context [rotate_pt _ ?q] => replace q with ((1, 0) : point)
    by (destruct (gflip s g); cbn; unfold point; f_equal; lra) end.
  unfold rotate_pt; cbn [fst snd]. generalize (gangle s g) as t. intros t. split.
  - intros [H|H].
    + assert (Ht : cos t = 0) by lra. apply cos_eq_0_0 in Ht. destruct Ht as [k Hk].
      exists (2 * k + 1)%Z. rewrite Hk, plus_IZR, mult_IZR. field.
    + assert (Ht : sin t = 0) by lra. apply sin_eq_0_0 in Ht. destruct Ht as [k Hk].
      exists (2 * k)%Z. rewrite Hk, mult_IZR. field.
  - intros [k ->]. pose proof (cos_sin_quarter k) as H.
    destruct (mod4 k) as [F|[F|[F|F]]]; rewrite F in H; destruct H as [-> ->]; [right|left|right|left]; lra.
Qed.

Lemma action_moves {A} s (x : arr A) g : constructed s -> fg_is_element (sp_group s) g = true -> grid_exact s g ->
  exists y, act s x g = Ok y /\ moved_by (plane_action s g) x y.
Proof.
  intros Hc Hel Hex. apply grid_exact_iff in Hex; auto. destruct Hex as [k Hk].
  rewrite action_form by auto. eexists; split; [reflexivity|]. rewrite Hk, rotate_array_exact.
  assert (Hf : moved_by (fun p => if gflip s g then (fst p, - snd p) else p) x (if gflip s g then flip_rows x else x)).
  { destruct (gflip s g); [apply moved_flip_rows|apply moved_id; auto]. }
  eapply moved_comp; [exact Hf|apply moved_rot90|].
  intros p. rewrite plane_action_form by auto. rewrite Hk. auto.
Qed.

(** composition *)
Lemma cong2pi_div N a : (0 < N)%Z -> cong2pi (2 * PI * IZR (a mod N) / IZR N) (2 * PI * IZR a / IZR N).
Proof.
  intros HN. assert (IZR N <> 0) by (apply not_0_IZR; lia).
  exists (- (a / N))%Z. pose proof (Z.div_mod a N ltac:(lia)) as H0. apply (f_equal IZR) in H0.
  rewrite plus_IZR, mult_IZR in H0. rewrite H0, opp_IZR. field. auto.
Qed.

Definition sgnb (b : bool) : R := if b then -1 else 1.

Lemma compose_form s g h : constructed s ->
  fg_is_element (sp_group s) g = true -> fg_is_element (sp_group s) h = true ->
  fg_is_element (sp_group s) (fg_combine (sp_group s) g h) = true /\
  gflip s (fg_combine (sp_group s) g h) = xorb (gflip s g) (gflip s h) /\
  cong2pi (gangle s (fg_combine (sp_group s) g h)) (gangle s g + sgnb (gflip s g) * gangle s h).
Proof.
  intros Hc Hg Hh. sp_cases s Hc; destruct g; cbn [fg_is_element sp_group] in Hg; try discriminate Hg;
    destruct h; cbn [fg_is_element sp_group] in Hh; try discriminate Hh; cbn [sp_group fg_combine fg_is_element gflip gangle].
  - assert (N = 1)%Z as -> by (destruct (Z.eqb_spec N 1); [auto|discriminate]).
    split. { apply (gl_op_el _ _ _ _ _ (cyc_laws 1 ltac:(lia))); auto. }
    split; [auto|]. exists 0%Z. cbn. ring.
  - assert (N = 2)%Z as -> by (destruct (Z.eqb_spec N 2); [auto|discriminate]).
    assert (e = 0 \/ e = 1)%Z as He by (unfold cyc_is_element in Hg; lia).
    assert (e0 = 0 \/ e0 = 1)%Z as He0 by (unfold cyc_is_element in Hh; lia).
    destruct He as [-> | ->], He0 as [-> | ->]; cbn; split; auto; split; auto; exists 0%Z; ring.
  - assert (0 < N)%Z by (unfold cyc_is_element in Hg; lia).
    split. { apply (gl_op_el _ _ _ _ _ (cyc_laws N H)); auto. }
    split; [auto|]. unfold cyc_combine. eapply cong2pi_trans; [apply cong2pi_div; auto|].
    exists 0%Z. cbn. rewrite plus_IZR. field. apply not_0_IZR; lia.
  - split; [auto|]. split; [auto|]. unfold so2_combine. eapply cong2pi_trans; [apply cong2pi_rmod|].
    exists 0%Z. cbn. ring.
  - assert (0 < N)%Z by (apply dih_elZ in Hg; lia).
    pose proof (gl_op_el _ _ _ _ _ (dih_laws N H) (f, e) (f0, e0) Hg Hh) as Hel.
    assert (IZR N <> 0) by (apply not_0_IZR; lia).
    apply dih_elZ in Hg. apply dih_elZ in Hh. destruct Hg as [Hf He], Hh as [Hf0 He0].
    destruct (dih_combine N (f, e) (f0, e0)) as [f1 e1] eqn:E. cbn [fst snd].
    split; [exact Hel|]. unfold dih_combine in E. cbn [fst snd] in E. inversion E; subst f1 e1.
    split.
    { destruct Hf as [-> | ->], Hf0 as [-> | ->]; reflexivity. }
    destruct Hf as [-> | ->], Hf0 as [-> | ->]; cbn [Z.eqb negb sgnb sgn Z.add];
    match goal with |- context [(?u mod 2)%Z] => let c := eval compute in (u mod 2)%Z in change (u mod 2)%Z with c end;
    cbn [Z.eqb];
    (eapply cong2pi_trans; [apply cong2pi_plus; [apply cong2pi_div; auto|apply cong2pi_refl]|]);
    exists 0%Z; rewrite ?plus_IZR, ?mult_IZR; field; auto.
  - unfold o2_is_element in *; cbn [fst snd] in *.
    assert (f = 0 \/ f = 1)%Z as Hf by lia. assert (f0 = 0 \/ f0 = 1)%Z as Hf0 by lia.
    destruct Hf as [-> | ->], Hf0 as [-> | ->]; cbn; split; auto; split; auto; exists 0%Z; ring.
Qed.

Lemma identity_form s : constructed s ->
  fg_is_element (sp_group s) (fg_identity (sp_group s)) = true /\
  gflip s (fg_identity (sp_group s)) = false /\ gangle s (fg_identity (sp_group s)) = 0.
Proof.
  intros Hc. sp_cases s Hc; (assert (Hgo' := Hgo); cbn); split; auto; try split; auto; try ring; try (unfold Rdiv; ring).
  all: unfold cyc_is_element, dih_is_element; cbn.
  - destruct (Z.eqb_spec N 1); [subst; auto|discriminate].
  - destruct (Z.eqb_spec N 2); [subst; auto|discriminate].
  - lia.
  - lia.
Qed.

(** action laws on exact elements *)
Lemma exact_combine s g h : constructed s ->
  fg_is_element (sp_group s) g = true -> fg_is_element (sp_group s) h = true ->
  grid_exact s g -> grid_exact s h -> grid_exact s (fg_combine (sp_group s) g h).
Proof.
  intros Hc Hg Hh Eg Eh. destruct (compose_form s g h Hc Hg Hh) as (K1 & K2 & [m K3]).
  apply grid_exact_iff in Eg; auto. apply grid_exact_iff in Eh; auto. destruct Eg as [a Ha], Eh as [b Hb].
  apply grid_exact_iff; auto. rewrite K3, Ha, Hb. unfold sgnb. destruct (gflip s g).
  - exists (a - b + 4 * m)%Z. rewrite plus_IZR, minus_IZR, mult_IZR. field.
  - exists (a + b + 4 * m)%Z. rewrite !plus_IZR, mult_IZR. field.
Qed.

Lemma action_exact {A} s (x : arr A) g k : constructed s -> fg_is_element (sp_group s) g = true ->
  gangle s g = IZR k * (PI/2) -> act s x g = Ok (rot90 (if gflip s g then flip_rows x else x) k).
Proof. intros Hc Hel Hk. rewrite action_form, Hk, rotate_array_exact by auto. auto. Qed.

Lemma action_comp {A} s (x : arr A) g h : constructed s ->
  fg_is_element (sp_group s) g = true -> fg_is_element (sp_group s) h = true ->
  grid_exact s g -> grid_exact s h ->
  exists y z w, act s x h = Ok y /\ act s y g = Ok z /\
    act s x (fg_combine (sp_group s) g h) = Ok w /\ arr_eq z w.
Proof.
  intros Hc Hg Hh Eg Eh. destruct (compose_form s g h Hc Hg Hh) as (K1 & K2 & [m K3]).
  apply grid_exact_iff in Eg; auto. apply grid_exact_iff in Eh; auto. destruct Eg as [a Ha], Eh as [b Hb].
  set (gh := fg_combine (sp_group s) g h) in *.
  assert (E : gangle s gh = IZR ((if gflip s g then a - b else a + b) + m * 4) * (PI/2)).
  { rewrite K3, Ha, Hb. unfold sgnb. destruct (gflip s g); rewrite plus_IZR, mult_IZR, ?minus_IZR, ?plus_IZR; field. }
  rewrite (action_exact s x h b), (action_exact s x gh _ Hc K1 E) by auto.
  do 3 eexists. split; [reflexivity|]. split; [apply (action_exact s _ g a); auto|]. split; [reflexivity|].
  rewrite rot90_plus4, K2. destruct (gflip s g), (gflip s h); cbn [xorb].
  - eapply arr_eq_trans; [apply rot90_eq, flip_rot90|].
    eapply arr_eq_trans; [apply rot90_rot90|]. replace (- b + a)%Z with (a - b)%Z by ring.
    apply rot90_eq, flip_flip.
  - eapply arr_eq_trans; [apply rot90_eq, flip_rot90|].
    eapply arr_eq_trans; [apply rot90_rot90|]. replace (- b + a)%Z with (a - b)%Z by ring. apply arr_eq_refl.
  - eapply arr_eq_trans; [apply rot90_rot90|]. replace (b + a)%Z with (a + b)%Z by ring. apply arr_eq_refl.
  - eapply arr_eq_trans; [apply rot90_rot90|]. replace (b + a)%Z with (a + b)%Z by ring. apply arr_eq_refl.
Qed.

Lemma action_id {A} s (x : arr A) : constructed s -> act s x (fg_identity (sp_group s)) = Ok x.
Proof.
  intros Hc. destruct (identity_form s Hc) as (H1 & H2 & H3).
  rewrite action_form, H2, H3, rotate_array_0 by auto. auto.
Qed.
Lemma exact_id s : constructed s -> grid_exact s (fg_identity (sp_group s)).
Proof.
  intros Hc. destruct (identity_form s Hc) as (H1 & H2 & H3). apply grid_exact_iff; auto.
  exists 0%Z. rewrite H3. ring.
Qed.

(** feature fields *)
Definition amap {A B} (f : A -> B) (x : arr A) : arr B := MkArr (a_h x) (a_w x) (fun i j => f (a_px x i j)).
Lemma amap_rot90 {A B} (f : A -> B) (x : arr A) k : rot90 (amap f x) k = amap f (rot90 x k).
Proof. rewrite !rot90_red. destruct (mod4 k) as [F|[F|[F|F]]]; rewrite F; reflexivity. Qed.
Lemma amap_flip {A B} (f : A -> B) (x : arr A) : flip_rows (amap f x) = amap f (flip_rows x).
Proof. reflexivity. Qed.
Lemma action_amap {A B} (f : A -> B) s (x : arr A) g y : constructed s -> fg_is_element (sp_group s) g = true ->
  grid_exact s g -> act s x g = Ok y -> act s (amap f x) g = Ok (amap f y).
Proof.
  intros Hc Hel Hex Hy. apply grid_exact_iff in Hex; auto. destruct Hex as [k Hk].
  rewrite (action_exact s x g k) in Hy by auto. inversion Hy; subst y. rewrite (action_exact s _ g k) by auto.
  f_equal. destruct (gflip s g); rewrite ?amap_flip; apply amap_rot90.
Qed.

Lemma fg_eqb_refl g : fg_eqb g g = true.
Proof. destruct g; cbn; apply Z.eqb_refl. Qed.
Lemma fg_eqb_eq a b : fg_eqb a b = true -> a = b.
Proof. destruct a, b; cbn; intros H; try discriminate; apply Z.eqb_eq in H; congruence. Qed.

Lemma featurefield_comp {B} s rg n rho (x : arr (B -> vec)) g h :
  constructed s -> rg = sp_group s ->
  is_representation (fun e => fg_is_element (sp_group s) e = true) (fg_combine (sp_group s)) (fg_identity (sp_group s)) n rho ->
  fg_is_element (sp_group s) g = true -> fg_is_element (sp_group s) h = true ->
  grid_exact s g -> grid_exact s h ->
  exists y z w, featurefield_action interp s rg n rho x h = Ok y /\ featurefield_action interp s rg n rho y g = Ok z /\
    featurefield_action interp s rg n rho x (fg_combine (sp_group s) g h) = Ok w /\ same_field n z w.
Proof.
  intros Hc -> [Hid Hop] Hg Hh Eg Eh. unfold featurefield_action. rewrite fg_eqb_refl. cbn [assert_].
  set (gh := fg_combine (sp_group s) g h).
  set (L := fun e (v : B -> vec) b => mvec n (rho e) (v b)).
  destruct (action_comp s x g h Hc Hg Hh Eg Eh) as (y & z & w & H1 & H2 & H3 & H4). fold gh in H3.
  destruct (compose_form s g h Hc Hg Hh) as (K1 & _). fold gh in K1.
  pose proof (exact_combine s g h Hc Hg Hh Eg Eh) as Egh. fold gh in Egh.
  exists (amap (L h) y), (amap (L g) (amap (L h) z)), (amap (L gh) w).
  split; [apply (action_amap (L h)); auto|].
  split; [apply (action_amap (L g) s (amap (L h) y)); auto; apply (action_amap (L h)); auto|].
  split; [apply (action_amap (L gh)); auto|].
  destruct H4 as (E1 & E2 & E3). split; [exact E1|]. split; [exact E2|]. cbn. intros i j b c Hi Hj Hc'.
  rewrite <- E3 by auto. unfold L.
  transitivity (mvec n (mmul n (rho g) (rho h)) (a_px z i j b) c).
  - symmetry. apply mvec_mmul.
  - unfold mvec. apply rsum_ext. intros k Hk. f_equal. symmetry. apply (Hop g h Hg Hh c k); auto.
Qed.

Lemma featurefield_id {B} s rg n rho (x : arr (B -> vec)) :
  constructed s -> rg = sp_group s ->
  is_representation (fun e => fg_is_element (sp_group s) e = true) (fg_combine (sp_group s)) (fg_identity (sp_group s)) n rho ->
  exists y, featurefield_action interp s rg n rho x (fg_identity (sp_group s)) = Ok y /\ same_field n y x.
Proof.
  intros Hc -> [Hid Hop]. unfold featurefield_action. rewrite fg_eqb_refl. cbn [assert_].
  rewrite action_id by auto. eexists; split; [reflexivity|]. split; [auto|]. split; [auto|]. cbn. intros.
  transitivity (mvec n mid (a_px x i j b) c).
  - unfold mvec. apply rsum_ext. intros k Hk. rewrite Hid by auto. auto.
  - apply mvec_id; auto.
Qed.

(** ** restriction *)
Lemma o2_fin_order a M s : o2_subgroup (a, M) = Ok (SubFin s) ->
  (match s with SubC K _ _ => 0 < K | SubD K _ _ => 0 < K end)%Z.
Proof.
  unfold o2_subgroup, cyc_group, dih_group. cbn [fst snd]. unfold assert_. intros E.
  destruct a as [a|];
  repeat match type of E with context [if ?b then _ else _] => destruct b eqn:?; cbn [rbind] in E; try discriminate E end;
  inversion E; subst; lia.
Qed.

Lemma sub_spec g id sub mapping child : group_object g -> fg_subgroup g id = Ok (sub, mapping, child) ->
  group_object sub /\ (forall h, fg_is_element sub h = true -> fg_is_element g (mapping h) = true).
Proof.
  intros Hg H. destruct g as [N|N|F|F], id as [M|a M|a M]; cbn [fg_subgroup] in H; try discriminate H.
  - destruct (cyc_subgroup N M) as [[[M' p] c]|] eqn:E; [|discriminate]. cbn in H. inversion H; subst.
    cbn in Hg. pose proof (proj1 (cyc_subgroup_ok N M Hg) (ex_intro _ _ E)) as [HM _].
    destruct (cyc_subgroup_spec _ _ _ _ _ Hg E) as (-> & Hem & _). split; [exact HM|].
    intros [h| | |] Hh; try discriminate Hh. apply (em_el _ _ _ _ _ _ _ _ _ Hem h Hh).
  - destruct (dih_subgroup N (a, M)) as [s|] eqn:E; [|discriminate]. cbn in H. cbn in Hg.
    pose proof (proj1 (dih_subgroup_ok N _ Hg) (ex_intro _ _ E)) as HM.
    pose proof (dih_subgroup_spec N _ s Hg E) as Hs. destruct s as [M' p c|M' p c]; cbn in H; inversion H; subst.
    + destruct Hs as (HM' & Hem & _). split.
      { destruct HM as [HM _]. cbn in HM, HM' |- *. destruct a; lia. }
      intros [h| | |] Hh; try discriminate Hh. cbn. pose proof (em_el _ _ _ _ _ _ _ _ _ Hem h Hh) as K.
      unfold dih_el in K. rewrite <- surjective_pairing. exact K.
    + destruct Hs as (HM' & Hem & _). split. { destruct HM as [HM _]. cbn in HM, HM' |- *. lia. }
      intros [h| |f h|] Hh; try discriminate Hh. cbn. pose proof (em_el _ _ _ _ _ _ _ _ _ Hem (f, h) Hh) as K.
      unfold dih_el in K. rewrite <- surjective_pairing. exact K.
  - destruct (so2_subgroup M) as [s|] eqn:E; [|discriminate]. cbn in H.
    destruct (so2_subgroup_spec _ _ E) as (p & c & -> & HM & _). cbn in H. inversion H; subst. split; [exact HM|].
    intros [h| | |] Hh; try discriminate Hh. reflexivity.
  - destruct (o2_subgroup (a, M)) as [s|] eqn:E; [|discriminate]. cbn in H.
    pose proof (o2_fin_subgroup_spec _ _ E) as Hs.
    destruct s as [p c|p c|[M' p c|M' p c]]; cbn in H; inversion H; subst; clear H.
    + split; [exact Hg|]. destruct Hs as [Hem _]. intros [| | |f h] Hh; try discriminate Hh. cbn.
      rewrite <- surjective_pairing. apply (em_el _ _ _ _ _ _ _ _ _ Hem (f, h) Hh).
    + split; [exact Hg|]. destruct Hs as [Hem _]. intros [|h | |] Hh; try discriminate Hh. cbn.
      rewrite <- surjective_pairing. apply (em_el _ _ _ _ _ _ _ _ _ Hem h). exact I.
    + destruct Hs as [Hem _]. split; [apply (o2_fin_order _ _ _ E)|].
      intros [h| | |] Hh; try discriminate Hh. cbn. rewrite <- surjective_pairing.
      apply (em_el _ _ _ _ _ _ _ _ _ Hem h Hh).
    + destruct Hs as [Hem _]. split; [apply (o2_fin_order _ _ _ E)|].
      intros [| |f h|] Hh; try discriminate Hh. cbn. rewrite <- surjective_pairing.
      apply (em_el _ _ _ _ _ _ _ _ _ Hem (f, h) Hh).
Qed.

Lemma new_axis_D N axis a : (0 < N)%Z ->
  cong2pi (2 * fliprot_new_axis (GD N) axis a) (2 * axis + 2 * PI * a / IZR N).
Proof.
  intros HN. unfold fliprot_new_axis. cbn [fg_order fg_rotation_order].
  replace (1 <? 2 * N)%Z with true by lia.
  assert (IZR N <> 0) by (apply not_0_IZR; lia).
  eapply cong2pi_trans; [eapply (cong2pi_mulZ _ _ 2); apply cong2pi_rmod|]. apply cong2pi_eq. field. auto.
Qed.
Lemma new_axis_O F axis a : cong2pi (2 * fliprot_new_axis (GO2 F) axis a) (2 * axis + a).
Proof.
  unfold fliprot_new_axis. cbn [fg_order fg_rotation_order].
  eapply cong2pi_trans; [eapply (cong2pi_mulZ _ _ 2); apply cong2pi_rmod|]. apply cong2pi_eq.
  replace (1 <? -1)%Z with false by reflexivity. field.
Qed.

(** success of restrict is success of subgroup *)
Lemma restrict_total s id r : constructed s -> fg_subgroup (sp_group s) id = Ok r ->
  exists s', sp_restrict s id = Ok (s', snd (fst r), snd r).
Proof.
  destruct r as [[sub mapping] child]. intros Hc H. unfold sp_restrict. rewrite H. cbn [rbind fst snd].
  sp_cases s Hc; cbn [sp_group] in H; destruct id as [M|a M|a M]; cbn [fg_subgroup] in H; try discriminate H; cbn [id_order id_axis].
  - destruct (cyc_subgroup N M) as [[[M' p] c]|] eqn:E; [|discriminate]. cbn in H. inversion H; subst.
    pose proof (proj1 (cyc_subgroup_ok N M Hgo) (ex_intro _ _ E)) as [HM Hd].
    destruct (cyc_subgroup_spec _ _ _ _ _ Hgo E) as (-> & _ & _).
    assert (N = 1)%Z as -> by (destruct (Z.eqb_spec N 1); [auto|discriminate]).
    assert (M = 1)%Z as ->. { destruct (Z.eq_dec M 1); auto. rewrite Z.mod_small in Hd by lia. discriminate. }
    cbn. eexists; reflexivity.
  - destruct (cyc_subgroup N M) as [[[M' p] c]|] eqn:E; [|discriminate]. cbn in H. inversion H; subst.
    pose proof (proj1 (cyc_subgroup_ok N M Hgo) (ex_intro _ _ E)) as [HM Hd].
    destruct (cyc_subgroup_spec _ _ _ _ _ Hgo E) as (-> & _ & _).
    assert (N = 2)%Z as -> by (destruct (Z.eqb_spec N 2); [auto|discriminate]).
    assert (M = 1 \/ M = 2)%Z as [-> | ->].
    { destruct (Z.eq_dec M 1); auto. destruct (Z.eq_dec M 2); auto. rewrite Z.mod_small in Hd by lia. discriminate. }
    all: cbn; eexists; reflexivity.
  - destruct (cyc_subgroup N M) as [[[M' p] c]|] eqn:E; [|discriminate]. cbn in H. inversion H; subst.
    pose proof (proj1 (cyc_subgroup_ok N M Hgo) (ex_intro _ _ E)) as [HM Hd].
    destruct (cyc_subgroup_spec _ _ _ _ _ Hgo E) as (-> & _ & _).
    destruct (1 <? M)%Z eqn:E1.
    + unfold rot2d_on_r2, fg_order. rewrite E1. cbn. eexists; reflexivity.
    + assert (M = 1)%Z as -> by lia. cbn. eexists; reflexivity.
  - destruct (so2_subgroup M) as [s|] eqn:E; [|discriminate]. cbn in H.
    destruct (so2_subgroup_spec _ _ E) as (p & c & -> & HM & _). cbn in H. inversion H; subst.
    destruct (1 <? M)%Z eqn:E1.
    + unfold rot2d_on_r2, fg_order. rewrite E1. cbn. eexists; reflexivity.
    + assert (M = 1)%Z as -> by lia. cbn. eexists; reflexivity.
  - destruct (dih_subgroup N (a, M)) as [s|] eqn:E; [|discriminate]. cbn in H.
    pose proof (proj1 (dih_subgroup_ok N _ Hgo) (ex_intro _ _ E)) as HM. unfold dih_valid_id in HM. cbn in HM.
    unfold dih_subgroup, cyc_group, dih_group in E. cbn [fst snd] in E. unfold assert_ in E.
    destruct a as [a|]; cbn [option_map].
    + repeat match type of E with context [if ?b then _ else _] => destruct b eqn:?; cbn [rbind] in E; try discriminate E end;
      inversion E; subst; cbn in H; inversion H; subst.
      * cbn. eexists; reflexivity.
      * unfold fliprot2d_on_r2, fg_rotation_order. replace (1 <? M)%Z with true by lia. cbn. eexists; reflexivity.
    + repeat match type of E with context [if ?b then _ else _] => destruct b eqn:?; cbn [rbind] in E; try discriminate E end;
      inversion E; subst; cbn in H; inversion H; subst.
      destruct (M =? 1)%Z eqn:E1.
      * assert (M = 1)%Z as -> by lia. cbn. eexists; reflexivity.
      * replace (1 <? M)%Z with true by lia. cbn [orb].
        unfold rot2d_on_r2, fg_order. replace (1 <? M)%Z with true by lia. cbn. eexists; reflexivity.
  - destruct (o2_subgroup (a, M)) as [s|] eqn:E; [|discriminate]. cbn in H.
    unfold o2_subgroup, cyc_group, dih_group in E. cbn [fst snd] in E. unfold assert_ in E.
    destruct a as [a|].
    + repeat match type of E with context [if ?b then _ else _] => destruct b eqn:?; cbn [rbind] in E; try discriminate E end;
      inversion E; subst; cbn in H; inversion H; subst.
      all: try (replace (M =? 1)%Z with false by lia).
      all: unfold fliprot2d_on_r2, fg_rotation_order; try (replace (1 <? M)%Z with true by lia); cbn; eexists; reflexivity.
    + repeat match type of E with context [if ?b then _ else _] => destruct b eqn:?; cbn [rbind] in E; try discriminate E end;
      inversion E; subst; cbn in H; inversion H; subst.
      * assert (M = -1)%Z as -> by lia. cbn. eexists; reflexivity.
      * destruct (M =? 1)%Z eqn:E1.
        -- assert (M = 1)%Z as -> by lia. cbn. eexists; reflexivity.
        -- replace (1 <? M)%Z with true by lia. cbn [orb].
           unfold rot2d_on_r2, fg_order. replace (1 <? M)%Z with true by lia. cbn. eexists; reflexivity.
Qed.

Lemma restrict_form s id s' mapping child : constructed s -> sp_restrict s id = Ok (s', mapping, child) ->
  constructed s' /\
  fg_subgroup (sp_group s) id = Ok (sp_group s', mapping, child) /\
  forall h, fg_is_element (sp_group s') h = true ->
    fg_is_element (sp_group s) (mapping h) = true /\
    gflip s' h = gflip s (mapping h) /\ cong2pi (gangle s' h) (gangle s (mapping h)).
Proof.
  intros Hc H. unfold sp_restrict in H.
  destruct (fg_subgroup (sp_group s) id) as [[[sub mp] ch]|] eqn:E; [|discriminate].
  destruct (sub_spec _ _ _ _ _ (proj1 Hc) E) as [Hsub Hel]. cbn [rbind] in H.
  (* what the constructors return *)
  assert (Ht : forall x s', rbind (trivial_on_r2 sub) (fun s' => Ok (s', mp, ch)) = Ok (s', mapping, child) ->
     x = s' -> s' = SpTrivial sub /\ constructed s' /\ mp = mapping /\ ch = child).
  { intros x s0 Hx _. unfold trivial_on_r2, assert_ in Hx. destruct sub as [K| | |]; try discriminate.
    destruct (K =? 1)%Z eqn:EK; [|discriminate]. inversion Hx; subst. split; [auto|]. split; [|auto].
    split; [exact Hsub|]. cbn. rewrite EK. auto. }
  assert (Hf : forall ax s', rbind (flip2d_on_r2 ax sub) (fun s' => Ok (s', mp, ch)) = Ok (s', mapping, child) ->
     s' = SpFlip sub ax /\ constructed s' /\ mp = mapping /\ ch = child).
  { intros ax s0 Hx. unfold flip2d_on_r2, assert_ in Hx. destruct sub as [K| | |]; try discriminate.
    destruct (K =? 2)%Z eqn:EK; [|discriminate]. inversion Hx; subst. split; [auto|]. split; [|auto].
    split; [exact Hsub|]. cbn. rewrite EK. auto. }
  assert (Hr : forall s', rbind (rot2d_on_r2 sub) (fun s' => Ok (s', mp, ch)) = Ok (s', mapping, child) ->
     s' = SpRot sub /\ constructed s' /\ mp = mapping /\ ch = child).
  { intros s0 Hx. assert (Hx' := Hx). unfold rot2d_on_r2 in Hx. destruct sub as [K|K|K|K]; cbn in Hx; try discriminate.
    - destruct (1 <? K)%Z eqn:EK; [|destruct (K =? -1)%Z eqn:EK'; [cbn in Hsub; lia|discriminate]].
      inversion Hx; subst. split; [auto|]. split; [|auto]. split; [exact Hsub|]. cbn. unfold rot2d_on_r2, fg_order. rewrite EK. auto.
    - inversion Hx; subst. split; [auto|]. split; [|auto]. split; [exact Hsub|]. cbn. auto. }
  assert (Hfr : forall ax s', rbind (fliprot2d_on_r2 sub ax) (fun s' => Ok (s', mp, ch)) = Ok (s', mapping, child) ->
     s' = SpFlipRot sub ax /\ constructed s' /\ mp = mapping /\ ch = child).
  { intros ax s0 Hx. unfold fliprot2d_on_r2 in Hx. destruct sub as [K|K|K|K]; cbn in Hx; try discriminate.
    - destruct (1 <? K)%Z eqn:EK; [|destruct (K =? -1)%Z eqn:EK'; [cbn in Hsub; lia|discriminate]].
      inversion Hx; subst. split; [auto|]. split; [|auto]. split; [exact Hsub|]. cbn. unfold fliprot2d_on_r2, fg_rotation_order. rewrite EK. auto.
    - inversion Hx; subst. split; [auto|]. split; [|auto]. split; [exact Hsub|]. cbn. auto. }
  sp_cases s Hc; cbn [sp_group] in *; destruct id as [M|a M|a M]; cbn [fg_subgroup] in E; try discriminate E; cbn [id_order id_axis] in H.
  - (* Trivial *)
    destruct (Ht s' s' H eq_refl) as (-> & Hc' & -> & ->). split; [auto|]. split; [auto|].
    intros h Hh. split; [apply Hel; exact Hh|].
    destruct (cyc_subgroup N M) as [[[M' p] c]|]; [|discriminate]. cbn in E. inversion E; subst.
    destruct h; try discriminate Hh. cbn. split; [auto|]. apply cong2pi_refl.
  - (* Flip *)
    destruct (cyc_subgroup N M) as [[[M' p] c]|] eqn:E1; [|discriminate]. cbn in E.
    destruct (cyc_subgroup_spec _ _ _ _ _ Hgo E1) as (-> & _ & _).
    pose proof (proj1 (cyc_subgroup_ok N M Hgo) (ex_intro _ _ E1)) as [HM Hd].
    assert (N = 2)%Z as -> by (destruct (Z.eqb_spec N 2); [auto|discriminate]).
    unfold cyc_subgroup, py_mod, cyc_group, assert_ in E1.
    repeat match type of E1 with context [if ?b then _ else _] => destruct b eqn:?; cbn [rbind] in E1; try discriminate E1 end.
    inversion E1; subst p c. inversion E; subst sub mp ch.
    destruct (Z.eqb_spec M 1) as [->|n].
    + destruct (Ht s' s' H eq_refl) as (-> & Hc' & <- & <-). split; [auto|]. split; [cbn; auto|].
      intros [h| | |] Hh; try discriminate Hh. split; [apply (Hel (EI h)); exact Hh|]. cbn in Hh. unfold cyc_is_element in Hh.
      assert (h = 0)%Z as -> by lia. cbn. split; [auto|apply cong2pi_refl].
    + destruct (Hf _ s' H) as (-> & Hc' & <- & <-). split; [auto|]. split; [cbn; auto|].
      assert (M = 2)%Z as ->. { destruct (Z.eq_dec M 2); auto. rewrite Z.mod_small in Hd by lia. discriminate. }
      intros [h| | |] Hh; try discriminate Hh. split; [apply (Hel (EI h)); exact Hh|]. cbn.
      replace (h * 1)%Z with h by lia. split; [auto|apply cong2pi_refl].
  - (* Rot, C_N *)
    destruct (cyc_subgroup N M) as [[[M' p] c]|] eqn:E1; [|discriminate]. cbn in E.
    destruct (cyc_subgroup_spec _ _ _ _ _ Hgo E1) as (-> & _ & _).
    pose proof (proj1 (cyc_subgroup_ok N M Hgo) (ex_intro _ _ E1)) as [HM Hd].
    unfold cyc_subgroup, py_mod, cyc_group, assert_ in E1.
    repeat match type of E1 with context [if ?b then _ else _] => destruct b eqn:?; cbn [rbind] in E1; try discriminate E1 end.
    inversion E1; subst p c. inversion E; subst sub mp ch.
    assert (HNM : N = (M * (N / M))%Z) by (pose proof (Z.div_mod N M ltac:(lia)); lia).
    assert (HR : IZR N = IZR M * IZR (N / M)) by (rewrite <- mult_IZR; f_equal; exact HNM).
    assert (IZR M <> 0) by (apply not_0_IZR; lia). assert (IZR N <> 0) by (apply not_0_IZR; lia).
    assert (IZR (N/M) <> 0) by (intros Q; rewrite Q in HR; lra).
    assert (Hang : forall h, 2 * PI * IZR h / IZR M = 2 * PI * IZR (h * (N / M)) / IZR N).
    { intros h. rewrite HR, mult_IZR. field. auto. }
    destruct (1 <? M)%Z eqn:EM.
    + destruct (Hr s' H) as (-> & Hc' & <- & <-). split; [auto|]. split; [cbn; auto|].
      intros [h| | |] Hh; try discriminate Hh. split; [apply (Hel (EI h)); exact Hh|]. cbn. split; [auto|].
      apply cong2pi_eq, Hang.
    + destruct (M =? 1)%Z eqn:EM1; [|discriminate H]. assert (M = 1)%Z as -> by lia.
      destruct (Ht s' s' H eq_refl) as (-> & Hc' & <- & <-). split; [auto|]. split; [cbn; auto|].
      intros [h| | |] Hh; try discriminate Hh. split; [apply (Hel (EI h)); exact Hh|]. cbn in Hh. unfold cyc_is_element in Hh.
      assert (h = 0)%Z as -> by lia. cbn. split; [auto|]. apply cong2pi_eq. field. auto.
  - (* Rot, SO(2) *)
    destruct (so2_subgroup M) as [s|] eqn:E1; [|discriminate]. cbn in E.
    destruct (so2_subgroup_spec _ _ E1) as (p & c & -> & HM & _).
    unfold so2_subgroup, cyc_group, assert_ in E1. replace (0 <? M)%Z with true in E1 by lia. cbn in E1.
    inversion E1; subst p c. inversion E; subst sub mp ch.
    assert (IZR M <> 0) by (apply not_0_IZR; lia).
    destruct (1 <? M)%Z eqn:EM.
    + destruct (Hr s' H) as (-> & Hc' & <- & <-). split; [auto|]. split; [cbn; auto|].
      intros [h| | |] Hh; try discriminate Hh. split; [apply (Hel (EI h)); exact Hh|]. cbn. split; [auto|].
      apply cong2pi_eq. field; auto.
    + destruct (M =? 1)%Z eqn:EM1; [|discriminate H]. assert (M = 1)%Z as -> by lia.
      destruct (Ht s' s' H eq_refl) as (-> & Hc' & <- & <-). split; [auto|]. split; [cbn; auto|].
      intros [h| | |] Hh; try discriminate Hh. split; [apply (Hel (EI h)); exact Hh|]. cbn in Hh. unfold cyc_is_element in Hh.
      assert (h = 0)%Z as -> by lia. cbn. split; [auto|]. apply cong2pi_eq. field.
  - (* FlipRot, D_N *)
    destruct (dih_subgroup N (a, M)) as [s|] eqn:E1; [|discriminate]. cbn in E.
    pose proof (proj1 (dih_subgroup_ok N _ Hgo) (ex_intro _ _ E1)) as HM. unfold dih_valid_id in HM. cbn [fst snd] in HM.
    destruct HM as (HM & Hd & _).
    assert (HNM : N = (M * (N / M))%Z) by (pose proof (Z.div_mod N M ltac:(lia)); lia).
    assert (HR : IZR N = IZR M * IZR (N / M)) by (rewrite <- mult_IZR; f_equal; exact HNM).
    assert (IZR M <> 0) by (apply not_0_IZR; lia). assert (IZR N <> 0) by (apply not_0_IZR; lia).
    assert (IZR (N/M) <> 0) by (intros Q; rewrite Q in HR; lra).
    assert (Hang : forall h, 2 * PI * IZR h / IZR M = 2 * PI * IZR (h * (N / M)) / IZR N).
    { intros h. rewrite HR, mult_IZR. field. auto. }
    unfold dih_subgroup, cyc_group, dih_group in E1. cbn [fst snd] in E1. unfold assert_ in E1.
    destruct a as [a|]; cbn [option_map] in H.
    + pose proof (new_axis_D N axis (IZR a) Hgo) as Hax.
      repeat match type of E1 with context [if ?b then _ else _] => destruct b eqn:?; cbn [rbind] in E1; try discriminate E1 end;
      inversion E1; subst s; inversion E; subst sub mp ch.
      * destruct (Hf _ s' H) as (-> & Hc' & <- & <-). split; [auto|]. split; [cbn; auto|].
        intros [h| | |] Hh; try discriminate Hh. split; [apply (Hel (EI h)); exact Hh|]. cbn in Hh. unfold cyc_is_element in Hh.
        cbn [gflip gangle in_int mk_EFI fst snd]. split; [auto|].
        assert (h = 0 \/ h = 1)%Z as [-> | ->] by lia; cbn [Z.eqb].
        { apply cong2pi_eq. rewrite Z.mul_0_r. field. auto. }
        eapply cong2pi_trans; [exact Hax|]. apply cong2pi_eq. rewrite Z.mul_1_r. field. auto.
      * destruct (Hfr _ s' H) as (-> & Hc' & <- & <-). split; [auto|]. split; [cbn; auto|].
        intros [| |f h|] Hh; try discriminate Hh. split; [apply (Hel (EFI f h)); exact Hh|]. cbn [fg_is_element sp_group] in Hh.
        apply dih_elZ in Hh. destruct Hh as [Hf01 _].
        cbn [gflip gangle in_flipint mk_EFI fst snd]. split; [auto|]. rewrite Hang.
        destruct Hf01 as [-> | ->]; cbn [Z.eqb].
        { apply cong2pi_eq. do 4 f_equal. lia. }
        eapply cong2pi_trans; [apply cong2pi_plus; [apply cong2pi_refl|exact Hax]|].
        apply cong2pi_eq. rewrite plus_IZR, !mult_IZR. field. auto.
    + repeat match type of E1 with context [if ?b then _ else _] => destruct b eqn:?; cbn [rbind] in E1; try discriminate E1 end;
      inversion E1; subst s; inversion E; subst sub mp ch.
      destruct (M =? 1)%Z eqn:EM.
      * assert (M = 1)%Z as -> by lia.
        destruct (Ht s' s' H eq_refl) as (-> & Hc' & <- & <-). split; [auto|]. split; [cbn; auto|].
        intros [h| | |] Hh; try discriminate Hh. split; [apply (Hel (EI h)); exact Hh|]. cbn in Hh. unfold cyc_is_element in Hh.
        assert (h = 0)%Z as -> by lia. cbn. split; [auto|]. apply cong2pi_eq. field. auto.
      * match type of H with (if ?b then _ else _) = _ => destruct b; [|discriminate H] end.
        destruct (Hr s' H) as (-> & Hc' & <- & <-). split; [auto|]. split; [cbn; auto|].
        intros [h| | |] Hh; try discriminate Hh. split; [apply (Hel (EI h)); exact Hh|]. cbn. split; [auto|].
        apply cong2pi_eq. rewrite Hang. ring.
  - (* FlipRot, O(2) *)
    destruct (o2_subgroup (a, M)) as [s|] eqn:E1; [|discriminate]. cbn in E.
    unfold o2_subgroup, cyc_group, dih_group in E1. cbn [fst snd] in E1. unfold assert_ in E1.
    destruct a as [a|]; cbn [option_map] in H.
    + pose proof (new_axis_O F axis a) as Hax.
      repeat match type of E1 with context [if ?b then _ else _] => destruct b eqn:?; cbn [rbind] in E1; try discriminate E1 end;
      inversion E1; subst s; inversion E; subst sub mp ch; clear E1.
      all: try (replace (M =? 1)%Z with false in H by lia).
      all: try (destruct (Hfr _ s' H) as (-> & Hc' & <- & <-)).
      all: try (destruct (Hf _ s' H) as (-> & Hc' & <- & <-)).
      all: split; [auto|]; split; [cbn; auto|].
      all: intros h Hh; split; [apply Hel; exact Hh|]; destruct h as [h|h|f h|f h]; try discriminate Hh; cbn [sp_group fg_is_element] in Hh.
      all: cbn [gflip gangle in_int in_flipint in_flipreal mk_EFR fst snd]; split; [auto|].
      all: try (assert (IZR M <> 0) by (apply not_0_IZR; lia)).
      all: try (unfold cyc_is_element in Hh; assert (h = 0 \/ h = 1)%Z as Hf01 by lia).
      all: try (apply dih_elZ in Hh; destruct Hh as [Hf01 _]).
      all: try (unfold o2_is_element in Hh; cbn [fst] in Hh; assert (f = 0 \/ f = 1)%Z as Hf01 by lia).
      all: destruct Hf01 as [-> | ->]; cbn [Z.eqb].
      all: try (apply cong2pi_eq; field; auto; fail).
      all: try (eapply cong2pi_trans; [apply cong2pi_plus; [apply cong2pi_refl|exact Hax]|]; apply cong2pi_eq; field; auto; fail).
      all: try (eapply cong2pi_trans; [exact Hax|]; apply cong2pi_eq; field; auto; fail).
    + repeat match type of E1 with context [if ?b then _ else _] => destruct b eqn:?; cbn [rbind] in E1; try discriminate E1 end;
      inversion E1; subst s; inversion E; subst sub mp ch; clear E1.
      * assert (M = -1)%Z as -> by lia. cbn in H.
        destruct (Hr s' H) as (-> & Hc' & <- & <-). split; [auto|]. split; [cbn; auto|].
        intros [|h | |] Hh; try discriminate Hh. split; [apply (Hel (ER h)); exact Hh|]. cbn. split; [auto|].
        apply cong2pi_eq. ring.
      * assert (IZR M <> 0) by (apply not_0_IZR; lia).
        destruct (M =? 1)%Z eqn:EM.
        -- assert (M = 1)%Z as -> by lia.
           destruct (Ht s' s' H eq_refl) as (-> & Hc' & <- & <-). split; [auto|]. split; [cbn; auto|].
           intros [h| | |] Hh; try discriminate Hh. split; [apply (Hel (EI h)); exact Hh|]. cbn in Hh. unfold cyc_is_element in Hh.
           assert (h = 0)%Z as -> by lia. cbn. split; [auto|]. apply cong2pi_eq. field.
        -- match type of H with (if ?b then _ else _) = _ => destruct b; [|discriminate H] end.
           destruct (Hr s' H) as (-> & Hc' & <- & <-). split; [auto|]. split; [cbn; auto|].
           intros [h| | |] Hh; try discriminate Hh. split; [apply (Hel (EI h)); exact Hh|]. cbn. split; [auto|].
           apply cong2pi_eq. field. auto.
Qed.

Lemma restrict_compatible s id s' mapping child : constructed s -> sp_restrict s id = Ok (s', mapping, child) ->
  forall h, fg_is_element (sp_group s') h = true ->
    (forall p, plane_action s' h p = plane_action s (mapping h) p) /\
    (forall A (x : arr A), act s' x h = act s x (mapping h)).
Proof.
  intros Hc H h Hh. destruct (restrict_form _ _ _ _ _ Hc H) as (Hc' & _ & Hm).
  destruct (Hm h Hh) as (H1 & H2 & H3). split.
  - intros p. rewrite !plane_action_form by auto. rewrite H2. apply rotate_cong, H3.
  - intros A x. rewrite !action_form by auto. rewrite H2. f_equal. apply rotate_array_cong, H3.
Qed.
End Act.
