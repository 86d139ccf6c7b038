(** Concatenated and vector-field non-linearities. *)
From Coq Require Import Reals ZArith String List Bool Lia Lra FunctionalExtensionality.
From Verif Require Import Base Spec_Fields Model_Groups Model_Rep Model_FieldType Model_Tensor Model_Utils Model_Fieldwise Spec_Fieldwise Spec_Fieldwise2
  Proofs_FieldType Proofs_Tensor Proofs_Utils Proofs_Fieldwise Proofs_Fieldwise2 Proofs_Fieldwise3 Proofs_Fieldwise4 Proofs_Fieldwise5 Proofs_Fieldwise8 Proofs_Fieldwise9.
Import ListNotations.
Open Scope R_scope.

(** * Concatenated *)
Lemma nz_true a : nz a = true <-> a <> 0.
Proof. unfold nz. destruct (Req_EM_T a 0); split; congruence. Qed.
Lemma conc_signed s M B : conc_ok s M = true -> meq s s (mmul s M B) mid -> is_signed_perm s M.
Proof.
  intros H I. unfold conc_ok in H. apply andb_prop in H as [H H3]. apply andb_prop in H as [H1 H2]. rewrite forallb_forall in H1. rewrite forallb_forall in H3.
  set (fnd := fun i => List.find (fun j => nz (M i j)) (seq 0 s)) in *.
  assert (NE : forall i, (i < s)%nat -> exists j, (j < s)%nat /\ fnd i = Some j /\ M i j <> 0).
  { intros i Hi. destruct (fnd i) as [j|] eqn:E.
    - exists j. apply find_some in E as [E1 E2]. apply in_seq in E1. apply nz_true in E2. split; [lia|auto].
    - exfalso. specialize (I i i Hi Hi). unfold mmul, mid in I. rewrite Nat.eqb_refl in I. rewrite rsum_0 in I; [lra|]. intros j Hj.
      assert (Z : nz (M i j) = false) by (apply (find_none _ _ E); apply in_seq; lia). unfold nz in Z. destruct (Req_EM_T (M i j) 0) as [->|]; [ring|discriminate]. }
  set (sg := fun i => match fnd i with Some j => j | None => 0%nat end).
  assert (SG : forall i, (i < s)%nat -> (sg i < s)%nat /\ fnd i = Some (sg i) /\ M i (sg i) <> 0).
  { intros i Hi. destruct (NE i Hi) as (j & J1 & J2 & J3). unfold sg. rewrite J2. auto. }
  assert (V : forall i j, (i < s)%nat -> (j < s)%nat -> M i j = 1 \/ M i j = -1 \/ M i j = 0).
  { intros i j Hi Hj. specialize (H3 i ltac:(apply in_seq; lia)). rewrite forallb_forall in H3. specialize (H3 j ltac:(apply in_seq; lia)).
    destruct (Req_EM_T (M i j) 1); auto. destruct (Req_EM_T (M i j) (-1)); auto. right; right. unfold nz in H3. destruct (Req_EM_T (M i j) 0); auto. discriminate. }
  assert (U : forall i j, (i < s)%nat -> (j < s)%nat -> M i j <> 0 -> j = sg i).
  { intros i j Hi Hj N. destruct (SG i Hi) as (S1 & _ & S3). specialize (H1 i ltac:(apply in_seq; lia)). apply Nat.leb_le in H1.
    destruct (Nat.eq_dec j (sg i)) as [E|E]; auto. exfalso.
    assert (P : forall a, (a < s)%nat -> M i a <> 0 -> In a (filter (fun j => nz (M i j)) (seq 0 s))). { intros a Ha Na. apply filter_In. split; [apply in_seq; lia|apply nz_true; auto]. }
    pose proof (P j Hj N) as P1. pose proof (P (sg i) S1 S3) as P2. destruct (filter (fun j => nz (M i j)) (seq 0 s)) as [|a [|b l]]; [destruct P1| |cbn in H1; lia].
    destruct P1 as [P1|[]], P2 as [P2|[]]. congruence. }
  exists sg, (fun i => M i (sg i)). split; [|split].
  - split; [intros i Hi; apply SG; auto|]. intros i j Hi Hj E.
    apply Nat.eqb_eq in H2. assert (ND : NoDup (map (fun i => match fnd i with Some j => Z.of_nat j | None => (-1)%Z end) (seq 0 s))).
    { set (e := map _ (seq 0 s)) in *. assert (Hinc : incl (nodup Z.eq_dec e) e) by (intros a Ha; apply nodup_In in Ha; auto).
      apply (NoDup_incl_NoDup (NoDup_nodup Z.eq_dec e)); [|auto]; cbv zeta in H2; fold e in H2; lia. }
    assert (E' : nth i (map (fun i => match fnd i with Some j => Z.of_nat j | None => (-1)%Z end) (seq 0 s)) 0%Z = nth j (map (fun i => match fnd i with Some j => Z.of_nat j | None => (-1)%Z end) (seq 0 s)) 0%Z).
    { rewrite !(nth_indep _ 0%Z (match fnd 0%nat with Some j => Z.of_nat j | None => (-1)%Z end)) by (rewrite map_length, seq_length; auto).
      rewrite !(map_nth (fun i => match fnd i with Some j => Z.of_nat j | None => (-1)%Z end)), !seq_nth by auto. cbn [Nat.add].
      destruct (SG i Hi) as (_ & -> & _), (SG j Hj) as (_ & -> & _). congruence. }
    rewrite NoDup_nth in ND. apply (ND i j); rewrite ?map_length, ?seq_length; eauto.
  - intros i Hi. destruct (SG i Hi) as (S1 & _ & S3). destruct (V i (sg i) Hi S1) as [->|[->|E]]; auto. congruence.
  - intros i j Hi Hj. destruct (Nat.eqb_spec j (sg i)) as [->|N]; auto. destruct (Req_EM_T (M i j) 0) as [E|E]; auto. exfalso. apply N. apply U; auto.
Qed.

Section Conc.
Context {X : Type}.
Notation chan := (X -> R).
Implicit Types (pi : X -> X) (b : list chan).

Lemma conc_act_length f b : length (conc_act f b) = (length b * 2)%nat.
Proof. unfold conc_act. induction b as [|c b IH]; [reflexivity|]. cbn [map concat app length]. rewrite IH. lia. Qed.
Lemma conc_act_val f b a p : (a < length b)%nat -> val (conc_act f b) (a * 2 + 0) p = f (val b a p) /\ val (conc_act f b) (a * 2 + 1) p = f (- val b a p).
Proof.
  revert a. induction b as [|c b IH]; intros a H; [cbn in H; lia|]. destruct a as [|a]; [split; reflexivity|]. cbn in H. destruct (IH a ltac:(lia)) as [I1 I2].
  replace (S a * 2 + 0)%nat with (S (S (a * 2 + 0)))%nat by lia. replace (S a * 2 + 1)%nat with (S (S (a * 2 + 1)))%nat by lia. split; [exact I1|exact I2].
Qed.
Lemma conc_mat_at A s e n a c u v : bij n s -> (forall i, (i < n)%nat -> e i = 1 \/ e i = -1) ->
  (forall i j, (i < n)%nat -> (j < n)%nat -> A i j = if (j =? s i)%nat then e i else 0) -> (a < n)%nat -> (c < n)%nat -> (u < 2)%nat -> (v < 2)%nat ->
  conc_mat A (a * 2 + u)%nat (c * 2 + v)%nat = if (c =? s a)%nat then if Req_EM_T (e a) 1 then (if (u =? v)%nat then 1 else 0) else if (u =? v)%nat then 0 else 1 else 0.
Proof.
  intros B E H Ha Hc Hu Hv. unfold conc_mat. rewrite !Nat.div_add_l, !(Nat.div_small _ 2), !Nat.add_0_r by lia.
  rewrite !(Nat.add_comm (_ * 2)), !Nat.mod_add, !Nat.mod_small by lia. rewrite H by auto.
  destruct (Nat.eqb_spec c (s a)).
  - destruct (E a Ha) as [->| ->]; destruct (Req_EM_T 1 1); try lra; destruct (Req_EM_T (-1) 1); try lra; auto. destruct (Req_EM_T (-1) (-1)); [auto|lra].
  - destruct (Req_EM_T 0 1); [lra|]. destruct (Req_EM_T 0 (-1)); [lra|]. reflexivity.
Qed.
Lemma moved_conc n A pi f b b' : is_signed_perm n A -> moved n A pi b b' -> moved (n * 2) (conc_mat A) pi (conc_act f b) (conc_act f b').
Proof.
  intros (s & e & B & E & H) (L & L' & M). split; [rewrite conc_act_length; congruence|]. split; [rewrite conc_act_length; congruence|]. intros p i Hi.
  set (a := (i / 2)%nat). set (u := (i mod 2)%nat). assert (Ei : i = (a * 2 + u)%nat) by (unfold a, u; pose proof (Nat.div_mod i 2 ltac:(lia)); lia).
  assert (Hu : (u < 2)%nat) by (apply Nat.mod_upper_bound; lia). assert (Ha : (a < n)%nat) by (apply Nat.div_lt_upper_bound; lia). clearbody a u. subst i.
  rewrite rsum_blocks. rewrite (rsum_ext n _ (fun c => if (c =? s a)%nat then rsum 2 (fun v => (if Req_EM_T (e a) 1 then (if (u =? v)%nat then 1 else 0) else if (u =? v)%nat then 0 else 1) * val (conc_act f b) (c * 2 + v) (pi p)) else 0)).
  2:{ intros c Hc. destruct (Nat.eqb_spec c (s a)) as [Ec|N].
      - apply rsum_ext. intros v Hv. rewrite (conc_mat_at A s e n) by auto. rewrite Ec, Nat.eqb_refl. reflexivity.
      - apply rsum_0. intros v Hv. rewrite (conc_mat_at A s e n) by auto. apply Nat.eqb_neq in N. rewrite N. ring. }
  rewrite (rsum_at' n (s a) (fun c => rsum 2 (fun v => (if Req_EM_T (e a) 1 then (if (u =? v)%nat then 1 else 0) else if (u =? v)%nat then 0 else 1) * val (conc_act f b) (c * 2 + v) (pi p)))) by (apply B; auto).
  assert (V : val b' a p = e a * val b (s a) (pi p)). { rewrite M by auto. apply (rsum_perm n s A e a B H Ha (fun c => val b c (pi p))). }
  destruct (conc_act_val f b' a p ltac:(lia)) as [C0 C1]. destruct (conc_act_val f b (s a) (pi p) ltac:(rewrite L; apply B; auto)) as [D0 D1].
  cbn [rsum]. rewrite D0, D1.
  destruct u as [|[|u]]; [| |lia]; [rewrite C0|rewrite C1]; rewrite V; cbn [Nat.eqb]; destruct (E a Ha) as [->| ->]; destruct (Req_EM_T 1 1); try lra; destruct (Req_EM_T (-1) 1); try lra.
  - rewrite Rmult_1_l. ring.
  - replace (-1 * val b (s a) (pi p)) with (- val b (s a) (pi p)) by ring. ring.
  - rewrite Rmult_1_l. ring.
  - replace (- (-1 * val b (s a) (pi p))) with (val b (s a) (pi p)) by ring. ring.
Qed.
Lemma firstn_conc f n : forall b, firstn (n * 2) (conc_act f b) = conc_act f (firstn n b).
Proof. induction n as [|n IH]; intros b; [reflexivity|]. destruct b as [|c b]; [reflexivity|]. cbn [Nat.mul Nat.add]. unfold conc_act in *. cbn [map concat app firstn]. rewrite IH. reflexivity. Qed.
Lemma skipn_conc f n : forall b, skipn (n * 2) (conc_act f b) = conc_act f (skipn n b).
Proof. induction n as [|n IH]; intros b; [reflexivity|]. destruct b as [|c b]; [reflexivity|]. cbn [Nat.mul Nat.add]. unfold conc_act in *. cbn [map concat app skipn]. rewrite IH. reflexivity. Qed.
Lemma cut_conc f : forall ss b, cut (map (fun n => n * 2)%nat ss) (conc_act f b) = map (conc_act f) (cut ss b).
Proof. induction ss as [|n ss IH]; intros b; [reflexivity|]. cbn [map cut]. rewrite firstn_conc, skipn_conc, IH. reflexivity. Qed.
Lemma cut_concat {A} (bl : list (list A)) : cut (map (@length A) bl) (concat bl) = bl.
Proof.
  induction bl as [|b bl IH]; [reflexivity|]. cbn [map concat cut]. rewrite firstn_app, skipn_app, Nat.sub_diag, firstn_all, skipn_all, app_nil_r. cbn [app skipn]. rewrite IH. reflexivity.
Qed.
End Conc.

Section Modules.
Context {GS G X : Type} (fits : GS -> rep G -> bool) (gs_eqb : GS -> GS -> bool) (rp_eqb : rep G -> rep G -> bool).
Notation chan := (X -> R).
Notation ftype := (ftype GS (rep G)).
Notation gtensor := (gtensor GS (rep G) chan).
Implicit Types (t : ftype) (x y : gtensor) (pi : X -> X) (g : G).

Section C.
Context (elements : list G) (build : string -> nat -> (G -> mat) -> list string -> result (rep G)).
Hypothesis build_spec : forall name s M nl r, build name s M nl = Ok r -> rp_size r = s /\ forall g, In g elements -> meq s s (rp_mat r g) (M g).
Lemma conc_make_spec t fn m : conc_make fits elements build t fn = Ok m -> cc_in m = t /\ length (ft_reps (cc_out m)) = length (ft_reps t) /\
  map rp_size (ft_reps (cc_out m)) = map (fun n => n * 2)%nat (map rp_size (ft_reps t)) /\
  forall f r r', nth_error (ft_reps t) f = Some r -> nth_error (ft_reps (cc_out m)) f = Some r' ->
    rp_size r' = (rp_size r * 2)%nat /\ (forall g, In g elements -> conc_ok (rp_size r) (rp_mat r g) = true /\ meq (rp_size r') (rp_size r') (rp_mat r' g) (conc_mat (rp_mat r g))).
Proof.
  unfold conc_make. intros H. apply assert_ok in H as [_ H]. apply rbind_ok in H as (reps & H1 & H). apply rbind_ok in H as (out & H2 & H). apply rbind_ok in H as (fu & _ & H). injection H as <-.
  apply mk_ftype_ok in H2 as [-> _]. cbn [cc_in cc_out ft_reps]. split; [reflexivity|]. apply rmap_all in H1.
  assert (P : forall f r r', nth_error (ft_reps t) f = Some r -> nth_error reps f = Some r' -> rp_size r' = (rp_size r * 2)%nat /\
     (forall g, In g elements -> conc_ok (rp_size r) (rp_mat r g) = true /\ meq (rp_size r') (rp_size r') (rp_mat r' g) (conc_mat (rp_mat r g)))).
  { induction H1 as [|q q' rs rs' H _ IH]; intros [|f] r r' E E'; try discriminate; [|eapply IH; eauto]. injection E as ->. injection E' as ->.
    unfold conc_rep in H. destruct (forallb _ elements) eqn:FO; [|discriminate]. rewrite forallb_forall in FO. apply build_spec in H as [B1 B2].
    split; [lia|]. intros g Hg. split; [auto|]. rewrite B1. auto. }
  assert (LR : length reps = length (ft_reps t)) by (clear P; induction H1; cbn; auto).
  split; [auto|]. split; [|exact P]. apply nth_error_ext. intros f. rewrite !nth_error_map. destruct (nth_error (ft_reps t) f) as [r|] eqn:E.
  - destruct (nth_error reps f) as [r'|] eqn:E'; [|apply nth_error_None in E'; assert (f < length (ft_reps t))%nat by (apply nth_error_Some; congruence); lia].
    destruct (P f r r' E E') as [P1 _]. cbn. congruence.
  - apply nth_error_None in E. rewrite (proj2 (nth_error_None reps f)) by lia. reflexivity.
Qed.
Lemma nsum_double l : nsum (map (fun n => n * 2)%nat l) = (nsum l * 2)%nat.
Proof. induction l as [|a l IH]; [reflexivity|]. cbn [map]. change (nsum (a * 2 :: map (fun n => n * 2) l)%nat) with (a * 2 + nsum (map (fun n => n * 2) l))%nat. rewrite IH. change (nsum (a :: l)) with (a + nsum l)%nat. lia. Qed.
Lemma conc_fieldwise t fn m x : conc_make fits elements build t fn = Ok m -> typed gs_eqb rp_eqb t x -> exists y, conc_forward gs_eqb rp_eqb m x = Ok y /\ gt_type y = cc_out m /\
  fieldwise (ft_reps t) (ft_reps (cc_out m)) (fun _ => conc_act (cc_fun m)) (gt_data x) (gt_data y).
Proof.
  intros MK [TY LX]. destruct (conc_make_spec t fn m MK) as (E & LR & SZ & _). unfold conc_forward. rewrite E, TY. cbn [assert_].
  assert (EC : concat (map (fun c : chan => [(fun p => cc_fun m (c p)); (fun p => cc_fun m (-1 * c p))]) (gt_data x)) = conc_act (cc_fun m) (gt_data x)).
  { unfold conc_act. f_equal. apply map_ext. intros c. f_equal. f_equal. extensionality p. f_equal. ring. }
  rewrite EC. rewrite mk_gt_fwd. 2:{ rewrite conc_act_length, LX. unfold ft_size. rewrite SZ, nsum_double. reflexivity. }
  eexists. split; [reflexivity|]. split; [reflexivity|]. cbn [gt_data]. split; [auto|]. split; [rewrite conc_act_length, LX, SZ, nsum_double; reflexivity|].
  intros f b Hb. unfold fields in *. rewrite SZ, cut_conc, nth_error_map, Hb. cbn. eexists. split; [reflexivity|]. apply same_refl.
Qed.
Lemma conc_equiv t fn m g pi x x' : conc_make fits elements build t fn = Ok m -> ft_reps t <> [] -> In g elements ->
  (forall r, In r (ft_reps t) -> exists B, meq (rp_size r) (rp_size r) (mmul (rp_size r) (rp_mat r g) B) mid) ->
  typed gs_eqb rp_eqb t x -> typed gs_eqb rp_eqb t x' -> acts (ft_reps t) g pi (gt_data x) (gt_data x') ->
  exists y y', conc_forward gs_eqb rp_eqb m x = Ok y /\ conc_forward gs_eqb rp_eqb m x' = Ok y' /\
    gt_type y = cc_out m /\ gt_type y' = cc_out m /\ acts (ft_reps (cc_out m)) g pi (gt_data y) (gt_data y').
Proof.
  intros MK NE Hg INV TX TX' A. destruct (conc_fieldwise t fn m x MK TX) as (y & F & T & W). destruct (conc_fieldwise t fn m x' MK TX') as (y' & F' & T' & W').
  destruct (conc_make_spec t fn m MK) as (_ & _ & _ & SP).
  exists y, y'. split; [auto|]. split; [auto|]. split; [auto|]. split; [auto|]. eapply fieldwise_acts; [exact NE|apply TX|exact A|exact W|exact W'|].
  intros f r r' b b' Hr Hr' Hb Hb' M. cbn beta. destruct (SP f r r' Hr Hr') as [S1 S2]. destruct (S2 g Hg) as [S3 S4].
  destruct (INV r (nth_error_In _ _ Hr)) as [B HB]. pose proof (moved_conc _ _ _ (cc_fun m) _ _ (conc_signed _ _ _ S3 HB) M) as (M1 & M2 & M3).
  rewrite S1 in *. split; [auto|]. split; [auto|]. intros p a Ha. rewrite M3 by auto. apply rsum_ext. intros c Hc. rewrite S4 by auto. reflexivity.
Qed.
End C.

(** * Vector fields *)
Definition vec_pair (argmax : list R -> nat) (N : nat) (b : list chan) : list chan :=
  [(fun p => cos (INR (argmax (map (fun c : chan => c p) b)) * (2 * PI / INR N)) * relu (vmax b p));
   (fun p => sin (INR (argmax (map (fun c : chan => c p) b)) * (2 * PI / INR N)) * relu (vmax b p))].

Lemma vfield_fieldwise argmax order r1 t m x : vfield_make fits order (Some r1) t = Ok m -> rp_size r1 = 2%nat -> typed gs_eqb rp_eqb t x ->
  vf_in m = t /\ vf_out m = MkFT (ft_gs t) (repeat r1 (length (ft_reps t))) /\ (forall r, In r (ft_reps t) -> rp_size r = order) /\ (1 < order)%nat /\
  exists y, vfield_forward gs_eqb rp_eqb argmax m x = Ok y /\ gt_type y = vf_out m /\
    fieldwise (ft_reps t) (ft_reps (vf_out m)) (fun _ => vec_pair argmax order) (gt_data x) (gt_data y).
Proof.
  intros MK R1 [TY LX]. unfold vfield_make in MK. apply assert_ok in MK as [O1 MK]. apply assert_ok in MK as [O2 MK]. apply Nat.ltb_lt in O1. rewrite forallb_forall in O2.
  apply rbind_ok in MK as (out & H & MK). injection MK as <-. apply mk_ftype_ok in H as [-> _]. cbn [vf_in vf_out vf_n ft_reps]. split; [reflexivity|]. split; [reflexivity|].
  assert (SZ : forall r, In r (ft_reps t) -> rp_size r = order). { intros r Hr. specialize (O2 r Hr). apply andb_prop in O2 as [_ O2]. apply andb_prop in O2 as [_ O2]. apply Nat.eqb_eq in O2. auto. }
  split; [auto|]. split; [auto|]. set (n := length (ft_reps t)).
  assert (ER : map rp_size (ft_reps t) = repeat order n). { unfold n. clear -SZ. induction (ft_reps t) as [|r rs IH]; [reflexivity|]. cbn. f_equal; [apply SZ; cbn; auto|apply IH; intros; apply SZ; cbn; auto]. }
  assert (NS : forall s k, nsum (repeat s k) = (k * s)%nat). { intros s k. induction k as [|k IH]; [reflexivity|]. cbn [repeat]. change (nsum (s :: repeat s k)) with (s + nsum (repeat s k))%nat. lia. }
  assert (ER' : map rp_size (repeat r1 n) = repeat 2%nat n). { rewrite <- R1. clear. induction n; cbn; congruence. }
  assert (LX' : length (gt_data x) = (n * order)%nat) by (rewrite LX, ER; apply NS).
  unfold vfield_forward. cbn [vf_in vf_out vf_n]. rewrite TY. cbn [assert_]. rewrite view_blocks; [|lia|rewrite LX'; apply Nat.mod_mul; lia]. cbn [rbind].
  assert (LB : length (blocks order (gt_data x)) = n) by (rewrite blocks_len2, LX', Nat.div_mul; lia).
  unfold ft_chans. unfold ft_size. cbn [ft_reps]. rewrite ER', NS, LB.
  replace ((n * 2 + 1) / 2)%nat with n by (rewrite Nat.div_add_l, (Nat.div_small 1 2) by lia; lia). rewrite Nat.div_mul, Nat.eqb_refl by lia. cbn [andb].
  change (concat (map _ (blocks order (gt_data x)))) with (concat (map (vec_pair argmax order) (blocks order (gt_data x)))).
  assert (LC : length (concat (map (vec_pair argmax order) (blocks order (gt_data x)))) = (n * 2)%nat).
  { rewrite (concat_blocks_length 2), map_length, LB; auto. intros b Hb. apply in_map_iff in Hb as (? & <- & _). reflexivity. }
  rewrite mk_gt_fwd by (rewrite LC; unfold ft_size; cbn [ft_reps]; rewrite ER', NS; reflexivity).
  eexists. split; [reflexivity|]. split; [reflexivity|]. cbn [gt_data]. split; [rewrite repeat_length; auto|]. split; [rewrite LC, ER', NS; reflexivity|].
  intros f b Hb. unfold fields in *. rewrite ER in Hb. rewrite <- (blocks_cut order n) in Hb by (auto; lia).
  assert (EC : repeat 2%nat n = map (@length chan) (map (vec_pair argmax order) (blocks order (gt_data x)))).
  { rewrite map_map. cbn. rewrite <- LB. clear. induction (blocks order (gt_data x)); cbn; congruence. }
  rewrite ER', EC, cut_concat, nth_error_map, Hb. cbn. eexists. split; [reflexivity|]. apply same_refl.
Qed.
Lemma argmax_max argmax (b : list chan) p : argmax_ok argmax -> b <> [] -> let i := argmax (map (fun c : chan => c p) b) in (i < length b)%nat /\ is_max b p (val b i p) /\ val b i p = vmax b p.
Proof.
  intros A NE i. destruct (A (map (fun c : chan => c p) b)) as [A1 A2]; [destruct b; [congruence|discriminate]|]. fold i in A1, A2. rewrite map_length in A1, A2. split; [auto|].
  assert (V : forall j, (j < length b)%nat -> nth j (map (fun c : chan => c p) b) 0 = val b j p).
  { intros j Hj. exact (map_nth (fun c : chan => c p) b (fun _ => 0) j). }
  assert (M : is_max b p (val b i p)). { split; [eauto|]. intros j Hj. rewrite <- !V by auto. auto. }
  split; [auto|]. eapply is_max_unique; [exact M|apply vmax_spec; auto].
Qed.
Lemma shift_perm N k A : (k <= N)%nat -> is_shift N k A -> is_perm N A.
Proof.
  intros K H. exists (fun i => (i + (N - k)) mod N)%nat. split; [|exact H]. split; [intros i Hi; apply Nat.mod_upper_bound; lia|].
  intros i j Hi Hj E. pose proof (Nat.div_mod (i + (N - k)) N ltac:(lia)) as D1. pose proof (Nat.div_mod (j + (N - k)) N ltac:(lia)) as D2.
  set (q1 := ((i + (N - k)) / N)%nat) in *. set (q2 := ((j + (N - k)) / N)%nat) in *. rewrite E in D1. assert (q1 = q2); [|subst q2; lia]. nia.
Qed.
Lemma cos_turns a n : cos (a + 2 * INR n * PI) = cos a. Proof. apply cos_period. Qed.
Lemma sin_turns a n : sin (a + 2 * INR n * PI) = sin a. Proof. apply sin_period. Qed.
Lemma moved_vec argmax N k A M pi (b b' : list chan) : argmax_ok argmax -> (0 < N)%nat -> (k < N)%nat -> is_shift N k A -> is_rotation (INR k * (2 * PI / INR N)) M ->
  moved N A pi b b' -> (forall p, single_max b p \/ (forall i, (i < N)%nat -> val b i p <= 0)) -> moved 2 M pi (vec_pair argmax N b) (vec_pair argmax N b').
Proof.
  intros AM N0 K SH (R1 & R2 & R3 & R4) MV TI. pose proof (max_moved N A pi b b' N0 (shift_perm N k A ltac:(lia) SH) MV) as MX. pose proof MV as (L & L' & V).
  split; [reflexivity|]. split; [reflexivity|]. intros p.
  set (i0 := argmax (map (fun c : chan => c (pi p)) b)). set (i1 := argmax (map (fun c : chan => c p) b')). set (th := 2 * PI / INR N) in *. set (mm := relu (vmax b (pi p))).
  assert (NE : b <> []) by (intros ->; cbn in L; lia). assert (NE' : b' <> []) by (intros ->; cbn in L'; lia).
  destruct (argmax_max argmax b (pi p) AM NE) as (A1 & A2 & A3). fold i0 in A1, A2, A3. destruct (argmax_max argmax b' p AM NE') as (A1' & A2' & A3'). fold i1 in A1', A2', A3'.
  assert (KEY : mm = 0 \/ exists q, (i0 + k = i1 + q * N)%nat).
  { destruct (TI (pi p)) as [U|U].
    - right. set (j := ((i1 + (N - k)) mod N)%nat). assert (Hj : (j < N)%nat) by (apply Nat.mod_upper_bound; lia).
      assert (Ej : val b' i1 p = val b j (pi p)).
      { rewrite V by lia. rewrite (rsum_ext N _ (fun c => if (c =? j)%nat then val b c (pi p) else 0)).
        - apply (rsum_at' N j (fun c => val b c (pi p))). auto.
        - intros c Hc. rewrite SH by lia. fold j. destruct (c =? j)%nat; ring. }
      assert (j = i0) as Ei. { apply U; [lia|lia| |exact A2]. rewrite <- Ej, A3', MX, <- A3. exact A2. }
      rewrite <- Ei. unfold j. pose proof (Nat.div_mod (i1 + (N - k)) N ltac:(lia)) as D. rewrite L' in A1'.
      set (q := ((i1 + (N - k)) / N)%nat) in *. assert (q <= 1)%nat by nia. exists (1 - q)%nat. destruct q as [|[|q]]; lia.
    - left. unfold mm, relu. assert (vmax b (pi p) <= 0) by (rewrite <- A3; apply U; lia). unfold Rmax. destruct (Rle_dec 0 (vmax b (pi p))); lra. }
  assert (C : cos (INR i1 * th) * mm = cos (INR k * th) * (cos (INR i0 * th) * mm) - sin (INR k * th) * (sin (INR i0 * th) * mm) /\
              sin (INR i1 * th) * mm = sin (INR k * th) * (cos (INR i0 * th) * mm) + cos (INR k * th) * (sin (INR i0 * th) * mm)).
  { destruct KEY as [E|(q & Eq)]; [rewrite E; split; ring|].
    assert (AN : INR i0 * th + INR k * th = INR i1 * th + 2 * INR q * PI).
    { assert (INR i0 + INR k = INR i1 + INR q * INR N) by (rewrite <- mult_INR, <- !plus_INR; f_equal; auto).
      assert (INR N <> 0) by (apply not_0_INR; lia). unfold th. replace (INR i0 * (2 * PI / INR N) + INR k * (2 * PI / INR N)) with ((INR i0 + INR k) * (2 * PI / INR N)) by ring.
      rewrite H. field. auto. }
    rewrite <- (cos_turns (INR i1 * th) q), <- (sin_turns (INR i1 * th) q), <- AN, cos_plus, sin_plus. split; ring. }
  destruct C as [C1 C2]. intros a Ha. destruct a as [|[|a]]; [| |lia]; unfold vec_pair, val; cbn [nth rsum]; rewrite MX; fold i0 i1 th mm; rewrite ?R1, ?R2, ?R3, ?R4; [rewrite C1|rewrite C2]; ring.
Qed.
Lemma vfield_equiv argmax order r1 k t m g pi x x' : argmax_ok argmax -> vfield_make fits order (Some r1) t = Ok m -> rp_size r1 = 2%nat -> ft_reps t <> [] ->
  (k < order)%nat -> (forall r, In r (ft_reps t) -> is_shift order k (rp_mat r g)) -> is_rotation (INR k * (2 * PI / INR order)) (rp_mat r1 g) ->
  typed gs_eqb rp_eqb t x -> typed gs_eqb rp_eqb t x' -> acts (ft_reps t) g pi (gt_data x) (gt_data x') ->
  (forall b p, In b (fields (ft_reps t) (gt_data x)) -> single_max b p \/ (forall i, (i < order)%nat -> val b i p <= 0)) ->
  exists y y', vfield_forward gs_eqb rp_eqb argmax m x = Ok y /\ vfield_forward gs_eqb rp_eqb argmax m x' = Ok y' /\
    gt_type y = vf_out m /\ gt_type y' = vf_out m /\ acts (ft_reps (vf_out m)) g pi (gt_data y) (gt_data y').
Proof.
  intros AM MK R1 NE K SH RO TX TX' A TI. destruct (vfield_fieldwise argmax order r1 t m x MK R1 TX) as (E1 & E2 & SZ & O1 & y & F & T & W).
  destruct (vfield_fieldwise argmax order r1 t m x' MK R1 TX') as (_ & _ & _ & _ & y' & F' & T' & W').
  exists y, y'. split; [auto|]. split; [auto|]. split; [auto|]. split; [auto|]. eapply fieldwise_acts; [exact NE|apply TX|exact A|exact W|exact W'|].
  intros f r r' b b' Hr Hr' Hb Hb' M. cbn beta. rewrite E2 in Hr'. cbn [ft_reps] in Hr'. apply nth_error_In, repeat_spec in Hr'. subst r'. rewrite R1.
  apply nth_error_In in Hr. rewrite (SZ r Hr) in M. apply (moved_vec argmax order k (rp_mat r g)); auto; [lia|]. intros p. apply TI. eapply nth_error_In; eauto.
Qed.
End Modules.
